(** A chain that moves either values or a noise level: what it keeps. *)
From Coquelicot Require Import Coquelicot.
From Verif Require Import Base SpecWalk SpecInvariance SpecSites SpecHier ProofFubini ProofBox ProofInvariance ProofSites.
Local Open Scope R_scope.

Section Joint.
Context (lo hi : R) (Hlo : lo < hi) (n : nat) (sd T : R) (Hsd : 0 < sd) (HT : 0 < T).
Context (a b tau : R) (Hab : a < b) (Htau : 0 < tau) (p : R).
Context (F phi : R -> R) (HF : normal_cdf F) (Hphi : forall z, derivable_pt_lim F z (phi z)).
Notation box := (in_box lo hi).
Notation ucont := (cont_on lo hi).
Notation inside x := (lo <= x <= hi).

(** The noise level as a number between [lo] and [hi]. *)
Definition rate : R := (hi - lo) / (b - a).
Definition la (s : R) : R := rate * s + (lo - rate * a).
Definition al (x : R) : R := a + (x - lo) / rate.
Lemma rate_pos : 0 < rate.
Proof. unfold rate. apply Rdiv_lt_0_compat; lra. Qed.
Lemma al_la s : al (la s) = s.
Proof. unfold al, la. pose proof rate_pos. field. lra. Qed.
Lemma la_al x : la (al x) = x.
Proof. unfold al, la. pose proof rate_pos. field. lra. Qed.
Lemma la_a : la a = lo.
Proof. unfold la. lra. Qed.
Lemma la_b : la b = hi.
Proof. unfold la, rate. field. lra. Qed.
Lemma la_inside s : a <= s <= b -> inside (la s).
Proof. intros H. rewrite <- la_a at 1. rewrite <- la_b. unfold la. pose proof rate_pos. split; nra. Qed.
Lemma al_inside x : inside x -> a <= al x <= b.
Proof.
  intros H. pose proof rate_pos as Hr. rewrite <- (la_al x), <- la_a, <- la_b in H. unfold la in H. split; nra.
Qed.
Definition lifted (f : R -> list R -> R) (l : list R) : R := f (al (hd 0 l)) (tl l).
Lemma lifted_cont f : joint_cont a b lo hi n f -> ucont (S n) (lifted f).
Proof.
  intros H eps He. destruct (H eps He) as (d & Hd & Hf). pose proof rate_pos as Hr.
  exists (Rmin d (d * rate)). split; [apply Rmin_pos; auto; now apply Rmult_lt_0_compat|].
  intros [|x xs] [|y ys] Hx Hy Hn; try (now destruct Hx); try (now destruct Hy).
  apply box_cons in Hx, Hy. destruct Hx as [Hx Hxs], Hy as [Hy Hys]. inversion Hn; subst. unfold lifted. cbn [hd tl].
  apply Hf; auto; try now apply al_inside.
  - unfold al. replace (a + (x - lo) / rate - (a + (y - lo) / rate)) with ((x - y) / rate) by (field; lra).
    unfold Rdiv. rewrite Rabs_mult, (Rabs_pos_eq (/ rate)) by (apply Rlt_le; now apply Rinv_0_lt_compat).
    apply Rmult_lt_reg_r with rate; auto. rewrite Rmult_assoc, Rinv_l by lra. rewrite Rmult_1_r.
    eapply Rlt_le_trans; [exact H3|apply Rmin_r].
  - eapply near_mono; [apply Rmin_l|exact H5].
Qed.
Lemma joint_of H : ucont (S n) H ->
  joint_integral a b lo hi n (fun s xs => H (la s :: xs)) (/ rate * box_int lo hi (S n) H).
Proof.
  intros HH. exists (fun s => box_int lo hi n (fun xs => H (la s :: xs))). split.
  - intros s Hs. apply box_int_is; auto. apply (ucont_cons lo hi n H); auto. now apply la_inside.
  - pose proof rate_pos as Hr.
    assert (I : is_RInt (fun x => box_int lo hi n (fun xs => H (x :: xs))) lo hi (box_int lo hi (S n) H)).
    { cbn [box_int]. apply @RInt_correct. apply uc1_int; auto. now apply box_int_uc1. }
    rewrite <- la_a, <- la_b in I at 1. unfold la in I. apply (is_RInt_comp_lin (V := R_NormedModule)) in I.
    apply (is_RInt_scal (V := R_NormedModule)) with (k := / rate) in I.
    refine (eq_ind _ (fun v => is_RInt _ a b v) (is_RInt_ext _ _ a b _ _ I) _ _).
    + intros s _. unfold scal. cbn. unfold mult. cbn. change (rate * s + (lo - rate * a)) with (la s). field. lra.
    + unfold scal. cbn. unfold mult. cbn. unfold la. f_equal.
Qed.

Context (Lj : R -> list R -> R) (HLj : joint_cont a b lo hi n Lj).
Notation L' := (lifted Lj).
Definition tau' : R := tau * rate.
Lemma tau'_pos : 0 < tau'.
Proof. unfold tau'. apply Rmult_lt_0_compat; auto. apply rate_pos. Qed.
Notation h := (hit F lo hi tau').
Lemma hit_la s : hit F lo hi tau' (la s) = hit F a b tau s.
Proof.
  unfold hit, tau'. pose proof rate_pos as Hr.
  replace ((hi - la s) / (tau * rate)) with ((b - s) / tau) by (rewrite <- la_b at 1; unfold la; field; lra).
  replace ((lo - la s) / (tau * rate)) with ((a - s) / tau) by (rewrite <- la_a at 1; unfold la; field; lra). reflexivity.
Qed.

(** * One step *)
Definition value_part (G : list R -> R) (l : list R) : R :=
  rsum (map (fun i => after_i lo hi sd T phi L' G (S i) l) (seq 0 n)) / INR n.
Definition noise_part (G : list R -> R) (l : list R) : R := wafter_i lo hi tau' T F phi L' G 0 l.
Definition jafter (G : list R -> R) (l : list R) : R := p * value_part G l + (1 - p) * noise_part G l.
Definition jdens (l : list R) : R := exp (L' l / T) * h (hd 0 l).

Lemma HL' : ucont (S n) L'.
Proof. now apply lifted_cont. Qed.
Lemma hd_nth (l : list R) : hd 0 l = nth 0 l 0.
Proof. now destruct l. Qed.
Lemma ucont_head_hit : ucont (S n) (fun l => h (hd 0 l)).
Proof.
  apply (ucont_ext lo hi (S n) (fun l => h (nth 0 l 0))); [intros; now rewrite hd_nth|].
  apply (ucont_comp lo hi Hlo (S n) h); [|apply ucont_nth]. intros x.
  apply (hit_cont lo hi tau' tau'_pos F phi Hphi).
Qed.
Lemma ucont_jdens : ucont (S n) jdens.
Proof. unfold jdens. apply ucont_mult; auto; [apply (ucont_dens lo hi Hlo (S n) T L' HL')|apply ucont_head_hit]. Qed.
Lemma ucont_value G : ucont (S n) G -> ucont (S n) (value_part G).
Proof.
  intros HG. unfold value_part.
  apply (ucont_ext lo hi (S n) (fun l => / INR n * rsum (map (fun i => after_i lo hi sd T phi L' G (S i) l) (seq 0 n)))); [intros; unfold Rdiv; lra|].
  apply ucont_scal; auto. apply (ucont_sum lo hi (S n) (seq 0 n) (fun i => after_i lo hi sd T phi L' G (S i))).
  intros i Hi. apply in_seq in Hi.
  apply (ucont_after_i lo hi Hlo (S n) sd T F phi HF Hphi L' HL' G (S i)); auto. lia.
Qed.
Lemma ucont_noise G : ucont (S n) G -> ucont (S n) (noise_part G).
Proof.
  intros HG. apply (ucont_wafter_i lo hi Hlo (S n) tau' T tau'_pos F phi HF Hphi L' HL' G 0); auto. lia.
Qed.
Lemma ucont_jafter G : ucont (S n) G -> ucont (S n) (jafter G).
Proof.
  intros HG. unfold jafter. apply ucont_plus; auto; apply ucont_scal; auto; [now apply ucont_value|now apply ucont_noise].
Qed.

(** * Balance *)
Lemma value_balance G i : (i < n)%nat -> ucont (S n) G ->
  box_int lo hi (S n) (fun l => jdens l * after_i lo hi sd T phi L' G (S i) l) = box_int lo hi (S n) (fun l => jdens l * G l).
Proof.
  intros Hi HG. unfold after_i.
  assert (Hd : ucont (S n) (dens T L')) by (apply (ucont_dens lo hi Hlo (S n) T L' HL')).
  apply (exchange_balance lo hi Hlo (S n) jdens
    (fun l => q sd phi (nth (S i) (tl l) 0) (hd 0 l) * h (hd 0 (tl l)) * Rmin (dens T L' (tl l)) (dens T L' (set_nth (tl l) (S i) (hd 0 l))))
    (flux sd T phi L' G (S i)) G (S i)); auto; try lia.
  - apply ucont_jdens.
  - apply ucont_mult; auto; [apply ucont_mult; auto; [apply (ucont_q lo hi Hlo (S n) sd F phi HF Hphi (S i)); lia|]|].
    + apply (ucont_tl lo hi (S n) (fun l => h (hd 0 l))). apply ucont_head_hit.
    + apply ucont_min; auto; [now apply ucont_tl|apply ucont_setm; auto; lia].
  - intros l Hl. cbn [hd tl]. set (xs := tl l) in *. set (y := hd 0 l). set (x := nth (S i) xs 0).
    rewrite nth_set, set_nth_set by auto. unfold x. rewrite set_nth_nth by auto. fold x.
    rewrite (Rmin_comm (dens T L' (set_nth xs (S i) y))). f_equal.
    rewrite (q_sym sd Hsd F phi HF Hphi y x). f_equal. f_equal. destruct xs as [|x0 xs']; [cbn in Hl; lia|reflexivity].
  - intros xs y Hx. cbn [hd tl]. rewrite <- (dens_acc T HT L'). unfold flux, jdens, dens. ring.
  - intros xs Hx. apply (uc1_ex lo hi Hlo (S n) (fun l => flux sd T phi L' G (S i) (tl l) (hd 0 l))); auto.
    apply (ucont_flux lo hi Hlo (S n) sd T F phi HF Hphi L' HL'); auto. lia.
Qed.
Lemma noise_balance G : ucont (S n) G ->
  box_int lo hi (S n) (fun l => jdens l * noise_part G l) = box_int lo hi (S n) (fun l => jdens l * G l).
Proof.
  intros HG. unfold noise_part, wafter_i.
  assert (Hd : ucont (S n) (dens T L')) by (apply (ucont_dens lo hi Hlo (S n) T L' HL')).
  apply (exchange_balance lo hi Hlo (S n) jdens
    (fun l => q tau' phi (nth 0 (tl l) 0) (hd 0 l) * Rmin (dens T L' (tl l)) (dens T L' (set_nth (tl l) 0 (hd 0 l))))
    (wflux lo hi tau' T F phi L' G 0) G 0); auto; try lia.
  - apply ucont_jdens.
  - apply ucont_mult; auto; [apply (ucont_q lo hi Hlo (S n) tau' F phi HF Hphi 0); lia|].
    apply ucont_min; auto; [now apply ucont_tl|apply ucont_setm; auto; lia].
  - intros l Hl. cbn [hd tl]. set (xs := tl l) in *. set (y := hd 0 l). set (x := nth 0 xs 0).
    rewrite nth_set, set_nth_set by auto. unfold x. rewrite set_nth_nth by auto. fold x.
    rewrite (Rmin_comm (dens T L' (set_nth xs 0 y))). f_equal. apply (q_sym tau' tau'_pos F phi HF Hphi).
  - intros xs y Hx. cbn [hd tl]. rewrite <- (dens_acc T HT L'). unfold wflux, jdens, dens, wq. rewrite hd_nth.
    pose proof (hit_pos lo hi Hlo tau' tau'_pos F HF (nth 0 xs 0)). field. lra.
  - intros xs Hx. apply (uc1_ex lo hi Hlo (S n) (fun l => wflux lo hi tau' T F phi L' G 0 (tl l) (hd 0 l))); auto.
    apply (ucont_wflux lo hi Hlo (S n) tau' T tau'_pos F phi HF Hphi L' HL'); auto. lia.
Qed.
Lemma jbalance G : (0 < n)%nat -> ucont (S n) G ->
  box_int lo hi (S n) (fun l => jdens l * jafter G l) = box_int lo hi (S n) (fun l => jdens l * G l).
Proof.
  intros Hn HG. assert (HN : 0 < INR n) by (apply lt_0_INR; lia). set (v := box_int lo hi (S n) (fun l => jdens l * G l)).
  assert (Hc : forall i, In i (seq 0 n) -> ucont (S n) (fun l => jdens l * after_i lo hi sd T phi L' G (S i) l)).
  { intros i Hi. apply in_seq in Hi. apply ucont_mult; auto; [apply ucont_jdens|].
    apply (ucont_after_i lo hi Hlo (S n) sd T F phi HF Hphi L' HL' G (S i)); auto. lia. }
  assert (V : box_int lo hi (S n) (fun l => jdens l * value_part G l) = v).
  { transitivity (box_int lo hi (S n) (fun l => / INR n * rsum (map (fun i => jdens l * after_i lo hi sd T phi L' G (S i) l) (seq 0 n)))).
    { apply box_int_ext; auto. intros l _. unfold value_part. rewrite <- rsum_mult. unfold Rdiv. lra. }
    rewrite (box_int_scal lo hi Hlo (S n) (/ INR n) (fun l => rsum (map (fun i => jdens l * after_i lo hi sd T phi L' G (S i) l) (seq 0 n)))) by now apply ucont_sum.
    rewrite (box_int_sum lo hi Hlo (S n) (seq 0 n) (fun i l => jdens l * after_i lo hi sd T phi L' G (S i) l)) by auto.
    rewrite (map_ext_in _ (fun _ => v)).
    - rewrite rsum_const, seq_length. field. lra.
    - intros i Hi. apply in_seq in Hi. apply value_balance; auto. lia. }
  pose proof (noise_balance G HG) as N. fold v in N.
  assert (CV : ucont (S n) (fun l => jdens l * value_part G l)) by (apply ucont_mult; auto; [apply ucont_jdens|now apply ucont_value]).
  assert (CN : ucont (S n) (fun l => jdens l * noise_part G l)) by (apply ucont_mult; auto; [apply ucont_jdens|now apply ucont_noise]).
  transitivity (box_int lo hi (S n) (fun l => p * (jdens l * value_part G l) + (1 - p) * (jdens l * noise_part G l))).
  { apply box_int_ext; auto. intros l _. unfold jafter. ring. }
  rewrite (box_int_plus lo hi Hlo (S n) (fun l => p * (jdens l * value_part G l)) (fun l => (1 - p) * (jdens l * noise_part G l))) by (apply ucont_scal; auto).
  rewrite (box_int_scal lo hi Hlo (S n) p (fun l => jdens l * value_part G l)) by auto.
  rewrite (box_int_scal lo hi Hlo (S n) (1 - p) (fun l => jdens l * noise_part G l)) by auto.
  rewrite V, N. ring.
Qed.

(** * Means over the draws *)
Lemma Lj_slice s : a <= s <= b -> ucont n (Lj s).
Proof.
  intros Hs eps He. destruct (HLj eps He) as (d & Hd & H). exists d. split; auto. intros xs ys Hx Hy Hn. apply H; auto.
  replace (s - s) with 0 by lra. now rewrite Rabs_R0.
Qed.
Lemma value_mean G s xs : a <= s <= b -> ucont (S n) G -> box n xs ->
  mean_draws phi n (fun i z u => G (la s :: step lo hi sd T (Lj s) xs i z u)) (value_part G (la s :: xs)).
Proof.
  intros Hs HG Hx.
  assert (HG' : ucont n (fun xs => G (la s :: xs))) by (apply ucont_cons; auto; now apply la_inside).
  pose proof (mean_draws_step lo hi Hlo n sd T Hsd F phi HF Hphi (Lj s) (Lj_slice s Hs) (fun xs => G (la s :: xs)) xs HG' Hx) as M.
  replace (value_part G (la s :: xs)) with (ProofInvariance.after lo hi n sd T phi (Lj s) (fun xs => G (la s :: xs)) xs); [exact M|].
  unfold ProofInvariance.after, value_part. f_equal. f_equal. apply map_ext. intros i. unfold after_i. f_equal.
  apply RInt_ext. intros y _. unfold flux, acc, lifted. cbn [nth set_nth hd tl]. rewrite !set_nth_cons. cbn [hd tl]. now rewrite !al_la.
Qed.
Lemma noise_mean G w s xs : a <= s <= b -> ucont (S n) G -> box n xs ->
  (forall x y, a <= x <= b -> a < y < b -> wq a b tau F phi x y = w x y) ->
  mean_moves w a b 1 [s] (fun _ y u => G (la (if Rlt_dec (ln u) ((Lj y xs - Lj s xs) / T) then y else s) :: xs)) (noise_part G (la s :: xs)).
Proof.
  intros Hs HG Hx Hw. pose proof rate_pos as Hr.
  set (L1 := fun l => Lj (hd 0 l) xs). set (G1 := fun l => G (la (hd 0 l) :: xs)).
  assert (C1 : cont_on a b 1 L1).
  { intros eps He. destruct (HLj eps He) as (d & Hd & H). exists d. split; auto.
    intros [|x l] [|y l'] Hx' Hy' Hn'; try (now destruct Hx'); try (now destruct Hy').
    apply box_cons in Hx', Hy'. inversion Hn'; subst. unfold L1. cbn [hd]. apply H; auto; try tauto. now apply near_refl. }
  assert (CG : cont_on a b 1 G1).
  { intros eps He. destruct (HG eps He) as (d & Hd & H). exists (Rmin d (d / rate)). split; [apply Rmin_pos; auto; now apply Rdiv_lt_0_compat|].
    intros [|x l] [|y l'] Hx' Hy' Hn'; try (now destruct Hx'); try (now destruct Hy').
    apply box_cons in Hx', Hy'. inversion Hn'; subst. unfold G1. cbn [hd]. apply H; try (apply box_cons; split; auto; apply la_inside; tauto).
    constructor; [|now apply near_refl]. unfold la.
    replace (rate * x + (lo - rate * a) - (rate * y + (lo - rate * a))) with (rate * (x - y)) by ring.
    rewrite Rabs_mult, (Rabs_pos_eq rate) by lra. apply Rmult_lt_reg_r with (/ rate); [now apply Rinv_0_lt_compat|].
    replace (rate * Rabs (x - y) * / rate) with (Rabs (x - y)) by (field; lra).
    eapply Rlt_le_trans; [exact H3|apply Rmin_r]. }
  assert (Bs : in_box a b 1 [s]) by (split; [reflexivity|constructor; [exact Hs|constructor]]).
  assert (E : wafter_i a b tau T F phi L1 G1 0 [s] = noise_part G (la s :: xs)).
  { unfold noise_part, wafter_i. f_equal.
    assert (X : ex_RInt (wflux lo hi tau' T F phi L' G 0 (la s :: xs)) (rate * a + (lo - rate * a)) (rate * b + (lo - rate * a))).
    { change (rate * a + (lo - rate * a)) with (la a). change (rate * b + (lo - rate * a)) with (la b). rewrite la_a, la_b.
      apply (uc1_ex lo hi Hlo (S n) (fun l => wflux lo hi tau' T F phi L' G 0 (tl l) (hd 0 l)) (la s :: xs)).
      - apply (ucont_wflux lo hi Hlo (S n) tau' T tau'_pos F phi HF Hphi L' HL'); auto. lia.
      - apply box_cons. split; auto. now apply la_inside. }
    pose proof (RInt_comp_lin (V := R_CompleteNormedModule) _ rate (lo - rate * a) a b X) as Q.
    change (rate * a + (lo - rate * a)) with (la a) in Q. change (rate * b + (lo - rate * a)) with (la b) in Q. rewrite la_a, la_b in Q.
    etransitivity; [|exact Q]. apply RInt_ext. intros y _. unfold scal. cbn. unfold mult. cbn.
    change (rate * y + (lo - rate * a)) with (la y).
    unfold wflux, acc, lifted, L1, G1. cbn [nth set_nth firstn skipn app hd tl]. rewrite !al_la.
    assert (W : wq a b tau F phi s y = rate * wq lo hi tau' F phi (la s) (la y)).
    { unfold wq. rewrite hit_la. unfold q. pose proof (hit_pos a b Hab tau Htau F HF s).
      replace ((la y - la s) / tau') with ((y - s) / tau) by (unfold la, tau'; field; lra). unfold tau'. field. lra. }
    rewrite W. ring. }
  rewrite <- E.
  exists (fun _ y => wmean T L1 G1 [s] 0 y), (fun _ => wafter_i a b tau T F phi L1 G1 0 [s]). split; [|split].
  - intros i y _ Hy. pose proof (wmean_unit T L1 G1 [s] [y]) as U. unfold mean_unit in *.
    refine (is_RInt_ext _ _ 0 1 _ _ U). intros u _. unfold L1, G1. cbn [hd]. destruct (Rlt_dec _ _); reflexivity.
  - intros i Hi. assert (i = 0)%nat by lia. subst i. cbn [nth].
    apply (is_RInt_ext (fun y => wq a b tau F phi s y * wmean T L1 G1 [s] 0 y)).
    { intros y Hy. rewrite Rmin_left, Rmax_right in Hy by lra. now rewrite Hw. }
    exact (wmean_int a b Hab 1 tau T Htau F phi HF Hphi L1 C1 G1 [s] 0 ltac:(lia) CG Bs).
  - cbn. field.
Qed.
End Joint.
