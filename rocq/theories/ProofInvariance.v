(** A Metropolis step on a box leaves the density exp(L/T) invariant. *)
From Coquelicot Require Import Coquelicot.
From Verif Require Import Base SpecWalk SpecInvariance ProofFubini ProofBox.
From Verif Require PropWalk.
Local Open Scope R_scope.

Section Metropolis.
Context (lo hi : R) (Hlo : lo < hi) (n : nat) (sd T : R) (Hsd : 0 < sd) (HT : 0 < T).
Context (F phi : R -> R) (HF : normal_cdf F) (Hphi : forall z, derivable_pt_lim F z (phi z)).
Context (L : list R -> R) (HL : cont_on lo hi n L).
Notation box := (in_box lo hi).
Notation ucont := (cont_on lo hi).
Notation inside x := (lo <= x <= hi).

Lemma phi_bell : exists c, 0 < c /\ forall z, phi z = c * bell z.
Proof.
  destruct (nc_density F HF) as (c & Hc & H). exists c. split; auto. intros z. eapply uniqueness_limite; eauto.
Qed.
Lemma phi_even z : phi (- z) = phi z.
Proof. destruct phi_bell as (c & _ & H). rewrite !H. unfold bell. do 3 f_equal. lra. Qed.
Lemma bell_cont x : continuity_pt bell x.
Proof.
  unfold bell. apply derivable_continuous_pt. apply (derivable_pt_comp (fun u => - (u * u) / 2) exp); [|apply derivable_pt_exp].
  apply derivable_pt_mult; [apply derivable_pt_opp; apply derivable_pt_mult; apply derivable_pt_id|].
  exists 0. apply derivable_pt_lim_const.
Qed.
Lemma phi_cont x : continuity_pt phi x.
Proof.
  destruct phi_bell as (c & _ & H). intros eps He.
  destruct (continuity_pt_mult (fun _ => c) bell x) with (eps := eps) as (d & Hd & Hx); auto.
  - apply continuity_pt_const. intros a b. reflexivity.
  - apply bell_cont.
  - exists d. split; auto. intros y Hy. rewrite !H. now apply Hx.
Qed.
Lemma phi_int a b : is_RInt phi a b (F b - F a).
Proof.
  apply (is_RInt_derive F phi).
  - intros. apply is_derive_Reals. apply Hphi.
  - intros. apply continuity_pt_filterlim. apply phi_cont.
Qed.
Lemma mass_one : is_lim (fun t => F t - F (- t)) p_infty 1.
Proof.
  assert (Hi : forall u v, u <= v -> F u <= F v).
  { intros u v [H| ->]; [|lra]. apply Rlt_le. destruct (nc_density F HF) as (c & Hc & Hd). eapply PropWalk.cdf_increasing; eauto. }
  apply is_lim_spec. intros [eps He]. cbn.
  destruct (nc_low F HF (eps / 2) ltac:(lra)) as (a & Ha), (nc_high F HF (eps / 2) ltac:(lra)) as (b & Hb).
  exists (Rmax (Rabs a) (Rabs b)). intros t Ht.
  assert (Hta : - t <= a). { pose proof (Rmax_l (Rabs a) (Rabs b)). pose proof (Rle_abs (- a)). rewrite Rabs_Ropp in *. lra. }
  assert (Htb : b <= t). { pose proof (Rmax_r (Rabs a) (Rabs b)). pose proof (Rle_abs b). lra. }
  apply Hi in Hta, Htb. pose proof (nc_range F HF t). pose proof (nc_range F HF (- t)).
  rewrite Rabs_left1; lra.
Qed.

(** One iteration with the index [i], the deviate [z] and the uniform number [u]. *)
Definition step (xs : list R) (i : nat) (z u : R) : list R :=
  let y := nth i xs 0 + z * sd in
  let ys := set_nth xs i y in
  if Rle_dec lo y then if Rle_dec y hi then if Rlt_dec (ln u) ((L ys - L xs) / T) then ys else xs else xs else xs.
Definition acc (xs ys : list R) : R := Rmin 1 (exp ((L ys - L xs) / T)).
Definition q (x y : R) : R := phi ((y - x) / sd) / sd.
Definition dens (xs : list R) : R := exp (L xs / T).
(** Contribution of the proposals at [y]. *)
Definition flux (g : list R -> R) (i : nat) (xs : list R) (y : R) : R :=
  q (nth i xs 0) y * acc xs (set_nth xs i y) * (g (set_nth xs i y) - g xs).
Definition after_i (g : list R -> R) (i : nat) (xs : list R) : R := g xs + RInt (flux g i xs) lo hi.
Definition after (g : list R -> R) (xs : list R) : R := rsum (map (fun i => after_i g i xs) (seq 0 n)) / INR n.

Lemma acc_range xs ys : 0 < acc xs ys <= 1.
Proof. unfold acc. split; [apply Rmin_pos; [lra|apply exp_pos]|apply Rmin_l]. Qed.
Lemma ln_acc u xs ys : 0 < u < 1 -> (ln u < (L ys - L xs) / T <-> u < acc xs ys).
Proof.
  intros Hu. unfold acc. split; intros H.
  - apply Rmin_glb_lt; [lra|]. rewrite <- (exp_ln u) by lra. now apply exp_increasing.
  - assert (u < exp ((L ys - L xs) / T)) by (eapply Rlt_le_trans; [exact H|apply Rmin_r]).
    rewrite <- (ln_exp ((L ys - L xs) / T)). apply ln_increasing; lra.
Qed.
Definition mean_u (g : list R -> R) (xs : list R) (i : nat) (z : R) : R :=
  let y := nth i xs 0 + z * sd in
  let ys := set_nth xs i y in
  if Rle_dec lo y then if Rle_dec y hi then g xs + acc xs ys * (g ys - g xs) else g xs else g xs.
Lemma const_int (c a b : R) : is_RInt (fun _ => c) a b ((b - a) * c).
Proof. apply (is_RInt_const (V := R_NormedModule)). Qed.
Lemma mean_unit_step g xs i z : mean_unit (fun u => g (step xs i z u)) (mean_u g xs i z).
Proof.
  unfold mean_unit, mean_u, step. cbv zeta. set (y := nth i xs 0 + z * sd). set (ys := set_nth xs i y).
  assert (D : is_RInt (fun _ : R => g xs) 0 1 (g xs)). { pose proof (const_int (g xs) 0 1) as D. now replace ((1 - 0) * g xs) with (g xs) in D by lra. }
  destruct (Rle_dec lo y) as [H1|H1]; [|exact D]. destruct (Rle_dec y hi) as [H2|H2]; [|exact D].
  pose proof (acc_range xs ys) as Ha. set (a := acc xs ys) in *.
  replace (g xs + a * (g ys - g xs)) with (plus ((a - 0) * g ys) ((1 - a) * g xs)) by (unfold plus; cbn; ring).
  apply (is_RInt_Chasles (V := R_NormedModule)) with a.
  - apply (is_RInt_ext (fun _ => g ys)); [|apply const_int]. intros u Hu. rewrite Rmin_left, Rmax_right in Hu by lra.
    destruct (Rlt_dec _ _) as [|Hn]; auto. exfalso. apply Hn. apply ln_acc; unfold a in *; lra.
  - apply (is_RInt_ext (fun _ => g xs)); [|apply const_int]. intros u Hu. rewrite Rmin_left, Rmax_right in Hu by lra.
    destruct (Rlt_dec _ _) as [Hn|]; auto. apply ln_acc in Hn; unfold a in *; lra.
Qed.

(** Continuity of the flux in all numbers, the proposal first. *)
Lemma ucont_tl m f : ucont m f -> ucont (S m) (fun l => f (tl l)).
Proof.
  apply ucont_map.
  - intros [|x xs] H; [now destruct H|]. now apply box_cons in H.
  - intros d [|x xs] [|y ys] Hd _ _ H; inversion H; subst; cbn; auto.
Qed.
Lemma ucont_setm m f i : (i < m)%nat -> ucont m f -> ucont (S m) (fun l => f (set_nth (tl l) i (hd 0 l))).
Proof.
  intros Hi. apply ucont_map.
  - intros [|x xs] H; [now destruct H|]. apply box_cons in H. cbn. apply box_set; tauto.
  - intros d [|x xs] [|y ys] Hd Hb _ H; inversion H; subst; cbn; [now destruct Hb|].
    apply near_set; auto. destruct Hb as [Hb _]. cbn in Hb. lia.
Qed.
Lemma ucont_q i : (i < n)%nat -> ucont (S n) (fun l => q (nth i (tl l) 0) (hd 0 l)).
Proof.
  intros Hi. unfold q.
  apply (ucont_ext lo hi (S n) (fun l => / sd * phi (/ sd * (nth 0 l 0 - nth (S i) l 0)))).
  { intros [|x xs] _; cbn; unfold Rdiv; rewrite ?(Rmult_comm (/ sd)); [|reflexivity]. destruct i; reflexivity. }
  apply ucont_scal; auto. apply (ucont_comp lo hi Hlo (S n) phi); [apply phi_cont|]. apply ucont_scal; auto.
  apply ucont_minus; auto; apply ucont_nth.
Qed.
Lemma ucont_acc i : (i < n)%nat -> ucont (S n) (fun l => acc (tl l) (set_nth (tl l) i (hd 0 l))).
Proof.
  intros Hi. unfold acc. apply ucont_min; auto; [apply ucont_const|].
  apply (ucont_comp lo hi Hlo (S n) exp). { intros. apply derivable_continuous_pt. apply derivable_pt_exp. }
  apply (ucont_ext lo hi (S n) (fun l => / T * (L (set_nth (tl l) i (hd 0 l)) - L (tl l)))); [intros; unfold Rdiv; lra|].
  apply ucont_scal; auto. apply ucont_minus; auto; [now apply ucont_setm|now apply ucont_tl].
Qed.
Lemma ucont_flux g i : (i < n)%nat -> ucont n g -> ucont (S n) (fun l => flux g i (tl l) (hd 0 l)).
Proof.
  intros Hi Hg. unfold flux. apply ucont_mult; auto; [apply ucont_mult; auto; [now apply ucont_q|now apply ucont_acc]|].
  apply ucont_minus; auto; [now apply ucont_setm|now apply ucont_tl].
Qed.
Lemma ucont_after_i g i : (i < n)%nat -> ucont n g -> ucont n (after_i g i).
Proof.
  intros Hi Hg. unfold after_i. apply ucont_plus; auto.
  apply (ucont_int lo hi Hlo n (fun l => flux g i (tl l) (hd 0 l))). now apply ucont_flux.
Qed.
Lemma ucont_after g : ucont n g -> ucont n (after g).
Proof.
  intros Hg. unfold after.
  apply (ucont_ext lo hi n (fun xs => / INR n * rsum (map (fun i => after_i g i xs) (seq 0 n)))); [intros; unfold Rdiv; lra|].
  apply ucont_scal; auto. apply ucont_sum; auto. intros i Hi. apply in_seq in Hi. apply ucont_after_i; auto. lia.
Qed.

(** The mean over the deviate. *)
Lemma mean_deviate_step g xs i : (i < n)%nat -> ucont n g -> box n xs ->
  mean_deviate phi (mean_u g xs i) (after_i g i xs).
Proof.
  intros Hi Hg Hx. set (x := nth i xs 0). assert (Hxi : inside x) by now apply box_nth with n.
  set (a := (lo - x) / sd). set (b := (hi - x) / sd).
  assert (Ha : sd * a + x = lo) by (unfold a; field; lra). assert (Hb : sd * b + x = hi) by (unfold b; field; lra).
  assert (Hab : a <= 0 <= b). { split; [assert (sd * a <= 0) by lra|assert (0 <= sd * b) by lra]; nra. }
  assert (Hab' : a < b). { assert (sd * a < sd * b) by lra. nra. }
  assert (I : is_RInt (fun z => phi z * (mean_u g xs i z - g xs)) a b (RInt (flux g i xs) lo hi)).
  { assert (Hf : is_RInt (flux g i xs) lo hi (RInt (flux g i xs) lo hi)).
    { apply @RInt_correct. apply (uc1_ex lo hi Hlo n (fun l => flux g i (tl l) (hd 0 l))); auto. now apply ucont_flux. }
    rewrite <- Ha, <- Hb in Hf at 1. apply (is_RInt_comp_lin (V := R_NormedModule)) in Hf.
    eapply is_RInt_ext; [|exact Hf]. intros z Hz. rewrite Rmin_left, Rmax_right in Hz by lra.
    unfold scal. cbn. unfold mult. cbn. unfold flux, mean_u, q. cbv zeta. fold x.
    replace (x + z * sd) with (sd * z + x) by lra.
    assert (lo <= sd * z + x) by nra. assert (sd * z + x <= hi) by nra.
    destruct (Rle_dec lo _); [|contradiction]. destruct (Rle_dec _ hi); [|contradiction].
    replace ((sd * z + x - x) / sd) with z by (field; lra). field. lra. }
  assert (O : forall c d, (d <= a \/ b <= c) -> c <= d -> is_RInt (fun z => phi z * (mean_u g xs i z - g xs)) c d 0).
  { intros c d Ho Hcd. apply (is_RInt_ext (fun _ => 0)).
    - intros z Hz. rewrite Rmin_left, Rmax_right in Hz by lra. unfold mean_u. cbv zeta. fold x.
      assert (Hout : sd * z + x < lo \/ hi < sd * z + x).
      { rewrite <- Ha, <- Hb. destruct Ho; [left|right]; nra. }
      destruct (Rle_dec lo _); [|cbn; lra]. destruct (Rle_dec _ hi); [lra|lra].
    - pose proof (const_int 0 c d) as D. now replace ((d - c) * 0) with 0 in D by lra. }
  exists (fun t => (F t - F (- t)) * g xs + RInt (fun z => phi z * (mean_u g xs i z - g xs)) (- t) t). 
  assert (Ex : forall t, 0 < t -> ex_RInt (fun z => phi z * (mean_u g xs i z - g xs)) (- t) t).
  { intros t Ht. set (e := t + Rabs a + Rabs b). pose proof (Rabs_pos a). pose proof (Rabs_pos b).
    pose proof (Rle_abs b). pose proof (Rle_abs (- a)). rewrite Rabs_Ropp in *.
    assert (Be : ex_RInt (fun z => phi z * (mean_u g xs i z - g xs)) (- e) e).
    { apply (ex_RInt_Chasles (V := R_NormedModule) _ (- e) a e); [exists 0; apply O; unfold e; lra|].
      apply (ex_RInt_Chasles (V := R_NormedModule) _ a b e); [eexists; exact I|exists 0; apply O; unfold e; lra]. }
    apply (ex_RInt_Chasles_1 (V := R_CompleteNormedModule) _ (- t) t e); [unfold e; lra|].
    apply (ex_RInt_Chasles_2 (V := R_CompleteNormedModule) _ (- e) (- t) e); [unfold e; lra|exact Be]. }
  split.
  - intros t Ht.
    apply (is_RInt_ext (fun z => plus (scal (g xs) (phi z)) (phi z * (mean_u g xs i z - g xs)))).
    { intros. unfold plus, scal. cbn. unfold mult. cbn. ring. }
    apply (is_RInt_plus (V := R_NormedModule)).
    + rewrite Rmult_comm. apply (is_RInt_scal (V := R_NormedModule)). apply phi_int.
    + apply @RInt_correct. auto.
  - unfold after_i.
    assert (Lc : is_lim (fun t => (F t - F (- t)) * g xs) p_infty (g xs)).
    { pose proof (is_lim_scal_r (fun t => F t - F (- t)) (g xs) p_infty 1 mass_one) as H. cbn in H.
      now rewrite Rmult_1_l in H. }
    apply (is_lim_ext_loc (fun t => (F t - F (- t)) * g xs + RInt (flux g i xs) lo hi)).
    + exists (Rmax (- a) b). intros t Ht. f_equal. symmetry. apply is_RInt_unique.
      pose proof (Rmax_l (- a) b). pose proof (Rmax_r (- a) b).
      replace (RInt (flux g i xs) lo hi) with (plus 0 (plus (RInt (flux g i xs) lo hi) 0)) by (unfold plus; cbn; ring).
      apply (is_RInt_Chasles (V := R_NormedModule)) with a; [apply O; lra|].
      apply (is_RInt_Chasles (V := R_NormedModule)) with b; [exact I|apply O; lra].
    + apply (is_lim_plus' _ (fun _ => RInt (flux g i xs) lo hi) p_infty (g xs) (RInt (flux g i xs) lo hi)); auto. apply is_lim_const.
Qed.
Lemma mean_draws_step g xs : ucont n g -> box n xs ->
  mean_draws phi n (fun i z u => g (step xs i z u)) (after g xs).
Proof.
  intros Hg Hx. exists (fun i z => mean_u g xs i z), (fun i => after_i g i xs). repeat split.
  - intros. apply mean_unit_step.
  - intros. now apply mean_deviate_step.
Qed.

(** Detailed balance. *)
Lemma dens_acc xs ys : dens xs * acc xs ys = Rmin (dens xs) (dens ys).
Proof.
  unfold acc, dens. rewrite <- (Rmult_1_r (exp (L xs / T))) at 2.
  replace (exp (L ys / T)) with (exp (L xs / T) * exp ((L ys - L xs) / T)).
  - pose proof (exp_pos (L xs / T)). unfold Rmin. 
    destruct (Rle_dec 1 _) as [H1|H1], (Rle_dec _ _) as [H2|H2]; try reflexivity; exfalso; nra.
  - rewrite <- exp_plus. f_equal. field. lra.
Qed.
Lemma ucont_dens : ucont n dens.
Proof.
  unfold dens. apply (ucont_comp lo hi Hlo n exp). { intros. apply derivable_continuous_pt. apply derivable_pt_exp. }
  apply (ucont_ext lo hi n (fun l => / T * L l)); [intros; unfold Rdiv; lra|]. now apply ucont_scal.
Qed.
Lemma q_sym x y : q x y = q y x.
Proof. unfold q. rewrite <- phi_even. do 2 f_equal. field. lra. Qed.
Lemma balance_i g i : (i < n)%nat -> ucont n g ->
  box_int lo hi n (fun xs => dens xs * after_i g i xs) = box_int lo hi n (fun xs => dens xs * g xs).
Proof.
  intros Hi Hg.
  set (A := fun l => q (nth i (tl l) 0) (hd 0 l) * Rmin (dens (tl l)) (dens (set_nth (tl l) i (hd 0 l)))).
  assert (HA : ucont (S n) A).
  { unfold A. apply ucont_mult; auto; [now apply ucont_q|]. apply ucont_min; auto; [apply ucont_tl|apply ucont_setm]; auto; apply ucont_dens. }
  set (U := fun l => A l * g (set_nth (tl l) i (hd 0 l))). set (V := fun l => A l * g (tl l)).
  assert (HU : ucont (S n) U) by (unfold U; apply ucont_mult; auto; now apply ucont_setm).
  assert (HV : ucont (S n) V) by (unfold V; apply ucont_mult; auto; now apply ucont_tl).
  assert (E : box_int lo hi n (fun xs => RInt (fun y => U (y :: xs)) lo hi) = box_int lo hi n (fun xs => RInt (fun y => V (y :: xs)) lo hi)).
  { rewrite (exchange lo hi Hlo n i U) by auto. apply box_int_ext; auto. intros xs Hx. apply RInt_in; auto. intros y Hy.
    assert (Hl : (i < length xs)%nat) by (destruct Hx; lia).
    unfold U, V, A. cbn [hd tl]. rewrite set_nth_set, set_nth_nth, nth_set by auto.
    rewrite q_sym, Rmin_comm. reflexivity. }
  transitivity (box_int lo hi n (fun xs => dens xs * g xs + (RInt (fun y => U (y :: xs)) lo hi + (-1) * RInt (fun y => V (y :: xs)) lo hi))).
  - apply box_int_ext; auto. intros xs Hx. unfold after_i. rewrite Rmult_plus_distr_l. f_equal.
    assert (X1 : ex_RInt (fun y => U (y :: xs)) lo hi) by (apply (uc1_ex lo hi Hlo n U); auto).
    assert (X2 : ex_RInt (fun y => V (y :: xs)) lo hi) by (apply (uc1_ex lo hi Hlo n V); auto).
    assert (X3 : ex_RInt (flux g i xs) lo hi).
    { apply (uc1_ex lo hi Hlo n (fun l => flux g i (tl l) (hd 0 l))); auto. now apply ucont_flux. }
    transitivity (RInt (fun y => dens xs * flux g i xs y) lo hi).
    { symmetry. apply (RInt_scal (V := R_CompleteNormedModule)). exact X3. }
    replace (RInt (fun y => U (y :: xs)) lo hi + -1 * RInt (fun y => V (y :: xs)) lo hi) with
      (RInt (fun y => U (y :: xs)) lo hi - RInt (fun y => V (y :: xs)) lo hi) by lra.
    transitivity (RInt (fun y => U (y :: xs) - V (y :: xs)) lo hi).
    2:{ apply (RInt_minus (V := R_CompleteNormedModule)); auto. }
    apply RInt_in; auto. intros y Hy. unfold U, V, A, flux. cbn [hd tl]. rewrite <- dens_acc. ring.
  - rewrite (box_int_plus lo hi Hlo n (fun xs => dens xs * g xs) (fun xs => RInt (fun y => U (y :: xs)) lo hi + -1 * RInt (fun y => V (y :: xs)) lo hi)).
    + rewrite (box_int_plus lo hi Hlo n (fun xs => RInt (fun y => U (y :: xs)) lo hi) (fun xs => -1 * RInt (fun y => V (y :: xs)) lo hi)).
      * rewrite (box_int_scal lo hi Hlo n (-1) (fun xs => RInt (fun y => V (y :: xs)) lo hi)) by now apply ucont_int.
        rewrite E. lra.
      * now apply ucont_int.
      * apply ucont_scal; auto. now apply ucont_int.
    + apply ucont_mult; auto. apply ucont_dens.
    + apply ucont_plus; [now apply ucont_int|]. apply ucont_scal; auto. now apply ucont_int.
Qed.
Lemma rsum_const (l : list nat) c : rsum (map (fun _ => c) l) = INR (length l) * c.
Proof. induction l as [|x l IH]; [cbn; lra|]. cbn [map length]. rewrite S_INR. change (c + rsum (map (fun _ => c) l) = (INR (length l) + 1) * c). rewrite IH. lra. Qed.
Lemma rsum_mult (l : list nat) c f : c * rsum (map f l) = rsum (map (fun i => c * f i) l).
Proof. induction l as [|x l IH]; [cbn; lra|]. change (c * (f x + rsum (map f l)) = c * f x + rsum (map (fun i => c * f i) l)). rewrite <- IH. lra. Qed.
Lemma balance g : (0 < n)%nat -> ucont n g ->
  box_int lo hi n (fun xs => dens xs * after g xs) = box_int lo hi n (fun xs => dens xs * g xs).
Proof.
  intros Hn Hg. assert (HN : 0 < INR n) by (apply lt_0_INR; lia).
  transitivity (box_int lo hi n (fun xs => / INR n * rsum (map (fun i => dens xs * after_i g i xs) (seq 0 n)))).
  { apply box_int_ext; auto. intros xs _. unfold after. rewrite <- rsum_mult. unfold Rdiv. lra. }
  assert (Hc : forall i, In i (seq 0 n) -> ucont n (fun xs => dens xs * after_i g i xs)).
  { intros i Hi. apply in_seq in Hi. apply ucont_mult; auto; [apply ucont_dens|]. apply ucont_after_i; auto. lia. }
  rewrite (box_int_scal lo hi Hlo n (/ INR n) (fun xs => rsum (map (fun i => dens xs * after_i g i xs) (seq 0 n)))) by now apply ucont_sum.
  rewrite (box_int_sum lo hi Hlo n (seq 0 n) (fun i xs => dens xs * after_i g i xs)) by auto.
  rewrite (map_ext_in _ (fun _ => box_int lo hi n (fun xs => dens xs * g xs))).
  - rewrite rsum_const, seq_length. field. lra.
  - intros i Hi. apply in_seq in Hi. apply balance_i; auto. lia.
Qed.
End Metropolis.
