(** A Metropolis step for numbers without limits leaves the density exp(L/T) invariant: steps on
    larger and larger boxes. *)
From Coquelicot Require Import Coquelicot.
From Verif Require Import Base SpecWalk SpecInvariance ProofFubini ProofBox ProofInvariance.
From Coq Require Classical_Prop.
From Verif Require PropWalk ProofSites.
Local Open Scope R_scope.

(** * Boxes *)
Lemma box_wider n r s xs : r <= s -> in_box (- r) r n xs -> in_box (- s) s n xs.
Proof. intros H [Hl Hf]. split; auto. eapply Forall_impl; [|exact Hf]. cbn. intros. lra. Qed.
Lemma cont_smaller n r s f : r <= s -> cont_on (- s) s n f -> cont_on (- r) r n f.
Proof.
  intros H Hf eps He. destruct (Hf eps He) as (d & Hd & Hx). exists d. split; auto.
  intros xs ys Ha Hb Hn. apply Hx; auto; eapply box_wider; eauto.
Qed.
Lemma box_of xs : exists r, 0 < r /\ in_box (- r) r (length xs) xs.
Proof.
  induction xs as [|x xs (r & Hr & Hl & Hf)].
  - exists 1. split; [lra|]. split; auto.
  - exists (r + Rabs x). pose proof (Rabs_pos x). split; [lra|]. split; [reflexivity|]. constructor.
    + pose proof (Rle_abs x). pose proof (Rle_abs (- x)). rewrite Rabs_Ropp in *. lra.
    + eapply Forall_impl; [|exact Hf]. cbn. intros. lra.
Qed.
Section Mono.
Context (lo hi : R) (Hlo : lo < hi).
Lemma box_int_le n : forall f g, cont_on lo hi n f -> cont_on lo hi n g ->
  (forall xs, in_box lo hi n xs -> f xs <= g xs) -> box_int lo hi n f <= box_int lo hi n g.
Proof.
  induction n as [|n IH]; intros f g Hf Hg H; cbn [box_int].
  - apply H. split; auto.
  - apply RInt_le; [lra|apply uc1_int; auto; now apply box_int_uc1|apply uc1_int; auto; now apply box_int_uc1|].
    intros x Hx. apply IH; [apply ucont_cons; auto; lra|apply ucont_cons; auto; lra|].
    intros xs Hb. apply H. apply box_cons. split; auto. lra.
Qed.
Lemma box_int_nonneg n f : cont_on lo hi n f -> (forall xs, in_box lo hi n xs -> 0 <= f xs) -> 0 <= box_int lo hi n f.
Proof.
  intros Hf H. rewrite <- (box_int_zero lo hi Hlo n). apply box_int_le; auto. apply ucont_const.
Qed.
Lemma box_int_abs n f g h : cont_on lo hi n f -> cont_on lo hi n g -> cont_on lo hi n h ->
  (forall xs, in_box lo hi n xs -> Rabs (f xs - g xs) <= h xs) ->
  Rabs (box_int lo hi n f - box_int lo hi n g) <= box_int lo hi n h.
Proof.
  intros Hf Hg Hh H.
  assert (A : box_int lo hi n f <= box_int lo hi n (fun xs => g xs + h xs)).
  { apply box_int_le; auto; [now apply ucont_plus|]. intros xs Hx. apply H in Hx. pose proof (Rle_abs (f xs - g xs)). lra. }
  assert (B : box_int lo hi n g <= box_int lo hi n (fun xs => f xs + h xs)).
  { apply box_int_le; auto; [now apply ucont_plus|]. intros xs Hx. apply H in Hx. pose proof (Rle_abs (- (f xs - g xs))). rewrite Rabs_Ropp in *. lra. }
  rewrite (box_int_plus lo hi Hlo n g h) in A by auto. rewrite (box_int_plus lo hi Hlo n f h) in B by auto.
  apply Rabs_le. lra.
Qed.
End Mono.
Lemma RInt_wider (f : R -> R) a b c d : a <= b -> b <= c -> c <= d -> ex_RInt f a d -> (forall x, a <= x <= d -> 0 <= f x) ->
  ex_RInt f b c /\ RInt f b c <= RInt f a d.
Proof.
  intros Hab Hbc Hcd He Hp.
  assert (E1 : ex_RInt f a b) by (apply (ex_RInt_Chasles_1 (V := R_CompleteNormedModule) f a b d); auto; lra).
  assert (E2 : ex_RInt f b d) by (apply (ex_RInt_Chasles_2 (V := R_CompleteNormedModule) f a b d); auto; lra).
  assert (E3 : ex_RInt f b c) by (apply (ex_RInt_Chasles_1 (V := R_CompleteNormedModule) f b c d); auto; lra).
  assert (E4 : ex_RInt f c d) by (apply (ex_RInt_Chasles_2 (V := R_CompleteNormedModule) f b c d); auto; lra).
  split; auto.
  pose proof (RInt_Chasles (V := R_CompleteNormedModule) f a b d E1 E2) as C1.
  pose proof (RInt_Chasles (V := R_CompleteNormedModule) f b c d E3 E4) as C2.
  change (RInt f a b + RInt f b d = RInt f a d) in C1. change (RInt f b c + RInt f c d = RInt f b d) in C2.
  assert (0 <= RInt f a b). { apply RInt_ge_0; auto. intros. apply Hp. lra. }
  assert (0 <= RInt f c d). { apply RInt_ge_0; auto. intros. apply Hp. lra. }
  lra.
Qed.
Lemma box_int_wider n r s : 0 < r -> r <= s -> forall f, cont_on (- s) s n f ->
  (forall xs, in_box (- s) s n xs -> 0 <= f xs) -> box_int (- r) r n f <= box_int (- s) s n f.
Proof.
  intros Hr Hrs. induction n as [|n IH]; intros f Hf Hp; cbn [box_int]; [lra|].
  assert (Hs : - s < s) by lra. assert (Hr' : - r < r) by lra.
  assert (Xs : ex_RInt (fun x => box_int (- s) s n (fun xs => f (x :: xs))) (- s) s) by (apply uc1_int; auto; now apply box_int_uc1).
  destruct (RInt_wider (fun x => box_int (- s) s n (fun xs => f (x :: xs))) (- s) (- r) r s) as [X1 X2]; auto; try lra.
  { intros x Hx. apply box_int_nonneg; auto; [apply ucont_cons; auto|]. intros xs Hb. apply Hp. apply box_cons. auto. }
  eapply Rle_trans; [|exact X2]. apply RInt_le; [lra| |exact X1|].
  - apply uc1_int; auto. apply box_int_uc1; auto. eapply cont_smaller; eauto.
  - intros x Hx. apply IH; [apply ucont_cons; auto; lra|]. intros xs Hb. apply Hp. apply box_cons. split; auto. lra.
Qed.
(** Monotone bounded functions have a limit. *)
Lemma monotone_lim (J : R -> R) B : (forall r s, 0 < r -> r <= s -> J r <= J s) -> (forall r, 0 < r -> J r <= B) ->
  exists v : R, is_lim J p_infty v.
Proof.
  intros Hm HB. destruct (completeness (fun y => exists r, 0 < r /\ y = J r)) as (m & Hu & Hl).
  - exists B. intros y (r & Hr & ->). auto.
  - exists (J 1), 1. split; [lra|reflexivity].
  - exists m. apply is_lim_spec. intros [eps He]. cbn.
    destruct (Classical_Prop.classic (exists r, 0 < r /\ m - eps < J r)) as [(r & Hr & H)|H].
    + exists r. intros s Hs. pose proof (Hm r s Hr ltac:(lra)). pose proof (Hu (J s) (ex_intro _ s (conj (Rlt_trans _ _ _ Hr Hs) eq_refl))).
      apply Rabs_def1; lra.
    + exfalso. assert (m <= m - eps); [|lra]. apply Hl. intros y (r & Hr & ->).
      destruct (Rle_dec (J r) (m - eps)); auto. exfalso. apply H. exists r. split; auto. lra.
Qed.

(** * Products of one density per number *)
Definition prods (p : R -> R) (xs : list R) : R := fold_right (fun x a => p x * a) 1 xs.
Record density (p : R -> R) : Prop := {
  d_pos : forall x, 0 <= p x;
  d_cont : forall x, continuity_pt p x;
  d_one : is_lim (fun r => RInt p (- r) r) p_infty 1
}.
Lemma cont_ex (f : R -> R) a b : (forall x, continuity_pt f x) -> ex_RInt f a b.
Proof. intros H. apply (ex_RInt_continuous (V := R_CompleteNormedModule)). intros x _. apply continuity_pt_filterlim. apply H. Qed.
Section Products.
Context (p : R -> R) (Hp : density p).
Lemma mass_mono r s : 0 < r -> r <= s -> RInt p (- r) r <= RInt p (- s) s.
Proof.
  intros Hr Hs. apply (RInt_wider p (- s) (- r) r s); try lra; [apply cont_ex; apply Hp|]. intros. apply Hp.
Qed.
Lemma mass_le r : 0 < r -> RInt p (- r) r <= 1.
Proof.
  intros Hr. destruct (Rle_dec (RInt p (- r) r) 1) as [H|H]; auto. exfalso.
  pose proof (d_one p Hp) as Hl. apply is_lim_spec in Hl.
  destruct (Hl (mkposreal (RInt p (- r) r - 1) ltac:(lra))) as (M & HM').
  assert (HM : forall x, M < x -> Rabs (RInt p (- x) x - 1) < RInt p (- r) r - 1) by exact HM'.
  specialize (HM (Rmax r M + 1)). pose proof (Rmax_l r M). pose proof (Rmax_r r M). specialize (HM ltac:(lra)).
  pose proof (mass_mono r (Rmax r M + 1) Hr ltac:(lra)). apply Rabs_def2 in HM. lra.
Qed.
Lemma mass_pos r : 0 < r -> 0 <= RInt p (- r) r.
Proof. intros. apply RInt_ge_0; [lra|apply cont_ex; apply Hp|]. intros. apply Hp. Qed.
Lemma prods_pos xs : 0 <= prods p xs.
Proof. induction xs as [|x xs IH]; cbn; [lra|]. apply Rmult_le_pos; auto. apply Hp. Qed.
Context (r : R) (Hr : 0 < r).
Let Hlo : - r < r. Proof. lra. Qed.
Notation ucont := (cont_on (- r) r).
Lemma ucont_prods n : ucont n (prods p).
Proof.
  induction n as [|n IH].
  - apply (ucont_ext (- r) r 0 (fun _ => 1)); [|apply ucont_const]. intros [|x xs] [Hl _]; [reflexivity|discriminate].
  - apply (ucont_ext (- r) r (S n) (fun l => p (nth 0 l 0) * prods p (tl l))).
    + intros [|x xs] [Hl _]; [discriminate|reflexivity].
    + apply ucont_mult; auto.
      * apply (ucont_comp (- r) r Hlo (S n) p); [apply Hp|apply ucont_nth].
      * now apply ucont_tl.
Qed.
Lemma prods_int n : box_int (- r) r n (prods p) = RInt p (- r) r ^ n.
Proof.
  induction n as [|n IH]; cbn [box_int]; [reflexivity|]. cbn [pow].
  transitivity (RInt (fun x => RInt p (- r) r ^ n * p x) (- r) r).
  - apply RInt_in; auto. intros x Hx. cbn [prods fold_right].
    change (box_int (- r) r n (fun xs => p x * prods p xs) = RInt p (- r) r ^ n * p x).
    rewrite (box_int_scal (- r) r Hlo n (p x) (prods p)) by apply ucont_prods. rewrite IH. lra.
  - rewrite Rmult_comm. apply (RInt_scal (V := R_CompleteNormedModule)). apply cont_ex. apply Hp.
Qed.
Lemma prods_with t n i : (forall x, continuity_pt t x) -> (i < n)%nat ->
  box_int (- r) r n (fun xs => prods p xs * t (nth i xs 0)) = RInt p (- r) r ^ (n - 1) * RInt (fun x => p x * t x) (- r) r.
Proof.
  intros Ht. revert i. induction n as [|n IH]; intros i Hi; [lia|]. cbn [box_int].
  assert (Hpt : forall x, continuity_pt (fun x => p x * t x) x) by (intros; apply continuity_pt_mult; [apply Hp|apply Ht]).
  replace (S n - 1)%nat with n by lia. destruct i as [|i].
  - transitivity (RInt (fun x => RInt p (- r) r ^ n * (p x * t x)) (- r) r).
    + apply RInt_in; auto. intros x Hx. cbn [prods fold_right nth].
      transitivity (box_int (- r) r n (fun xs => (p x * t x) * prods p xs)).
      * apply box_int_ext; auto. intros. unfold prods. ring.
      * rewrite (box_int_scal (- r) r Hlo n (p x * t x) (prods p)) by apply ucont_prods. rewrite prods_int. lra.
    + apply (RInt_scal (V := R_CompleteNormedModule)). apply cont_ex. auto.
  - specialize (IH i ltac:(lia)). set (w := box_int (- r) r n (fun xs => prods p xs * t (nth i xs 0))) in *.
    transitivity (RInt (fun x => w * p x) (- r) r).
    + apply RInt_in; auto. intros x Hx. cbn [prods fold_right nth].
      transitivity (box_int (- r) r n (fun xs => p x * (prods p xs * t (nth i xs 0)))).
      * apply box_int_ext; auto. intros. unfold prods. ring.
      * rewrite (box_int_scal (- r) r Hlo n (p x) (fun xs => prods p xs * t (nth i xs 0))); [fold w; lra|].
        apply ucont_mult; auto; [apply ucont_prods|]. apply (ucont_comp (- r) r Hlo n t); [auto|apply ucont_nth].
    + transitivity (w * RInt p (- r) r); [apply (RInt_scal (V := R_CompleteNormedModule)); apply cont_ex; apply Hp|].
      rewrite IH. destruct n as [|n]; [lia|]. replace (S n - 1)%nat with n by lia. cbn [pow]. ring.
Qed.
End Products.

(** * Steps without limits *)
Lemma set_length n (xs : list R) i y : length xs = n -> (i < n)%nat -> length (set_nth xs i y) = n.
Proof.
  intros <-. revert i. induction xs as [|a xs IH]; intros [|i] Hi; cbn [length] in Hi; try lia; [reflexivity|].
  rewrite set_nth_cons. cbn [length]. rewrite IH by lia. reflexivity.
Qed.
Section Line.
Context (n : nat) (sd T : R) (Hsd : 0 < sd) (HT : 0 < T).
Context (F phi : R -> R) (HF : normal_cdf F) (Hphi : forall z, derivable_pt_lim F z (phi z)).
Context (L : list R -> R) (HL : forall r, 0 < r -> cont_on (- r) r n L).
Notation hop := (q sd phi).
Notation flow := (flux sd T phi L).
(** Bounded, and continuous on every box. *)
Record tame (D : R) (g : list R -> R) : Prop := {
  t_bound : forall xs, length xs = n -> Rabs (g xs) <= D;
  t_cont : forall r, 0 < r -> cont_on (- r) r n g
}.
Lemma F_mono u v : u <= v -> F u <= F v.
Proof. intros [H| ->]; [|lra]. apply Rlt_le. destruct (nc_density F HF) as (c & Hc & Hd). eapply PropWalk.cdf_increasing; eauto. Qed.
Lemma hop_pos x y : 0 <= hop x y.
Proof.
  unfold q. destruct (phi_bell F phi HF Hphi) as (c & Hc & H). rewrite H. apply Rlt_le. apply Rdiv_lt_0_compat; auto.
  apply Rmult_lt_0_compat; auto. apply exp_pos.
Qed.
Lemma hop_int x a b : is_RInt (hop x) a b (F ((b - x) / sd) - F ((a - x) / sd)).
Proof.
  apply (is_RInt_ext (fun y => scal (/ sd) (phi (/ sd * y + (- x / sd))))).
  - intros y _. unfold scal. cbn. unfold mult. cbn. unfold q. replace (/ sd * y + - x / sd) with ((y - x) / sd) by (field; lra). field. lra.
  - apply (is_RInt_comp_lin (V := R_NormedModule)).
    replace (/ sd * a + - x / sd) with ((a - x) / sd) by (field; lra).
    replace (/ sd * b + - x / sd) with ((b - x) / sd) by (field; lra). eapply phi_int; eauto.
Qed.
Definition tail (r x : R) : R := 1 - hit F (- r) r sd x.
Lemma div_le a b : a <= b -> a / sd <= b / sd.
Proof. intros. unfold Rdiv. apply Rmult_le_compat_r; auto. apply Rlt_le. now apply Rinv_0_lt_compat. Qed.
Lemma tail_range r x : 0 < r -> 0 <= tail r x <= 1.
Proof.
  intros Hr. unfold tail, hit. pose proof (nc_range F HF ((r - x) / sd)). pose proof (nc_range F HF ((- r - x) / sd)).
  pose proof (F_mono ((- r - x) / sd) ((r - x) / sd) ltac:(apply div_le; lra)). lra.
Qed.
Lemma tail_small eps : 0 < eps -> exists s, 0 < s /\ forall r x, Rabs x <= r - s -> tail r x <= eps.
Proof.
  intros He. destruct (nc_low F HF (eps / 2) ltac:(lra)) as (a & Ha), (nc_high F HF (eps / 2) ltac:(lra)) as (b & Hb).
  set (t := Rmax (Rabs a) (Rabs b) + 1).
  assert (Ht : 0 < t /\ - t <= a /\ b <= t).
  { unfold t. pose proof (Rmax_l (Rabs a) (Rabs b)). pose proof (Rmax_r (Rabs a) (Rabs b)).
    pose proof (Rabs_pos a). pose proof (Rle_abs b). pose proof (Rle_abs (- a)). rewrite Rabs_Ropp in *. lra. }
  exists (t * sd). split; [nra|]. intros r x Hx. unfold tail, hit.
  pose proof (Rle_abs x). pose proof (Rle_abs (- x)). rewrite Rabs_Ropp in *.
  assert (H1 : F b <= F ((r - x) / sd)). { apply F_mono. apply Rle_trans with t; [lra|]. replace t with (t * sd / sd) by (field; lra). apply div_le. lra. }
  assert (H2 : F ((- r - x) / sd) <= F a). { apply F_mono. apply Rle_trans with (- t); [|lra]. replace (- t) with (- t * sd / sd) by (field; lra). apply div_le. lra. }
  lra.
Qed.
Lemma tail_cont r x : 0 < r -> continuity_pt (tail r) x.
Proof.
  intros Hr. unfold tail. apply continuity_pt_minus; [apply continuity_pt_const; intros ? ?; reflexivity|].
  eapply ProofSites.hit_cont; eauto.
Qed.

Section Fun.
Context (D : R) (g : list R -> R) (Hg : tame D g).
Lemma D_pos : 0 <= D.
Proof. eapply Rle_trans; [apply Rabs_pos|]. apply (t_bound D g Hg (repeat 0 n)). apply repeat_length. Qed.
Lemma flow_bound i xs y : length xs = n -> (i < n)%nat -> Rabs (flow g i xs y) <= 2 * D * hop (nth i xs 0) y.
Proof.
  intros Hl Hi. unfold flux. rewrite !Rabs_mult.
  pose proof (acc_range T L xs (set_nth xs i y)) as Ha. pose proof (hop_pos (nth i xs 0) y) as Hh.
  rewrite (Rabs_right (hop _ _)) by lra. rewrite (Rabs_right (acc _ _ _ _)) by lra.
  pose proof (t_bound D g Hg xs Hl) as B1. pose proof (t_bound D g Hg _ (set_length n xs i y Hl Hi)) as B2.
  assert (B : Rabs (g (set_nth xs i y) - g xs) <= 2 * D).
  { eapply Rle_trans; [apply Rabs_triang|]. rewrite Rabs_Ropp. lra. }
  replace (2 * D * hop (nth i xs 0) y) with (hop (nth i xs 0) y * 1 * (2 * D)) by ring.
  apply Rmult_le_compat; auto; [apply Rmult_le_pos; lra|apply Rabs_pos|]. apply Rmult_le_compat_l; lra.
Qed.
Lemma flow_ex i xs a b : length xs = n -> (i < n)%nat -> ex_RInt (flow g i xs) a b.
Proof.
  intros Hl Hi. destruct (box_of xs) as (r & Hr & Hb). rewrite Hl in Hb.
  set (s := r + Rabs a + Rabs b). pose proof (Rabs_pos a). pose proof (Rabs_pos b).
  pose proof (Rle_abs a). pose proof (Rle_abs b). pose proof (Rle_abs (- a)). pose proof (Rle_abs (- b)). rewrite !Rabs_Ropp in *.
  assert (Hs : - s < s) by (unfold s; lra).
  assert (E : ex_RInt (flow g i xs) (- s) s).
  { apply (uc1_ex (- s) s Hs n (fun l => flow g i (tl l) (hd 0 l))).
    - eapply ucont_flux; eauto; [apply HL|apply (t_cont D g Hg)]; unfold s; lra.
    - apply box_wider with r; auto. unfold s; lra. }
  assert (Ea : ex_RInt (flow g i xs) a s) by (apply (ex_RInt_Chasles_2 (V := R_CompleteNormedModule) _ (- s) a s); auto; unfold s; lra).
  assert (Eb : ex_RInt (flow g i xs) b s) by (apply (ex_RInt_Chasles_2 (V := R_CompleteNormedModule) _ (- s) b s); auto; unfold s; lra).
  apply (ex_RInt_Chasles (V := R_NormedModule) _ a s b); auto. now apply ex_RInt_swap.
Qed.
Lemma flow_part i xs a b : length xs = n -> (i < n)%nat -> a <= b ->
  Rabs (RInt (flow g i xs) a b) <= 2 * D * (F ((b - nth i xs 0) / sd) - F ((a - nth i xs 0) / sd)).
Proof.
  intros Hl Hi Hab.
  apply (norm_RInt_le (V := R_NormedModule) (flow g i xs) (fun y => 2 * D * hop (nth i xs 0) y) a b); auto.
  - intros y _. now apply flow_bound.
  - apply @RInt_correct. now apply flow_ex.
  - apply (is_RInt_scal (V := R_NormedModule)). apply hop_int.
Qed.
Lemma flow_gap i xs r a b : length xs = n -> (i < n)%nat -> 0 < r -> a <= - r -> r <= b ->
  Rabs (RInt (flow g i xs) a b - RInt (flow g i xs) (- r) r) <= 2 * D * tail r (nth i xs 0).
Proof.
  intros Hl Hi Hr Ha Hb. set (x := nth i xs 0).
  pose proof (RInt_Chasles (V := R_CompleteNormedModule) (flow g i xs) a (- r) b (flow_ex i xs _ _ Hl Hi) (flow_ex i xs _ _ Hl Hi)) as C1.
  pose proof (RInt_Chasles (V := R_CompleteNormedModule) (flow g i xs) (- r) r b (flow_ex i xs _ _ Hl Hi) (flow_ex i xs _ _ Hl Hi)) as C2.
  pose proof (flow_part i xs a (- r) Hl Hi Ha) as B1. pose proof (flow_part i xs r b Hl Hi Hb) as B2. fold x in B1, B2.
  set (f := flow g i xs) in *.
  change (RInt f a (- r) + RInt f (- r) b = RInt f a b) in C1. change (RInt f (- r) r + RInt f r b = RInt f (- r) b) in C2.
  replace (RInt f a b - RInt f (- r) r) with (RInt f a (- r) + RInt f r b) by lra.
  eapply Rle_trans; [apply Rabs_triang|]. unfold tail, hit.
  pose proof (nc_range F HF ((a - x) / sd)). pose proof (nc_range F HF ((b - x) / sd)). pose proof D_pos. nra.
Qed.
Definition full_i (i : nat) (xs : list R) : R := real (Lim (fun r => RInt (flow g i xs) (- r) r) p_infty).
Lemma full_lim i xs : length xs = n -> (i < n)%nat -> is_lim (fun r => RInt (flow g i xs) (- r) r) p_infty (full_i i xs).
Proof.
  intros Hl Hi.
  assert (H : exists y, filterlim (fun r => RInt (flow g i xs) (- r) r) (Rbar_locally p_infty) (locally y)).
  { apply (filterlim_locally_cauchy (U := R_CompleteSpace)). intros [eps He].
    destruct (tail_small (eps / (8 * (D + 1)))) as (s & Hs & Ht).
    { apply Rdiv_lt_0_compat; auto. pose proof D_pos. lra. }
    set (r0 := Rabs (nth i xs 0) + s). assert (Hr0 : 0 < r0) by (unfold r0; pose proof (Rabs_pos (nth i xs 0)); lra).
    specialize (Ht r0 (nth i xs 0) ltac:(unfold r0; lra)).
    exists (fun t => r0 < t). split; [exists r0; auto|]. intros u v Hu Hv.
    pose proof (flow_gap i xs r0 (- u) u Hl Hi Hr0 ltac:(lra) ltac:(lra)) as G1.
    pose proof (flow_gap i xs r0 (- v) v Hl Hi Hr0 ltac:(lra) ltac:(lra)) as G2.
    change (Rabs (RInt (flow g i xs) (- v) v - RInt (flow g i xs) (- u) u) < eps).
    assert (Hb : 2 * D * tail r0 (nth i xs 0) <= eps / 4).
    { apply Rle_trans with (2 * D * (eps / (8 * (D + 1)))).
      - apply Rmult_le_compat_l; auto. pose proof D_pos. lra.
      - pose proof D_pos. apply Rle_trans with (2 * (D + 1) * (eps / (8 * (D + 1)))).
        + apply Rmult_le_compat_r; [|lra]. apply Rlt_le. apply Rdiv_lt_0_compat; lra.
        + right. field. lra. }
    replace (RInt (flow g i xs) (- v) v - RInt (flow g i xs) (- u) u) with
      ((RInt (flow g i xs) (- v) v - RInt (flow g i xs) (- r0) r0) - (RInt (flow g i xs) (- u) u - RInt (flow g i xs) (- r0) r0)) by ring.
    eapply Rle_lt_trans; [apply Rabs_triang|]. rewrite Rabs_Ropp. lra. }
  destruct H as (y & Hy). assert (E : is_lim (fun r => RInt (flow g i xs) (- r) r) p_infty y) by exact Hy.
  unfold full_i. rewrite (is_lim_unique _ _ _ E). exact E.
Qed.
(** What is near all integrals over large intervals is near the limit. *)
Lemma lim_close (J : R -> R) (l c B r0 : R) : is_lim J p_infty l -> (forall r, r0 < r -> Rabs (J r - c) <= B) -> Rabs (l - c) <= B.
Proof.
  intros Hl H. apply is_lim_spec in Hl. destruct (Rle_dec (Rabs (l - c)) B) as [Hb|Hb]; auto. exfalso.
  destruct (Hl (mkposreal (Rabs (l - c) - B) ltac:(lra))) as (M & HM).
  set (t := Rmax r0 M + 1). pose proof (Rmax_l r0 M). pose proof (Rmax_r r0 M).
  specialize (HM t ltac:(unfold t; lra)). cbn in HM. specialize (H t ltac:(unfold t; lra)).
  replace (l - c) with ((J t - c) - (J t - l)) in Hb, HM by ring.
  pose proof (Rabs_triang (J t - c) (- (J t - l))) as Tr. rewrite Rabs_Ropp in Tr.
  change (J t - c + - (J t - l)) with (J t - c - (J t - l)) in Tr. lra.
Qed.
Lemma full_close i xs r : length xs = n -> (i < n)%nat -> 0 < r ->
  Rabs (full_i i xs - RInt (flow g i xs) (- r) r) <= 2 * D * tail r (nth i xs 0).
Proof.
  intros Hl Hi Hr. apply (lim_close (fun r => RInt (flow g i xs) (- r) r) _ _ _ r); [now apply full_lim|].
  intros s Hs. apply flow_gap; auto; lra.
Qed.
Lemma full_wide i xs : length xs = n -> (i < n)%nat ->
  is_lim (fun t => RInt (flow g i xs) (nth i xs 0 - sd * t) (nth i xs 0 + sd * t)) p_infty (full_i i xs).
Proof.
  intros Hl Hi. apply is_lim_spec. intros [eps He]. pose proof D_pos as HD.
  destruct (tail_small (eps / (8 * (D + 1)))) as (s & Hs & Ht); [apply Rdiv_lt_0_compat; lra|].
  set (x := nth i xs 0) in *. set (r0 := Rabs x + s). assert (Hr0 : 0 < r0) by (unfold r0; pose proof (Rabs_pos x); lra).
  specialize (Ht r0 x ltac:(unfold r0; lra)).
  assert (Hb : 2 * D * tail r0 x <= eps / 4).
  { apply Rle_trans with (2 * D * (eps / (8 * (D + 1)))); [apply Rmult_le_compat_l; lra|].
    apply Rle_trans with (2 * (D + 1) * (eps / (8 * (D + 1)))).
    - apply Rmult_le_compat_r; [|lra]. apply Rlt_le. apply Rdiv_lt_0_compat; lra.
    - right. field. lra. }
  exists ((r0 + Rabs x) / sd). intros t Hst.
  assert (Hst' : r0 + Rabs x < sd * t). { replace (r0 + Rabs x) with (sd * ((r0 + Rabs x) / sd)) by (field; lra). nra. }
  pose proof (Rle_abs x). pose proof (Rle_abs (- x)). rewrite Rabs_Ropp in *.
  pose proof (flow_gap i xs r0 (x - sd * t) (x + sd * t) Hl Hi Hr0 ltac:(lra) ltac:(lra)) as G1.
  pose proof (full_close i xs r0 Hl Hi Hr0) as G2. fold x in G1, G2.
  change (Rabs (RInt (flow g i xs) (x - sd * t) (x + sd * t) - full_i i xs) < eps).
  replace (RInt (flow g i xs) (x - sd * t) (x + sd * t) - full_i i xs) with
    ((RInt (flow g i xs) (x - sd * t) (x + sd * t) - RInt (flow g i xs) (- r0) r0) - (full_i i xs - RInt (flow g i xs) (- r0) r0)) by ring.
  eapply Rle_lt_trans; [apply Rabs_triang|]. rewrite Rabs_Ropp. lra.
Qed.
Definition full (xs : list R) : R := rsum (map (fun i => g xs + full_i i xs) (seq 0 n)) / INR n.
Notation within r := (after (- r) r n sd T phi L g).
Lemma rsum_close (l : list nat) a b c : (forall i, In i l -> Rabs (a i - b i) <= c i) ->
  Rabs (rsum (map a l) - rsum (map b l)) <= rsum (map c l).
Proof.
  induction l as [|x l IH]; intros H.
  - change (Rabs (0 - 0) <= 0). rewrite Rminus_0_r, Rabs_R0. lra.
  - change (Rabs (a x + rsum (map a l) - (b x + rsum (map b l))) <= c x + rsum (map c l)).
    replace (a x + rsum (map a l) - (b x + rsum (map b l))) with ((a x - b x) + (rsum (map a l) - rsum (map b l))) by ring.
    eapply Rle_trans; [apply Rabs_triang|]. apply Rplus_le_compat; [apply H; now left|]. apply IH. intros. apply H. now right.
Qed.
Definition leak (r : R) (xs : list R) : R := rsum (map (fun i => 2 * D * tail r (nth i xs 0)) (seq 0 n)) / INR n.
Lemma full_after xs r : (0 < n)%nat -> length xs = n -> 0 < r -> Rabs (full xs - within r xs) <= leak r xs.
Proof.
  intros Hn Hl Hr. assert (HN : 0 < INR n) by (apply lt_0_INR; lia). unfold full, after, leak, Rdiv.
  rewrite <- Rmult_minus_distr_r, Rabs_mult. rewrite (Rabs_right (/ INR n)) by (apply Rle_ge, Rlt_le; now apply Rinv_0_lt_compat).
  apply Rmult_le_compat_r; [apply Rlt_le; now apply Rinv_0_lt_compat|].
  apply rsum_close. intros i Hi. apply in_seq in Hi. unfold after_i.
  replace (g xs + full_i i xs - (g xs + RInt (flow g i xs) (- r) r)) with (full_i i xs - RInt (flow g i xs) (- r) r) by ring.
  apply full_close; auto. lia.
Qed.
Lemma rsum_le (l : list nat) a b : (forall i, In i l -> a i <= b i) -> rsum (map a l) <= rsum (map b l).
Proof.
  induction l as [|x l IH]; intros H; [cbn; lra|]. change (a x + rsum (map a l) <= b x + rsum (map b l)).
  apply Rplus_le_compat; [apply H; now left|]. apply IH. intros. apply H. now right.
Qed.
Lemma leak_le r xs c : (0 < n)%nat -> (forall i, (i < n)%nat -> 2 * D * tail r (nth i xs 0) <= c) -> leak r xs <= c.
Proof.
  intros Hn H. assert (HN : 0 < INR n) by (apply lt_0_INR; lia). unfold leak.
  replace c with (rsum (map (fun _ => c) (seq 0 n)) / INR n) by (rewrite rsum_const, seq_length; field; lra).
  unfold Rdiv. apply Rmult_le_compat_r; [apply Rlt_le; now apply Rinv_0_lt_compat|]. apply rsum_le. intros i Hi. apply in_seq in Hi. apply H. lia.
Qed.
Lemma full_tame : (0 < n)%nat -> tame (D + 2 * D + 2 * D) full.
Proof.
  intros Hn. pose proof D_pos as HD. split.
  - intros xs Hl. assert (HN : 0 < INR n) by (apply lt_0_INR; lia).
    assert (B : forall i, (i < n)%nat -> Rabs (full_i i xs) <= 2 * D + 2 * D).
    { intros i Hi. pose proof (full_close i xs 1 Hl Hi ltac:(lra)) as C. pose proof (flow_part i xs (- (1)) 1 Hl Hi ltac:(lra)) as P.
      pose proof (tail_range 1 (nth i xs 0) ltac:(lra)). pose proof (nc_range F HF ((1 - nth i xs 0) / sd)). pose proof (nc_range F HF ((- (1) - nth i xs 0) / sd)).
      replace (full_i i xs) with ((full_i i xs - RInt (flow g i xs) (- (1)) 1) + RInt (flow g i xs) (- (1)) 1) by ring.
      eapply Rle_trans; [apply Rabs_triang|].
      assert (2 * D * tail 1 (nth i xs 0) <= 2 * D) by nra.
      assert (2 * D * (F ((1 - nth i xs 0) / sd) - F ((- (1) - nth i xs 0) / sd)) <= 2 * D) by nra. lra. }
    assert (G : Rabs (rsum (map (fun i => g xs + full_i i xs) (seq 0 n)) - rsum (map (fun _ => 0) (seq 0 n))) <= rsum (map (fun _ => D + 2 * D + 2 * D) (seq 0 n))).
    { apply rsum_close. intros i Hi. apply in_seq in Hi. rewrite Rminus_0_r. eapply Rle_trans; [apply Rabs_triang|].
      pose proof (t_bound D g Hg xs Hl). specialize (B i ltac:(lia)). lra. }
    rewrite !rsum_const, seq_length, Rmult_0_r, Rminus_0_r in G. unfold full, Rdiv. rewrite Rabs_mult, (Rabs_right (/ INR n)) by (apply Rle_ge, Rlt_le; now apply Rinv_0_lt_compat).
    apply Rle_trans with (INR n * (D + 2 * D + 2 * D) * / INR n); [|right; field; lra].
    apply Rmult_le_compat_r; auto. apply Rlt_le. now apply Rinv_0_lt_compat.
  - intros r Hr eps He. destruct (tail_small (eps / (8 * (D + 1)))) as (s & Hs & Ht); [apply Rdiv_lt_0_compat; lra|].
    assert (Hrs : - (r + s) < r + s) by lra.
    assert (Hc : cont_on (- (r + s)) (r + s) n (within (r + s))).
    { eapply ucont_after; eauto; [apply HL; lra|apply (t_cont D g Hg); lra]. }
    destruct (Hc (eps / 4) ltac:(lra)) as (d & Hd & H). exists d. split; auto. intros xs ys Hx Hy Hxy.
    assert (Hlk : forall zs, in_box (- r) r n zs -> leak (r + s) zs <= eps / 4).
    { intros zs Hz. apply leak_le; auto. intros i Hi. assert (Hzi : - r <= nth i zs 0 <= r) by (apply (box_nth (- r) r n); auto).
      specialize (Ht (r + s) (nth i zs 0) ltac:(apply Rabs_le; lra)).
      apply Rle_trans with (2 * D * (eps / (8 * (D + 1)))); [apply Rmult_le_compat_l; lra|].
      apply Rle_trans with (2 * (D + 1) * (eps / (8 * (D + 1)))).
      - apply Rmult_le_compat_r; [|lra]. apply Rlt_le. apply Rdiv_lt_0_compat; lra.
      - right. field. lra. }
    pose proof (full_after xs (r + s) Hn (proj1 Hx) ltac:(lra)) as A1. pose proof (full_after ys (r + s) Hn (proj1 Hy) ltac:(lra)) as A2.
    pose proof (Hlk xs Hx). pose proof (Hlk ys Hy).
    assert (Hm : Rabs (within (r + s) xs - within (r + s) ys) < eps / 4).
    { apply H; auto; apply box_wider with r; auto; lra. }
    replace (full xs - full ys) with ((full xs - within (r + s) xs) + (within (r + s) xs - within (r + s) ys) + - (full ys - within (r + s) ys)) by ring.
    eapply Rle_lt_trans; [apply Rabs_triang|]. rewrite Rabs_Ropp.
    pose proof (Rabs_triang (full xs - within (r + s) xs) (within (r + s) xs - within (r + s) ys)). lra.
Qed.

(** The mean over the draws. *)
Definition line_step (xs : list R) (i : nat) (z u : R) : list R :=
  let ys := set_nth xs i (nth i xs 0 + z * sd) in if Rlt_dec (ln u) ((L ys - L xs) / T) then ys else xs.
Definition mean_line (xs : list R) (i : nat) (z : R) : R :=
  let ys := set_nth xs i (nth i xs 0 + z * sd) in g xs + acc T L xs ys * (g ys - g xs).
Lemma mean_unit_line xs i z : mean_unit (fun u => g (line_step xs i z u)) (mean_line xs i z).
Proof.
  unfold mean_unit, mean_line, line_step. cbv zeta. set (ys := set_nth xs i _).
  pose proof (acc_range T L xs ys) as Ha. set (a := acc T L xs ys) in *.
  replace (g xs + a * (g ys - g xs)) with (plus ((a - 0) * g ys) ((1 - a) * g xs)) by (unfold plus; cbn; ring).
  apply (is_RInt_Chasles (V := R_NormedModule)) with a.
  - apply (is_RInt_ext (fun _ => g ys)); [|apply const_int]. intros u Hu. rewrite Rmin_left, Rmax_right in Hu by lra.
    destruct (Rlt_dec _ _) as [|Hn]; auto. exfalso. apply Hn. apply ln_acc; unfold a in *; lra.
  - apply (is_RInt_ext (fun _ => g xs)); [|apply const_int]. intros u Hu. rewrite Rmin_left, Rmax_right in Hu by lra.
    destruct (Rlt_dec _ _) as [Hn|]; auto. apply ln_acc in Hn; unfold a in *; lra.
Qed.
Lemma mean_deviate_line xs i : length xs = n -> (i < n)%nat -> mean_deviate phi (mean_line xs i) (g xs + full_i i xs).
Proof.
  intros Hl Hi. set (x := nth i xs 0).
  exists (fun t => (F t - F (- t)) * g xs + RInt (flow g i xs) (x - sd * t) (x + sd * t)). split.
  - intros t Ht.
    apply (is_RInt_ext (fun z => plus (scal (g xs) (phi z)) (scal sd (flow g i xs (sd * z + x))))).
    { intros z _. unfold plus, scal. cbn. unfold mult. cbn. unfold mean_line, flux, q. cbv zeta. fold x.
      replace (x + z * sd) with (sd * z + x) by lra. replace ((sd * z + x - x) / sd) with z by (field; lra). field. lra. }
    apply (is_RInt_plus (V := R_NormedModule)).
    + rewrite Rmult_comm. apply (is_RInt_scal (V := R_NormedModule)). eapply phi_int; eauto.
    + apply (is_RInt_comp_lin (V := R_NormedModule)). replace (sd * - t + x) with (x - sd * t) by ring. replace (sd * t + x) with (x + sd * t) by ring.
      apply @RInt_correct. now apply flow_ex.
  - assert (Lc : is_lim (fun t => (F t - F (- t)) * g xs) p_infty (g xs)).
    { pose proof (is_lim_scal_r (fun t => F t - F (- t)) (g xs) p_infty 1 (mass_one F HF)) as H. cbn in H. now rewrite Rmult_1_l in H. }
    apply (is_lim_plus' _ (fun t => RInt (flow g i xs) (x - sd * t) (x + sd * t)) p_infty (g xs) (full_i i xs)); auto.
    now apply full_wide.
Qed.
Lemma mean_draws_line xs : length xs = n -> mean_draws phi n (fun i z u => g (line_step xs i z u)) (full xs).
Proof.
  intros Hl. exists (fun i z => mean_line xs i z), (fun i => g xs + full_i i xs). repeat split.
  - intros. apply mean_unit_line.
  - intros. now apply mean_deviate_line.
Qed.

(** Invariance: what leaves a large box is small. *)
Context (p : R -> R) (Hp : density p) (C : R) (HC : 0 <= C).
Context (HB : forall xs, length xs = n -> dens T L xs <= C * prods p xs).
Notation J r f := (box_int (- r) r n (fun xs => dens T L xs * f xs)).
Lemma leak_cont r : 0 < r -> cont_on (- r) r n (leak r).
Proof.
  intros Hr. assert (Hlo : - r < r) by lra. unfold leak.
  apply (ucont_ext (- r) r n (fun xs => / INR n * rsum (map (fun i => 2 * D * tail r (nth i xs 0)) (seq 0 n)))); [intros; unfold Rdiv; lra|].
  apply ucont_scal; auto. apply ucont_sum; auto. intros i Hi. apply ucont_scal; auto.
  apply (ucont_comp (- r) r Hlo n (tail r)); [intros; now apply tail_cont|apply ucont_nth].
Qed.
Definition loss (r : R) : R := RInt (fun x => p x * tail r x) (- r) r.
Lemma loss_nonneg r : 0 < r -> 0 <= loss r.
Proof.
  intros Hr. unfold loss. apply RInt_ge_0; [lra|apply cont_ex; intros; apply continuity_pt_mult; [apply Hp|now apply tail_cont]|].
  intros x _. apply Rmult_le_pos; [apply Hp|]. now apply tail_range.
Qed.
Lemma loss_small eps : 0 < eps -> exists r0, 0 < r0 /\ forall r, r0 < r -> loss r <= eps.
Proof.
  intros He. pose proof (d_one p Hp) as Hl. apply is_lim_spec in Hl.
  destruct (Hl (mkposreal (eps / 4) ltac:(lra))) as (M & HM').
  assert (HM : forall x, M < x -> Rabs (RInt p (- x) x - 1) < eps / 4) by exact HM'. clear HM' Hl.
  destruct (tail_small (eps / 4) ltac:(lra)) as (s & Hs & Ht).
  set (m := Rmax M 0 + 1). pose proof (Rmax_l M 0). pose proof (Rmax_r M 0).
  assert (Hm : 0 < m) by (unfold m; lra).
  exists (m + s). split; [lra|]. intros r Hr. unfold loss. set (f := fun x => p x * tail r x).
  assert (Hf : forall x, continuity_pt f x) by (intros; apply continuity_pt_mult; [apply Hp|apply tail_cont; lra]).
  assert (Hpp : forall x, continuity_pt p x) by apply Hp.
  pose proof (RInt_Chasles (V := R_CompleteNormedModule) f (- r) (- m) r (cont_ex f _ _ Hf) (cont_ex f _ _ Hf)) as C1.
  pose proof (RInt_Chasles (V := R_CompleteNormedModule) f (- m) m r (cont_ex f _ _ Hf) (cont_ex f _ _ Hf)) as C2.
  pose proof (RInt_Chasles (V := R_CompleteNormedModule) p (- r) (- m) r (cont_ex p _ _ Hpp) (cont_ex p _ _ Hpp)) as D1.
  pose proof (RInt_Chasles (V := R_CompleteNormedModule) p (- m) m r (cont_ex p _ _ Hpp) (cont_ex p _ _ Hpp)) as D2.
  change (RInt f (- r) (- m) + RInt f (- m) r = RInt f (- r) r) in C1. change (RInt f (- m) m + RInt f m r = RInt f (- m) r) in C2.
  change (RInt p (- r) (- m) + RInt p (- m) r = RInt p (- r) r) in D1. change (RInt p (- m) m + RInt p m r = RInt p (- m) r) in D2.
  assert (Hle : forall a b, a <= b -> RInt f a b <= RInt p a b).
  { intros a b Hab. apply RInt_le; auto; try (apply cont_ex; auto). intros x _. unfold f.
    pose proof (tail_range r x ltac:(lra)). pose proof (d_pos p Hp x). nra. }
  pose proof (Hle (- r) (- m) ltac:(lra)). pose proof (Hle m r ltac:(lra)).
  assert (Hmid : RInt f (- m) m <= eps / 4 * RInt p (- m) m).
  { apply Rle_trans with (RInt (fun x => eps / 4 * p x) (- m) m).
    - apply RInt_le; [lra|now apply cont_ex| |].
      + apply (ex_RInt_scal (V := R_NormedModule)). now apply cont_ex.
      + intros x Hx. unfold f. pose proof (d_pos p Hp x). specialize (Ht r x ltac:(apply Rabs_le; lra)). nra.
    - right. apply (RInt_scal (V := R_CompleteNormedModule)). now apply cont_ex. }
  pose proof (mass_le p Hp m Hm). pose proof (mass_pos p Hp m Hm).
  pose proof (HM m ltac:(unfold m; lra)) as B1. pose proof (HM r ltac:(unfold m in *; lra)) as B2.
  apply Rabs_def2 in B1. apply Rabs_def2 in B2. nra.
Qed.
Lemma one_leak r : (0 < n)%nat -> 0 < r -> Rabs (J r full - J r g) <= C * (2 * D) * loss r.
Proof.
  intros Hn Hr. assert (Hlo : - r < r) by lra. assert (HN : 0 < INR n) by (apply lt_0_INR; lia). pose proof D_pos as HD.
  assert (Hd : cont_on (- r) r n (dens T L)) by (eapply ucont_dens; eauto; apply HL; auto).
  assert (Hf : cont_on (- r) r n full) by (apply (t_cont _ _ (full_tame Hn)); auto).
  assert (Ha : cont_on (- r) r n (within r)) by (eapply ucont_after; eauto; first [apply HL; lra|apply (t_cont D g Hg); lra]).
  rewrite <- (balance (- r) r Hlo n sd T Hsd HT F phi HF Hphi L (HL r Hr) g Hn (t_cont D g Hg r Hr)).
  apply Rle_trans with (box_int (- r) r n (fun xs => C * prods p xs * leak r xs)).
  - apply box_int_abs; auto; try (apply (ucont_mult (- r) r Hlo n (dens T L)); auto).
    + apply (ucont_mult (- r) r Hlo n (fun xs => C * prods p xs)); [apply ucont_scal; auto; now apply ucont_prods|now apply leak_cont].
    + intros xs [Hl _]. rewrite <- Rmult_minus_distr_l, Rabs_mult.
      rewrite (Rabs_right (dens T L xs)) by (apply Rle_ge, Rlt_le, exp_pos).
      apply Rmult_le_compat; [apply Rlt_le, exp_pos|apply Rabs_pos|auto|now apply full_after].
  - assert (Ht : forall x, continuity_pt (tail r) x) by (intros; now apply tail_cont).
    set (h := fun (i : nat) xs => prods p xs * tail r (nth i xs 0)).
    assert (Hh : forall i, In i (seq 0 n) -> cont_on (- r) r n (h i)).
    { intros i _. unfold h. apply ucont_mult; auto; [now apply ucont_prods|]. apply (ucont_comp (- r) r Hlo n (tail r)); [auto|apply ucont_nth]. }
    apply Rle_trans with (box_int (- r) r n (fun xs => C * (2 * D) / INR n * rsum (map (fun i => h i xs) (seq 0 n)))).
    { right. apply box_int_ext; auto. intros xs _. unfold leak, h. rewrite <- (rsum_mult (seq 0 n) (2 * D) (fun i => tail r (nth i xs 0))).
      rewrite <- (rsum_mult (seq 0 n) (prods p xs) (fun i => tail r (nth i xs 0))). field. lra. }
    rewrite (box_int_scal (- r) r Hlo n _ (fun xs => rsum (map (fun i => h i xs) (seq 0 n)))) by now apply ucont_sum.
    rewrite (box_int_sum (- r) r Hlo n (seq 0 n) h) by auto.
    assert (Hc : rsum (map (fun i => box_int (- r) r n (h i)) (seq 0 n)) <= INR n * loss r).
    { replace (INR n * loss r) with (rsum (map (fun _ => loss r) (seq 0 n))) by (rewrite rsum_const, seq_length; reflexivity).
      apply rsum_le. intros i Hi. apply in_seq in Hi. unfold h. rewrite (prods_with p Hp r Hr (tail r) n i Ht ltac:(lia)). fold (loss r).
      pose proof (loss_nonneg r Hr). pose proof (mass_le p Hp r Hr). pose proof (mass_pos p Hp r Hr).
      assert (RInt p (- r) r ^ (n - 1) <= 1). { rewrite <- (pow1 (n - 1)). apply pow_incr. lra. }
      nra. }
    apply Rle_trans with (C * (2 * D) / INR n * (INR n * loss r)); [|right; field; lra].
    apply Rmult_le_compat_l; auto. apply Rmult_le_pos; [nra|]. apply Rlt_le. now apply Rinv_0_lt_compat.
Qed.
Lemma full_keeps v : (0 < n)%nat -> is_lim (fun r => J r g) p_infty v -> is_lim (fun r => J r full) p_infty v.
Proof.
  intros Hn Hv. replace v with (Rbar_plus v 0) by (destruct v; cbn; auto; now rewrite Rplus_0_r).
  apply (is_lim_ext (fun r => J r g + (J r full - J r g))); [intros; ring|].
  apply (is_lim_plus _ (fun r => J r full - J r g) p_infty v 0); auto; [|destruct v; constructor].
  apply is_lim_spec. intros [eps He]. pose proof D_pos as HD.
  destruct (loss_small (eps / (2 * (C * (2 * D) + 1)))) as (r0 & Hr0 & H). { apply Rdiv_lt_0_compat; [lra|nra]. }
  exists r0. intros r Hr. change (Rabs (J r full - J r g - 0) < eps). rewrite Rminus_0_r.
  eapply Rle_lt_trans; [apply one_leak; auto; lra|]. specialize (H r Hr).
  assert (0 <= C * (2 * D)) by nra.
  apply Rle_lt_trans with (C * (2 * D) * (eps / (2 * (C * (2 * D) + 1)))); [now apply Rmult_le_compat_l|].
  apply Rle_lt_trans with ((C * (2 * D) + 1) * (eps / (2 * (C * (2 * D) + 1)))).
  - apply Rmult_le_compat_r; [|lra]. apply Rlt_le. apply Rdiv_lt_0_compat; lra.
  - apply Rle_lt_trans with (eps / 2); [right; field; lra|lra].
Qed.
Lemma J_lim : exists v : R, is_lim (fun r => J r g) p_infty v.
Proof.
  pose proof D_pos as HD.
  assert (Hd : forall r, 0 < r -> cont_on (- r) r n (dens T L)). { intros r Hr. assert (Hlo : - r < r) by lra. eapply ucont_dens; eauto. }
  assert (M : forall (h : list R -> R) B, 0 <= B -> (forall r, 0 < r -> cont_on (- r) r n h) -> (forall xs, length xs = n -> 0 <= h xs <= B) ->
    exists v : R, is_lim (fun r => J r h) p_infty v).
  { intros h B HB0 Hc Hb. apply (monotone_lim _ (C * B)).
    - intros r s Hr Hs. assert (Hlo : - s < s) by lra. apply box_int_wider; auto.
      + apply (ucont_mult (- s) s Hlo n (dens T L)); [apply Hd|apply Hc]; lra.
      + intros xs [Hl _]. apply Rmult_le_pos; [apply Rlt_le, exp_pos|now apply Hb].
    - intros r Hr. assert (Hlo : - r < r) by lra.
      apply Rle_trans with (box_int (- r) r n (fun xs => C * B * prods p xs)).
      + apply box_int_le; auto.
        * apply (ucont_mult (- r) r Hlo n (dens T L)); auto.
        * apply ucont_scal; auto. now apply ucont_prods.
        * intros xs [Hl _]. specialize (Hb xs Hl). specialize (HB xs Hl).
          apply Rle_trans with (C * prods p xs * B); [|right; ring].
          apply Rmult_le_compat; try lra. apply Rlt_le, exp_pos.
      + rewrite (box_int_scal (- r) r Hlo n (C * B) (prods p)) by now apply ucont_prods. rewrite prods_int by auto.
        pose proof (mass_le p Hp r Hr). pose proof (mass_pos p Hp r Hr).
        assert (RInt p (- r) r ^ n <= 1). { rewrite <- (pow1 n). apply pow_incr. lra. }
        assert (0 <= C * B) by nra. nra. }
  destruct (M (fun xs => g xs + D) (2 * D)) as (v1 & H1); [lra| | |].
  { intros r Hr. apply ucont_plus; [now apply (t_cont D g Hg)|apply ucont_const]. }
  { intros xs Hl. pose proof (t_bound D g Hg xs Hl) as B. apply Rabs_le_between in B. lra. }
  destruct (M (fun _ => D) D) as (v2 & H2); [lra|intros; apply ucont_const|intros; lra|].
  exists (v1 - v2). apply (is_lim_ext_loc (fun r => J r (fun xs => g xs + D) - J r (fun _ => D))).
  - exists 0. intros r Hr. assert (Hlo : - r < r) by lra.
    rewrite (box_int_ext (- r) r Hlo n (fun xs => dens T L xs * (g xs + D)) (fun xs => dens T L xs * g xs + dens T L xs * D)) by (auto; intros; ring).
    rewrite (box_int_plus (- r) r Hlo n (fun xs => dens T L xs * g xs) (fun xs => dens T L xs * D)); [ring| |].
    + apply (ucont_mult (- r) r Hlo n (dens T L)); auto. now apply (t_cont D g Hg).
    + apply (ucont_mult (- r) r Hlo n (dens T L)); auto. apply ucont_const.
  - apply (is_lim_minus' _ _ p_infty v1 v2); auto.
Qed.
End Fun.
End Line.
