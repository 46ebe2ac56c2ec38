(** Metropolis steps whose proposals are bounded walks, reported as symmetric, keep the density exp(L/T)
    times the probability that steps stay inside. *)
From Coquelicot Require Import Coquelicot.
From Coq Require Import Permutation Sorted.
From Verif Require Import Base SpecWalk SpecInvariance SpecSites ProofFubini ProofBox ProofInvariance.
From Verif Require PropWalk.
Local Open Scope R_scope.

(** * Order *)
Lemma place_perm x l : Permutation (place x l) (x :: l).
Proof.
  induction l as [|y l IH]; cbn; auto. destruct (Rle_dec x y); auto. rewrite IH. apply perm_swap.
Qed.
Lemma in_order_perm l : Permutation (in_order l) l.
Proof. induction l as [|x l IH]; cbn; auto. rewrite place_perm. auto. Qed.
Lemma place_sorted x l : StronglySorted Rle l -> StronglySorted Rle (place x l).
Proof.
  intros H. induction H as [|y l Hs IH Hf]; cbn; [repeat constructor|]. destruct (Rle_dec x y) as [Hx|Hx].
  - constructor; [constructor; auto|]. constructor; auto. eapply Forall_impl; [|exact Hf]. cbn. intros. lra.
  - constructor; auto. apply (Permutation_Forall (Permutation_sym (place_perm x l))). constructor; auto. lra.
Qed.
Lemma in_order_sorted l : StronglySorted Rle (in_order l).
Proof. induction l as [|x l IH]; cbn; [constructor|]. now apply place_sorted. Qed.
Lemma sorted_unique (l l' : list R) : StronglySorted Rle l -> StronglySorted Rle l' -> Permutation l l' -> l = l'.
Proof.
  intros H. revert l'. induction H as [|x l Hs IH Hf]; intros l' H' Hp.
  - apply Permutation_nil in Hp. congruence.
  - destruct l' as [|y l']; [apply Permutation_sym, Permutation_nil in Hp; discriminate|].
    inversion H' as [|? ? Hs' Hf']; subst.
    assert (x = y) as ->.
    { assert (Hx : In x (y :: l')) by (eapply Permutation_in; [exact Hp|now left]).
      assert (Hy : In y (x :: l)) by (eapply Permutation_in; [apply Permutation_sym; exact Hp|now left]).
      rewrite List.Forall_forall in Hf, Hf'. destruct Hx as [Hx|Hx]; [congruence|]. destruct Hy as [Hy|Hy]; [congruence|].
      apply Rle_antisym; auto. }
    f_equal. apply IH; auto. eapply Permutation_cons_inv. exact Hp.
Qed.
Lemma in_order_of l l' : Permutation l l' -> in_order l = in_order l'.
Proof.
  intros H. apply sorted_unique; try apply in_order_sorted. rewrite !in_order_perm. exact H.
Qed.
Lemma in_order_id l : StronglySorted Rle l -> in_order l = l.
Proof. intros H. apply sorted_unique; auto using in_order_sorted. apply in_order_perm. Qed.
(** Lists that are close are close in order. *)
Lemma near_sym d l l' : near d l l' -> near d l' l.
Proof. intros H. induction H; constructor; auto. rewrite Rabs_minus_sym. auto. Qed.
Lemma place_after d y l l' : near d l l' -> forall a, StronglySorted Rle (a :: l) -> y - d < a < y + d ->
  near d (a :: l) (place y l').
Proof.
  intros H. induction H as [|c b l l' Hcb Hl IH]; intros a Hs Ha; cbn.
  - constructor; [apply Rabs_def1; lra|constructor].
  - inversion Hs as [|? ? Hs' Hf]; subst. inversion Hf as [|? ? Hac _]; subst. apply Rabs_def2 in Hcb. destruct (Rle_dec y b).
    + constructor; [apply Rabs_def1; lra|]. constructor; auto. apply Rabs_def1; lra.
    + constructor; [apply Rabs_def1; lra|]. apply IH; auto. lra.
Qed.
Lemma place_near d x y l l' : Rabs (x - y) < d -> near d l l' -> StronglySorted Rle l -> StronglySorted Rle l' ->
  near d (place x l) (place y l').
Proof.
  intros Hx H. induction H as [|a b l l' Hab Hl IH]; intros Hs Hs'; cbn; [repeat constructor; auto|].
  apply Rabs_def2 in Hx. apply Rabs_def2 in Hab.
  destruct (Rle_dec x a) as [H1|H1], (Rle_dec y b) as [H2|H2].
  - constructor; [apply Rabs_def1; lra|]. constructor; auto. apply Rabs_def1; lra.
  - constructor; [apply Rabs_def1; lra|]. apply place_after; auto. lra.
  - constructor; [apply Rabs_def1; lra|]. apply near_sym. apply place_after; auto using near_sym. lra.
  - inversion Hs; subst. inversion Hs'; subst. constructor; [apply Rabs_def1; lra|]. apply IH; auto.
Qed.
Lemma in_order_near d l l' : near d l l' -> near d (in_order l) (in_order l').
Proof. intros H. induction H; cbn; [constructor|]. apply place_near; auto using in_order_sorted. Qed.
Lemma box_perm lo hi n l l' : Permutation l l' -> in_box lo hi n l -> in_box lo hi n l'.
Proof. intros Hp [Hl Hf]. split; [rewrite <- Hl; symmetry; now apply Permutation_length|]. eapply Permutation_Forall; eauto. Qed.
Lemma box_order lo hi n l : in_box lo hi n l <-> in_box lo hi n (in_order l).
Proof. split; apply box_perm; [apply Permutation_sym|]; apply in_order_perm. Qed.
Lemma cont_order lo hi n f : cont_on lo hi n f -> cont_on lo hi n (fun l => f (in_order l)).
Proof.
  intros H. apply (ucont_map lo hi n n f in_order); auto.
  - intros xs Hx. now apply box_order in Hx.
  - intros d xs ys Hd _ _ Hn. now apply in_order_near.
Qed.

Section Walk.
Context (lo hi : R) (Hlo : lo < hi) (n : nat) (sd T : R) (Hsd : 0 < sd) (HT : 0 < T).
Context (F phi : R -> R) (HF : normal_cdf F) (Hphi : forall z, derivable_pt_lim F z (phi z)).
Context (L : list R -> R) (HL : cont_on lo hi n L).
Notation box := (in_box lo hi).
Notation ucont := (cont_on lo hi).
Notation inside x := (lo <= x <= hi).
Notation h := (hit F lo hi sd).
Notation stay := (stays F lo hi sd).
Notation qn := (q sd phi).
Notation acc' := (acc T L).
Notation dens' := (dens T L).

(** * Weights *)
Lemma hit_pos x : 0 < h x.
Proof. destruct HF as [(c & Hc & Hd) Hr _ _]. apply (PropWalk.hit_prob F c); auto. Qed.
Lemma F_cont z : continuity_pt F z.
Proof. apply derivable_continuous_pt. exists (phi z). apply Hphi. Qed.
Lemma hit_cont x : continuity_pt h x.
Proof.
  unfold hit.
  assert (G : forall b, continuity_pt (fun x => F ((b - x) / sd)) x).
  { intros b. apply (continuity_pt_comp (fun x => (b - x) / sd) F); [|apply F_cont].
    apply derivable_continuous_pt. exists (- / sd).
    apply is_derive_Reals. auto_derive; auto. field. lra. }
  apply (continuity_pt_minus (fun x => F ((hi - x) / sd)) (fun x => F ((lo - x) / sd))); apply G.
Qed.
Lemma hit_inv_cont x : continuity_pt (fun x => / h x) x.
Proof. apply (continuity_pt_inv h); [apply hit_cont|]. pose proof (hit_pos x). lra. Qed.
Lemma stay_pos xs : 0 < stay xs.
Proof. induction xs as [|x xs IH]; cbn; [lra|]. apply Rmult_lt_0_compat; auto. apply hit_pos. Qed.
Lemma ucont_stay m : ucont m stay.
Proof.
  induction m as [|m IH].
  - apply (ucont_ext lo hi O (fun _ => 1)); [|apply ucont_const]. intros [|x xs] [Hl _]; [reflexivity|discriminate].
  - apply (ucont_ext lo hi (S m) (fun l => h (nth 0 l 0) * stay (tl l))).
    { intros [|x xs] [Hl _]; [discriminate|reflexivity]. }
    apply ucont_mult; auto; [|now apply ucont_tl]. apply (ucont_comp lo hi Hlo (S m) h); [apply hit_cont|apply ucont_nth].
Qed.
Lemma stay_set xs i y : (i < length xs)%nat -> stay (set_nth xs i y) / h y = stay xs / h (nth i xs 0).
Proof.
  revert i. induction xs as [|x xs IH]; intros [|i] Hi; cbn [length] in Hi; try lia.
  - cbn. pose proof (hit_pos y). pose proof (hit_pos x). field. lra.
  - rewrite set_nth_cons. change (h x * stay (set_nth xs i y) / h y = h x * stay xs / h (nth i xs 0)).
    unfold Rdiv. rewrite !Rmult_assoc. f_equal. apply IH. lia.
Qed.
Lemma stay_perm xs ys : Permutation xs ys -> stay xs = stay ys.
Proof. intros H. induction H as [|x l l' _ IH|x y l|l l' l'' _ IH _ IH']; [reflexivity| | |congruence].
  - change (h x * stay l = h x * stay l'). now rewrite IH.
  - change (h y * (h x * stay l) = h x * (h y * stay l)). ring.
Qed.

(** * One step *)
Definition wq (x y : R) : R := qn x y / h x.
Definition wflux (g : list R -> R) (i : nat) (xs : list R) (y : R) : R :=
  wq (nth i xs 0) y * acc' xs (set_nth xs i y) * (g (set_nth xs i y) - g xs).
Definition wafter_i (g : list R -> R) (i : nat) (xs : list R) : R := g xs + RInt (wflux g i xs) lo hi.
Definition wafter (g : list R -> R) (xs : list R) : R := rsum (map (fun i => wafter_i g i xs) (seq 0 n)) / INR n.
Definition wdens (xs : list R) : R := exp (L xs / T) * stay xs.
Definition wmean (g : list R -> R) (xs : list R) (i : nat) (y : R) : R :=
  g xs + acc' xs (set_nth xs i y) * (g (set_nth xs i y) - g xs).

Lemma ucont_wq i : (i < n)%nat -> ucont (S n) (fun l => wq (nth i (tl l) 0) (hd 0 l)).
Proof.
  intros Hi. unfold wq, Rdiv. apply ucont_mult; auto; [eapply ucont_q; eauto|].
  apply (ucont_comp lo hi Hlo (S n) (fun x => / h x)); [apply hit_inv_cont|].
  apply (ucont_tl lo hi n (fun l => nth i l 0)). apply ucont_nth.
Qed.
Lemma ucont_wflux g i : (i < n)%nat -> ucont n g -> ucont (S n) (fun l => wflux g i (tl l) (hd 0 l)).
Proof.
  intros Hi Hg. unfold wflux. apply ucont_mult; auto; [apply ucont_mult; auto; [now apply ucont_wq|eapply ucont_acc; eauto]|].
  apply ucont_minus; auto; [now apply ucont_setm|now apply ucont_tl].
Qed.
Lemma ucont_wafter_i g i : (i < n)%nat -> ucont n g -> ucont n (wafter_i g i).
Proof.
  intros Hi Hg. unfold wafter_i. apply ucont_plus; auto.
  apply (ucont_int lo hi Hlo n (fun l => wflux g i (tl l) (hd 0 l))). now apply ucont_wflux.
Qed.
Lemma ucont_wafter g : ucont n g -> ucont n (wafter g).
Proof.
  intros Hg. unfold wafter.
  apply (ucont_ext lo hi n (fun xs => / INR n * rsum (map (fun i => wafter_i g i xs) (seq 0 n)))); [intros; unfold Rdiv; lra|].
  apply ucont_scal; auto. apply ucont_sum; auto. intros i Hi. apply in_seq in Hi. apply ucont_wafter_i; auto. lia.
Qed.
Lemma ucont_wdens : ucont n wdens.
Proof. unfold wdens. apply ucont_mult; auto; [apply (ucont_dens lo hi Hlo n T L HL)|apply ucont_stay]. Qed.

(** The mean over the end of the walk. *)
Lemma wq_mass x : is_RInt (wq x) lo hi 1.
Proof.
  pose proof (phi_int F phi HF Hphi ((lo - x) / sd) ((hi - x) / sd)) as P.
  assert (Q : is_RInt (fun y => qn x y) lo hi (h x)).
  { apply (is_RInt_ext (fun y => scal (/ sd) (phi (/ sd * y + - x / sd)))).
    - intros y _. unfold scal. cbn. unfold mult. cbn. unfold q, Rdiv. rewrite Rmult_comm. do 2 f_equal. ring.
    - apply (is_RInt_comp_lin (V := R_NormedModule)). unfold hit.
      replace (/ sd * lo + - x / sd) with ((lo - x) / sd) by (field; lra).
      replace (/ sd * hi + - x / sd) with ((hi - x) / sd) by (field; lra). exact P. }
  apply (is_RInt_ext (fun y => scal (/ h x) (qn x y))).
  - intros y _. unfold scal. cbn. unfold mult. cbn. unfold wq, Rdiv. ring.
  - replace 1 with (scal (/ h x) (h x)); [|unfold scal; cbn; unfold mult; cbn; pose proof (hit_pos x); field; lra].
    apply (is_RInt_scal (V := R_NormedModule)). exact Q.
Qed.
Lemma wmean_int g xs i : (i < n)%nat -> ucont n g -> box n xs ->
  is_RInt (fun y => wq (nth i xs 0) y * wmean g xs i y) lo hi (wafter_i g i xs).
Proof.
  intros Hi Hg Hx. unfold wafter_i.
  apply (is_RInt_ext (fun y => plus (scal (g xs) (wq (nth i xs 0) y)) (wflux g i xs y))).
  - intros y _. unfold plus, scal. cbn. unfold mult. cbn. unfold wmean, wflux. ring.
  - apply (is_RInt_plus (V := R_NormedModule)).
    + pose proof (is_RInt_scal (V := R_NormedModule) (wq (nth i xs 0)) lo hi (g xs) 1 (wq_mass _)) as M.
      refine (eq_ind _ (fun v => is_RInt _ lo hi v) M _ _). unfold scal. cbn. unfold mult. cbn. ring.
    + apply @RInt_correct. apply (uc1_ex lo hi Hlo n (fun l => wflux g i (tl l) (hd 0 l))); auto. now apply ucont_wflux.
Qed.
Lemma wmean_unit g xs ys : mean_unit (fun u => g (if Rlt_dec (ln u) ((L ys - L xs) / T) then ys else xs))
  (g xs + acc' xs ys * (g ys - g xs)).
Proof.
  unfold mean_unit. pose proof (acc_range T L xs ys) as Ha. set (a := acc' xs ys) in *.
  replace (g xs + a * (g ys - g xs)) with (plus ((a - 0) * g ys) ((1 - a) * g xs)) by (unfold plus; cbn; ring).
  apply (is_RInt_Chasles (V := R_NormedModule)) with a.
  - apply (is_RInt_ext (fun _ => g ys)); [|apply const_int]. intros u Hu. rewrite Rmin_left, Rmax_right in Hu by lra.
    destruct (Rlt_dec _ _) as [|Hn]; auto. exfalso. apply Hn. apply ln_acc; unfold a in *; lra.
  - apply (is_RInt_ext (fun _ => g xs)); [|apply const_int]. intros u Hu. rewrite Rmin_left, Rmax_right in Hu by lra.
    destruct (Rlt_dec _ _) as [Hn|]; auto. apply ln_acc in Hn; unfold a in *; lra.
Qed.

(** * Balance *)
Lemma exchange_balance D A fl g i : (i < n)%nat -> ucont n g -> ucont n D -> ucont (S n) A ->
  (forall l, (i < length (tl l))%nat -> A (nth i (tl l) 0 :: set_nth (tl l) i (hd 0 l)) = A (hd 0 l :: tl l)) ->
  (forall xs y, box n xs -> D xs * fl xs y = A (y :: xs) * (g (set_nth xs i y) - g xs)) ->
  (forall xs, box n xs -> ex_RInt (fl xs) lo hi) ->
  box_int lo hi n (fun xs => D xs * (g xs + RInt (fl xs) lo hi)) = box_int lo hi n (fun xs => D xs * g xs).
Proof.
  intros Hi Hg HD HA Hsym Hfl Hex.
  set (U := fun l => A l * g (set_nth (tl l) i (hd 0 l))). set (V := fun l => A l * g (tl l)).
  assert (HU : ucont (S n) U) by (unfold U; apply ucont_mult; auto; now apply ucont_setm).
  assert (HV : ucont (S n) V) by (unfold V; apply ucont_mult; auto; now apply ucont_tl).
  assert (E : box_int lo hi n (fun xs => RInt (fun y => U (y :: xs)) lo hi) = box_int lo hi n (fun xs => RInt (fun y => V (y :: xs)) lo hi)).
  { rewrite (exchange lo hi Hlo n i U) by auto. apply box_int_ext; auto. intros xs Hx. apply RInt_in; auto. intros y Hy.
    assert (Hl : (i < length xs)%nat) by (destruct Hx; lia).
    unfold U, V. cbn [hd tl]. rewrite set_nth_set, set_nth_nth by auto. f_equal. apply (Hsym (y :: xs)). exact Hl. }
  transitivity (box_int lo hi n (fun xs => D xs * g xs + (RInt (fun y => U (y :: xs)) lo hi + (-1) * RInt (fun y => V (y :: xs)) lo hi))).
  - apply box_int_ext; auto. intros xs Hx. rewrite Rmult_plus_distr_l. f_equal.
    assert (X1 : ex_RInt (fun y => U (y :: xs)) lo hi) by (apply (uc1_ex lo hi Hlo n U); auto).
    assert (X2 : ex_RInt (fun y => V (y :: xs)) lo hi) by (apply (uc1_ex lo hi Hlo n V); auto).
    transitivity (RInt (fun y => D xs * fl xs y) lo hi).
    { symmetry. apply (RInt_scal (V := R_CompleteNormedModule)). auto. }
    replace (RInt (fun y => U (y :: xs)) lo hi + -1 * RInt (fun y => V (y :: xs)) lo hi) with
      (RInt (fun y => U (y :: xs)) lo hi - RInt (fun y => V (y :: xs)) lo hi) by lra.
    transitivity (RInt (fun y => U (y :: xs) - V (y :: xs)) lo hi).
    2:{ apply (RInt_minus (V := R_CompleteNormedModule)); auto. }
    apply RInt_in; auto. intros y Hy. unfold U, V. cbn [hd tl]. rewrite Hfl by auto. ring.
  - rewrite (box_int_plus lo hi Hlo n (fun xs => D xs * g xs) (fun xs => RInt (fun y => U (y :: xs)) lo hi + -1 * RInt (fun y => V (y :: xs)) lo hi)).
    + rewrite (box_int_plus lo hi Hlo n (fun xs => RInt (fun y => U (y :: xs)) lo hi) (fun xs => -1 * RInt (fun y => V (y :: xs)) lo hi)).
      * rewrite (box_int_scal lo hi Hlo n (-1) (fun xs => RInt (fun y => V (y :: xs)) lo hi)) by now apply ucont_int.
        rewrite E. lra.
      * now apply ucont_int.
      * apply ucont_scal; auto. now apply ucont_int.
    + apply ucont_mult; auto.
    + apply ucont_plus; [now apply ucont_int|]. apply ucont_scal; auto. now apply ucont_int.
Qed.
Lemma wbalance_i g i : (i < n)%nat -> ucont n g ->
  box_int lo hi n (fun xs => wdens xs * wafter_i g i xs) = box_int lo hi n (fun xs => wdens xs * g xs).
Proof.
  intros Hi Hg. unfold wafter_i.
  apply (exchange_balance wdens (fun l => wq (nth i (tl l) 0) (hd 0 l) * stay (tl l) * Rmin (dens' (tl l)) (dens' (set_nth (tl l) i (hd 0 l)))) (wflux g i) g i); auto.
  - apply ucont_wdens.
  - assert (Hd : ucont n dens') by (apply (ucont_dens lo hi Hlo n T L HL)).
    apply ucont_mult; auto; [apply ucont_mult; auto; [now apply ucont_wq|apply (ucont_tl lo hi n stay); apply ucont_stay]|].
    apply ucont_min; auto; [now apply ucont_tl|now apply ucont_setm].
  - intros l Hl. cbn [hd tl]. set (xs := tl l) in *. set (y := hd 0 l). set (x := nth i xs 0).
    rewrite nth_set, set_nth_set by auto. unfold x. rewrite set_nth_nth by auto. fold x.
    rewrite (Rmin_comm (dens' (set_nth xs i y))). f_equal. unfold wq.
    rewrite (q_sym sd Hsd F phi HF Hphi y x). unfold Rdiv. rewrite !Rmult_assoc. f_equal.
    rewrite !(Rmult_comm (/ _)). fold (stay (set_nth xs i y) / h y). fold (stay xs / h x). unfold x. now apply stay_set.
  - intros xs y Hx. cbn [hd tl]. rewrite <- (dens_acc T HT L). unfold wflux, wdens, dens. ring.
  - intros xs Hx. apply (uc1_ex lo hi Hlo n (fun l => wflux g i (tl l) (hd 0 l))); auto. now apply ucont_wflux.
Qed.
Lemma wbalance g : (0 < n)%nat -> ucont n g ->
  box_int lo hi n (fun xs => wdens xs * wafter g xs) = box_int lo hi n (fun xs => wdens xs * g xs).
Proof.
  intros Hn Hg. assert (HN : 0 < INR n) by (apply lt_0_INR; lia).
  transitivity (box_int lo hi n (fun xs => / INR n * rsum (map (fun i => wdens xs * wafter_i g i xs) (seq 0 n)))).
  { apply box_int_ext; auto. intros xs _. unfold wafter. rewrite <- rsum_mult. unfold Rdiv. lra. }
  assert (Hc : forall i, In i (seq 0 n) -> ucont n (fun xs => wdens xs * wafter_i g i xs)).
  { intros i Hi. apply in_seq in Hi. apply ucont_mult; auto; [apply ucont_wdens|]. apply ucont_wafter_i; auto. lia. }
  rewrite (box_int_scal lo hi Hlo n (/ INR n) (fun xs => rsum (map (fun i => wdens xs * wafter_i g i xs) (seq 0 n)))) by now apply ucont_sum.
  rewrite (box_int_sum lo hi Hlo n (seq 0 n) (fun i xs => wdens xs * wafter_i g i xs)) by auto.
  rewrite (map_ext_in _ (fun _ => box_int lo hi n (fun xs => wdens xs * g xs))).
  - rewrite rsum_const, seq_length. field. lra.
  - intros i Hi. apply in_seq in Hi. apply wbalance_i; auto. lia.
Qed.

(** * Order does not matter *)
Definition delete (i : nat) (l : list R) : list R := firstn i l ++ skipn (S i) l.
Fixpoint each_out (f : R -> list R -> R) (xs : list R) : R :=
  match xs with [] => 0 | x :: t => f x t + each_out (fun y r => f y (x :: r)) t end.
Definition symmetric (g : list R -> R) : Prop := forall l l', Permutation l l' -> g l = g l'.
Lemma each_out_ext f f' xs : (forall x r, f x r = f' x r) -> each_out f xs = each_out f' xs.
Proof. revert f f'. induction xs as [|x xs IH]; intros f f' H; cbn; auto. rewrite H. f_equal. apply IH. auto. Qed.
Lemma each_out_perm xs ys : Permutation xs ys -> forall f, (forall x, symmetric (f x)) -> each_out f xs = each_out f ys.
Proof.
  intros H. induction H as [|x l l' Hp IH|x y l|l l' l'' _ IH _ IH']; intros f Hf; cbn; auto.
  - rewrite (Hf x l l' Hp). f_equal. apply IH. intros y a b Hab. apply Hf. auto.
  - rewrite (each_out_ext (fun z r => f z (y :: x :: r)) (fun z r => f z (x :: y :: r))); [lra|].
    intros z r. apply Hf. apply perm_swap.
  - rewrite IH; auto.
Qed.
Lemma each_out_sum f xs : rsum (map (fun i => f (nth i xs 0) (delete i xs)) (seq 0 (length xs))) = each_out f xs.
Proof.
  revert f. induction xs as [|x xs IH]; intros f; [reflexivity|].
  cbn [length seq map each_out]. rewrite <- seq_shift, map_map, <- IH. reflexivity.
Qed.
Lemma set_delete i l y : (i < length l)%nat -> Permutation (set_nth l i y) (y :: delete i l).
Proof.
  revert i. induction l as [|x l IH]; intros [|i] Hi; cbn [length] in Hi; try lia.
  - reflexivity.
  - rewrite set_nth_cons, IH by lia. change (delete (S i) (x :: l)) with (x :: delete i l). apply perm_swap.
Qed.
Definition out (g : list R -> R) (x : R) (r : list R) : R :=
  g (x :: r) + RInt (fun y => wq x y * acc' (x :: r) (y :: r) * (g (y :: r) - g (x :: r))) lo hi.
Lemma wafter_out g xs : symmetric L -> symmetric g -> length xs = n -> wafter g xs = each_out (out g) xs / INR n.
Proof.
  intros SL Sg Hl. unfold wafter. f_equal. rewrite <- each_out_sum. rewrite Hl. f_equal. apply map_ext_in. intros i Hi.
  apply in_seq in Hi. assert (Hi' : (i < length xs)%nat) by lia.
  assert (Hp : Permutation xs (nth i xs 0 :: delete i xs)).
  { rewrite <- (set_nth_nth xs i Hi') at 1. now apply set_delete. }
  unfold wafter_i, out. rewrite (Sg _ _ Hp). f_equal. apply RInt_in; auto. intros y _. unfold wflux, acc.
  rewrite (SL _ _ Hp), (Sg _ _ Hp), (SL _ _ (set_delete i xs y Hi')), (Sg _ _ (set_delete i xs y Hi')). reflexivity.
Qed.
Lemma out_sym g x : symmetric L -> symmetric g -> symmetric (out g x).
Proof.
  intros SL Sg l l' Hp. unfold out. rewrite (Sg (x :: l) (x :: l')) by auto. f_equal. apply RInt_in; auto. intros y _. unfold acc.
  rewrite (SL (x :: l) (x :: l')), (SL (y :: l) (y :: l')), (Sg (y :: l) (y :: l')) by auto. reflexivity.
Qed.
Lemma wafter_sym g xs ys : symmetric L -> symmetric g -> length xs = n -> Permutation xs ys -> wafter g xs = wafter g ys.
Proof.
  intros SL Sg Hl Hp. rewrite !wafter_out; auto; [|rewrite <- Hl; symmetry; now apply Permutation_length].
  f_equal. apply each_out_perm; auto. intros x. now apply out_sym.
Qed.
End Walk.

(** * One site under a constant likelihood: the uniform distribution is not kept *)
Section One.
Context (lo hi : R) (Hlo : lo < hi) (sd T : R) (Hsd : 0 < sd) (HT : 0 < T).
Context (F phi : R -> R) (HF : normal_cdf F) (Hphi : forall z, derivable_pt_lim F z (phi z)).
Notation h := (hit F lo hi sd).
Lemma positive_int (f : R -> R) c : uc1 lo hi f -> (forall x, lo <= x <= hi -> 0 <= f x) -> lo <= c <= hi -> 0 < f c ->
  0 < RInt f lo hi.
Proof.
  intros Hu Hp Hc Hf. destruct (Hu (f c / 2) ltac:(lra)) as (d & Hd & H).
  set (a := Rmax lo (c - d / 2)). set (b := Rmin hi (c + d / 2)).
  assert (Ha : lo <= a /\ c - d / 2 <= a /\ a <= c).
  { unfold a. split; [apply Rmax_l|]. split; [apply Rmax_r|]. apply Rmax_lub; lra. }
  assert (Hb : b <= hi /\ b <= c + d / 2 /\ c <= b).
  { unfold b. split; [apply Rmin_l|]. split; [apply Rmin_r|]. apply Rmin_glb; lra. }
  assert (Hab : a < b). { unfold a, b. apply Rmin_glb_lt; apply Rmax_lub_lt; lra. }
  assert (X : forall u v, lo <= u -> u <= v -> v <= hi -> ex_RInt f u v).
  { intros u v H1 H2 H3. apply (ex_RInt_Chasles_1 (V := R_CompleteNormedModule) _ u v hi); [lra|].
    apply (ex_RInt_Chasles_2 (V := R_CompleteNormedModule) _ lo u hi); [lra|]. now apply (uc1_int lo hi Hlo). }
  rewrite <- (RInt_Chasles (V := R_CompleteNormedModule) f lo a hi) by (apply X; lra).
  rewrite <- (RInt_Chasles (V := R_CompleteNormedModule) f a b hi) by (apply X; lra).
  assert (0 <= RInt f lo a) by (apply RInt_ge_0; [lra|apply X; lra|intros; apply Hp; lra]).
  assert (0 <= RInt f b hi) by (apply RInt_ge_0; [lra|apply X; lra|intros; apply Hp; lra]).
  assert (RInt (fun _ => f c / 2) a b <= RInt f a b).
  { apply RInt_le; [lra|exists ((b - a) * (f c / 2)); apply const_int|apply X; lra|]. intros x Hx.
    assert (Hxc : Rabs (f x - f c) < f c / 2). { apply H; try lra. apply Rabs_def1; lra. }
    apply Rabs_def2 in Hxc. lra. }
  rewrite (is_RInt_unique _ _ _ _ (const_int (f c / 2) a b)) in H2.
  assert (0 < (b - a) * (f c / 2)) by (apply Rmult_lt_0_compat; lra).
  change (0 < RInt f lo a + (RInt f a b + RInt f b hi)). lra.
Qed.
Notation Z := (fun _ : list R => 0).
Definition hits (l : list R) : R := h (hd 0 l).
Lemma hits_cont : cont_on lo hi 1 hits.
Proof.
  apply (ucont_ext lo hi 1 (fun l => h (nth 0 l 0))); [intros [|x l] _; reflexivity|].
  apply (ucont_comp lo hi Hlo 1 h); [eapply hit_cont; eauto|apply ucont_nth].
Qed.
Lemma not_kept x y : lo <= x <= hi -> lo <= y <= hi -> h x <> h y ->
  box_int lo hi 1 hits < box_int lo hi 1 (wafter lo hi 1 sd T F phi Z hits).
Proof.
  intros Hx Hy Hne. set (P := wafter lo hi 1 sd T F phi Z hits).
  assert (HZ : cont_on lo hi 1 Z) by apply ucont_const.
  assert (HP : cont_on lo hi 1 P) by (eapply ucont_wafter; eauto; apply hits_cont).
  set (K := fun l : list R => q sd phi (nth 0 (tl l) 0) (hd 0 l)).
  assert (HK : cont_on lo hi 2 K) by (eapply (ucont_q lo hi Hlo 1 sd F phi HF Hphi O); lia).
  assert (Hh : forall i, cont_on lo hi 2 (fun l => h (nth i l 0))).
  { intros i. apply (ucont_comp lo hi Hlo 2 h); [eapply hit_cont; eauto|apply ucont_nth]. }
  assert (Hi : forall i, cont_on lo hi 2 (fun l => / h (nth i l 0))).
  { intros i. apply (ucont_comp lo hi Hlo 2 (fun x => / h x)); [eapply hit_inv_cont; eauto|apply ucont_nth]. }
  set (U := fun l => K l * / h (nth 1 l 0) * (h (nth 0 l 0) - h (nth 1 l 0))).
  set (V := fun l => K l * / h (nth 0 l 0) * (h (nth 1 l 0) - h (nth 0 l 0))).
  assert (HU : cont_on lo hi 2 U).
  { unfold U. apply ucont_mult; auto; [apply ucont_mult; auto|apply ucont_minus; auto]. }
  assert (HV : cont_on lo hi 2 V).
  { unfold V. apply ucont_mult; auto; [apply ucont_mult; auto|apply ucont_minus; auto]. }
  set (S1 := box_int lo hi 1 (fun xs => RInt (fun y => U (y :: xs)) lo hi)).
  assert (E1 : box_int lo hi 1 P = box_int lo hi 1 hits + S1).
  { unfold S1. rewrite <- (box_int_plus lo hi Hlo 1 hits (fun xs => RInt (fun y => U (y :: xs)) lo hi)) by (auto using hits_cont, ucont_int).
    apply box_int_ext; auto. intros [|a [|b xs]] [Hl _]; try discriminate Hl.
    unfold P, wafter. cbn [seq map]. change (rsum [?r]) with (r + 0). unfold wafter_i. change (INR 1) with 1.
    replace ((hits [a] + RInt (wflux lo hi sd T F phi Z hits 0 [a]) lo hi + 0) / 1) with (hits [a] + RInt (wflux lo hi sd T F phi Z hits 0 [a]) lo hi) by field.
    f_equal. apply RInt_in; auto. intros z _. unfold wflux, U, K, wq, acc, hits. cbn [nth hd tl set_nth].
    replace ((0 - 0) / T) with 0 by (field; lra). rewrite exp_0. rewrite Rmin_left by lra. change (hd 0 (set_nth [a] 0 z)) with z.
    unfold Rdiv. ring. }
  assert (E2 : S1 = box_int lo hi 1 (fun xs => RInt (fun y => V (y :: xs)) lo hi)).
  { unfold S1. rewrite (exchange lo hi Hlo 1 0 U) by (auto; lia). apply box_int_ext; auto. intros [|a [|b xs]] [Hl _]; try discriminate Hl.
    apply RInt_in; auto. intros z _. unfold U, V, K. cbn [nth hd tl set_nth firstn skipn app].
    rewrite (q_sym sd Hsd F phi HF Hphi z a). reflexivity. }
  set (W := fun l => U l + V l). assert (HW : cont_on lo hi 2 W) by (unfold W; apply ucont_plus; auto).
  assert (E3 : 2 * S1 = box_int lo hi 1 (fun xs => RInt (fun y => W (y :: xs)) lo hi)).
  { replace (2 * S1) with (S1 + S1) by ring. rewrite E2 at 2. unfold S1.
    rewrite <- (box_int_plus lo hi Hlo 1 (fun xs => RInt (fun y => U (y :: xs)) lo hi) (fun xs => RInt (fun y => V (y :: xs)) lo hi)) by (auto using ucont_int).
    apply box_int_ext; auto. intros xs Hxs. symmetry. apply (RInt_plus (V := R_CompleteNormedModule) (fun y => U (y :: xs)) (fun y => V (y :: xs)));
      [apply (uc1_ex lo hi Hlo 1 U)|apply (uc1_ex lo hi Hlo 1 V)]; auto. }
  destruct (phi_bell F phi HF Hphi) as (c & Hc & Hb).
  assert (HWs : forall a b, W [b; a] = q sd phi a b * ((h b - h a) * (h b - h a)) / (h a * h b)).
  { intros a b. unfold W, U, V, K. cbn [nth hd tl]. pose proof (hit_pos lo hi Hlo sd Hsd F HF a). pose proof (hit_pos lo hi Hlo sd Hsd F HF b). field. lra. }
  assert (Hq : forall a b, 0 < q sd phi a b).
  { intros a b. unfold q. apply Rdiv_lt_0_compat; auto. rewrite Hb. apply Rmult_lt_0_compat; auto. apply exp_pos. }
  assert (HWn : forall a b, 0 <= W [b; a]).
  { intros a b. rewrite HWs. pose proof (hit_pos lo hi Hlo sd Hsd F HF a). pose proof (hit_pos lo hi Hlo sd Hsd F HF b).
    apply Rmult_le_pos; [apply Rmult_le_pos; [left; auto|apply Rle_0_sqr]|]. left. apply Rinv_0_lt_compat. apply Rmult_lt_0_compat; auto. }
  assert (HWp : 0 < W [y; x]).
  { rewrite HWs. pose proof (hit_pos lo hi Hlo sd Hsd F HF x). pose proof (hit_pos lo hi Hlo sd Hsd F HF y).
    apply Rdiv_lt_0_compat; [|apply Rmult_lt_0_compat; auto]. apply Rmult_lt_0_compat; auto. apply Rsqr_pos_lt. lra. }
  assert (Hpos : 0 < 2 * S1).
  { rewrite E3. change (0 < RInt (fun a => RInt (fun b => W [b; a]) lo hi) lo hi).
    assert (Hr : forall a, lo <= a <= hi -> uc1 lo hi (fun b => W [b; a])).
    { intros a Ha. apply (ucont_head lo hi 1 W [a]); auto. split; auto. }
    apply (positive_int _ x); auto.
    - apply (ucont_head lo hi 0 (fun xs => RInt (fun b => W (b :: xs)) lo hi) []); [now apply ucont_int|split; auto].
    - intros a Ha. apply RInt_ge_0; [lra|apply (uc1_int lo hi Hlo); auto|]. intros b _. apply HWn.
    - apply (positive_int _ y); auto. }
  rewrite E1. lra.
Qed.
End One.
