(** Proofs about ModelEnsemble.v: interpolation and statistics. *)
From Coq Require Import Permutation.
From Verif Require Import Base ModelUtils1D ModelPrior ModelState ModelSpace ModelEnsemble
  SpecUtils1D SpecEnsemble ProofUtils1D ProofUtils1DB ProofState ProofSpaceB.
Local Open Scope R_scope.

(** * Lists *)
Lemma Forall2_length {A B} {P : A -> B -> Prop} {l l'} : Forall2 P l l' -> length l = length l'.
Proof. induction 1; cbn; auto. Qed.
Lemma Forall2_nth {A B} (P : A -> B -> Prop) l l' i a : Forall2 P l l' ->
  nth_error l i = Some a -> exists b, nth_error l' i = Some b /\ P a b.
Proof.
  intros H. revert i. induction H as [|x y l l' Hp _ IH]; intros [|i] E; try discriminate; cbn in *.
  - injection E as <-. eauto.
  - eauto.
Qed.
Lemma Forall2_nth_r {A B} (P : A -> B -> Prop) l l' i b : Forall2 P l l' ->
  nth_error l' i = Some b -> exists a, nth_error l i = Some a /\ P a b.
Proof.
  intros H. revert i. induction H as [|x y l l' Hp _ IH]; intros [|i] E; try discriminate; cbn in *.
  - injection E as <-. eauto.
  - eauto.
Qed.
Lemma rsum_perm l l' : Permutation l l' -> rsum l = rsum l'.
Proof. unfold rsum. intros H. induction H; cbn; lra. Qed.

(** * Order *)
Lemma sorted_cons x l : sortedR (x :: l) -> sortedR l /\ Forall (fun y => x <= y) l.
Proof.
  intros H. split.
  - intros i j a b Hij Ha Hb. apply (H (S i) (S j) a b); auto. lia.
  - apply Forall_forall. intros y Hy. apply In_nth_error in Hy. destruct Hy as [j Hj].
    apply (H O (S j) x y); auto. lia.
Qed.
Lemma in_order_unique l s s' : in_order l s -> in_order l s' -> s = s'.
Proof.
  intros [P S] [P' S']. assert (Q : Permutation s s') by (now rewrite <- P).
  clear P P'. revert s' Q S'. induction s as [|x s IH]; intros s' Q S'.
  - apply Permutation_nil in Q. auto.
  - destruct s' as [|y s']; [symmetry in Q; now apply Permutation_nil in Q|].
    destruct (sorted_cons _ _ S) as [S1 F1]. destruct (sorted_cons _ _ S') as [S2 F2].
    assert (x = y).
    { assert (Hx : In x (y :: s')) by (rewrite <- Q; now left).
      assert (Hy : In y (x :: s)) by (rewrite Q; now left).
      rewrite Forall_forall in F1, F2.
      destruct Hx as [Hx|Hx]; auto. destruct Hy as [Hy|Hy]; auto.
      specialize (F1 _ Hy). specialize (F2 _ Hx). lra. }
    subst y. f_equal. apply IH; auto. now apply Permutation_cons_inv in Q.
Qed.
Lemma rsort_in_order l : in_order l (rsort l).
Proof. split; [symmetry; apply rsort_perm|apply ordered_sorted, rsort_ordered]. Qed.
Lemma rsort_eq l l' : Permutation l l' -> rsort l = rsort l'.
Proof.
  intros P. apply (in_order_unique l); [apply rsort_in_order|].
  destruct (rsort_in_order l') as [Q S]. split; auto. now rewrite P.
Qed.
Lemma rsort_length l : length (rsort l) = length l.
Proof. apply Permutation_length, rsort_perm. Qed.

(** * Interpolation *)
Lemma interp_value ty c v qs : tessellation ty c v -> queries ty qs ->
  exists row, interpolate_tessellation c v qs ty = Ok row /\ Forall2 (cell_value ty c v) qs row.
Proof.
  intros (H1 & H2 & H3) Hq. destruct ty; cbn [interpolate_tessellation cell_value queries] in *.
  - unfold interpolate_nearest_1d. apply rmap_spec. intros q _.
    destruct (interp_nearest_spec c v q H1 H3 H2) as (k & x & Hx & Hk & a & Ha & Hn).
    exists x. split; auto. exists k, a. auto.
  - destruct Hq as [Hs Hp]. destruct (depth_profile_spec c v qs H1 H2 Hs Hp) as (vs & Hvs & HF).
    exists vs. auto.
Qed.
Lemma rows_spec {C} (interp : C -> list R -> res (list R)) (P : C -> list R -> list R -> Prop) cells values nq :
  Forall2 (fun c v => exists row, interp c v = Ok row /\ P c v row) cells values ->
  exists rows, interpolate_rows interp cells values nq = Ok rows /\
    Forall2 (fun cv row => P (fst cv) (snd cv) row) (combine cells values) rows /\
    length rows = length values.
Proof.
  intros H. unfold interpolate_rows.
  destruct (rmap_spec (fun cv => interp (fst cv) (snd cv)) (fun cv row => P (fst cv) (snd cv) row) (combine cells values))
    as (rows & Hr & HF).
  { induction H as [|c v cs vs Hc _ IH]; intros [c' v'] Hin; [easy|]. destruct Hin as [E|Hin]; [|exact (IH _ Hin)].
    injection E as -> ->. exact Hc. }
  rewrite Hr. cbn. assert (L : length rows = length values).
  { rewrite <- (Forall2_length HF), combine_length, (Forall2_length H). lia. }
  rewrite L, Nat.sub_diag. cbn. rewrite app_nil_r. eauto.
Qed.
Lemma argmin_loop_spec l : forall i best m,
  let r := argmin_loop l i best m in
  (r = best /\ forall j b, nth_error l j = Some b -> m <= b) \/
  (exists j a, r = (i + j)%nat /\ nth_error l j = Some a /\ a < m /\
     forall j' b, nth_error l j' = Some b -> a <= b).
Proof.
  induction l as [|x l IH]; intros i best m; cbn.
  - left. split; auto. now intros [|j] b.
  - destruct (Rltb x m) eqn:E.
    + apply Rltb_true in E. destruct (IH (S i) i x) as [[-> H]|(j & a & -> & Ha & Hl & H)].
      * right. exists O, x. repeat split; auto. intros [|j] b Hb; cbn in Hb; [injection Hb as ->; lra|eauto].
      * right. exists (S j), a. repeat split; auto; try lia; try lra.
        intros [|j'] b Hb; cbn in Hb; [injection Hb as ->; lra|eauto].
    + assert (~ x < m) by (intros H; apply Rltb_true in H; congruence).
      destruct (IH (S i) best m) as [[-> H']|(j & a & -> & Ha & Hl & H')].
      * left. split; auto. intros [|j] b Hb; cbn in Hb; [injection Hb as ->; lra|eauto].
      * right. exists (S j), a. repeat split; auto; try lia.
        intros [|j'] b Hb; cbn in Hb; [injection Hb as ->; lra|eauto].
Qed.
Lemma argmin_spec l : l <> [] -> exists k a, argmin l = Ok k /\ nth_error l k = Some a /\
  forall j b, nth_error l j = Some b -> a <= b.
Proof.
  destruct l as [|x l]; [easy|]. intros _. unfold argmin.
  destruct (argmin_loop_spec l 1 0 x) as [[E H]|(j & a & E & Ha & Hl & H)].
  - exists O, x. rewrite E. repeat split; auto. intros [|j] b Hb; cbn in Hb; [injection Hb as ->; lra|eauto].
  - exists (S j), a. rewrite E. repeat split; auto. intros [|j'] b Hb; cbn in Hb; [injection Hb as ->; lra|eauto].
Qed.
Lemma dist2_sqdist a b : dist2 a b = sqdist a b.
Proof. unfold sqdist. revert b. induction a as [|x a IH]; intros [|y b]; cbn in *; auto. now rewrite IH. Qed.
Lemma dist2_pos a b : 0 <= dist2 a b.
Proof. revert b. induction a as [|x a IH]; intros [|y b]; cbn -[pow]; try lra. specialize (IH b). pose proof (pow2_ge_0 (x - y)). lra. Qed.
Lemma interp_2d_value sites vals qs : sites <> [] -> length vals = length sites ->
  exists row, interpolate_2d sites vals qs = Ok row /\ Forall2 (cell_value_nd sites vals) qs row.
Proof.
  intros Hs Hl. unfold interpolate_2d. apply rmap_spec. intros q _. cbn [nearest_neighbour].
  destruct (argmin_spec (map (fun s => sqrt (dist2 s q)) sites)) as (k & a & E & Ha & Hn).
  { destruct sites; easy. }
  rewrite E. cbn. rewrite nth_error_map in Ha. destruct (nth_error sites k) as [s|] eqn:Es; [|easy].
  injection Ha as <-. destruct (nth_error vals k) as [x|] eqn:Ex.
  2:{ apply nth_error_None in Ex. assert (k < length sites)%nat by (apply nth_error_Some; congruence). lia. }
  exists x. split; [now apply idx_ok|]. exists k, s. repeat split; auto.
  intros j b Hb. specialize (Hn j (sqrt (dist2 b q))). rewrite nth_error_map, Hb in Hn. specialize (Hn eq_refl).
  rewrite <- !dist2_sqdist. apply sqrt_le_0; auto using dist2_pos.
Qed.

(** * Statistics of one column *)
Lemma np_mean_spec l : l <> [] -> mean_of l (np_mean l).
Proof.
  intros H. unfold mean_of, np_mean. assert (INR (length l) <> 0) by (apply not_0_INR; destruct l; easy).
  field. auto.
Qed.
Lemma rsum_nonneg l : Forall (fun x => 0 <= x) l -> 0 <= rsum l.
Proof. unfold rsum. induction 1; cbn; lra. Qed.
Lemma len_pos {A} (l : list A) : l <> [] -> 0 < INR (length l).
Proof. intros H. apply lt_0_INR. destruct l; [easy|cbn; lia]. Qed.
Lemma np_std_spec l : l <> [] -> std_of l (np_std l).
Proof.
  intros H. pose proof (len_pos l H). split; [apply sqrt_pos|]. exists (np_mean l).
  split; [now apply np_mean_spec|]. unfold np_std. rewrite pow2_sqrt.
  - rewrite <- (map_length (fun x => (x - np_mean l) ^ 2) l). apply np_mean_spec. destruct l; easy.
  - unfold np_mean at 1. rewrite map_length. apply Rmult_le_pos; [|left; now apply Rinv_0_lt_compat].
    apply rsum_nonneg, Forall_map, Forall_forall. intros x _. apply pow2_ge_0.
Qed.
Lemma np_median_spec l : l <> [] -> exists d, np_median l = Ok d /\ median_of l d.
Proof.
  intros H. unfold np_median. assert (L : (0 < length l)%nat) by (destruct l; [easy|cbn; lia]).
  pose proof (rsort_length l) as E. destruct (Nat.even (length l)) eqn:Ev.
  - apply Nat.even_spec in Ev. destruct Ev as [k Ek]. rewrite Ek, Nat.mul_comm, Nat.div_mul by lia.
    destruct (nth_error (rsort l) (k - 1)) as [a|] eqn:Ha; [|apply nth_error_None in Ha; lia].
    destruct (nth_error (rsort l) k) as [b|] eqn:Hb; [|apply nth_error_None in Hb; lia].
    apply idx_ok in Ha, Hb. rewrite Ha, Hb. cbn. apply idx_ok in Ha, Hb.
    exists ((a + b) / 2). split; auto. exists (rsort l). split; [apply rsort_in_order|].
    exists (k - 1)%nat. right. split; [lia|]. exists a, b. replace (S (k - 1)) with k by lia. auto.
  - assert (Od : Nat.odd (length l) = true) by (unfold Nat.odd; now rewrite Ev).
    apply Nat.odd_spec in Od. destruct Od as [k Ek]. assert (length l / 2 = k)%nat as ->.
    { rewrite Ek, Nat.mul_comm, Nat.div_add_l by lia. cbn. lia. }
    destruct (nth_error (rsort l) k) as [b|] eqn:Hb; [|apply nth_error_None in Hb; lia].
    exists b. split; [now apply idx_ok|]. exists (rsort l). split; [apply rsort_in_order|]. exists k. left. auto.
Qed.
Lemma np_percentile_spec l p : l <> [] -> 0 <= p <= 100 ->
  exists v, np_percentile l p = Ok v /\ percentile_of l p v.
Proof.
  intros H Hp. unfold np_percentile.
  replace (Rltb p 0) with false by (symmetry; apply not_true_is_false; intros Q; apply Rltb_true in Q; lra).
  replace (Rltb 100 p) with false by (symmetry; apply not_true_is_false; intros Q; apply Rltb_true in Q; lra).
  cbn [orb]. assert (L : (0 < length l)%nat) by (destruct l; [easy|cbn; lia]).
  set (h := INR (length l - 1) * (p / 100)). set (k := Z.to_nat (Int_part h)).
  assert (Hh : 0 <= h) by (apply Rmult_le_pos; [apply pos_INR|lra]).
  assert (Hb : h <= INR (length l - 1)).
  { unfold h. rewrite <- (Rmult_1_r (INR (length l - 1))) at 2. apply Rmult_le_compat_l; [apply pos_INR|lra]. }
  destruct (base_Int_part h) as [B1 B2].
  assert (Hz : (0 <= Int_part h)%Z).
  { assert (-1 < Int_part h)%Z by (apply lt_IZR; lra). lia. }
  assert (Hk : INR k = IZR (Int_part h)) by (unfold k; rewrite INR_IZR_INZ, Z2Nat.id; auto).
  assert (Hkl : (k <= length l - 1)%nat).
  { apply INR_le. lra. }
  destruct (nth_error (rsort l) k) as [a|] eqn:Ea.
  2:{ apply nth_error_None in Ea. rewrite rsort_length in Ea. lia. }
  pose proof (proj2 (idx_ok _ _ _) Ea) as Ea'. rewrite Ea'. cbn [rbind].
  assert (Eq : p / 100 * (INR (length l) - 1) = INR k + (h - INR k)).
  { unfold h. rewrite minus_INR by lia. cbn [INR]. lra. }
  destruct (nth_error (rsort l) (S k)) as [b|] eqn:Eb.
  - eexists. split; [reflexivity|]. exists (rsort l). split; [apply rsort_in_order|].
    exists k, (h - INR k), a. repeat split; auto; try lra.
    right. exists b. split; auto. lra.
  - exists a. split; [reflexivity|]. exists (rsort l). split; [apply rsort_in_order|].
    exists k, (h - INR k), a. repeat split; auto; try lra. left. split; auto.
    apply nth_error_None in Eb. rewrite rsort_length in Eb. assert (k = length l - 1)%nat by lia.
    assert (INR k = INR (length l - 1)) by congruence. lra.
Qed.

(** * All columns *)
Definition stats_at (st : tess_stats) (percentiles : list R) (j : nat) (xs : list R) : Prop :=
  (exists m, nth_error (ts_mean st) j = Some m /\ mean_of xs m) /\
  (exists d, nth_error (ts_median st) j = Some d /\ median_of xs d) /\
  (exists s, nth_error (ts_std st) j = Some s /\ std_of xs s) /\
  (length (ts_percentiles st) = length percentiles /\
   forall i p, nth_error percentiles i = Some p ->
     exists row v, nth_error (ts_percentiles st) i = Some row /\ nth_error row j = Some v /\ percentile_of xs p v).
Lemma column_spec rows n j : Forall (fun r => length r = n) rows -> (j < n)%nat ->
  exists col, column rows j = Ok col /\ Forall2 (fun r x => nth_error r j = Some x) rows col.
Proof.
  intros F Hj. unfold column. apply rmap_spec. intros r Hr. rewrite Forall_forall in F. specialize (F r Hr).
  destruct (nth_error r j) as [x|] eqn:E; [|apply nth_error_None in E; lia]. exists x. split; auto. now apply idx_ok.
Qed.
Lemma nth_error_seq0 n j : (j < n)%nat -> nth_error (seq 0 n) j = Some j.
Proof.
  intros H. rewrite (nth_error_nth' _ O) by now rewrite seq_length. rewrite seq_nth; auto.
Qed.
Lemma statistics_spec rows nq percentiles : rows <> [] -> Forall (fun r => length r = nq) rows ->
  Forall (fun p => 0 <= p <= 100) percentiles ->
  exists st, statistics rows nq percentiles = Ok st /\
    length (ts_mean st) = nq /\ length (ts_median st) = nq /\ length (ts_std st) = nq /\
    Forall (fun r => length r = nq) (ts_percentiles st) /\
    forall j, (j < nq)%nat -> exists col, Forall2 (fun r x => nth_error r j = Some x) rows col /\ stats_at st percentiles j col.
Proof.
  intros Hr Hl Hp. unfold statistics. destruct rows as [|r0 rows']; [easy|]. set (rows := r0 :: rows') in *.
  destruct (rmap_spec (column rows) (fun j col => Forall2 (fun r x => nth_error r j = Some x) rows col) (seq 0 nq))
    as (cols & Ec & Fc).
  { intros j Hj. apply in_seq in Hj. eapply column_spec; eauto. lia. }
  rewrite Ec. cbn [rbind].
  assert (Ne : Forall (fun c => c <> []) cols).
  { apply Forall_forall. intros c Hc. apply In_nth_error in Hc. destruct Hc as [j Hj].
    destruct (Forall2_nth_r _ _ _ _ _ Fc Hj) as (j' & _ & F). intros ->. inversion F. }
  rewrite Forall_forall in Ne, Hp.
  destruct (rmap_spec np_median median_of cols) as (med & Em & Fm); [intros; apply np_median_spec; auto|].
  rewrite Em. cbn [rbind].
  destruct (rmap_spec (fun q => rmap (fun c => np_percentile c q) cols) (fun p row => Forall2 (fun c v => percentile_of c p v) cols row) percentiles)
    as (per & Ep & Fp).
  { intros p Hin. apply rmap_spec. intros c Hc. apply np_percentile_spec; auto. }
  rewrite Ep. cbn [rbind]. eexists. split; [reflexivity|]. cbn [ts_mean ts_median ts_std ts_percentiles].
  assert (Lc : length cols = nq) by (rewrite <- (Forall2_length Fc); apply seq_length).
  rewrite !map_length, <- (Forall2_length Fm). repeat split; auto.
  { apply Forall_forall. intros r Hin. apply In_nth_error in Hin. destruct Hin as [i Hi].
    destruct (Forall2_nth_r _ _ _ _ _ Fp Hi) as (p & _ & F). now rewrite <- (Forall2_length F). }
  intros j Hj. destruct (Forall2_nth _ _ _ _ _ Fc (nth_error_seq0 nq j Hj)) as (col & Ecol & F).
  exists col. split; auto. assert (Nc : col <> []) by (apply Ne; eapply nth_error_In; eauto).
  unfold stats_at. cbn [ts_mean ts_median ts_std ts_percentiles]. rewrite !nth_error_map, Ecol. cbn [option_map].
  repeat split.
  - eexists. split; [reflexivity|]. now apply np_mean_spec.
  - destruct (Forall2_nth _ _ _ _ _ Fm Ecol) as (d & Hd & H). eauto.
  - eexists. split; [reflexivity|]. now apply np_std_spec.
  - symmetry. apply (Forall2_length Fp).
  - intros i p Hi. destruct (Forall2_nth _ _ _ _ _ Fp Hi) as (row & Hrow & Frow).
    destruct (Forall2_nth _ _ _ _ _ Frow Ecol) as (v & Hv & H). eauto.
Qed.
