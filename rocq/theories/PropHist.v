(** C80 (drawings of densities), C81 (histograms of interfaces), C82 (drawings of statistics). *)
From Coq Require Import Permutation.
From Verif Require Import Base ModelUtils1D ModelPrior ModelState ModelSpace ModelEnsemble ModelPlot ModelHist
  SpecUtils1D SpecEnsemble SpecPlot SpecHist ProofUtils1D ProofUtils1DB ProofState ProofSpaceB
  ProofEnsemble ProofEnsembleB ProofEnsembleC ProofEnsembleD ExampleRun PropUtils1D PropEnsemble.
Local Open Scope R_scope.

Local Ltac tess := repeat (apply Forall2_cons || apply Forall2_nil);
  (split; [easy|split; [reflexivity|]]); first [apply asc_sorted; cbn; lra | repeat constructor; lra].

(** * C80 *)
Lemma pairs_nth e i ab : nth_error (pairs e) i = Some ab <-> nth_error e i = Some (fst ab) /\ nth_error e (S i) = Some (snd ab).
Proof.
  unfold pairs. rewrite nth_combine, nth_skipn1. destruct ab as [a b]. cbn [fst snd].
  destruct (nth_error e i) as [x|]; [|split; [discriminate|intros [H _]; discriminate]].
  destruct (nth_error e (S i)) as [y|]; [|split; [discriminate|intros [_ H]; discriminate]].
  split; [intros [= <- <-]; auto|intros [[= <-] [= <-]]; auto].
Qed.
Lemma mesh_in X Y C r v :
  In (r, v) (flat_map (fun yr : R * R * list R => map (fun xv : R * R * R => (fst xv, fst yr, snd xv)) (combine (pairs X) (snd yr))) (combine (pairs Y) C)) <->
  exists i j row, nth_error C i = Some row /\ nth_error row j = Some v /\ nth_error (pairs X) j = Some (fst r) /\ nth_error (pairs Y) i = Some (snd r).
Proof.
  rewrite in_flat_map. split.
  - intros (yr & Hy & H). apply in_map_iff in H. destruct H as (xv & E & Hx). injection E as <- <-.
    apply In_nth_error in Hy, Hx. destruct Hy as [i Hi], Hx as [j Hj]. rewrite nth_combine in Hi. rewrite nth_combine in Hj.
    destruct (nth_error (pairs Y) i) as [y|] eqn:Ey; [|discriminate]. destruct (nth_error C i) as [row|] eqn:Er; [|discriminate].
    injection Hi as <-. cbn [fst snd] in *.
    destruct (nth_error (pairs X) j) as [x|] eqn:Ex; [|discriminate]. destruct (nth_error row j) as [v|] eqn:Ev; [|discriminate].
    injection Hj as <-. cbn [fst snd]. exists i, j, row. auto.
  - intros (i & j & row & Hr & Hv & Hx & Hy). exists (snd r, row). split.
    + apply nth_error_In with i. now rewrite nth_combine, Hy, Hr.
    + apply in_map_iff. exists (fst r, v). cbn [fst snd]. split; [now destruct r|].
      apply nth_error_In with j. now rewrite nth_combine, Hx, Hv.
Qed.
Lemma mesh_shows X Y C q v :
  shows (flat_map (fun yr : R * R * list R => map (fun xv : R * R * R => (fst xv, fst yr, snd xv)) (combine (pairs X) (snd yr))) (combine (pairs Y) C)) q v <->
  exists i j row, nth_error C i = Some row /\ nth_error row j = Some v /\ inside_bin X j (fst q) /\ inside_bin Y i (snd q).
Proof.
  split.
  - intros (r & Hr & Hx & Hy). apply mesh_in in Hr. destruct Hr as (i & j & row & A & B & C' & D).
    apply pairs_nth in C', D. exists i, j, row. split; auto. split; auto. split; eexists _, _; intuition eauto.
  - intros (i & j & row & A & B & (a & b & Ha & Hb & Hab) & (c & d & Hc & Hd & Hcd)).
    exists ((a, b), (c, d)). split; [|split; auto]. apply mesh_in. exists i, j, row. split; auto. split; auto.
    split; apply pairs_nth; auto.
Qed.
Lemma shape d nx ny : length d = nx -> Forall (fun r : list R => length r = ny) d -> (0 < nx)%nat ->
  match d with [] => O | r :: _ => length r end = ny.
Proof. intros L F H. destruct d as [|r d]; cbn in L; [lia|]. now inversion F. Qed.
Lemma density_shape cells values pb vb ty d ex ey : get_tessellation_density cells values pb vb ty = Ok (d, ex, ey) ->
  strictly_sortedR ex /\ strictly_sortedR ey /\ length d = (length ex - 1)%nat /\ (0 < length ex - 1)%nat /\
  Forall (fun r => length r = (length ey - 1)%nat) d /\ (0 < length ey - 1)%nat.
Proof.
  unfold get_tessellation_density. intros H. apply rbind_ok in H. destruct H as (qs & _ & H). apply rbind_ok in H. destruct H as (rows & _ & H).
  destruct (histogram_spec _ _ _ _ _ _ H) as (_ & _ & Sx & Sy & Ld & Fd & total & Ht & Hc & _).
  split; auto. split; auto. split; auto.
  assert (Hi : exists i j x y, in_bin ex i x /\ in_bin ey j y).
  { clear - Ht Hc. revert Ht. induction Hc as [|a l n (i & j & A & B) _ _|a l n _ _ IH]; intros Ht; [lia| |auto]. eauto 8. }
  destruct Hi as (i & j & x & y & Hx & Hy). apply bin_lt in Hx, Hy. repeat split; auto; lia.
Qed.
Lemma inside_in e i x : inside_bin e i x -> in_bin e i x.
Proof. intros (a & b & Ha & Hb & H). exists a, b. repeat split; auto; lra. Qed.
Lemma inside_unique e i j x : strictly_sortedR e -> inside_bin e i x -> inside_bin e j x -> i = j.
Proof. intros Hs Hi Hj. apply inside_in in Hi, Hj. apply bin_of_spec in Hi, Hj; auto. congruence. Qed.

(** With swapped axes (the default) the drawing exists and shows, at every value and position inside a bin, the
    density there and nothing else: its mass in the bin is the fraction of the pairs of position and value of a
    sample that fall into it. *)
Theorem C80_shown_partial : forall ty cells values qs vb ps,
  Forall2 (tessellation ty) cells values -> queries ty qs ->
  plot_tessellation_density cells values (PArr qs) vb ty true = Ok ps ->
  exists rows total ex ey,
    Forall2 (fun cv row => Forall2 (cell_value ty (fst cv) (snd cv)) qs row) (combine cells values) rows /\
    (0 < total)%nat /\ strictly_sortedR ex /\ strictly_sortedR ey /\
    counts (fun xy => exists i j, in_bin ex i (fst xy) /\ in_bin ey j (snd xy))
      (flat_map (fun row => combine qs row) rows) total /\
    forall i j p x wx wy, inside_bin ex i p -> inside_bin ey j x -> bin_width ex i wx -> bin_width ey j wy ->
      exists v c, (forall v', shows ps (place true p x) v' <-> v' = v) /\
        counts (fun xy => in_bin ex i (fst xy) /\ in_bin ey j (snd xy)) (flat_map (fun row => combine qs row) rows) c /\
        v * wx * wy = INR c / INR total.
Proof.
  intros ty cells values qs vb ps F Hq H. unfold plot_tessellation_density in H. apply rbind_ok in H. destruct H as ([[d ex] ey] & Ed & H).
  destruct (density_shape _ _ _ _ _ _ _ _ Ed) as (Sx & Sy & Ld & Lx & Fd & Ly).
  destruct (C66_density_partial ty cells values qs vb d ex ey F Hq Ed) as (rows & total & Fr & Ht & Hc & Hm & _).
  unfold pcolormesh in H. rewrite (shape _ _ _ Ld Fd Lx), Ld in H.
  replace ((length ey =? length ey - 1) && (length ex =? length ex - 1))%nat%bool with false in H by (symmetry; apply andb_false_iff; left; apply Nat.eqb_neq; lia).
  replace ((length ey =? length ey - 1 + 1) && (length ex =? length ex - 1 + 1))%nat%bool with true in H by (symmetry; apply andb_true_iff; split; apply Nat.eqb_eq; lia).
  injection H as <-.
  exists rows, total, ex, ey. split; auto. split; auto. split; auto. split; auto. split; auto.
  intros i j p x wx wy Hp Hx Hwx Hwy.
  pose proof (bin_lt _ _ _ (inside_in _ _ _ Hp)) as Bi. pose proof (bin_lt _ _ _ (inside_in _ _ _ Hx)) as Bj.
  destruct (entry_nth d i j _ _ Ld Fd Bi Bj) as (r & Hr & Hv). set (v := SpecUtils1D.entry d i j) in *.
  destruct (Hm i j r v wx wy Hr Hv Hwx Hwy) as (_ & _ & c & Cc & Ev).
  exists v, c. split; [|auto]. intros v'. rewrite mesh_shows. cbn [place fst snd]. split.
  - intros (i' & j' & row & A & B & C & D). rewrite (inside_unique _ _ _ _ Sx D Hp) in A. rewrite (inside_unique _ _ _ _ Sy C Hx) in B. congruence.
  - intros ->. exists i, j, r. auto.
Qed.
(** It exists for numbers of bins. *)
Theorem C80_exists : forall ty cells values n m ub,
  cells <> [] -> Forall2 (tessellation ty) cells values -> deepest ty cells ub -> 0 < ub -> (2 <= n)%nat -> (1 <= m)%nat ->
  exists ps, plot_tessellation_density cells values (PNum n) (NBins m) ty true = Ok ps /\ length ps = (n * m)%nat.
Proof.
  intros ty cells values n m ub Hne F Hd Hub Hn Hm.
  destruct (C66_default ty cells values n m ub Hne F Hd Hub Hn Hm) as (d & ex & ey & E & Ld & Fd & Lx & Ly & _).
  unfold plot_tessellation_density. rewrite E. cbn [rbind]. unfold pcolormesh. rewrite (shape d n m Ld Fd) by lia. rewrite Ld, Lx, Ly.
  replace ((S m =? m) && (S n =? n))%nat%bool with false by (symmetry; apply andb_false_iff; left; apply Nat.eqb_neq; lia).
  replace ((S m =? m + 1) && (S n =? n + 1))%nat%bool with true by (symmetry; apply andb_true_iff; split; apply Nat.eqb_eq; lia).
  eexists. split; [reflexivity|].
  assert (Lp : forall e k, length e = S k -> length (pairs e) = k).
  { intros e k L. unfold pairs. rewrite combine_length, skipn_length. lia. }
  rewrite <- (Lp ex n Lx) in Ld |- *. rewrite <- (Lp ey m Ly) in Fd |- *. clear - Ld Fd. revert d Ld Fd. generalize (pairs ex). intros l.
  induction l as [|p l IH]; intros [|r d] L F; try discriminate; [reflexivity|]. inversion F; subst.
  cbn [combine flat_map]. rewrite app_length, map_length, combine_length, IH by (auto; now injection L).
  cbn [length snd]. rewrite H1, Nat.min_id. lia.
Qed.
(** Without swapping the axes TypeError is raised unless there are as many position bins as value bins. *)
Theorem C80_unswapped_error : forall ty cells values pb vb d ex ey,
  get_tessellation_density cells values pb vb ty = Ok (d, ex, ey) -> length ex <> length ey ->
  plot_tessellation_density cells values pb vb ty false = Raise EType.
Proof.
  intros ty cells values pb vb d ex ey E Hne. unfold plot_tessellation_density. rewrite E. cbn [rbind].
  destruct (density_shape _ _ _ _ _ _ _ _ E) as (Sx & Sy & Ld & Lx & Fd & Ly).
  unfold pcolormesh. rewrite (shape _ _ _ Ld Fd Lx), Ld.
  destruct (Nat.eqb_spec (length ex) (length ey - 1)); destruct (Nat.eqb_spec (length ey) (length ex - 1)); cbn [andb]; try lia;
  destruct (Nat.eqb_spec (length ex) (length ey - 1 + 1)); destruct (Nat.eqb_spec (length ey) (length ex - 1 + 1)); cbn [andb]; try lia; reflexivity.
Qed.
(** With as many, as by default, the drawing is transposed: the colour at a position and a value is the density of
    the bins with exchanged numbers. *)
Theorem C80_unswapped_transposed : forall ty cells values pb vb d ex ey,
  get_tessellation_density cells values pb vb ty = Ok (d, ex, ey) -> length ex = length ey ->
  exists ps, plot_tessellation_density cells values pb vb ty false = Ok ps /\
    forall i j p x v, inside_bin ex i p -> inside_bin ey j x ->
      (shows ps (place false p x) v <-> exists r, nth_error d j = Some r /\ nth_error r i = Some v).
Proof.
  intros ty cells values pb vb d ex ey E Heq. unfold plot_tessellation_density. rewrite E. cbn [rbind].
  destruct (density_shape _ _ _ _ _ _ _ _ E) as (Sx & Sy & Ld & Lx & Fd & Ly).
  unfold pcolormesh. rewrite (shape _ _ _ Ld Fd Lx), Ld.
  replace ((length ex =? length ey - 1) && (length ey =? length ex - 1))%nat%bool with false by (symmetry; apply andb_false_iff; left; apply Nat.eqb_neq; lia).
  replace ((length ex =? length ey - 1 + 1) && (length ey =? length ex - 1 + 1))%nat%bool with true by (symmetry; apply andb_true_iff; split; apply Nat.eqb_eq; lia).
  eexists. split; [reflexivity|]. intros i j p x v Hp Hx. rewrite mesh_shows. cbn [place fst snd]. split.
  - intros (i' & j' & row & A & B & C & D). rewrite (inside_unique _ _ _ _ Sy D Hx) in A. rewrite (inside_unique _ _ _ _ Sx C Hp) in B. eauto.
  - intros (r & A & B). exists j, i, r. auto.
Qed.
Local Ltac each := repeat match goal with |- Ok _ = Ok _ => f_equal | |- cons _ _ = cons _ _ => f_equal end; try reflexivity; lra.
(** One sample with one site, the value 5, two bins each way: the density at the first position and the value 5.25 is
    2, but the drawing shows 0 there (and 2 at the value 4.75, which no sample has). *)
Lemma one_density : get_tessellation_density [[1]] [[5]] (PNum 2) (NBins 2) Nuclei =
  Ok ([[0; 2]; [0; 2]], [0; 1/2; 1], [9/2; 5; 11/2]).
Proof.
  unfold get_tessellation_density.
  assert (E1 : density_positions [[1]] (PNum 2) Nuclei = Ok [0; 1]).
  { cbn. unfold linspace. cbn. do 2 f_equal; [lra|]. f_equal. lra. }
  rewrite E1. cbn [rbind]. assert (E2 : interpolate_tessellations [[1]] [[5]] [0; 1] Nuclei = Ok [[5; 5]]).
  { unfold interpolate_tessellations, interpolate_rows. cbn. unfold interp_nearest. cbn. rewrite (Rleb_t 1 1), (Rleb_t 0 1) by lra. reflexivity. }
  rewrite E2. cbn [rbind flat_map combine app length]. unfold histogram2d. cbn [map fst snd].
  assert (Ex : edges_of (NBins 2) [0; 1] = Ok [0; 1/2; 1]).
  { cbn. unfold Rmin, Rmax. destruct (Rle_dec 0 1); [|lra]. rewrite Reqb_f by lra. unfold linspace. cbn. each. }
  assert (Ey : edges_of (NBins 2) [5; 5] = Ok [9/2; 5; 11/2]).
  { cbn. unfold Rmin, Rmax. destruct (Rle_dec 5 5); [|lra]. rewrite Reqb_t by lra. unfold linspace. cbn. each. }
  rewrite Ex, Ey. cbn [rbind].
  assert (B0 : bin_of [0; 1/2; 1] 0 = Some 0%nat) by (unfold bin_of; cbn; rewrite (Rleb_t 0 0), (Rleb_f (1/2) 0), (Rleb_f 1 0), (Reqb_f 0 1) by lra; reflexivity).
  assert (B1 : bin_of [0; 1/2; 1] 1 = Some 1%nat) by (unfold bin_of; cbn; rewrite (Rleb_t 0 1), (Rleb_t (1/2) 1), (Rleb_t 1 1), (Reqb_t 1 1) by lra; reflexivity).
  assert (B5 : bin_of [9/2; 5; 11/2] 5 = Some 1%nat) by (unfold bin_of; cbn; rewrite (Rleb_t (9/2) 5), (Rleb_t 5 5), (Rleb_f (11/2) 5), (Reqb_f 5 (11/2)) by lra; reflexivity).
  unfold widths. cbn [skipn combine map fst snd length seq]. unfold in_cell. cbn [filter fst snd].
  rewrite B0, B1, B5. cbn [Nat.eqb andb filter length nsum fold_right map Nat.add orb existsb app].
  rewrite !Reqb_f by lra. cbn [orb]. cbn. f_equal. f_equal. f_equal. each.
Qed.
Theorem C80_refuted : exists cells values n d ex ey ps i j p x r v,
  Forall2 (tessellation Nuclei) cells values /\
  get_tessellation_density cells values (PNum n) (NBins n) Nuclei = Ok (d, ex, ey) /\
  plot_tessellation_density cells values (PNum n) (NBins n) Nuclei false = Ok ps /\
  inside_bin ex i p /\ inside_bin ey j x /\ nth_error d i = Some r /\ nth_error r j = Some v /\
  0 < v /\ shows ps (place false p x) 0 /\ ~ shows ps (place false p x) v.
Proof.
  destruct (C80_unswapped_transposed Nuclei [[1]] [[5]] (PNum 2) (NBins 2) _ _ _ one_density eq_refl) as (ps & E & H).
  exists [[1]], [[5]], 2%nat, [[0; 2]; [0; 2]], [0; 1/2; 1], [9/2; 5; 11/2], ps, 0%nat, 1%nat, (1/4), (21/4), [0; 2], 2.
  assert (I0 : inside_bin [0; 1/2; 1] 0 (1/4)) by (exists 0, (1/2); repeat split; lra).
  assert (I1 : inside_bin [9/2; 5; 11/2] 1 (21/4)) by (exists 5, (11/2); repeat split; lra).
  split. { tess. }
  split; [exact one_density|]. split; [exact E|]. split; auto. split; auto. split; [reflexivity|]. split; [reflexivity|]. split; [lra|].
  split.
  - apply (H 0%nat 1%nat); auto. exists [0; 2]. auto.
  - intros Hs. apply (H 0%nat 1%nat) in Hs; auto. destruct Hs as (r & [= <-] & [= Hv]). lra.
Qed.
(** The same ensemble drawn with swapped axes. *)
Example C80_case : exists ps, plot_tessellation_density [[1]] [[5]] (PNum 2) (NBins 2) Nuclei true = Ok ps /\ shows ps (place true (1/4) (21/4)) 2.
Proof.
  unfold plot_tessellation_density. rewrite one_density. cbn [rbind]. eexists. split; [reflexivity|].
  apply mesh_shows. exists 0%nat, 1%nat, [0; 2]. split; auto. split; auto. split; [exists 5, (11/2)|exists 0, (1/2)]; cbn; repeat split; lra.
Qed.
Example C80_error_case : exists d ex ey, get_tessellation_density [[1]] [[5]] (PNum 2) (NBins 1) Nuclei = Ok (d, ex, ey) /\ length ex <> length ey.
Proof.
  destruct (C66_default Nuclei [[1]] [[5]] 2 1 1) as (d & ex & ey & E & _ & _ & Lx & Ly & _); try lia; try lra; try easy.
  - tess.
  - split; [exists [1]; cbn; auto|]. intros c x [<-|[]] [<-|[]]. lra.
  - exists d, ex, ey. split; auto. lia.
Qed.

(** * C81 *)
Lemma midpoints_spec s : length (midpoints s) = (length s - 1)%nat /\
  forall i a b, nth_error s i = Some a -> nth_error s (S i) = Some b -> nth_error (midpoints s) i = Some ((a + b) / 2).
Proof.
  induction s as [|x s [L IH]]; [split; [reflexivity|intros [|i]; discriminate]|].
  destruct s as [|y s]; [split; [reflexivity|intros [|i] a b _ H; [discriminate|destruct i; discriminate]]|].
  cbn [midpoints length] in *. split; [lia|]. intros [|i] a b Ha Hb.
  - injection Ha as <-. injection Hb as <-. reflexivity.
  - exact (IH i a b Ha Hb).
Qed.
Lemma sums_finite e x l acc : all_finite (map (fun c => eadd c (Fin x)) (removelast (cumsum_from (Fin acc) e))) = Some l ->
  exists es, map Fin es = firstn (length e - 1) e /\ length l = (length e - 1)%nat /\
    forall i, (i < length l)%nat -> nth_error l i = Some (acc + x + rsum (firstn (S i) es)).
Proof.
  revert acc l. induction e as [|y e IH]; intros acc l H.
  - injection H as <-. exists []. repeat split. cbn. intros i Hi. lia.
  - destruct e as [|z e]; [injection H as <-; exists []; repeat split; cbn; intros i Hi; lia|].
    cbn [cumsum_from] in H. change (removelast (eadd (Fin acc) y :: ?a :: ?b)) with (eadd (Fin acc) y :: removelast (a :: b)) in H.
    destruct y as [y| | |]; cbn [eadd map all_finite] in H; try discriminate.
    destruct (all_finite _) as [l'|] eqn:E; [|discriminate]. injection H as <-.
    destruct (IH (acc + y) l' E) as (es & Es & Ll & Hn). exists (y :: es).
    cbn [length] in *. replace (S (S (length e)) - 1)%nat with (S (S (length e) - 1)) by lia. split.
    { change (firstn (S (S (length e) - 1)) (Fin y :: z :: e)) with (Fin y :: firstn (S (length e) - 1) (z :: e)). now rewrite <- Es. }
    split; [lia|].
    intros [|i] Hi.
    + cbn. unfold rsum. cbn. f_equal. lra.
    + cbn [nth_error]. rewrite Hn by lia. f_equal. change (firstn (S (S i)) (y :: es)) with (y :: firstn (S i) es). change (rsum (y :: firstn (S i) es)) with (y + rsum (firstn (S i) es)). lra.
Qed.
Lemma interfaces_spec lb c l : interfaces lb c = Ok l -> boundaries lb c l.
Proof.
  destruct c as [s|e]; cbn [interfaces boundaries].
  - intros [= <-]. apply midpoints_spec.
  - unfold interfaces_extents. destruct lb as [x|]; [|discriminate]. cbn [rbind].
    destruct (all_finite _) as [l'|] eqn:E; [|discriminate]. intros [= <-]. exists x. split; auto.
    destruct (sums_finite e x l' 0 E) as (es & Es & L & Hn). split; auto. exists es. split; auto.
    intros i Hi. rewrite Hn by auto. f_equal. lra.
Qed.
Lemma rmap_forall {A B} (f : A -> res B) l l' : ModelPlot.rmap f l = Ok l' -> Forall2 (fun a b => f a = Ok b) l l'.
Proof.
  revert l'. induction l as [|a l IH]; intros l' H; cbn in H; [injection H as <-; constructor|].
  apply rbind_ok in H. destruct H as (b & Eb & H). apply rbind_ok in H. destruct H as (bs & Es & H). injection H as <-. constructor; auto.
Qed.
Lemma bin_b_spec e i x : strictly_sortedR e -> in_bin_b e i x = true <-> in_bin e i x.
Proof.
  intros S. unfold in_bin_b. rewrite <- (bin_of_spec e x i S). destruct (bin_of e x) as [b|]; [|split; discriminate].
  rewrite Nat.eqb_eq. split; congruence.
Qed.
Lemma histogram_total1 e data n : n = (length e - 1)%nat ->
  nsum (map (fun i => length (filter (in_bin_b e i) data)) (seq 0 n)) =
  length (filter (fun x => match bin_of e x with Some _ => true | None => false end) data).
Proof.
  intros Hn. induction data as [|x data IH]; [now apply nsum_zero|].
  rewrite (nsum_map_ext _ (fun i => (b2n (in_bin_b e i x) + length (filter (in_bin_b e i) data))%nat)) by (intros; apply filter_cons_len).
  rewrite nsum_map_add, IH, filter_cons_len. f_equal. unfold in_bin_b. destruct (bin_of e x) as [b|] eqn:Eb; [|now apply nsum_zero].
  apply bin_of_lt in Eb. rewrite (nsum_delta _ 0 n b) by (try lia; intros j Hj; replace (b =? j)%nat with false by (symmetry; apply Nat.eqb_neq; lia); reflexivity).
  now rewrite Nat.eqb_refl.
Qed.

(** The bars stand on strictly increasing edges; the area of each is the fraction of the boundaries between cells of
    all samples in its bin, and the areas add up to one. *)
Theorem C81_bars : forall cs lb b swap bars, plot_interface_hist cs lb b swap = Ok bars ->
  exists ls edges total, Forall2 (boundaries lb) cs ls /\ strictly_sortedR edges /\ (0 < total)%nat /\
    counts (fun x => exists i, in_bin edges i x) (concat ls) total /\
    length bars = (length edges - 1)%nat /\
    (forall i r, nth_error bars i = Some r -> exists x y h c,
      nth_error edges i = Some x /\ nth_error edges (S i) = Some y /\ r = bar swap x y h /\
      counts (in_bin edges i) (concat ls) c /\ area r = INR c / INR total) /\
    rsum (map area bars) = 1 /\
    match b with Edges l => edges = l | NBins n => length edges = S n /\ total = length (concat ls) /\
      exists lo w, 0 < w /\ forall i, (i <= n)%nat -> nth_error edges i = Some (lo + INR i * w) end.
Proof.
  intros cs lb b swap bars H. unfold plot_interface_hist in H. apply rbind_ok in H. destruct H as (ls & El & H).
  apply rbind_ok in H. destruct H as ([hist e] & Eh & H). injection H as <-.
  set (data := concat ls) in *. unfold histogram in Eh. apply rbind_ok in Eh. destruct Eh as (e' & Ee & Eh).
  rewrite (histogram_total1 e' data _ (widths_length e')) in Eh.
  set (total := length (filter _ data)) in *.
  set (cn := map (fun i => length (filter (in_bin_b e' i) data)) (seq 0 (length (widths e')))) in *.
  destruct ((total =? 0)%nat || existsb (fun w => Reqb w 0) (widths e')) eqn:E; [discriminate|]. injection Eh as <- <-.
  apply orb_false_iff in E. destruct E as [E0 E1]. apply Nat.eqb_neq in E0.
  assert (W : forall w, In w (widths e') -> w <> 0).
  { intros w Hw ->. assert (existsb (fun w => Reqb w 0) (widths e') = true); [|congruence].
    apply existsb_exists. exists 0. split; auto. now apply Reqb_true. }
  pose proof (edges_strict _ _ _ Ee W) as Se.
  assert (Hc : counts (fun x => exists i, in_bin e' i x) data total).
  { apply counts_filter. intros x. destruct (bin_of e' x) as [k|] eqn:Ek.
    - split; auto. intros _. exists k. now apply bin_of_spec.
    - split; [discriminate|]. intros (i & Hi). apply bin_of_spec in Hi; auto. congruence. }
  assert (Hpos : 0 < INR total) by (apply lt_0_INR; lia).
  assert (Hb : forall i r, nth_error (map (fun eh : R * R * R => let '(a, w, h) := eh in if swap then ((0, h), (a, a + w)) else ((a, a + w), (0, h)))
      (combine (combine (removelast e') (widths e')) (map (fun cw => INR (fst cw) / snd cw / INR total) (combine cn (widths e'))))) i = Some r ->
      exists x y h, nth_error e' i = Some x /\ nth_error e' (S i) = Some y /\ r = bar swap x y h /\
        area r = INR (length (filter (in_bin_b e' i) data)) / INR total).
  { intros i r Hr. rewrite nth_error_map, !nth_combine, nth_error_map, nth_combine in Hr.
    destruct (nth_error (widths e') i) as [w|] eqn:Ew; [|destruct (nth_error (removelast e') i); discriminate].
    assert (Li : (i < length (widths e'))%nat) by (apply nth_error_Some; congruence).
    assert (Ec : nth_error cn i = Some (length (filter (in_bin_b e' i) data))).
    { unfold cn. rewrite nth_error_map. replace (nth_error (seq 0 (length (widths e'))) i) with (Some i); [reflexivity|].
      symmetry. rewrite (nth_error_nth' _ O) by now rewrite seq_length. now rewrite seq_nth. }
    rewrite Ec in Hr. cbn [fst snd] in Hr. pose proof Ew as Bw. apply widths_nth in Bw. destruct Bw as (x & y & Hx & Hy & ->).
    assert (Ex : nth_error (removelast e') i = Some x).
    { rewrite removelast_firstn_len. rewrite <- Hx. rewrite widths_length in Li. clear - Li. revert i Li. induction e' as [|z e IH]; intros i Li; [cbn in Li; lia|].
      cbn [length Nat.pred]. destruct e as [|z' e]; [cbn in Li; lia|]. destruct i as [|i]; [reflexivity|]. cbn [length firstn nth_error]. apply IH. cbn in *. lia. }
    rewrite Ex in Hr. cbn [option_map] in Hr. injection Hr as <-. exists x, y, (INR (length (filter (in_bin_b e' i) data)) / (y - x) / INR total).
    split; auto. split; auto. pose proof (Se i (S i) x y ltac:(lia) Hx Hy) as Hlt. replace (x + (y - x)) with y by lra.
    split; [now destruct swap|]. unfold area. destruct swap; cbn; field; lra. }
  set (bars := map _ (combine _ _)) in *.
  assert (Lb : length bars = (length e' - 1)%nat).
  { unfold bars. rewrite map_length, !combine_length, map_length, combine_length. unfold cn. rewrite map_length, seq_length, widths_length.
    rewrite removelast_firstn_len, firstn_length. lia. }
  exists ls, e', total. split. { apply rmap_forall in El. eapply Forall2_impl; [|exact El]. intros c l. apply interfaces_spec. }
  split; auto. split; [lia|]. split; auto. split; auto. split; [|split].
  - intros i r Hr. destruct (Hb i r Hr) as (x & y & h & Hx & Hy & -> & Ha). exists x, y, h, (length (filter (in_bin_b e' i) data)).
    split; auto. split; auto. split; auto. split; auto. apply counts_filter. intros z. now apply bin_b_spec.
  - assert (Em : map area bars = map (fun i => INR (length (filter (in_bin_b e' i) data)) / INR total) (seq 0 (length e' - 1))).
    { apply nth_error_ext. intros i. rewrite !nth_error_map. destruct (nth_error bars i) as [r|] eqn:Er.
      - assert (Li : (i < length e' - 1)%nat) by (rewrite <- Lb; apply nth_error_Some; congruence).
        rewrite (nth_error_nth' _ O) by now rewrite seq_length. rewrite seq_nth by auto. cbn.
        destruct (Hb i r Er) as (_ & _ & _ & _ & _ & _ & Ha). now rewrite Ha.
      - apply nth_error_None in Er. replace (nth_error (seq 0 (length e' - 1)) i) with (@None nat); [reflexivity|].
        symmetry. apply nth_error_None. rewrite seq_length. lia. }
    rewrite Em.
    assert (Es : forall (f : nat -> nat) l, rsum (map (fun i => INR (f i) / INR total) l) = INR (nsum (map f l)) / INR total).
    { intros f l. induction l as [|a l IH]; cbn [map]; [cbn; field; lra|]. change (rsum (?a :: ?l)) with (a + rsum l). rewrite IH.
      change (nsum (f a :: map f l)) with (f a + nsum (map f l))%nat. rewrite plus_INR. field. lra. }
    rewrite Es, (histogram_total1 e' data _ eq_refl). fold total. field. lra.
  - destruct b as [n|l].
    + destruct n as [|n]; [discriminate|]. destruct (edges_number (S n) data ltac:(lia)) as (lo & hi & Hlh & En & Hin & _). rewrite En in Ee. injection Ee as <-.
      split; [apply linspace_length|]. split.
      * eapply counts_fun; [exact Hc|]. clear - Hlh Hin. fold data. clearbody data.
        induction data as [|x data IH]; [constructor|]. cbn [length]. apply counts_yes; [|apply IH; intros; apply Hin; now right].
        apply linspace_bin; auto; [lia|]. apply Hin. now left.
      * exists lo, ((hi - lo) / INR (S n)). split; [apply Rdiv_lt_0_compat; [lra|apply lt_0_INR; lia]|].
        intros i Hi. apply linspace_nth. split; [lia|]. replace (S (S n) - 1)%nat with (S n) by lia. reflexivity.
    + cbn in Ee. destruct (forallb _ _); [|discriminate]. now injection Ee.
Qed.
(** The histogram exists for every number of bins as soon as one sample has two cells. *)
Theorem C81_exists : forall cs lb n swap ls, Forall2 (fun c l => interfaces lb c = Ok l) cs ls -> concat ls <> [] -> (1 <= n)%nat ->
  exists bars, plot_interface_hist cs lb (NBins n) swap = Ok bars /\ length bars = n.
Proof.
  intros cs lb n swap ls F Hne Hn. unfold plot_interface_hist.
  assert (El : ModelPlot.rmap (interfaces lb) cs = Ok ls) by (clear - F; induction F as [|c l cs ls H _ IH]; [reflexivity|]; cbn; now rewrite H, IH).
  rewrite El. cbn [rbind]. set (data := concat ls) in *. unfold histogram.
  destruct (edges_number n data Hn) as (lo & hi & Hlh & En & Hin & _). rewrite En. cbn [rbind].
  set (e := linspace lo hi (S n)). pose proof (linspace_strict lo hi (S n) Hlh : strictly_sortedR e) as Se. assert (Le : length e = S n) by apply linspace_length.
  rewrite (histogram_total1 e data _ (widths_length e)).
  assert (Ht : length (filter (fun x => match bin_of e x with Some _ => true | None => false end) data) = length data).
  { clear - Hin Hlh Hn Se. clearbody data. induction data as [|x data IH]; [reflexivity|]. cbn [filter].
    destruct (linspace_bin lo hi n x Hlh Hn (Hin x (or_introl eq_refl))) as (i & Hi). apply (bin_of_spec e x i Se) in Hi. rewrite Hi. cbn [length]. f_equal.
    apply IH. intros; apply Hin; now right. }
  rewrite Ht. replace (length data =? 0)%nat with false by (symmetry; apply Nat.eqb_neq; destruct data; [easy|cbn; lia]).
  replace (existsb (fun v => Reqb v 0) (widths e)) with false.
  2:{ symmetry. apply not_true_is_false. intros H. apply existsb_exists in H. destruct H as (w & Hw & H0). apply Reqb_true in H0. subst w.
      apply In_nth_error in Hw. destruct Hw as [i Hi]. apply widths_nth in Hi. destruct Hi as (a & b & Ha & Hb & E). pose proof (Se i (S i) a b ltac:(lia) Ha Hb). lra. }
  cbn [orb rbind]. eexists. split; [reflexivity|].
  rewrite map_length, !combine_length, map_length, combine_length, map_length, seq_length, widths_length, removelast_firstn_len, firstn_length. lia.
Qed.
(** Extents need the lower boundary. *)
Theorem C81_no_boundary : forall e cs b swap, plot_interface_hist (OfExtents e :: cs) None b swap = Raise EAssert.
Proof. reflexivity. Qed.
(** The sites 1, 3 and 2, 4, 6; the layers of thickness 1 and 2 below 1, then one without end. *)
Example C81_case : exists bars bars', plot_interface_hist [OfNuclei [1; 3]; OfNuclei [2; 4; 6]] None (NBins 3) true = Ok bars /\ length bars = 3%nat /\
  plot_interface_hist [OfExtents [Fin 1; Fin 2; PInf]] (Some 1) (NBins 2) false = Ok bars' /\ length bars' = 2%nat.
Proof.
  destruct (C81_exists [OfNuclei [1; 3]; OfNuclei [2; 4; 6]] None 3 true [[(1 + 3) / 2]; [(2 + 4) / 2; (4 + 6) / 2]]) as (b & Eb & Lb); [repeat constructor|easy|lia|].
  destruct (C81_exists [OfExtents [Fin 1; Fin 2; PInf]] (Some 1) 2 false [[0 + 1 + 1; 0 + 1 + 2 + 1]]) as (b' & Eb' & Lb'); [repeat constructor|easy|lia|].
  exists b, b'. auto.
Qed.

(** * C82 *)
(** Six curves: mean, mean minus and plus standard deviation, median, first and second percentile of the values of the
    samples at the given positions. *)
Theorem C82_curves : forall ty cells values qs percentiles swap,
  cells <> [] -> Forall2 (tessellation ty) cells values -> queries ty qs ->
  Forall (fun p => 0 <= p <= 100) percentiles -> (2 <= length percentiles)%nat ->
  exists c1 c2 c3 c4 c5 c6, plot_tessellation_statistics cells values qs percentiles ty swap = Ok [c1; c2; c3; c4; c5; c6] /\
    Forall (fun c => length c = length qs) [c1; c2; c3; c4; c5; c6] /\
    forall j q, nth_error qs j = Some q -> exists xs m s d p0 p1 v0 v1,
      Forall2 (fun cv x => cell_value ty (fst cv) (snd cv) q x) (combine cells values) xs /\
      mean_of xs m /\ std_of xs s /\ median_of xs d /\
      nth_error percentiles 0 = Some p0 /\ percentile_of xs p0 v0 /\ nth_error percentiles 1 = Some p1 /\ percentile_of xs p1 v1 /\
      map (fun c => nth_error c j) [c1; c2; c3; c4; c5; c6] =
      map (fun v => Some (place swap q v)) [m; m - s; m + s; d; v0; v1].
Proof.
  intros ty cells values qs ps swap Hne F Hq Hp Hl.
  destruct (C65_statistics_partial ty cells values qs ps Hne F Hq Hp) as (st & E & Lm & Ld & Ls & Lp & Fp & H).
  unfold plot_tessellation_statistics. rewrite E. cbn [rbind].
  destruct ps as [|p0 [|p1 ps]]; cbn in Hl; try lia.
  destruct (ts_percentiles st) as [|r0 [|r1 rs]] eqn:Er; try discriminate. inversion Fp as [|? ? L0 Fp']; subst. inversion Fp' as [|? ? L1 _]; subst.
  cbn [idx nth_error rbind map].
  assert (Lc : forall y, length y = length qs -> length (curve swap qs y) = length qs).
  { intros y Ly. unfold curve. destruct swap; rewrite combine_length; lia. }
  assert (Lb : forall f : R -> R -> R, length (map (fun ms => f (fst ms) (snd ms)) (combine (ts_mean st) (ts_std st))) = length qs).
  { intros f. rewrite map_length, combine_length. lia. }
  eexists _, _, _, _, _, _. split; [reflexivity|]. split; [repeat constructor; auto|].
  intros j q Hj. destruct (H j q Hj) as (xs & m & d & s & Fx & Hm & Mm & Hd & Md & Hs & Ss & Hper).
  destruct (Hper 0%nat p0 eq_refl) as (row0 & v0 & [= <-] & V0 & P0). destruct (Hper 1%nat p1 eq_refl) as (row1 & v1 & [= <-] & V1 & P1).
  assert (Cn : forall y v, nth_error y j = Some v -> nth_error (curve swap qs y) j = Some (place swap q v)).
  { intros y v Hv. unfold curve, place. destruct swap; rewrite nth_combine, Hj, Hv; reflexivity. }
  assert (Bn : forall f : R -> R -> R, nth_error (map (fun ms => f (fst ms) (snd ms)) (combine (ts_mean st) (ts_std st))) j = Some (f m s)).
  { intros f. rewrite nth_error_map, nth_combine, Hm, Hs. reflexivity. }
  exists xs, m, s, d, p0, p1, v0, v1. repeat (split; [assumption || reflexivity|]).
  cbn [map]. rewrite (Cn _ _ Hm), (Cn _ _ (Bn Rminus)), (Cn _ _ (Bn Rplus)), (Cn _ _ Hd), (Cn _ _ V0), (Cn _ _ V1). reflexivity.
Qed.
(** With fewer than two percentiles IndexError is raised, after four of the curves. *)
Theorem C82_few_percentiles : forall ty cells values qs percentiles swap,
  cells <> [] -> Forall2 (tessellation ty) cells values -> queries ty qs ->
  Forall (fun p => 0 <= p <= 100) percentiles -> (length percentiles < 2)%nat ->
  plot_tessellation_statistics cells values qs percentiles ty swap = Raise EIndex.
Proof.
  intros ty cells values qs ps swap Hne F Hq Hp Hl.
  destruct (C65_statistics_partial ty cells values qs ps Hne F Hq Hp) as (st & E & _ & _ & _ & Lp & _).
  unfold plot_tessellation_statistics. rewrite E. cbn [rbind]. destruct (ts_percentiles st) as [|a [|b l]]; cbn in Lp; try lia; reflexivity.
Qed.
Example C82_case : Forall2 (tessellation Nuclei) [[1; 3]; [2]] [[10; 20]; [14]] /\ queries Nuclei [0; 5/2] /\
  Forall (fun p => 0 <= p <= 100) [10; 90].
Proof. split; [tess|]. split; [exact I|]. repeat constructor; lra. Qed.
