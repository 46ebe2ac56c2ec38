(** Property theorems C41 (inverse), C44-C51 with examples. *)
From Verif Require Import Base ModelUtils1D SpecUtils1D ProofUtils1D ProofUtils1DB.
Local Open Scope R_scope.

(** Helper for the examples: consecutive elements in order. *)
Fixpoint asc (l : list R) : Prop :=
  match l with
  | a :: ((b :: _) as t) => a < b /\ asc t
  | _ => True
  end.
Lemma asc_strict l : asc l -> strictly_sortedR l.
Proof.
  induction l as [|a l IH]; intros H i j c d Hij Hc Hd.
  - now destruct i.
  - destruct j as [|j]; [lia|]. cbn in Hd.
    assert (Hl : asc l) by (destruct l; cbn in *; tauto).
    destruct i as [|i].
    + cbn in Hc. injection Hc as <-.
      destruct l as [|b l]; [now destruct j|]. cbn in H.
      destruct j as [|j]; [cbn in Hd; injection Hd as <-; lra|].
      assert (b < d) by (apply (IH Hl 0%nat (S j)); auto; lia). lra.
    + cbn in Hc. apply (IH Hl i j); auto. lia.
Qed.
Lemma asc_sorted l : asc l -> sortedR l.
Proof. intros. apply strictly_sorted_sorted, asc_strict, H. Qed.

(** ** C44 *)
Theorem C44_nearest_neighbour_exact : forall x q,
  x <> [] -> sortedR x ->
  exists k, nearest_neighbour_1d q x = Ok k /\ nearest_site x q k.
Proof. exact nearest_neighbour_1d_spec. Qed.

Example C44_example :
  sortedR [1; 2; 2; 4] /\ nearest_neighbour_1d 3 [1; 2; 2; 4] = Ok 3%nat
  /\ nearest_neighbour_1d (5/2) [1; 2; 2; 4] = Ok 2%nat.
Proof.
  split; [|split].
  - intros i j a b Hij.
    do 4 (destruct i as [|i]; [do 4 (destruct j as [|j]; [cbn; intros [= <-] [= <-]; try lia; lra|]);
      destruct j; cbn; discriminate|]). destruct i; cbn; discriminate.
  - unfold nearest_neighbour_1d; cbn. rbool; cbn; try lra; auto.
    all: rewrite (Rabs_left1 (2 - 3)), (Rabs_right (4 - 3)) in * by lra; lra.
  - unfold nearest_neighbour_1d; cbn. rbool; cbn; try lra; auto.
    all: rewrite (Rabs_left1 (2 - 5/2)), (Rabs_right (4 - 5/2)) in * by lra; lra.
Qed.

(** ** C45 *)
Theorem C45_interpolate_linear : forall x y q,
  x <> [] -> sortedR x -> length y = length x ->
  exists v, interp_linear q x y = Ok v /\
    (forall a, nth_error x 0 = Some a -> q <= a -> nth_error y 0 = Some v) /\
    (forall a z, nth_error x 0 = Some a -> a < q ->
       nth_error x (length x - 1) = Some z -> z <= q ->
       nth_error y (length x - 1) = Some v) /\
    (forall i c d u w z,
       nth_error x i = Some c -> nth_error x (S i) = Some d ->
       nth_error y i = Some u -> nth_error y (S i) = Some w ->
       nth_error x (length x - 1) = Some z -> q < z ->
       c < q <= d ->
       v = u + (q - c) * (w - u) / (d - c) /\ Rmin u w <= v <= Rmax u w).
Proof. exact interp_linear_spec. Qed.

Theorem C45_node_values : forall x y k a,
  strictly_sortedR x -> length y = length x -> nth_error x k = Some a ->
  exists v, interp_linear a x y = Ok v /\ nth_error y k = Some v.
Proof. exact interp_linear_node. Qed.

(** The array version maps the scalar version, never failing. *)
Theorem C45_array : forall x y qs,
  x <> [] -> sortedR x -> length y = length x ->
  exists vs, interpolate_linear_1d qs x y = Ok vs /\
    Forall2 (fun q v => interp_linear q x y = Ok v) qs vs.
Proof.
  intros x y qs H1 H2 H3. apply rmap_spec. intros q _.
  destruct (interp_linear_spec x y q H1 H2 H3) as (v & Hv & _). eauto.
Qed.

Example C45_example :
  sortedR [0; 1; 3] /\ interp_linear 2 [0; 1; 3] [5; 6; 10] = Ok (6 + (2 - 1) * (10 - 6) / (3 - 1))
  /\ interp_linear (-1) [0; 1; 3] [5; 6; 10] = Ok 5.
Proof.
  split; [apply asc_sorted; cbn; lra|].
  split; unfold interp_linear, floor_index; cbn; rbool; cbn; rbool; try lra; auto.
Qed.

(** ** C46 *)
Theorem C46_bounds_ordered : forall x lo hi q,
  x <> [] -> sortedR x -> length lo = length x -> length hi = length x ->
  (forall i u v, nth_error lo i = Some u -> nth_error hi i = Some v -> u < v) ->
  exists a b, interp_linear q x lo = Ok a /\ interp_linear q x hi = Ok b /\ a < b.
Proof. exact interp_linear_mono. Qed.

Theorem C46_width : forall x lo hi q,
  x <> [] -> sortedR x -> length lo = length x -> length hi = length x ->
  exists a b, interp_linear q x lo = Ok a /\ interp_linear q x hi = Ok b /\
    interp_linear q x (map (fun p => fst p - snd p) (combine hi lo)) = Ok (b - a).
Proof. exact interp_linear_diff. Qed.

Example C46_example :
  sortedR [0; 1] /\
  (forall i u v, nth_error [1; 2] i = Some u -> nth_error [3; 2.5] i = Some v -> u < v).
Proof.
  split; [apply asc_sorted; cbn; lra|].
  intros [|[|[|i]]] u v; cbn; try discriminate; intros [= <-] [= <-]; lra.
Qed.

(** ** C47 *)
Theorem C47_interpolate_nearest : forall x y q,
  x <> [] -> sortedR x -> length y = length x ->
  exists k v, interp_nearest q x y = Ok v /\ nth_error y k = Some v /\
    exists a, nth_error x k = Some a /\
    forall j b, nth_error x j = Some b -> Rabs (a - q) <= Rabs (b - q).
Proof. exact interp_nearest_spec. Qed.

(** With distinct sites the value is that of the nearest site, ties to the right. *)
Theorem C47_interpolate_nearest_strict : forall x y q k,
  strictly_sortedR x -> length y = length x -> nearest_site x q k ->
  exists v, interp_nearest q x y = Ok v /\ nth_error y k = Some v.
Proof. exact interp_nearest_strict. Qed.

Theorem C47_array : forall x y qs,
  x <> [] -> sortedR x -> length y = length x ->
  exists vs, interpolate_nearest_1d qs x y = Ok vs /\
    Forall2 (fun q v => exists k, nth_error y k = Some v /\
      exists a, nth_error x k = Some a /\
      forall j b, nth_error x j = Some b -> Rabs (a - q) <= Rabs (b - q)) qs vs.
Proof.
  intros x y qs H1 H2 H3. unfold interpolate_nearest_1d. apply rmap_spec. intros q _.
  destruct (interp_nearest_spec x y q H1 H2 H3) as (k & v & Hv & Hk & H). eauto.
Qed.

Example C47_example :
  strictly_sortedR [1; 2; 4] /\ interp_nearest 3 [1; 2; 4] [10; 20; 40] = Ok 40.
Proof.
  split; [apply asc_strict; cbn; lra|].
  unfold interp_nearest, nearest_neighbour_1d. cbn. rbool; cbn; rbool; cbn; try lra; auto.
  all: rewrite (Rabs_left1 (2 - 3)), (Rabs_right (4 - 3)) in * by lra; lra.
Qed.

(** ** C48: holds with at least two sites (three when the left end is unbounded). *)
Theorem C48_cell_extents_partial : forall sites lb ub fill,
  (match lb with Some _ => 2 | None => 3 end <= length sites)%nat ->
  exists es, compute_voronoi1d_cell_extents sites lb ub fill = Ok es /\
    length es = length sites /\
    forall i e, nth_error es i = Some e -> e = cell_extent sites lb ub fill i.
Proof.
  intros sites lb ub fill H. eexists. split; [apply extents_spec, H|].
  split; [now rewrite map_length, seq_length|].
  intros i e. rewrite nth_error_map_seq. destruct (i <? length sites)%nat; congruence.
Qed.

Theorem C48_extents_partition_partial : forall sites l u fill,
  (2 <= length sites)%nat -> sortedR sites -> Forall (fun a => l <= a <= u) sites ->
  exists es, compute_voronoi1d_cell_extents sites (Some l) (Some u) fill = Ok (map Fin es) /\
    length es = length sites /\
    Forall (fun e => 0 <= e) es /\ rsum es = u - l /\
    (forall k, (k <= length sites)%nat ->
       exists b, boundary sites (Some l) (Some u) k = Some b /\
                 rsum (firstn k es) = b - l).
Proof. exact extents_bounded. Qed.

(** One site (any bounds) and two sites on a left-unbounded domain read
    uninitialised variables or memory outside the array. *)
Theorem C48_few_sites_refuted :
  (forall s lb ub fill, compute_voronoi1d_cell_extents [s] lb ub fill = Undef) /\
  (forall s t ub fill, compute_voronoi1d_cell_extents [s; t] None ub fill = Undef).
Proof. split; intros; [destruct lb|]; reflexivity. Qed.

(** The docstring example of compute_cell_extents (_voronoi.py:631-640). *)
Example C48_example :
  compute_voronoi1d_cell_extents [2; 5.5; 8; 10] (Some 0) (Some 15) NaN
    = Ok [Fin ((2 + 5.5) / 2 - 0); Fin ((5.5 + 8) / 2 - (2 + 5.5) / 2);
          Fin ((8 + 10) / 2 - (5.5 + 8) / 2); Fin (15 - (8 + 10) / 2)]
  /\ sortedR [2; 5.5; 8; 10] /\ Forall (fun a => 0 <= a <= 15) [2; 5.5; 8; 10].
Proof.
  split; [reflexivity|]. split; [apply asc_sorted; cbn; lra|].
  repeat constructor; lra.
Qed.

(** ** C49 *)
Theorem C49_interfaces_agree : forall sites l ub fill e,
  (2 <= length sites)%nat ->
  compute_voronoi1d_cell_extents sites (Some l) ub fill = Ok e ->
  interfaces_extents e (Some l) = Ok (map Fin (interfaces_nuclei sites)).
Proof. exact interfaces_agree. Qed.

Theorem C49_interfaces_are_midpoints : forall sites k,
  nth_error (interfaces_nuclei sites) k =
  match nth_error sites k, nth_error sites (S k) with
  | Some a, Some b => Some ((a + b) / 2)
  | _, _ => None
  end.
Proof. exact midpoints_nth. Qed.

Example C49_example :
  exists e, compute_voronoi1d_cell_extents [2; 6; 8] (Some 1) None NaN = Ok e /\
    interfaces_extents e (Some 1) = Ok [Fin ((2 + 6) / 2); Fin ((6 + 8) / 2)].
Proof.
  eexists. split; [reflexivity|].
  cbn. f_equal. f_equal; [f_equal; lra|]. f_equal. f_equal. lra.
Qed.

(** ** C50: holds for non-negative queries in non-decreasing order. *)
Theorem C50_depth_profile_partial : forall thick y qs,
  thick <> [] -> length y = length thick -> Forall (fun w => 0 <= w) thick ->
  sortedR qs -> Forall (fun q => 0 <= q) qs ->
  exists vs, interpolate_depth_profile thick y qs = Ok vs /\
    Forall2 (fun q v =>
      (exists k, in_layer thick q k) /\
      (forall k, in_layer thick q k -> nth_error y k = Some v)) qs vs.
Proof.
  intros thick y qs H1 H2 H3 H4 H5.
  destruct (depth_profile_spec thick y qs H1 H2 H4 H5) as (vs & Hvs & HF).
  exists vs. split; auto. eapply Forall2_impl; [|exact HF].
  intros q v (k & Hk & Hv). split; [eauto|].
  intros j Hj. now rewrite (in_layer_unique thick q j k H3 Hj Hk).
Qed.

Theorem C50_tessellation_agrees_partial : forall sites y es fill qs,
  (2 <= length sites)%nat -> strictly_sortedR sites -> length y = length sites ->
  compute_voronoi1d_cell_extents sites (Some 0) None fill = Ok (map Fin es) ->
  sortedR qs -> Forall (fun q => 0 <= q) qs ->
  exists vs, interpolate_tessellation es y qs Extents = Ok vs /\
             interpolate_tessellation sites y qs Nuclei = Ok vs.
Proof. exact tessellation_agree. Qed.

(** Unsorted queries get the value of a deeper layer than the one containing them, and a
    negative query the value of the deepest layer. *)
Theorem C50_unsorted_queries_refuted :
  exists thick y q1 q2 v1 v2,
    Forall (fun w => 0 < w) thick /\ 0 <= q1 /\ 0 <= q2 /\
    interpolate_depth_profile thick y [q1; q2] = Ok [v1; v2] /\
    in_layer thick q2 0 /\ nth_error y 0 <> Some v2 /\
    interpolate_depth_profile thick y [q2] <> Ok [v2].
Proof.
  exists [1; 1; 1], [10; 20; 30], 1.5, 0.5, 20, 30.
  split; [repeat constructor; lra|]. split; [lra|]. split; [lra|].
  split; [|split; [|split]].
  - unfold interpolate_depth_profile. cbn. repeat (rbool; cbn; try (exfalso; lra)); auto.
  - split; [cbn; lia|]. cbn. split; lra.
  - cbn. intros [= H]. lra.
  - unfold interpolate_depth_profile. cbn. rbool; cbn; rbool; cbn; rbool; cbn; try lra.
    intros [= H]. lra.
Qed.
Theorem C50_negative_query_refuted :
  exists thick y q v,
    q < 0 /\ interpolate_depth_profile thick y [q] = Ok [v] /\
    nth_error y (length y - 1) = Some v /\ nth_error y 0 <> Some v.
Proof.
  exists [1; 1], [10; 20], (-1), 20.
  split; [lra|]. split; [|split].
  - unfold interpolate_depth_profile. cbn. rbool; cbn; rbool; cbn; try lra; auto.
  - reflexivity.
  - cbn. intros [= H]. lra.
Qed.

Example C50_example :
  Forall (fun w => 0 <= w) [1; 2; 3] /\ sortedR [0.5; 2] /\
  interpolate_depth_profile [1; 2; 3] [10; 20; 30] [0.5; 2] = Ok [10; 20].
Proof.
  split; [repeat constructor; lra|]. split; [apply asc_sorted; cbn; lra|].
  unfold interpolate_depth_profile. cbn. repeat (rbool; cbn; try (exfalso; lra)); auto.
Qed.

(** ** C51 *)
Theorem C51_insert : forall values i v,
  (i <= length values)%nat ->
  insert_1d values i v = Ok (firstn i values ++ v :: skipn i values).
Proof. exact insert_1d_spec. Qed.
Theorem C51_delete : forall values i,
  (i < length values)%nat ->
  delete_1d values i = Ok (firstn i values ++ skipn (S i) values).
Proof. exact delete_1d_spec. Qed.
Theorem C51_delete_after_insert : forall values i v,
  (i <= length values)%nat ->
  (a <-? insert_1d values i v ;; delete_1d a i) = Ok values.
Proof.
  intros values i v H. rewrite insert_1d_spec by auto. cbn [rbind].
  rewrite delete_1d_spec by (rewrite insert_at_length; lia).
  f_equal. now apply delete_insert.
Qed.
Theorem C51_insert_after_delete : forall values i v,
  nth_error values i = Some v ->
  (a <-? delete_1d values i ;; insert_1d a i v) = Ok values.
Proof.
  intros values i v H. pose proof (nth_error_some_lt _ _ _ H).
  rewrite delete_1d_spec by auto. cbn [rbind].
  rewrite insert_1d_spec by (rewrite delete_at_length; lia).
  f_equal. now apply insert_delete.
Qed.
(** Outside these ranges the functions touch memory outside the arrays. *)
Theorem C51_out_of_range :
  insert_1d [1; 2] 3 9 = Undef /\ delete_1d [1; 2] 2 = Undef /\ delete_1d [] 0 = Raise EValue.
Proof. repeat split; reflexivity. Qed.

Example C51_example :
  insert_1d [1; 2; 3] 1 9 = Ok [1; 9; 2; 3] /\ delete_1d [1; 9; 2; 3] 1 = Ok [1; 2; 3] /\
  insert_1d [1; 2; 3] 3 9 = Ok [1; 2; 3; 9].
Proof. repeat split; reflexivity. Qed.

(** ** C41, the inverse *)
Theorem C41_inverse_covariance : forall sigma r n,
  (3 <= n)%nat -> sigma > 0 -> -1 < r < 1 ->
  exists m, inverse_covariance sigma r n = Ok m /\ is_matrix n m /\
    forall i k, (i < n)%nat -> (k < n)%nat ->
      sum (fun j => entry m i j * ar1_cov sigma r j k) n = (if (i =? k)%nat then 1 else 0) /\
      sum (fun j => ar1_cov sigma r i j * entry m j k) n = (if (i =? k)%nat then 1 else 0).
Proof. exact inverse_covariance_inverse. Qed.

(** Fewer than three data: memory outside the array or an uninitialised variable. *)
Theorem C41_small_refuted : forall sigma r n,
  (n <= 2)%nat -> sigma > 0 -> -1 < r < 1 -> inverse_covariance sigma r n = Undef.
Proof.
  intros sigma r n Hn Hs Hr. unfold inverse_covariance.
  destruct (Reqb (sigma ^ 2 * (1 - r ^ 2)) 0) eqn:E.
  - apply Reqb_true in E. exfalso. apply Rmult_integral in E. nra.
  - destruct n as [|[|[|n]]]; try lia; reflexivity.
Qed.

Example C41_example :
  exists m, inverse_covariance 1 0 3 = Ok m /\ entry m 1 1 = 1 /\ entry m 0 1 = 0.
Proof.
  unfold inverse_covariance.
  destruct (Reqb (1 ^ 2 * (1 - 0 ^ 2)) 0) eqn:E; [apply Reqb_true in E; lra|].
  eexists. split; [reflexivity|]. cbn. split; field; lra.
Qed.


(** ** C64: the sortedness test *)
Theorem C64_is_sorted : forall x, x <> [] ->
  exists b, is_sorted x = Ok b /\ (b = true <-> sortedR x).
Proof.
  intros x Hx.
  assert (HL : forall m s, (s + m = length x - 1)%nat ->
    exists b, is_sorted_loop x (seq s m) = Ok b /\
      (b = true <-> forall i c d, (s <= i)%nat -> nth_error x i = Some c ->
         nth_error x (S i) = Some d -> c <= d)).
  { induction m as [|m IH]; intros s Hs; cbn [seq is_sorted_loop].
    - exists true. split; auto. split; auto. intros _ i c d Hi _ Hd.
      pose proof (proj1 (nth_error_Some x (S i)) ltac:(congruence)). lia.
    - assert (H1 : nth_error x s <> None) by (apply nth_error_Some; lia).
      assert (H2 : nth_error x (S s) <> None) by (apply nth_error_Some; lia).
      unfold rd. destruct (nth_error x s) as [c|] eqn:Ec; [|easy].
      destruct (nth_error x (S s)) as [d|] eqn:Ed; [|easy]. cbn [rbind].
      destruct (Rltb d c) eqn:E; unfold Rltb in E; destruct (Rlt_dec d c); try discriminate.
      + exists false. split; auto. split; [discriminate|]. intros H.
        specialize (H s c d (Nat.le_refl s) Ec Ed). lra.
      + destruct (IH (S s) ltac:(lia)) as (b & Hb & Hi). exists b. split; auto. rewrite Hi.
        split; intros H i c' d' Hsi Hc Hd.
        * destruct (Nat.eq_dec i s) as [->|]; [|apply (H i c' d'); auto; lia].
          rewrite Ec in Hc. rewrite Ed in Hd. injection Hc as <-. injection Hd as <-. lra.
        * apply (H i c' d'); auto; lia. }
  destruct x as [|x0 t]; [easy|]. destruct (HL (length (x0 :: t) - 1)%nat 0%nat ltac:(lia)) as (b & Hb & Hi).
  exists b. split; [exact Hb|]. rewrite Hi. split.
  - intros H i j. revert i. induction j as [|j IH]; intros i c d Hij Hc Hd.
    + assert (i = 0%nat) by lia. subst. rewrite Hc in Hd. injection Hd as ->. lra.
    + destruct (Nat.eq_dec i (S j)) as [->|]; [rewrite Hc in Hd; injection Hd as ->; lra|].
      destruct (nth_error (x0 :: t) j) as [e|] eqn:Ee.
      * apply Rle_trans with e; [apply (IH i); auto; lia|]. apply (H j e d); auto; lia.
      * apply nth_error_None in Ee. assert (nth_error (x0 :: t) (S j) <> None) by congruence.
        apply nth_error_Some in H0. lia.
  - intros H i c d _ Hc Hd. apply (H i (S i) c d); auto; lia.
Qed.
(** On an empty array the loop bound wraps around and memory outside it is read. *)
Theorem C64_empty_refuted : is_sorted [] = Undef.
Proof. reflexivity. Qed.
Example C64_example : is_sorted [1; 2; 2] = Ok true /\ is_sorted [2; 1] = Ok false.
Proof. unfold is_sorted. cbn. rbool; split; try lra; auto. Qed.
