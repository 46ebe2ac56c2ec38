(** C70: what drawings of one-dimensional tessellations show. *)
From Verif Require Import Base ModelUtils1D ModelPlot SpecUtils1D SpecPlot ProofUtils1D ProofUtils1DB ProofPlot PropUtils1D.
Local Open Scope R_scope.

(** With swapped axes (the default): between the bounds, away from the interfaces, the curve shows at
    each position the value of the cell that contains it, and nothing else. *)
Theorem C70_nuclei_partial sites vals lb ub path stop p k v : strictly_sortedR sites ->
  plot_tessellation (OfNuclei sites) vals lb ub true = Ok path -> ends_at true path stop ->
  lb < p < stop -> closest_site sites p k -> nth_error vals k = Some v ->
  forall w, on_curve path (place true p w) <-> w = v.
Proof.
  intros Hs Hplot Hend Hp Hk Hv w. destruct (plot_inv _ _ _ _ _ _ Hplot) as (ip & st & v0 & Hip & Hn & Hl & Hst & _ & Hpath & _ & He).
  rewrite <- (ends_at_unique _ _ _ _ Hend He) in *. injection Hip as <-. rewrite Hpath.
  destruct (nuclei_gap sites lb stop p k Hs Hp Hk) as (a & b & Ha & Hb & Hab).
  assert (S1 : sortedR (midpoints sites ++ [stop])) by (apply sorted_snoc; [now apply midpoints_sorted|exact Hst]).
  assert (L : length vals = length (midpoints sites ++ [stop])) by (rewrite app_length; unfold interfaces_nuclei in Hl; cbn; lia).
  unfold place. rewrite (shows_swapped v0 vals lb _ k a b p w L S1 (proj1 Hp) Ha Hb Hab).
  rewrite Hv. split; congruence.
Qed.
Theorem C70_extents_partial es e vals lb ub path stop p k v : Forall (fun x => 0 <= x) es ->
  plot_tessellation (OfExtents (map Fin es ++ [e])) vals lb ub true = Ok path -> ends_at true path stop ->
  lb < p < stop -> inside_cell es lb p k -> nth_error vals k = Some v ->
  forall w, on_curve path (place true p w) <-> w = v.
Proof.
  intros Hs Hplot Hend Hp Hk Hv w. destruct (plot_inv _ _ _ _ _ _ Hplot) as (ip & st & v0 & Hip & Hn & Hl & Hst & _ & Hpath & _ & He).
  rewrite <- (ends_at_unique _ _ _ _ Hend He) in *. rewrite interfaces_of_extents in Hip. assert (Hi2 := f_equal (fun r => match r with Ok x => x | _ => [] end) Hip); cbn [rbind] in Hi2; clear Hip; rename Hi2 into Hip. rewrite Hpath.
  destruct (extents_gap es lb stop p k Hp Hk) as (a & b & Ha & Hb & Hab). rewrite Hip in Ha, Hb.
  assert (S1 : sortedR (ip ++ [stop])) by (apply sorted_snoc; [rewrite <- Hip; now apply extents_sorted|exact Hst]).
  assert (L : length vals = length (ip ++ [stop])) by (rewrite app_length; cbn; lia).
  unfold place. rewrite (shows_swapped v0 vals lb _ k a b p w L S1 (proj1 Hp) Ha Hb Hab).
  rewrite Hv. split; congruence.
Qed.
(** The curve is drawn whenever there are two cells, a value for each, and the upper bound, if any, lies
    above the last interface; it then goes on to that bound. *)
Theorem C70_drawn sites vals lb ub swap : (2 <= length sites)%nat -> length vals = length sites ->
  (forall u a b, ub = Some u -> nth_error sites (length sites - 2) = Some a -> nth_error sites (length sites - 1) = Some b -> (a + b) / 2 < u) ->
  exists path stop, plot_tessellation (OfNuclei sites) vals lb ub swap = Ok path /\ ends_at swap path stop /\
    match ub with
    | Some u => stop = u
    | None => forall a b, nth_error sites (length sites - 2) = Some a -> nth_error sites (length sites - 1) = Some b -> (a + b) / 2 <= stop
    end.
Proof.
  intros Hn Hl Hu. pose proof (midpoints_length sites) as Hm. set (ip := midpoints sites) in *.
  assert (Hne : ip <> []) by (intros E; rewrite E in Hm; cbn in Hm; lia).
  assert (Hlast : exists a b, nth_error sites (length sites - 2) = Some a /\ nth_error sites (length sites - 1) = Some b /\ last ip 0 = (a + b) / 2).
  { pose proof (last_nth ip 0 Hne) as E. unfold ip in E at 1. rewrite midpoints_nth in E.
    replace (length ip - 1)%nat with (length sites - 2)%nat in E by lia. replace (S (length sites - 2)) with (length sites - 1)%nat in E by lia.
    destruct (nth_error sites (length sites - 2)) as [a|]; [|discriminate]. destruct (nth_error sites (length sites - 1)) as [b|]; [|discriminate].
    exists a, b. split; auto. split; auto. injection E as E. symmetry. exact E. }
  destruct Hlast as (a & b & Ha & Hb & Hab).
  assert (G : exists path, plot_tessellation (OfNuclei sites) vals lb ub swap = Ok path).
  { unfold plot_tessellation, interface_positions, interfaces_nuclei. cbn [rbind]. fold ip.
    destruct (rev ip) as [|x r] eqn:Er; [apply (f_equal (@rev R)) in Er; rewrite rev_involutive in Er; contradiction|].
    assert (Ei : ip = rev r ++ [x]) by (rewrite <- (rev_involutive ip), Er; reflexivity).
    assert (El : x = (a + b) / 2) by (rewrite <- Hab, Ei; symmetry; apply last_last).
    destruct vals as [|v0 vs]; [cbn in Hl; lia|].
    assert (St : exists stop, match ub with Some u => if Rltb x u then Ok u else Raise EAssert | None => Ok (x + max_abs ip / 2) end = Ok stop).
    { destruct ub as [u|]; [|eauto]. assert (x < u) by (rewrite El; eapply Hu; eauto). unfold Rltb. destruct (Rlt_dec x u); [eauto|contradiction]. }
    destruct St as [stop ->]. cbn [rbind]. unfold step_post.
    assert (L : length (lb :: ip ++ [stop]) = length (v0 :: v0 :: vs)) by (cbn [length] in *; rewrite app_length; cbn [length]; lia).
    destruct swap; [rewrite L|rewrite L]; rewrite Nat.eqb_refl; eauto. }
  destruct G as [path G]. destruct (plot_inv _ _ _ _ _ _ G) as (ip' & st & v0 & Hip & _ & _ & Hst & Hub & _ & _ & He). injection Hip as <-.
  exists path, st. split; auto. split; auto. destruct ub as [u|]; [apply Hub|]. intros a' b' Ha' Hb'. rewrite Ha in Ha'. rewrite Hb in Hb'.
  injection Ha' as <-. injection Hb' as <-. apply Hst. exact Hab.
Qed.

(** With axes that are not swapped the curve shows the value of the cell before. *)
Theorem C70_not_swapped sites vals lb ub path stop p k v : strictly_sortedR sites ->
  plot_tessellation (OfNuclei sites) vals lb ub false = Ok path -> ends_at false path stop ->
  lb < p < stop -> closest_site sites p k -> nth_error vals (k - 1) = Some v ->
  forall w, on_curve path (place false p w) <-> w = v.
Proof.
  intros Hs Hplot Hend Hp Hk Hv w. destruct (plot_inv _ _ _ _ _ _ Hplot) as (ip & st & v0 & Hip & Hn & Hl & Hst & _ & Hpath & H0 & He).
  rewrite <- (ends_at_unique _ _ _ _ Hend He) in *. injection Hip as <-. rewrite Hpath.
  destruct (nuclei_gap sites lb stop p k Hs Hp Hk) as (a & b & Ha & Hb & Hab).
  assert (S1 : sortedR (midpoints sites ++ [stop])) by (apply sorted_snoc; [now apply midpoints_sorted|exact Hst]).
  assert (L : length vals = length (midpoints sites ++ [stop])) by (rewrite app_length; unfold interfaces_nuclei in Hl; cbn; lia).
  unfold place. rewrite (shows_plain v0 vals lb _ k a b p w L S1 (proj1 Hp) Ha Hb Hab).
  destruct k as [|k]; cbn [Nat.sub nth_error] in *; [rewrite H0 in Hv|rewrite Nat.sub_0_r in Hv; rewrite Hv]; split; congruence.
Qed.
Lemma closest_two s : closest_site [1; 3] s 0 <-> s < 2.
Proof.
  split.
  - intros (a & Ha & H). injection Ha as <-. specialize (H 1%nat 3 ltac:(lia) eq_refl). revert H. unfold Rabs. repeat destruct Rcase_abs; lra.
  - intros H. exists 1. split; auto. intros [|[|j]] b Hj Hb; [lia| |destruct j; discriminate]. injection Hb as <-.
    unfold Rabs. repeat destruct Rcase_abs; lra.
Qed.
Theorem C70_not_swapped_refuted : exists sites vals lb ub path stop p k v, strictly_sortedR sites /\ length vals = length sites /\
  plot_tessellation (OfNuclei sites) vals lb ub false = Ok path /\ ends_at false path stop /\
  lb < p < stop /\ closest_site sites p k /\ nth_error vals k = Some v /\ ~ on_curve path (place false p v).
Proof.
  destruct (C70_drawn [1; 3] [10; 20] 0 (Some 5) false) as (path & stop & Hp & He & ->); [cbn; lia|reflexivity| |].
  { intros u a b [= <-] [= <-] [= <-]. lra. }
  assert (Hs : strictly_sortedR [1; 3]).
  { intros [|[|i]] [|[|j]] a b Hij Ha Hb; try lia; cbn in Ha, Hb; try (destruct j; discriminate); try (destruct i; discriminate).
    injection Ha as <-. injection Hb as <-. lra. }
  assert (Hk : closest_site [1; 3] 4 1).
  { exists 3. split; auto. intros [|[|j]] b Hj Hb; [|lia|destruct j; discriminate]. injection Hb as <-. unfold Rabs. repeat destruct Rcase_abs; lra. }
  exists [1; 3], [10; 20], 0, (Some 5), path, 5, 4, 1%nat, 20. split; auto. split; auto. split; auto. split; auto.
  split; [lra|]. split; auto. split; auto. rewrite (C70_not_swapped _ _ _ _ _ _ 4 1 10 Hs Hp He); auto; lra.
Qed.
(** Without an upper bound the last cell is not drawn when all interfaces are at zero. *)
Theorem C70_last_cell_refuted : exists sites vals lb path v, strictly_sortedR sites /\ length vals = length sites /\
  plot_tessellation (OfNuclei sites) vals lb None true = Ok path /\ nth_error vals (length vals - 1) = Some v /\
  forall p, p <> 0 -> ~ on_curve path (place true p v).
Proof.
  destruct (C70_drawn [-1; 1] [10; 20] (-3) None true) as (path & stop & Hp & He & _); [cbn; lia|reflexivity|discriminate|].
  assert (Hs : strictly_sortedR [-1; 1]).
  { intros [|[|i]] [|[|j]] a b Hij Ha Hb; try lia; cbn in Ha, Hb; try (destruct j; discriminate); try (destruct i; discriminate).
    injection Ha as <-. injection Hb as <-. lra. }
  exists [-1; 1], [10; 20], (-3), path, 20. split; auto. split; auto. split; auto. split; auto.
  intros p Hp0 H. destruct (plot_inv _ _ _ _ _ _ Hp) as (ip & st & v0 & Hip & _ & _ & _ & Hub & Hpath & H0 & _).
  injection Hip as <-. injection H0 as <-. cbn in Hub.
  assert (Est : st = 0).
  { rewrite Hub. replace ((-1 + 1) / 2) with 0 by lra. rewrite Rabs_R0, Rmax_left by lra. lra. }
  rewrite Hpath, Est in H. cbn in H. replace ((-1 + 1) / 2) with 0 in H by lra.
  rewrite !on_curve_cons, !seg_first, !seg_second in H. unfold place in H.
  repeat match goal with H : _ \/ _ |- _ => destruct H | H : _ /\ _ |- _ => destruct H | H : on_curve [_] _ |- _ => now apply on_curve_one in H end; lra.
Qed.

(** Many tessellations at once are drawn as each alone with swapped axes ... *)
Theorem C70_many sites vals lb ub swap : Forall (fun s => (2 <= length s)%nat) sites ->
  plot_tessellations (map OfNuclei sites) vals lb ub swap =
  rmap (fun sv => plot_tessellation (OfNuclei (fst sv)) (snd sv) lb ub true) (combine sites vals).
Proof.
  intros Hs. unfold plot_tessellations.
  assert (G : exists es, rmap (to_extents lb) (map OfNuclei sites) = Ok es /\
    Forall2 (fun s e => interfaces_extents e (Some lb) = Ok (map Fin (interfaces_nuclei s))) sites es).
  { induction Hs as [|s sites H2 _ IH]; [exists []; split; [reflexivity|constructor]|].
    destruct IH as (es & E & F). cbn [map rmap to_extents].
    destruct (C48_cell_extents_partial s (Some lb) None (Fin 0) H2) as (e & Ee & _). rewrite Ee. cbn [rbind]. rewrite E. cbn [rbind].
    exists (e :: es). split; auto. constructor; auto. eapply C49_interfaces_agree; eauto. }
  destruct G as (es & E & F). rewrite E. cbn [rbind]. clear E Hs. revert vals.
  induction F as [|s e sites es H F IH]; intros vals; auto. destruct vals as [|v vals]; auto. cbn [combine rmap fst snd]. rewrite IH.
  assert (Ep : plot_tessellation (OfExtents e) v lb ub true = plot_tessellation (OfNuclei s) v lb ub true).
  { unfold plot_tessellation, interface_positions. rewrite H. cbn [rbind]. rewrite all_finite_map. reflexivity. }
  now rewrite Ep.
Qed.
(** ... whether or not the axes are to be swapped. *)
Theorem C70_many_refuted : exists sites vals path stop p k v, strictly_sortedR sites /\
  plot_tessellations [OfNuclei sites] [vals] 0 None false = Ok [path] /\ ends_at true path stop /\
  0 < p < stop /\ closest_site sites p k /\ nth_error vals k = Some v /\
  on_curve path (place true p v) /\ ~ on_curve path (place false p v).
Proof.
  destruct (C70_drawn [1; 3] [10; 20] 0 None true) as (path & stop & Hp & He & Hst); [cbn; lia|reflexivity|discriminate|].
  assert (Hs : strictly_sortedR [1; 3]).
  { intros [|[|i]] [|[|j]] a b Hij Ha Hb; try lia; cbn in Ha, Hb; try (destruct j; discriminate); try (destruct i; discriminate).
    injection Ha as <-. injection Hb as <-. lra. }
  specialize (Hst 1 3 eq_refl eq_refl).
  exists [1; 3], [10; 20], path, stop, 1, 0%nat, 10. split; auto. split.
  { change [OfNuclei [1; 3]] with (map OfNuclei [[1; 3]]). rewrite C70_many by (repeat constructor). cbn [combine rmap fst snd]. rewrite Hp. reflexivity. }
  split; auto. split; [lra|]. split; [apply closest_two; lra|]. split; auto. split.
  - apply (C70_nuclei_partial [1; 3] [10; 20] 0 None path stop 1 0 10 Hs Hp He); [lra|apply closest_two; lra|reflexivity|reflexivity].
  - destruct (plot_inv _ _ _ _ _ _ Hp) as (ip & st & v0 & Hip & _ & _ & _ & Hub & Hpath & H0 & _). injection Hip as <-. injection H0 as <-.
    intros H. unfold place in H. rewrite Hpath in H. cbn in H.
    rewrite !on_curve_cons, !seg_first, !seg_second in H.
    repeat match goal with H : _ \/ _ |- _ => destruct H | H : _ /\ _ |- _ => destruct H | H : on_curve [_] _ |- _ => now apply on_curve_one in H end; lra.
Qed.

(** Three cells, the lower bound 0: the curve ends above the last interface and shows in turn 10, 20, 30. *)
Example C70_case : exists path stop, plot_tessellation (OfNuclei [1; 3; 7]) [10; 20; 30] 0 (Some 9) true = Ok path /\ ends_at true path stop /\
  stop = 9 /\ path = [(10, 0); (10, 0); (10, (1 + 3) / 2); (20, (1 + 3) / 2); (20, (3 + 7) / 2); (30, (3 + 7) / 2); (30, 9)] /\
  closest_site [1; 3; 7] 4 1 /\ forall w, on_curve path (place true 4 w) <-> w = 20.
Proof.
  assert (Hs : strictly_sortedR [1; 3; 7]).
  { intros [|[|[|i]]] [|[|[|j]]] a b Hij Ha Hb; try lia; cbn in Ha, Hb; try (destruct j; discriminate); try (destruct i; discriminate);
      injection Ha as <-; injection Hb as <-; lra. }
  assert (Hk : closest_site [1; 3; 7] 4 1).
  { exists 3. split; auto. intros [|[|[|j]]] b Hj Hb; [| lia| |destruct j; discriminate]; injection Hb as <-; unfold Rabs; repeat destruct Rcase_abs; lra. }
  destruct (C70_drawn [1; 3; 7] [10; 20; 30] 0 (Some 9) true) as (path & stop & Hp & He & ->); [cbn; lia|reflexivity| |].
  { intros u a b [= <-] [= <-] [= <-]. lra. }
  exists path, 9. split; auto. split; auto. split; auto. split.
  - destruct (plot_inv _ _ _ _ _ _ Hp) as (ip & st & v0 & Hip & _ & _ & _ & [-> _] & Hpath & H0 & _). injection Hip as <-. injection H0 as <-.
    rewrite Hpath. reflexivity.
  - split; auto. apply (C70_nuclei_partial _ _ _ _ _ _ 4 1 20 Hs Hp He); auto. lra.
Qed.
