(** C71: what drawings of two-dimensional tessellations show. *)
From Verif Require Import Base ModelUtils1D ModelPlot SpecPlot ProofPlot ProofPlotB.
Local Open Scope R_scope.

Lemma max_abs_pos l : (exists x, In x l /\ x <> 0) -> 0 < max_abs l.
Proof.
  intros (x & Hx & Hn). pose proof (max_abs_in l x Hx). pose proof (Rabs_pos_lt x Hn). lra.
Qed.
Lemma framed_eq sites : sites <> [] ->
  framed sites = Ok (sites ++ corners (max_abs (map fst sites)) (max_abs (map snd sites))).
Proof. destruct sites; [congruence|reflexivity]. Qed.
Lemma within f (sites : list (R * R)) s : In s sites -> - max_abs (map f sites) <= f s <= max_abs (map f sites).
Proof. intros H. apply abs_le. apply max_abs_in. now apply in_map. Qed.

Section Drawn.
Variables (scipy : list (R * R) -> nat -> bool) (sites : list (R * R)) (vals : list R).
Hypothesis Hsc : finds_bounded scipy.
Hypothesis Hd : NoDup sites.
Hypothesis Hx : exists s, In s sites /\ fst s <> 0.
Hypothesis Hy : exists s, In s sites /\ snd s <> 0.
Hypothesis Hl : length vals = length sites.
Let X := max_abs (map fst sites).
Let Y := max_abs (map snd sites).
Lemma X_pos : 0 < X.
Proof. apply max_abs_pos. destruct Hx as (s & Hs & Hn). exists (fst s). split; auto. now apply in_map. Qed.
Lemma Y_pos : 0 < Y.
Proof. apply max_abs_pos. destruct Hy as (s & Hs & Hn). exists (snd s). split; auto. now apply in_map. Qed.
Lemma not_corner s : In s sites -> ~ In s (corners X Y).
Proof.
  intros Hs Hc. pose proof (within fst sites s Hs) as A. fold X in A. pose proof X_pos. cbn in Hc.
  destruct Hc as [<-|[<-|[<-|[<-|[]]]]]; cbn [fst] in A; lra.
Qed.
Lemma drawn : plot_tessellation_2d scipy sites vals = Ok (combine sites vals).
Proof.
  assert (Hne : sites <> []) by (destruct Hx as (s & Hs & _); intros E; rewrite E in Hs; destruct Hs).
  unfold plot_tessellation_2d. rewrite (framed_eq _ Hne). cbn [rbind]. fold X Y.
  set (points := sites ++ corners X Y).
  rewrite (rmap_indices _ sites 0).
  2:{ intros i a Ha. cbn [plus]. apply index_of_ok.
      - unfold points. rewrite nth_error_app1; auto. apply nth_error_Some. congruence.
      - intros j Hj. unfold points in Hj. destruct (Nat.lt_ge_cases j (length sites)) as [L|L].
        + rewrite nth_error_app1 in Hj by auto. apply (NoDup_nth_error sites); auto; congruence.
        + rewrite nth_error_app2 in Hj by auto. apply nth_error_In in Hj. exfalso. apply (not_corner a); auto. now apply nth_error_In in Ha. }
  cbn [rbind]. rewrite <- Hl. pose proof (rmap_values vals 0 [] eq_refl) as Ev. cbn [app] in Ev. rewrite Ev. cbn [rbind].
  etransitivity; [apply (fill_ok (scipy points) points vals 0 [])|].
  4:{ f_equal. unfold points. clear -Hl. revert vals Hl. generalize (corners X Y) as c. intros c.
    induction sites as [|s l IH]; intros [|v vs] E; try discriminate; cbn in *; [now destruct c|]. f_equal. apply IH. lia. }
  - reflexivity.
  - intros j g Hj. cbn [plus]. rewrite (Hsc points j g Hj). unfold points in *. destruct (Nat.lt_ge_cases j (length sites)) as [L|L].
    + rewrite nth_error_app1 in Hj by auto. split; [intros _; lia|]. intros _. apply site_bounded; auto using X_pos, Y_pos.
      * intros s. apply (within fst). * intros s. apply (within snd). * now apply nth_error_In in Hj.
    + rewrite nth_error_app2 in Hj by auto. split; [|lia]. intros B. exfalso. revert B. apply corner_unbounded; auto using X_pos, Y_pos.
      * intros s. apply (within fst). * intros s. apply (within snd). * now apply nth_error_In in Hj.
  - unfold points. rewrite app_length. lia.
Qed.
End Drawn.

(** The drawing succeeds; the filled region of a point [g] is filled with the colour of the value of
    the site there, all its points have that site as closest site, and each displayed point is in
    such a region. *)
Theorem C71_drawing scipy sites vals : finds_bounded scipy -> NoDup sites ->
  (exists s, In s sites /\ fst s <> 0) -> (exists s, In s sites /\ snd s <> 0) -> length vals = length sites ->
  exists filled points, plot_tessellation_2d scipy sites vals = Ok filled /\ framed sites = Ok points /\
    (forall g v q, In (g, v) filled -> cell points g q ->
       exists i, nth_error sites i = Some g /\ nth_error vals i = Some v /\ forall o, In o sites -> sqdist q g <= sqdist q o) /\
    (forall q, displayed sites q -> exists g v, In (g, v) filled /\ cell points g q).
Proof.
  intros Hsc Hd Hx Hy Hl. exists (combine sites vals), (sites ++ corners (max_abs (map fst sites)) (max_abs (map snd sites))).
  split; [now apply drawn|]. split; [apply framed_eq; destruct Hx as (s & Hs & _); intros E; rewrite E in Hs; destruct Hs|]. split.
  - intros g v q Hin Hc. apply In_nth_error in Hin. destruct Hin as [i Hi]. exists i.
    assert (E : nth_error sites i = Some g /\ nth_error vals i = Some v).
    { clear -Hi. revert vals i Hi. induction sites as [|s l IH]; intros [|w vs] [|i] H; cbn in *; try discriminate; [inversion H; auto|now apply IH]. }
    destruct E as [E1 E2]. split; auto. split; auto. intros o Ho. apply Hc. apply in_or_app. now left.
  - intros q Hq. destruct (covered sites (max_abs (map fst sites)) (max_abs (map snd sites))) with (q := q) as (g & Hg & Hc); auto.
    + intros s. apply (within fst). + intros s. apply (within snd).
    + apply X_pos. exact Hx. + apply Y_pos. exact Hy.
    + apply In_nth_error in Hg. destruct Hg as [i Hi].
      assert (L : (i < length vals)%nat) by (rewrite Hl; apply nth_error_Some; congruence).
      destruct (nth_error vals i) as [v|] eqn:Ev; [|apply nth_error_None in Ev; lia].
      exists g, v. split; auto. apply nth_error_In with i.
      clear -Hi Ev. revert vals i Hi Ev. induction sites as [|s l IH]; intros [|w vs] [|i] H H'; cbn in *; try discriminate; [inversion H; inversion H'; auto|now apply IH].
Qed.
Lemma index_of_dup points i j p : nth_error points i = Some p -> nth_error points j = Some p -> i <> j -> index_of points p = Raise EValue.
Proof.
  intros Hi Hj Hn. unfold index_of. set (f := fun i => _).
  assert (A : forall k, nth_error points k = Some p -> In k (filter f (seq 0 (length points)))).
  { intros k Hk. apply filter_In. split; [apply in_seq; split; [lia|]; apply nth_error_Some; congruence|]. unfold f. rewrite Hk. now apply Req2b_iff. }
  pose proof (A i Hi) as Ai. pose proof (A j Hj) as Aj. destruct (filter f _) as [|a [|b l]]; auto.
  destruct Ai as [<-|[]]. destruct Aj as [E|[]]. congruence.
Qed.
Lemma rmap_raises {A B} (f : A -> res B) e l : (forall a, (exists b, f a = Ok b) \/ f a = Raise e) ->
  (exists a, In a l /\ f a = Raise e) -> rmap f l = Raise e.
Proof.
  intros H. induction l as [|x l IH]; intros (a & Ha & E); [destruct Ha|]. cbn [rmap]. destruct (H x) as [[b Eb]|Eb]; rewrite Eb; cbn [rbind]; auto.
  destruct Ha as [->|Ha]; [congruence|]. rewrite IH; eauto.
Qed.
(** Two sites at the same place: ValueError. *)
Theorem C71_duplicates scipy vals sites i j p : nth_error sites i = Some p -> nth_error sites j = Some p -> i <> j ->
  plot_tessellation_2d scipy sites vals = Raise EValue.
Proof.
  intros Hi Hj Hn. assert (Hne : sites <> []) by (intros E; rewrite E in Hi; now destruct i).
  unfold plot_tessellation_2d. rewrite (framed_eq _ Hne). cbn [rbind]. rewrite (rmap_raises _ EValue); auto.
  - intros a. unfold index_of. destruct (filter _ _) as [|x [|y l]]; eauto.
  - exists p. split; [now apply nth_error_In in Hi|]. apply index_of_dup with i j; auto;
      rewrite nth_error_app1; auto; apply nth_error_Some; congruence.
Qed.

(** Three sites; the displayed rectangle is [-1,2] x [0,3]. *)
Definition ex_plane : list (R * R) := [(-1, 1); (2, 0); (1, 3)].
Example C71_case scipy : finds_bounded scipy ->
  plot_tessellation_2d scipy ex_plane [5; 6; 7] = Ok [((-1, 1), 5); ((2, 0), 6); ((1, 3), 7)] /\ displayed ex_plane (0, 2).
Proof.
  intros H. split.
  - apply (drawn scipy ex_plane [5; 6; 7]); auto.
    + repeat constructor; cbn; intros K; repeat (destruct K as [K|K]; [inversion K; lra|]); auto.
    + exists (2, 0). split; [cbn; auto|]. cbn. lra.
    + exists (1, 3). split; [cbn; auto|]. cbn. lra.
  - split; [exists (-1, 1), (2, 0)|exists (2, 0), (1, 3)]; cbn; repeat split; auto; lra.
Qed.
(** The hypothesis on scipy can be met: the supremum of {0} or {0, 1} decides a proposition. *)
Lemma decided (P : Prop) : {P} + {~ P}.
Proof.
  destruct (completeness (fun x => x = 0 \/ (P /\ x = 1))) as [m [Hu Hm]].
  - exists 1. intros x [->|[_ ->]]; lra.
  - exists 0. now left.
  - destruct (Rlt_dec (1 / 2) m) as [L|L].
    + left. destruct (Classical_Prop.classic P) as [K|K]; auto. exfalso.
      assert (m <= 0) by (apply Hm; intros x [->|[HP _]]; [lra|contradiction]). lra.
    + right. intros HP. apply L. assert (1 <= m) by (apply Hu; right; auto). lra.
Qed.
Theorem C71_scipy : exists scipy, finds_bounded scipy.
Proof.
  exists (fun points i => match nth_error points i with
                          | Some g => if decided (bounded_set (cell points g)) then true else false
                          | None => false
                          end).
  intros points i g Hg. rewrite Hg. destruct (decided _) as [K|K]; split; intros H; auto; try discriminate; contradiction.
Qed.
