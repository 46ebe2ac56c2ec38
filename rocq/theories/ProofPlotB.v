(** Proofs about drawings of two-dimensional tessellations. *)
From Verif Require Import Base ModelUtils1D ModelPlot SpecPlot ProofPlot.
Local Open Scope R_scope.

Definition corners (X Y : R) : list (R * R) := [(X * 100, Y * 100); (- X * 100, Y * 100); (X * 100, - Y * 100); (- X * 100, - Y * 100)].
Lemma abs_le x b : Rabs x <= b -> - b <= x <= b.
Proof. unfold Rabs. destruct Rcase_abs; lra. Qed.
Section Frame.
Variables (sites : list (R * R)) (X Y : R).
Hypothesis HX : forall s, In s sites -> - X <= fst s <= X.
Hypothesis HY : forall s, In s sites -> - Y <= snd s <= Y.
Hypothesis PX : 0 < X.
Hypothesis PY : 0 < Y.
Let pts := sites ++ corners X Y.

(** The region of a site is bounded. *)
Lemma site_bounded s : In s sites -> bounded_set (cell pts s).
Proof.
  intros Hs. exists ((100 * 100 * (X * X + Y * Y)) / (99 * X) + (100 * 100 * (X * X + Y * Y)) / (99 * Y)).
  intros [a b] Hq. unfold cell in Hq. pose proof (HX s Hs) as A. pose proof (HY s Hs) as B. destruct s as [u v]. cbn [fst snd] in *.
  assert (C : forall o, In o (corners X Y) -> sqdist (a, b) (u, v) <= sqdist (a, b) o).
  { intros o Ho. apply Hq. apply in_or_app. now right. }
  unfold corners, sqdist in C. cbn [fst snd] in C.
  assert (K : Rabs a * (99 * X) + Rabs b * (99 * Y) <= 100 * 100 * (X * X + Y * Y)).
  { pose proof (C _ (or_introl eq_refl)) as C1. pose proof (C _ (or_intror (or_introl eq_refl))) as C2.
    pose proof (C _ (or_intror (or_intror (or_introl eq_refl)))) as C3. pose proof (C _ (or_intror (or_intror (or_intror (or_introl eq_refl))))) as C4.
    cbn [fst snd] in *. unfold Rabs. destruct (Rcase_abs a), (Rcase_abs b); nra. }
  set (M := 100 * 100 * (X * X + Y * Y)) in *. pose proof (Rabs_pos a) as Pa. pose proof (Rabs_pos b) as Pb.
  assert (PM : 0 <= M) by (unfold M; nra).
  assert (Da : Rabs a <= M / (99 * X)) by (apply Rmult_le_reg_r with (99 * X); [lra|]; unfold Rdiv; rewrite Rmult_assoc, Rinv_l by lra; nra).
  assert (Db : Rabs b <= M / (99 * Y)) by (apply Rmult_le_reg_r with (99 * Y); [lra|]; unfold Rdiv; rewrite Rmult_assoc, Rinv_l by lra; nra).
  assert (0 <= M / (99 * X)) by lra. assert (0 <= M / (99 * Y)) by lra. cbn. lra.
Qed.
(** Those of the four points are not. *)
Lemma corner_unbounded o : In o (corners X Y) -> ~ bounded_set (cell pts o).
Proof.
  intros Ho (r & Hr).
  assert (G : exists e f, (e = 1 \/ e = -1) /\ (f = 1 \/ f = -1) /\ o = (e * X * 100, f * Y * 100)).
  { cbn in Ho. destruct Ho as [<-|[<-|[<-|[<-|[]]]]]; [exists 1, 1|exists (-1), 1|exists 1, (-1)|exists (-1), (-1)];
      (split; [auto|split; [auto|f_equal; lra]]). }
  destruct G as (e & f & He & Hf & ->).
  (* far out along the diagonal beyond the corner, and nearer to it than to all others *)
  set (t := 100 + (Rabs r + 1) / X).
  assert (Pr : 0 <= Rabs r) by apply Rabs_pos.
  assert (Pq : 0 <= (Rabs r + 1) / X) by (apply Rmult_le_pos; [lra|left; now apply Rinv_0_lt_compat]).
  assert (Et : X * t = 100 * X + (Rabs r + 1)) by (unfold t; field; lra).
  assert (Pt : 100 <= t) by (unfold t; lra).
  destruct (Hr (e * X * t, f * Y * t)) as [A _].
  - intros o Ho'. apply in_app_or in Ho'. unfold sqdist. cbn [fst snd].
    assert (Dx : forall x, - (100 * X) <= x <= 100 * X -> (e * X * t - e * X * 100) ^ 2 <= (e * X * t - x) ^ 2).
    { intros x Hx. assert (0 <= X * t - 100 * X) by nra. destruct He as [-> | ->]; nra. }
    assert (Dy : forall y, - (100 * Y) <= y <= 100 * Y -> (f * Y * t - f * Y * 100) ^ 2 <= (f * Y * t - y) ^ 2).
    { intros y Hy. assert (0 <= Y * t - 100 * Y) by nra. destruct Hf as [-> | ->]; nra. }
    apply Rplus_le_compat; [apply Dx|apply Dy].
    + destruct Ho' as [Hs|Hc]; [pose proof (HX o Hs); lra|]. cbn in Hc. destruct Hc as [<-|[<-|[<-|[<-|[]]]]]; cbn [fst snd]; lra.
    + destruct Ho' as [Hs|Hc]; [pose proof (HY o Hs); lra|]. cbn in Hc. destruct Hc as [<-|[<-|[<-|[<-|[]]]]]; cbn [fst snd]; lra.
  - cbn [fst] in A. assert (r <= Rabs r) by apply RRle_abs. apply abs_le in A.
    destruct He as [-> | ->]; nra.
Qed.
(** A displayed point is closer to some site than to the four points. *)
Lemma far_away q o : displayed sites q -> In o (corners X Y) -> forall s, In s sites -> sqdist q s < sqdist q o.
Proof.
  intros [(a & b & Ha & Hb & Hx) (c & d & Hc & Hd & Hy)] Ho s Hs.
  pose proof (HX a Ha). pose proof (HX b Hb). pose proof (HY c Hc). pose proof (HY d Hd). pose proof (HX s Hs). pose proof (HY s Hs).
  destruct q as [x y], s as [u v]. cbn [fst snd] in *. assert (- X <= x <= X) by lra. assert (- Y <= y <= Y) by lra.
  unfold sqdist. cbn in Ho. destruct Ho as [<-|[<-|[<-|[<-|[]]]]]; cbn [fst snd]; nra.
Qed.
Lemma some_closest (l : list (R * R)) q : l <> [] -> exists g, In g l /\ cell l g q.
Proof.
  induction l as [|a l IH]; [congruence|]. intros _. destruct l as [|b l]; [exists a; split; [now left|]; intros o [<-|[]]; lra|].
  destruct IH as (g & Hg & Hc); [discriminate|]. destruct (Rle_dec (sqdist q a) (sqdist q g)) as [L|L].
  - exists a. split; [now left|]. intros o [<-|Ho]; [lra|]. specialize (Hc o Ho). lra.
  - exists g. split; [now right|]. intros o [<-|Ho]; [lra|]. now apply Hc.
Qed.
Lemma covered q : displayed sites q -> exists g, In g sites /\ cell pts g q.
Proof.
  intros Hq. destruct (some_closest sites q) as (g & Hg & Hc).
  { destruct Hq as [(a & _ & Ha & _) _]. intros ->. destruct Ha. }
  exists g. split; auto. intros o Ho. apply in_app_or in Ho. destruct Ho as [Ho|Ho]; [now apply Hc|]. left. now apply far_away.
Qed.
End Frame.

(** * The bookkeeping of the code *)
Lemma Req2b_iff p q : Req2b p q = true <-> p = q.
Proof.
  unfold Req2b. rewrite Bool.andb_true_iff. unfold Reqb. destruct p as [a b], q as [c d]. cbn [fst snd].
  destruct (Req_EM_T a c), (Req_EM_T b d); split; try (intros [? ?]); try congruence; intros E; split; congruence.
Qed.
Lemma filter_single f n i : (i < n)%nat -> f i = true -> (forall j, (j < n)%nat -> f j = true -> j = i) -> filter f (seq 0 n) = [i].
Proof.
  intros Hi Hf Hu.
  assert (G : forall m k, (k <= i < k + m)%nat -> (k + m <= n)%nat -> filter f (seq k m) = [i]).
  { induction m as [|m IH]; intros k Hk Hn; [lia|]. cbn. destruct (f k) eqn:E.
    - assert (k = i) by (apply Hu; auto; lia). subst k. f_equal.
      assert (Z : forall m k, (i < k)%nat -> (k + m <= n)%nat -> filter f (seq k m) = []).
      { clear - Hu. induction m as [|m IH]; intros k Hk Hn; auto. cbn. destruct (f k) eqn:E; [|apply IH; lia].
        assert (k = i) by (apply Hu; auto; lia). lia. }
      apply Z; lia.
    - apply IH; try lia. destruct (Nat.eq_dec k i); [congruence|lia]. }
  apply G; lia.
Qed.
Lemma index_of_ok points p i : nth_error points i = Some p -> (forall j, nth_error points j = Some p -> j = i) -> index_of points p = Ok i.
Proof.
  intros Hi Hu. unfold index_of. rewrite (filter_single _ _ i); auto.
  - apply nth_error_Some. congruence.
  - rewrite Hi. now apply Req2b_iff.
  - intros j _ Hj. apply Hu. destruct (nth_error points j) as [q|]; [|discriminate]. apply Req2b_iff in Hj. now subst.
Qed.
Lemma rmap_nth {A B} (f : A -> res B) l : (forall i a, nth_error l i = Some a -> exists b, f a = Ok b) ->
  exists bs, rmap f l = Ok bs /\ Forall2 (fun a b => f a = Ok b) l bs.
Proof.
  induction l as [|a l IH]; intros H; [exists []; split; [reflexivity|constructor]|].
  destruct (H 0%nat a eq_refl) as [b Hb]. destruct IH as (bs & E & F); [intros i x Hx; exact (H (S i) x Hx)|].
  exists (b :: bs). cbn. rewrite Hb. cbn. rewrite E. cbn. auto.
Qed.
Lemma rmap_ext {A B} (f g : A -> res B) l : (forall i a, nth_error l i = Some a -> f a = g a) -> rmap f l = rmap g l.
Proof.
  induction l as [|a l IH]; intros H; auto. cbn. rewrite (H 0%nat a eq_refl), IH; auto. intros i x Hx. exact (H (S i) x Hx).
Qed.
Lemma rmap_indices {A} (f : A -> res nat) l : forall k, (forall i a, nth_error l i = Some a -> f a = Ok (k + i)%nat) -> rmap f l = Ok (seq k (length l)).
Proof.
  induction l as [|a l IH]; intros k H; auto. cbn [rmap length seq]. rewrite (H 0%nat a eq_refl), Nat.add_0_r. cbn [rbind].
  rewrite (IH (S k)); auto. intros i x Hx. rewrite (H (S i) x Hx). f_equal. lia.
Qed.
Lemma rmap_values {A} (l : list A) k pre : length pre = k ->
  rmap (fun j => match nth_error (pre ++ l) j with Some v => Ok v | None => Raise EIndex end) (seq k (length l)) = Ok l.
Proof.
  revert k pre. induction l as [|a l IH]; intros k pre Hk; auto. cbn [length seq rmap].
  rewrite nth_error_app2 by lia. replace (k - length pre)%nat with 0%nat by lia. cbn [nth_error rbind].
  specialize (IH (S k) (pre ++ [a])). rewrite <- app_assoc in IH. cbn [app] in IH. rewrite IH; auto. rewrite app_length. cbn. lia.
Qed.
Lemma fill_ok bounded points : forall vals i pre, length pre = i ->
  (forall j g, nth_error points j = Some g -> bounded (i + j)%nat = true <-> (j < length vals)%nat) -> (length vals <= length points)%nat ->
  fill bounded (pre ++ vals) points i = Ok (combine points vals).
Proof.
  induction points as [|g points IH]; intros vals i pre Hp H L; cbn [fill].
  - reflexivity.
  - pose proof (H 0%nat g eq_refl) as H0. rewrite Nat.add_0_r in H0. destruct vals as [|v vals].
    + destruct (bounded i) eqn:E; [exfalso; assert (0 < 0)%nat by (now apply H0); lia|].
      assert (Z : forall pts k, (forall j g, nth_error pts j = Some g -> bounded (k + j)%nat = true <-> (j < 0)%nat) -> fill bounded (pre ++ []) pts k = Ok []).
      { clear. induction pts as [|x pts IH]; intros k H; auto. cbn [fill]. destruct (bounded k) eqn:E.
        - pose proof (H 0%nat x eq_refl) as K. rewrite Nat.add_0_r in K. apply K in E. lia.
        - apply IH. intros j y Hy. specialize (H (S j) y Hy). rewrite Nat.add_succ_r in H. cbn [plus]. rewrite H. split; lia. }
      rewrite Z; [now destruct points|]. intros j y Hy. specialize (H (S j) y Hy). rewrite Nat.add_succ_r in H. cbn [plus]. rewrite H. cbn. split; lia.
    + destruct (bounded i) eqn:E; [|exfalso; assert (false = true) by (apply H0; cbn; lia); discriminate].
      rewrite nth_error_app2 by lia. replace (i - length pre)%nat with 0%nat by lia. cbn [nth_error].
      specialize (IH vals (S i) (pre ++ [v])). rewrite <- app_assoc in IH. cbn [app] in IH. rewrite IH; auto.
      * rewrite app_length. cbn. lia.
      * intros j y Hy. specialize (H (S j) y Hy). rewrite Nat.add_succ_r in H. cbn [plus]. rewrite H. cbn. split; lia.
      * cbn in L. lia.
Qed.
