(** Proofs about the model of _utils_1d.pyx. *)
From Verif Require Import Base ModelUtils1D SpecUtils1D.
Local Open Scope R_scope.

(** * Booleans, arrays *)
Lemma Rleb_true x y : Rleb x y = true <-> x <= y.
Proof. unfold Rleb. destruct (Rle_dec x y); split; intros; auto; easy. Qed.
Lemma Rleb_false x y : Rleb x y = false <-> y < x.
Proof. unfold Rleb. destruct (Rle_dec x y); split; intros; auto; try easy; lra. Qed.
Lemma Rltb_true x y : Rltb x y = true <-> x < y.
Proof. unfold Rltb. destruct (Rlt_dec x y); split; intros; auto; easy. Qed.
Lemma Rltb_false x y : Rltb x y = false <-> y <= x.
Proof. unfold Rltb. destruct (Rlt_dec x y); split; intros; auto; try easy; lra. Qed.
Lemma Reqb_true x y : Reqb x y = true <-> x = y.
Proof. unfold Reqb. destruct (Req_EM_T x y); split; intros; auto; easy. Qed.
Lemma Reqb_false x y : Reqb x y = false <-> x <> y.
Proof. unfold Reqb. destruct (Req_EM_T x y); split; intros; auto; easy. Qed.

Ltac rbool :=
  repeat match goal with
  | |- context [Rleb ?a ?b] => let E := fresh "E" in destruct (Rleb a b) eqn:E
  | |- context [Rltb ?a ?b] => let E := fresh "E" in destruct (Rltb a b) eqn:E
  | |- context [Reqb ?a ?b] => let E := fresh "E" in destruct (Reqb a b) eqn:E
  end;
  repeat match goal with
  | H : Rleb _ _ = true |- _ => apply Rleb_true in H
  | H : Rleb _ _ = false |- _ => apply Rleb_false in H
  | H : Rltb _ _ = true |- _ => apply Rltb_true in H
  | H : Rltb _ _ = false |- _ => apply Rltb_false in H
  | H : Reqb _ _ = true |- _ => apply Reqb_true in H
  | H : Reqb _ _ = false |- _ => apply Reqb_false in H
  end.

Lemma nth_error_lt {A} (l : list A) i :
  (i < length l)%nat -> exists a, nth_error l i = Some a.
Proof.
  intros H. destruct (nth_error l i) eqn:E; eauto.
  apply nth_error_None in E. lia.
Qed.
Lemma nth_error_some_lt {A} (l : list A) i a :
  nth_error l i = Some a -> (i < length l)%nat.
Proof. intros H. apply nth_error_Some. congruence. Qed.

Lemma rd_some {A} (l : list A) i a : nth_error l i = Some a -> rd l i = Ok a.
Proof. unfold rd. now intros ->. Qed.

Lemma set_nth_length {A} (l : list A) i a :
  (i < length l)%nat -> length (set_nth l i a) = length l.
Proof.
  intros H. unfold set_nth. rewrite app_length. cbn [length].
  rewrite firstn_length, skipn_length. lia.
Qed.
Lemma set_nth_same {A} (l : list A) i a :
  (i < length l)%nat -> nth_error (set_nth l i a) i = Some a.
Proof.
  intros H. unfold set_nth. rewrite nth_error_app2; rewrite firstn_length; [|lia].
  replace (i - Nat.min i (length l))%nat with 0%nat by lia. reflexivity.
Qed.
Lemma nth_error_firstn {A} (l : list A) n i :
  nth_error (firstn n l) i = if (i <? n)%nat then nth_error l i else None.
Proof.
  revert n i. induction l as [|a l IH]; intros [|n] [|i]; cbn [firstn nth_error]; auto.
  - destruct (S i <? S n)%nat; reflexivity.
  - rewrite IH. reflexivity.
Qed.
Lemma nth_error_skipn {A} (l : list A) n i :
  nth_error (skipn n l) i = nth_error l (n + i).
Proof.
  revert n. induction l as [|a l IH]; intros [|n]; cbn; auto.
  now destruct i.
Qed.
Lemma set_nth_other {A} (l : list A) i j a :
  (i < length l)%nat -> i <> j -> nth_error (set_nth l i a) j = nth_error l j.
Proof.
  intros H Hij. unfold set_nth.
  destruct (Nat.lt_ge_cases j i).
  - rewrite nth_error_app1 by (rewrite firstn_length; lia).
    rewrite nth_error_firstn. now rewrite (proj2 (Nat.ltb_lt j i)).
  - rewrite nth_error_app2 by (rewrite firstn_length; lia).
    rewrite firstn_length, Nat.min_l by lia.
    destruct (j - i)%nat as [|k] eqn:E; [lia|]. cbn [nth_error].
    rewrite nth_error_skipn. f_equal. lia.
Qed.
Lemma upd_ok {A} (l : list A) i a :
  (i < length l)%nat -> upd l i a = Ok (set_nth l i a).
Proof. intros H. unfold upd. now rewrite (proj2 (Nat.ltb_lt _ _)). Qed.

Lemma nth_error_ext {A} (l1 l2 : list A) :
  (forall i, nth_error l1 i = nth_error l2 i) -> l1 = l2.
Proof.
  revert l2. induction l1 as [|a l1 IH]; intros [|b l2] H; auto.
  - specialize (H 0%nat). discriminate.
  - specialize (H 0%nat). discriminate.
  - f_equal.
    + specialize (H 0%nat). now inversion H.
    + apply IH. intros i. apply (H (S i)).
Qed.

Lemma nth_error_repeat_lt {A} (a : A) n i :
  (i < n)%nat -> nth_error (repeat a n) i = Some a.
Proof. apply nth_error_repeat. Qed.

(** * Nearest neighbour *)
Lemma nearest_at x q i a b k c :
  sortedR x ->
  nth_error x i = Some a -> nth_error x (S i) = Some b ->
  a <= q <= b ->
  (k = i /\ c = a /\ Rabs (a - q) < Rabs (b - q) \/
   k = S i /\ c = b /\ Rabs (b - q) <= Rabs (a - q)) ->
  nth_error x k = Some c /\
  forall j d, nth_error x j = Some d ->
    Rabs (c - q) <= Rabs (d - q) /\ (Rabs (d - q) = Rabs (c - q) -> d <= c).
Proof.
  intros Hs Ha Hb Hq Hk.
  rewrite (Rabs_left1 (a - q)) in Hk by lra.
  rewrite (Rabs_right (b - q)) in Hk by lra.
  split. { destruct Hk as [(-> & -> & _)|(-> & -> & _)]; auto. }
  intros j d Hd.
  assert (Hj : d <= a \/ b <= d).
  { destruct (Nat.le_gt_cases j i) as [H|H].
    - left. eapply Hs; eauto.
    - right. eapply Hs with (i := S i); eauto. }
  destruct Hk as [(-> & -> & H)|(-> & -> & H)]; destruct Hj as [Hj|Hj].
  - rewrite (Rabs_left1 (a - q)), (Rabs_left1 (d - q)) by lra. split; lra.
  - rewrite (Rabs_left1 (a - q)), (Rabs_right (d - q)) by lra. split; lra.
  - rewrite (Rabs_right (b - q)), (Rabs_left1 (d - q)) by lra. split; lra.
  - rewrite (Rabs_right (b - q)), (Rabs_right (d - q)) by lra. split; lra.
Qed.

Lemma nearest_loop_spec x q : sortedR x -> forall m s last,
  (s + m = length x - 1)%nat -> (2 <= length x)%nat ->
  (forall a, nth_error x s = Some a -> a <= q) ->
  (match last with Some i => S i = s | None => s = 0%nat end) ->
  exists k, nearest_loop q x (seq s m) last = Ok k /\ nearest_site x q k.
Proof.
  intros Hs. induction m as [|m IH]; intros s last Hlen H2 Hq Hl; cbn.
  - destruct last as [i|]; [|lia]. exists (S i). split; auto.
    subst s. destruct (nth_error_lt x (S i)) as [a Ha]; [lia|].
    exists a. split; auto. intros j b Hb.
    assert (b <= a).
    { eapply Hs; [|eauto|eauto]. apply nth_error_some_lt in Hb. lia. }
    specialize (Hq _ Ha).
    rewrite (Rabs_left1 (a - q)), (Rabs_left1 (b - q)) by lra. split; lra.
  - destruct (nth_error_lt x s) as [a Ha]; [lia|].
    destruct (nth_error_lt x (S s)) as [b Hb]; [lia|].
    rewrite (rd_some _ _ _ Ha), (rd_some _ _ _ Hb). cbn [rbind].
    pose proof (Hq _ Ha) as Hq'.
    destruct (Rleb a q) eqn:E1; [|apply Rleb_false in E1; lra].
    destruct (Rleb q b) eqn:E2; cbn [andb].
    + apply Rleb_true in E2.
      rbool; eexists; (split; [reflexivity|]); eexists;
      apply (nearest_at x q s a b _ _ Hs Ha Hb); [lra| |lra|]; auto.
    + apply Rleb_false in E2.
      apply (IH (S s) (Some s)); auto; try lia.
      intros c Hc. assert (c = b) by congruence. subst. lra.
Qed.

Lemma nearest_neighbour_1d_spec x q :
  x <> [] -> sortedR x ->
  exists k, nearest_neighbour_1d q x = Ok k /\ nearest_site x q k.
Proof.
  intros Hne Hs. unfold nearest_neighbour_1d.
  destruct (length x =? 1)%nat eqn:E1.
  - apply Nat.eqb_eq in E1. exists 0%nat. split; auto.
    destruct x as [|a [|b x]]; try discriminate.
    exists a. split; auto. intros [|j] b; cbn; [|destruct j; discriminate].
    intros [= ->]. split; lra.
  - apply Nat.eqb_neq in E1.
    assert (2 <= length x)%nat by (destruct x as [|? [|? ?]]; cbn in *; try easy; lia).
    destruct (nth_error_lt x 0) as [a Ha]; [lia|].
    rewrite (rd_some _ _ _ Ha). cbn [rbind].
    rbool.
    + exists 0%nat. split; auto. exists a. split; auto. intros j b Hb.
      assert (a <= b) by (eapply (Hs 0%nat j); eauto; lia).
      rewrite (Rabs_right (a - q)), (Rabs_right (b - q)) by lra. split; lra.
    + eapply nearest_loop_spec; eauto; try lia.
      intros c Hc. congruence.
Qed.

(** * Nearest interpolation *)
Definition min_dist (x : list R) (q : R) (k : nat) : Prop :=
  exists a, nth_error x k = Some a /\
    forall j b, nth_error x j = Some b -> Rabs (a - q) <= Rabs (b - q).

Lemma interp_nearest_spec x y q :
  x <> [] -> sortedR x -> length y = length x ->
  exists k v, interp_nearest q x y = Ok v /\ nth_error y k = Some v /\
    exists a, nth_error x k = Some a /\
    forall j b, nth_error x j = Some b -> Rabs (a - q) <= Rabs (b - q).
Proof.
  intros Hne Hs Hl. unfold interp_nearest.
  assert (0 < length x)%nat by (destruct x; cbn; try easy; lia).
  destruct (nth_error_lt x 0) as [a Ha]; [lia|].
  destruct (nth_error_lt y 0) as [ya Hya]; [lia|].
  destruct (nth_error_lt x (length x - 1)) as [z Hz]; [lia|].
  destruct (nth_error_lt y (length x - 1)) as [yz Hyz]; [lia|].
  rewrite (rd_some _ _ _ Ha), (rd_some _ _ _ Hz), (rd_some _ _ _ Hya),
    (rd_some _ _ _ Hyz).
  cbn [rbind]. rbool.
  - exists 0%nat, ya. split; [reflexivity|split;[assumption|]].
    exists a. split; auto. intros j b Hb.
    assert (a <= b) by (eapply (Hs 0%nat j); eauto; lia).
    rewrite (Rabs_right (a - q)), (Rabs_right (b - q)) by lra. lra.
  - exists (length x - 1)%nat, yz. split; [reflexivity|split;[assumption|]].
    exists z. split; auto. intros j b Hb.
    assert (b <= z).
    { eapply Hs; [|eauto|eauto]. apply nth_error_some_lt in Hb. lia. }
    rewrite (Rabs_left1 (z - q)), (Rabs_left1 (b - q)) by lra. lra.
  - destruct (nearest_neighbour_1d_spec x q Hne Hs) as (k & Hk & c & Hc & Hmin).
    rewrite Hk. cbn [rbind].
    pose proof (nth_error_some_lt _ _ _ Hc).
    destruct (nth_error_lt y k) as [v Hv]; [lia|].
    exists k, v. rewrite (rd_some _ _ _ Hv).
    split; [reflexivity|split;[assumption|]].
    exists c. split; auto. intros j b Hb. apply (Hmin _ _ Hb).
Qed.

Lemma rmap_spec {A B} (f : A -> res B) (P : A -> B -> Prop) l :
  (forall a, In a l -> exists b, f a = Ok b /\ P a b) ->
  exists bs, rmap f l = Ok bs /\ Forall2 P l bs.
Proof.
  induction l as [|a l IH]; intros H; cbn.
  - exists []. auto.
  - destruct (H a) as (b & Hb & HP); [now left|].
    destruct IH as (bs & Hbs & HF); [intros; apply H; now right|].
    exists (b :: bs). rewrite Hb. cbn. rewrite Hbs. cbn. auto.
Qed.

Lemma Forall2_impl {A B} (P Q : A -> B -> Prop) l1 l2 :
  (forall a b, P a b -> Q a b) -> Forall2 P l1 l2 -> Forall2 Q l1 l2.
Proof. intros H HF. induction HF; constructor; auto. Qed.

(** * Linear interpolation *)
Lemma floor_index_loop_spec x q z : sortedR x ->
  nth_error x (length x - 1) = Some z -> q < z ->
  forall m s,
  (s + m = length x)%nat -> (s < length x)%nat ->
  (forall a, nth_error x s = Some a -> a < q) ->
  exists i a b, floor_index_loop q x (seq s m) = Ok i /\
    nth_error x i = Some a /\ nth_error x (S i) = Some b /\ a < q <= b.
Proof.
  intros Hs Hz Hqz. induction m as [|m IH]; intros s Hlen Hlt Hq; [lia|]. cbn.
  destruct (nth_error_lt x s) as [a Ha]; [lia|].
  rewrite (rd_some _ _ _ Ha). cbn [rbind].
  pose proof (Hq _ Ha).
  assert (S s < length x)%nat.
  { destruct (Nat.eq_dec s (length x - 1)) as [->|]; [|lia].
    assert (a = z) by congruence. lra. }
  destruct (nth_error_lt x (S s)) as [b Hb]; [lia|].
  rewrite (rd_some _ _ _ Hb). cbn [rbind].
  destruct (Rleb a q) eqn:E1; [|apply Rleb_false in E1; lra].
  destruct (Rleb q b) eqn:E2.
  - apply Rleb_true in E2. exists s, a, b. repeat split; auto.
  - apply Rleb_false in E2. apply IH; try lia.
    intros c Hc. congruence.
Qed.

(** The segment formula. *)
Definition segment (q a b u v : R) : R := u + (q - a) * (v - u) / (b - a).

Lemma interp_linear_cases x y q :
  x <> [] -> sortedR x -> length y = length x ->
  exists v, interp_linear q x y = Ok v /\
   ((exists a, nth_error x 0 = Some a /\ q <= a /\ nth_error y 0 = Some v) \/
    (exists a z, nth_error x 0 = Some a /\ a < q /\
       nth_error x (length x - 1) = Some z /\ z <= q /\
       nth_error y (length x - 1) = Some v) \/
    (exists a z i c d u w,
       nth_error x 0 = Some a /\ a < q /\
       nth_error x (length x - 1) = Some z /\ q < z /\
       nth_error x i = Some c /\ nth_error x (S i) = Some d /\
       nth_error y i = Some u /\ nth_error y (S i) = Some w /\
       c < q <= d /\ v = segment q c d u w)).
Proof.
  intros Hne Hs Hl. unfold interp_linear.
  assert (0 < length x)%nat by (destruct x; cbn; try easy; lia).
  destruct (nth_error_lt x 0) as [a Ha]; [lia|].
  destruct (nth_error_lt y 0) as [ya Hya]; [lia|].
  destruct (nth_error_lt x (length x - 1)) as [z Hz]; [lia|].
  destruct (nth_error_lt y (length x - 1)) as [yz Hyz]; [lia|].
  rewrite (rd_some _ _ _ Ha), (rd_some _ _ _ Hz), (rd_some _ _ _ Hya),
    (rd_some _ _ _ Hyz).
  cbn [rbind].
  destruct (Rleb q a) eqn:E1; [apply Rleb_true in E1|apply Rleb_false in E1].
  { exists ya. split; auto. left. eauto. }
  destruct (Rleb z q) eqn:E2; [apply Rleb_true in E2|apply Rleb_false in E2].
  { exists yz. split; auto. right. left. exists a, z. auto. }
  destruct (floor_index_loop_spec x q z Hs Hz E2 (length x) 0)
    as (i & c & d & Hi & Hc & Hd & Hcd); try lia.
  { intros b Hb. congruence. }
  unfold floor_index. rewrite Hi. cbn [rbind].
  pose proof (nth_error_some_lt _ _ _ Hd).
  destruct (nth_error_lt y i) as [u Hu]; [lia|].
  destruct (nth_error_lt y (S i)) as [w Hw]; [lia|].
  rewrite (rd_some _ _ _ Hc), (rd_some _ _ _ Hd), (rd_some _ _ _ Hu), (rd_some _ _ _ Hw).
  cbn [rbind].
  destruct (Reqb (d - c) 0) eqn:E3; [apply Reqb_true in E3; lra|].
  eexists. split; [reflexivity|]. right. right.
  exists a, z, i, c, d, u, w. auto 12.
Qed.

Lemma segment_between q a b u v :
  a < b -> a <= q <= b ->
  Rmin u v <= segment q a b u v <= Rmax u v.
Proof.
  intros Hab Hq. unfold segment.
  set (t := (q - a) / (b - a)).
  replace (u + (q - a) * (v - u) / (b - a)) with (u + t * (v - u))
    by (unfold t; field; lra).
  assert (0 <= t <= 1).
  { unfold t. split.
    - apply Rmult_le_pos; [lra|]. left. apply Rinv_0_lt_compat. lra.
    - apply Rmult_le_reg_r with (b - a); [lra|]. unfold Rdiv.
      rewrite Rmult_assoc, Rinv_l by lra. lra. }
  unfold Rmin, Rmax. destruct (Rle_dec u v); split; nra.
Qed.

Lemma segment_left a b u v : a < b -> segment a a b u v = u.
Proof. intros. unfold segment. field. lra. Qed.
Lemma segment_right a b u v : a < b -> segment b a b u v = v.
Proof. intros. unfold segment. field. lra. Qed.

(** With c < q <= d for consecutive sorted nodes, the segment is unique. *)
Lemma segment_unique x q i j a b c d :
  sortedR x ->
  nth_error x i = Some a -> nth_error x (S i) = Some b -> a < q <= b ->
  nth_error x j = Some c -> nth_error x (S j) = Some d -> c < q <= d -> i = j.
Proof.
  intros Hs Ha Hb H1 Hc Hd H2.
  destruct (Nat.lt_trichotomy i j) as [H|[H|H]]; auto.
  - assert (b <= c) by (eapply (Hs (S i) j); eauto). lra.
  - assert (d <= a) by (eapply (Hs (S j) i); eauto). lra.
Qed.

Lemma interp_linear_spec x y q :
  x <> [] -> sortedR x -> length y = length x ->
  exists v, interp_linear q x y = Ok v /\
    (forall a, nth_error x 0 = Some a -> q <= a -> nth_error y 0 = Some v) /\
    (forall a z, nth_error x 0 = Some a -> a < q ->
       nth_error x (length x - 1) = Some z -> z <= q ->
       nth_error y (length x - 1) = Some v) /\
    (forall i c d u w z,
       nth_error x i = Some c -> nth_error x (S i) = Some d ->
       nth_error y i = Some u -> nth_error y (S i) = Some w ->
       nth_error x (length x - 1) = Some z -> q < z ->
       c < q <= d ->
       v = u + (q - c) * (w - u) / (d - c) /\ Rmin u w <= v <= Rmax u w).
Proof.
  intros Hne Hs Hl.
  destruct (interp_linear_cases x y q Hne Hs Hl) as (v & Hv & Hc).
  exists v. split; auto.
  destruct Hc as [(a & Ha & Hqa & Hy)|[(a & z & Ha & Haq & Hz & Hzq & Hy)|
    (a & z & i & c & d & u & w & Ha & Haq & Hz & Hzq & Hc & Hd & Hu & Hw & Hcd & ->)]].
  - split; [|split].
    + auto.
    + intros b z Hb Hbq. assert (a = b) by congruence. lra.
    + intros i c d u w z Hc Hd Hu Hw Hz Hqz Hcd. exfalso.
      assert (a <= c) by (eapply (Hs 0%nat i); eauto; lia). lra.
  - split; [|split].
    + intros b Hb Hqb. assert (a = b) by congruence. lra.
    + auto.
    + intros i c d u w z' Hc Hd Hu Hw Hz' Hqz Hcd. exfalso.
      assert (z = z') by congruence. lra.
  - split; [|split].
    + intros b Hb Hqb. assert (a = b) by congruence. lra.
    + intros b z' Hb Hbq Hz' Hzq'. assert (z = z') by congruence. lra.
    + intros j c' d' u' w' z' Hc' Hd' Hu' Hw' Hz' Hqz Hcd'.
      assert (i = j) by (eapply segment_unique; eauto). subst j.
      assert (c = c') by congruence. assert (d = d') by congruence.
      assert (u = u') by congruence. assert (w = w') by congruence. subst.
      split; [reflexivity|]. apply segment_between; lra.
Qed.

Lemma interp_linear_node x y k a :
  strictly_sortedR x -> length y = length x ->
  nth_error x k = Some a -> exists v, interp_linear a x y = Ok v /\ nth_error y k = Some v.
Proof.
  intros Hss Hl Hk.
  assert (Hs : sortedR x).
  { intros i j b c Hij Hb Hc. destruct (Nat.eq_dec i j) as [->|].
    - assert (b = c) by congruence. lra.
    - left. eapply Hss; [|eauto|eauto]. lia. }
  assert (Hne : x <> []) by (destruct x, k; cbn in *; congruence).
  destruct (interp_linear_cases x y a Hne Hs Hl) as (v & Hv & Hc).
  exists v. split; auto.
  destruct Hc as [(b & Hb & Hqb & Hy)|[(b & z & Hb & Hbq & Hz & Hzq & Hy)|
    (b & z & i & c & d & u & w & Hb & Hbq & Hz & Hzq & Hc & Hd & Hu & Hw & Hcd & ->)]].
  - destruct k as [|k]; auto.
    assert (b < a) by (eapply Hss; [|eauto|eauto]; lia). lra.
  - destruct (Nat.eq_dec k (length x - 1)) as [->|]; auto.
    assert (a < z).
    { eapply Hss; [|eauto|eauto]. apply nth_error_some_lt in Hk. lia. }
    lra.
  - assert (k = S i).
    { destruct (Nat.lt_trichotomy k (S i)) as [H|[H|H]]; auto.
      - assert (a <= c) by (eapply (Hs k i); eauto; lia). lra.
      - assert (d < a) by (eapply Hss; [|eauto|eauto]; lia). lra. }
    subst k. assert (a = d) by congruence. subst a.
    rewrite segment_right by lra. auto.
Qed.

(** Monotonicity in the node values. *)
Lemma interp_linear_mono x y1 y2 q :
  x <> [] -> sortedR x -> length y1 = length x -> length y2 = length x ->
  (forall i u v, nth_error y1 i = Some u -> nth_error y2 i = Some v -> u < v) ->
  exists v1 v2, interp_linear q x y1 = Ok v1 /\ interp_linear q x y2 = Ok v2 /\ v1 < v2.
Proof.
  intros Hne Hs H1 H2 Hlt.
  destruct (interp_linear_cases x y1 q Hne Hs H1) as (v1 & Hv1 & Hc1).
  destruct (interp_linear_cases x y2 q Hne Hs H2) as (v2 & Hv2 & Hc2).
  exists v1, v2. split; auto. split; auto.
  destruct Hc1 as [(a & Ha & Hqa & Hy)|[(a & z & Ha & Haq & Hz & Hzq & Hy)|
    (a & z & i & c & d & u & w & Ha & Haq & Hz & Hzq & Hc & Hd & Hu & Hw & Hcd & ->)]];
  destruct Hc2 as [(a' & Ha' & Hqa' & Hy')|[(a' & z' & Ha' & Haq' & Hz' & Hzq' & Hy')|
    (a' & z' & i' & c' & d' & u' & w' & Ha' & Haq' & Hz' & Hzq' & Hc' & Hd' & Hu' & Hw' & Hcd' & ->)]];
  try (assert (a = a') by congruence; lra);
  try (assert (z = z') by congruence; lra);
  try (eapply Hlt; now eauto).
  assert (i = i') by (eapply segment_unique; eauto). subst i'.
  assert (c = c') by congruence. assert (d = d') by congruence. subst c' d'.
  pose proof (Hlt _ _ _ Hu Hu'). pose proof (Hlt _ _ _ Hw Hw').
  unfold segment.
  set (t := (q - c) / (d - c)).
  replace (u + (q - c) * (w - u) / (d - c)) with (u + t * (w - u))
    by (unfold t; field; lra).
  replace (u' + (q - c) * (w' - u') / (d - c)) with (u' + t * (w' - u'))
    by (unfold t; field; lra).
  assert (0 <= t <= 1).
  { unfold t. split.
    - apply Rmult_le_pos; [lra|]. left. apply Rinv_0_lt_compat. lra.
    - apply Rmult_le_reg_r with (d - c); [lra|]. unfold Rdiv.
      rewrite Rmult_assoc, Rinv_l by lra. lra. }
  assert (0 <= (1 - t) * (u' - u)) by (apply Rmult_le_pos; lra).
  assert (0 <= t * (w' - w)) by (apply Rmult_le_pos; lra).
  destruct (Rle_lt_dec t (1/2)).
  - assert (0 < (1 - t) * (u' - u)) by (apply Rmult_lt_0_compat; lra). lra.
  - assert (0 < t * (w' - w)) by (apply Rmult_lt_0_compat; lra). lra.
Qed.

(** Interpolating a difference. *)
Definition diffR (y2 y1 : list R) : list R :=
  map (fun p => fst p - snd p) (combine y2 y1).

Lemma nth_error_diffR y2 y1 i u v :
  nth_error y2 i = Some u -> nth_error y1 i = Some v ->
  nth_error (diffR y2 y1) i = Some (u - v).
Proof.
  unfold diffR. revert y1 i. induction y2 as [|a y2 IH]; intros [|b y1] [|i]; cbn; try easy.
  - congruence.
  - apply IH.
Qed.

Lemma interp_linear_diff x y1 y2 q :
  x <> [] -> sortedR x -> length y1 = length x -> length y2 = length x ->
  exists v1 v2, interp_linear q x y1 = Ok v1 /\ interp_linear q x y2 = Ok v2 /\
    interp_linear q x (diffR y2 y1) = Ok (v2 - v1).
Proof.
  intros Hne Hs H1 H2.
  assert (H3 : length (diffR y2 y1) = length x).
  { unfold diffR. rewrite map_length, combine_length. lia. }
  destruct (interp_linear_cases x y1 q Hne Hs H1) as (v1 & Hv1 & Hc1).
  destruct (interp_linear_cases x y2 q Hne Hs H2) as (v2 & Hv2 & Hc2).
  destruct (interp_linear_cases x _ q Hne Hs H3) as (v3 & Hv3 & Hc3).
  exists v1, v2. split; auto. split; auto. rewrite Hv3. f_equal. clear Hv1 Hv2 Hv3.
  destruct Hc1 as [(a & Ha & Hqa & Hy)|[(a & z & Ha & Haq & Hz & Hzq & Hy)|
    (a & z & i & c & d & u & w & Ha & Haq & Hz & Hzq & Hc & Hd & Hu & Hw & Hcd & ->)]];
  destruct Hc2 as [(a' & Ha' & Hqa' & Hy')|[(a' & z' & Ha' & Haq' & Hz' & Hzq' & Hy')|
    (a' & z' & i' & c' & d' & u' & w' & Ha' & Haq' & Hz' & Hzq' & Hc' & Hd' & Hu' & Hw' & Hcd' & ->)]];
  try (assert (a = a') by congruence; lra);
  try (assert (z = z') by congruence; lra);
  destruct Hc3 as [(a3 & Ha3 & Hqa3 & Hy3)|[(a3 & z3 & Ha3 & Haq3 & Hz3 & Hzq3 & Hy3)|
    (a3 & z3 & i3 & c3 & d3 & u3 & w3 & Ha3 & Haq3 & Hz3 & Hzq3 & Hc3 & Hd3 & Hu3 & Hw3 & Hcd3 & ->)]];
  try (assert (a = a3) by congruence; lra);
  try (assert (z = z3) by congruence; lra).
  - rewrite (nth_error_diffR _ _ _ _ _ Hy' Hy) in Hy3. congruence.
  - rewrite (nth_error_diffR _ _ _ _ _ Hy' Hy) in Hy3. congruence.
  - assert (i = i') by (eapply segment_unique; eauto). subst i'.
    assert (i = i3) by (eapply segment_unique; eauto). subst i3.
    assert (c = c') by congruence. assert (d = d') by congruence. subst c' d'.
    assert (c = c3) by congruence. assert (d = d3) by congruence. subst c3 d3.
    rewrite (nth_error_diffR _ _ _ _ _ Hu' Hu) in Hu3.
    rewrite (nth_error_diffR _ _ _ _ _ Hw' Hw) in Hw3.
    injection Hu3 as <-. injection Hw3 as <-.
    unfold segment. field. lra.
Qed.

(** * Insertion, deletion *)
Lemma nth_error_insert_at {A} i (a : A) l j :
  (i <= length l)%nat ->
  nth_error (insert_at i a l) j =
    if (j <? i)%nat then nth_error l j
    else if (j =? i)%nat then Some a else nth_error l (j - 1).
Proof.
  intros H. unfold insert_at.
  destruct (j <? i)%nat eqn:E1.
  - apply Nat.ltb_lt in E1. rewrite nth_error_app1 by (rewrite firstn_length; lia).
    rewrite nth_error_firstn. now rewrite (proj2 (Nat.ltb_lt _ _)).
  - apply Nat.ltb_ge in E1. rewrite nth_error_app2 by (rewrite firstn_length; lia).
    rewrite firstn_length, Nat.min_l by lia.
    destruct (j =? i)%nat eqn:E2.
    + apply Nat.eqb_eq in E2. subst. now rewrite Nat.sub_diag.
    + apply Nat.eqb_neq in E2.
      destruct (j - i)%nat as [|k] eqn:E; [lia|]. cbn [nth_error].
      rewrite nth_error_skipn. f_equal. lia.
Qed.
Lemma nth_error_delete_at {A} i (l : list A) j :
  (i < length l)%nat ->
  nth_error (delete_at i l) j =
    if (j <? i)%nat then nth_error l j else nth_error l (S j).
Proof.
  intros H. unfold delete_at.
  destruct (j <? i)%nat eqn:E1.
  - apply Nat.ltb_lt in E1. rewrite nth_error_app1 by (rewrite firstn_length; lia).
    rewrite nth_error_firstn. now rewrite (proj2 (Nat.ltb_lt _ _)).
  - apply Nat.ltb_ge in E1. rewrite nth_error_app2 by (rewrite firstn_length; lia).
    rewrite firstn_length, Nat.min_l by lia.
    rewrite nth_error_skipn. f_equal. lia.
Qed.
Lemma insert_at_length {A} i (a : A) l :
  (i <= length l)%nat -> length (insert_at i a l) = S (length l).
Proof.
  intros. unfold insert_at. rewrite app_length. cbn [length].
  rewrite firstn_length, skipn_length. lia.
Qed.
Lemma delete_at_length {A} i (l : list A) :
  (i < length l)%nat -> length (delete_at i l) = (length l - 1)%nat.
Proof.
  intros. unfold delete_at. rewrite app_length, firstn_length, skipn_length. lia.
Qed.

Lemma insert_loop_spec values index value :
  (index <= length values)%nat -> forall m s j new,
  (s + m = S (length values))%nat ->
  length new = S (length values) ->
  j = (if (s <=? index)%nat then s else s - 1)%nat ->
  (forall k, (k < s)%nat -> nth_error new k = nth_error (insert_at index value values) k) ->
  insert_loop values index value (seq s m) j new = Ok (insert_at index value values).
Proof.
  intros Hi. induction m as [|m IH]; intros s j new Hs Hn Hj Hk; cbn.
  - f_equal. apply nth_error_ext. intros i.
    destruct (Nat.lt_ge_cases i s); auto.
    transitivity (@None R); [|symmetry]; apply nth_error_None.
    + lia.
    + rewrite insert_at_length; lia.
  - assert (Hlt : (s < length new)%nat) by lia.
    assert (Hins := nth_error_insert_at index value values s Hi).
    destruct (s =? index)%nat eqn:E.
    + apply Nat.eqb_eq in E. subst s.
      rewrite upd_ok by lia. cbn [rbind].
      apply IH; try lia.
      * rewrite set_nth_length; lia.
      * destruct (S index <=? index)%nat eqn:E2; [apply Nat.leb_le in E2; lia|].
        rewrite Nat.leb_refl in Hj. lia.
      * intros k Hk'. destruct (Nat.eq_dec k index) as [->|].
        -- rewrite set_nth_same by lia. rewrite Hins, Nat.ltb_irrefl. reflexivity.
        -- rewrite set_nth_other by lia. apply Hk. lia.
    + apply Nat.eqb_neq in E.
      assert (Hjv : nth_error values j = nth_error (insert_at index value values) s).
      { rewrite Hins, Hj. destruct (s <? index)%nat eqn:E2.
        - apply Nat.ltb_lt in E2. now rewrite (proj2 (Nat.leb_le _ _)) by lia.
        - apply Nat.ltb_ge in E2.
          destruct (s <=? index)%nat eqn:E3; [apply Nat.leb_le in E3; lia|].
          reflexivity. }
      destruct (nth_error_lt values j) as [v Hv].
      { rewrite Hj. destruct (s <=? index)%nat eqn:E3.
        - apply Nat.leb_le in E3. lia.
        - apply Nat.leb_gt in E3. lia. }
      rewrite (rd_some _ _ _ Hv). cbn [rbind]. rewrite upd_ok by lia. cbn [rbind].
      apply IH; try lia.
      * rewrite set_nth_length; lia.
      * rewrite Hj. destruct (s <=? index)%nat eqn:E3; destruct (S s <=? index)%nat eqn:E4;
        rewrite ?Nat.leb_le, ?Nat.leb_gt in *; lia.
      * intros k Hk'. destruct (Nat.eq_dec k s) as [->|].
        -- rewrite set_nth_same by lia. congruence.
        -- rewrite set_nth_other by lia. apply Hk. lia.
Qed.

Lemma insert_1d_spec values index value :
  (index <= length values)%nat ->
  insert_1d values index value = Ok (insert_at index value values).
Proof.
  intros H. unfold insert_1d. apply insert_loop_spec; auto.
  - now rewrite repeat_length.
  - intros k Hk. lia.
Qed.

Lemma delete_loop_spec values index :
  (index < length values)%nat -> forall m s j new,
  (s + m = length values)%nat ->
  length new = (length values - 1)%nat ->
  j = (if (s <=? index)%nat then s else s - 1)%nat ->
  (forall k, (k < j)%nat -> nth_error new k = nth_error (delete_at index values) k) ->
  delete_loop values index (seq s m) j new = Ok (delete_at index values).
Proof.
  intros Hi. induction m as [|m IH]; intros s j new Hs Hn Hj Hk; cbn.
  - f_equal. apply nth_error_ext. intros i.
    destruct (s <=? index)%nat eqn:E; [apply Nat.leb_le in E; lia|].
    destruct (Nat.lt_ge_cases i j); auto.
    transitivity (@None R); [|symmetry]; apply nth_error_None.
    + lia.
    + rewrite delete_at_length; lia.
  - destruct (s =? index)%nat eqn:E.
    + apply Nat.eqb_eq in E. subst s.
      apply IH; auto; try lia.
      rewrite Nat.leb_refl in Hj.
      destruct (S index <=? index)%nat eqn:E2; [apply Nat.leb_le in E2; lia|]. lia.
    + apply Nat.eqb_neq in E.
      destruct (nth_error_lt values s) as [v Hv]; [lia|].
      rewrite (rd_some _ _ _ Hv). cbn [rbind].
      assert (Hjlt : (j < length new)%nat).
      { rewrite Hj. destruct (s <=? index)%nat eqn:E3;
        rewrite ?Nat.leb_le, ?Nat.leb_gt in *; lia. }
      assert (Hd : nth_error (delete_at index values) j = Some v).
      { rewrite nth_error_delete_at by auto. rewrite Hj.
        destruct (s <=? index)%nat eqn:E3; rewrite ?Nat.leb_le, ?Nat.leb_gt in *.
        - rewrite (proj2 (Nat.ltb_lt _ _)) by lia. auto.
        - destruct (s - 1 <? index)%nat eqn:E4; [apply Nat.ltb_lt in E4; lia|].
          replace (S (s - 1)) with s by lia. auto. }
      rewrite upd_ok by lia. cbn [rbind]. apply IH; try lia.
      * rewrite set_nth_length; lia.
      * rewrite Hj. destruct (s <=? index)%nat eqn:E3; destruct (S s <=? index)%nat eqn:E4;
        rewrite ?Nat.leb_le, ?Nat.leb_gt in *; lia.
      * intros k Hk'. destruct (Nat.eq_dec k j) as [->|].
        -- rewrite set_nth_same by lia. congruence.
        -- rewrite set_nth_other by lia. apply Hk. lia.
Qed.

Lemma delete_1d_spec values index :
  (index < length values)%nat ->
  delete_1d values index = Ok (delete_at index values).
Proof.
  intros H. unfold delete_1d.
  destruct (length values =? 0)%nat eqn:E; [apply Nat.eqb_eq in E; lia|].
  apply delete_loop_spec; auto.
  - now rewrite repeat_length.
  - intros k Hk. cbn in Hk. lia.
Qed.

Lemma delete_insert {A} i (a : A) l :
  (i <= length l)%nat -> delete_at i (insert_at i a l) = l.
Proof.
  intros H. apply nth_error_ext. intros j.
  rewrite nth_error_delete_at by (rewrite insert_at_length; lia).
  rewrite !nth_error_insert_at by auto.
  destruct (j <? i)%nat eqn:E; auto. apply Nat.ltb_ge in E.
  destruct (S j <? i)%nat eqn:E2; [apply Nat.ltb_lt in E2; lia|].
  destruct (S j =? i)%nat eqn:E3; [apply Nat.eqb_eq in E3; lia|].
  f_equal. lia.
Qed.
Lemma insert_delete {A} i (a : A) l :
  nth_error l i = Some a -> insert_at i a (delete_at i l) = l.
Proof.
  intros H. pose proof (nth_error_some_lt _ _ _ H).
  apply nth_error_ext. intros j.
  rewrite nth_error_insert_at by (rewrite delete_at_length; lia).
  rewrite !nth_error_delete_at by auto.
  destruct (j <? i)%nat eqn:E; auto. apply Nat.ltb_ge in E.
  destruct (j =? i)%nat eqn:E3; [apply Nat.eqb_eq in E3; now subst|].
  apply Nat.eqb_neq in E3.
  destruct (j - 1 <? i)%nat eqn:E2; [apply Nat.ltb_lt in E2; lia|].
  f_equal. lia.
Qed.
