(** Proofs about cell extents, interfaces, layered profiles and the AR(1) precision
    matrix of _utils_1d.pyx. *)
From Verif Require Import Base ModelUtils1D SpecUtils1D ProofUtils1D.
Local Open Scope R_scope.

(** * Extents *)
Lemma boundary_mid s lb ub i a b :
  nth_error s i = Some a -> nth_error s (S i) = Some b ->
  boundary s lb ub (S i) = Some ((a + b) / 2).
Proof. intros Ha Hb. unfold boundary. now rewrite Ha, Hb. Qed.
Lemma boundary_last s lb ub : s <> [] -> boundary s lb ub (length s) = ub.
Proof.
  intros H. destruct s as [|a s]; [easy|]. cbn [length]. unfold boundary.
  replace (nth_error (a :: s) (S (length s))) with (@None R).
  - destruct (nth_error (a :: s) (length s)); reflexivity.
  - symmetry. apply nth_error_None. cbn. lia.
Qed.

Lemma extents_loop_spec sites lb ub fill : forall m st oi d1 od2 e,
  (st + m = length sites - 1)%nat -> length e = length sites ->
  boundary sites lb ub st = Some d1 ->
  exists oi' od2' e',
    extents_loop sites (seq st m) oi d1 od2 e = Ok (oi', od2', e') /\
    length e' = length sites /\
    (forall k, nth_error e' k =
       if ((st <=? k) && (k <? st + m))%nat then Some (cell_extent sites lb ub fill k)
       else nth_error e k) /\
    match m with
    | O => oi' = oi /\ od2' = od2
    | S _ => oi' = Some (st + m - 1)%nat /\
             exists d2, od2' = Some d2 /\ boundary sites lb ub (st + m) = Some d2
    end.
Proof.
  induction m as [|m IH]; intros st oi d1 od2 e Hlen He Hb.
  - exists oi, od2, e. cbn [seq extents_loop]. repeat split; auto. intros k.
    destruct (st <=? k)%nat eqn:E1; destruct (k <? st + 0)%nat eqn:E2; auto.
    apply Nat.leb_le in E1. apply Nat.ltb_lt in E2. lia.
  - cbn [seq extents_loop].
    destruct (nth_error_lt sites st) as [a Ha]; [lia|].
    destruct (nth_error_lt sites (S st)) as [b Hb']; [lia|].
    rewrite (rd_some _ _ _ Ha), (rd_some _ _ _ Hb'). cbn [rbind].
    rewrite upd_ok by lia. cbn [rbind].
    assert (Hb2 := boundary_mid sites lb ub st a b Ha Hb').
    destruct (IH (S st) (Some st) ((a + b) / 2) (Some ((a + b) / 2))
                (set_nth e st (Fin ((a + b) / 2 - d1))))
      as (oi' & od2' & e' & Hl & Hlen' & Hnth & Hend); auto; try lia.
    { rewrite set_nth_length; lia. }
    exists oi', od2', e'. split; [exact Hl|]. split; [exact Hlen'|]. split.
    + intros k. rewrite Hnth.
      destruct (Nat.eq_dec k st) as [->|Hk].
      * destruct (S st <=? st)%nat eqn:E1; [apply Nat.leb_le in E1; lia|].
        rewrite Nat.leb_refl, (proj2 (Nat.ltb_lt st (st + S m))) by lia. cbn [andb].
        rewrite set_nth_same by lia. unfold cell_extent. now rewrite Hb, Hb2.
      * rewrite set_nth_other by lia.
        replace (S st + m)%nat with (st + S m)%nat by lia.
        destruct (S st <=? k)%nat eqn:E1; destruct (st <=? k)%nat eqn:E2;
          rewrite ?Nat.leb_le, ?Nat.leb_gt in *; try lia; auto.
    + destruct m as [|m].
      * destruct Hend as [-> ->]. split; [f_equal; lia|].
        exists ((a + b) / 2). replace (st + 1)%nat with (S st) by lia. auto.
      * destruct Hend as [-> (d2 & -> & Hd)]. split; [f_equal; lia|].
        exists d2. replace (st + S (S m))%nat with (S st + S m)%nat by lia. auto.
Qed.

Lemma nth_error_map_seq {A} (f : nat -> A) n k :
  nth_error (map f (seq 0 n)) k = if (k <? n)%nat then Some (f k) else None.
Proof.
  destruct (k <? n)%nat eqn:E.
  - apply Nat.ltb_lt in E.
    rewrite (map_nth_error f k (seq 0 n) (d := k)); auto.
    rewrite (nth_error_nth' _ 0%nat) by (rewrite seq_length; lia).
    now rewrite seq_nth by lia.
  - apply Nat.ltb_ge in E. apply nth_error_None. rewrite map_length, seq_length. lia.
Qed.

Lemma extents_spec sites lb ub fill :
  (match lb with Some _ => 2 | None => 3 end <= length sites)%nat ->
  compute_voronoi1d_cell_extents sites lb ub fill =
    Ok (map (cell_extent sites lb ub fill) (seq 0 (length sites))).
Proof.
  intros Hlen. unfold compute_voronoi1d_cell_extents.
  assert (2 <= length sites)%nat by (destruct lb; lia).
  destruct (length sites =? 0)%nat eqn:E0; [apply Nat.eqb_eq in E0; lia|]. clear E0.
  set (n := length sites) in *.
  assert (Hlast : boundary sites lb ub n = ub).
  { apply boundary_last. intros ->. cbn in *. lia. }
  destruct lb as [l|].
  - cbn [rbind].
    destruct (extents_loop_spec sites (Some l) ub fill (n - 1 - 0) 0 None l None
                (repeat (Fin 0) n))
      as (oi' & od2' & e' & Hl & Hlen' & Hnth & Hend); auto; fold n; try lia.
    { apply repeat_length. }
    rewrite Hl. cbn [rbind].
    destruct (n - 1 - 0)%nat as [|m] eqn:Em; [lia|].
    destruct Hend as [-> (d2 & -> & Hd2)].
    assert (Hfin : forall v, v = cell_extent sites (Some l) ub fill (n - 1) ->
      upd e' (S (0 + S m - 1)) v
      = Ok (map (cell_extent sites (Some l) ub fill) (seq 0 n))).
    { intros v ->. replace (S (0 + S m - 1)) with (n - 1)%nat by lia.
      rewrite upd_ok by lia. f_equal. apply nth_error_ext. intros k.
      rewrite nth_error_map_seq.
      destruct (Nat.eq_dec k (n - 1)) as [->|Hk].
      - rewrite set_nth_same by lia. now rewrite (proj2 (Nat.ltb_lt _ _)) by lia.
      - rewrite set_nth_other by lia. rewrite Hnth.
        change (0 <=? k)%nat with true. cbn [andb].
        destruct (k <? 0 + S m)%nat eqn:E1; destruct (k <? n)%nat eqn:E2;
          rewrite ?Nat.ltb_lt, ?Nat.ltb_ge in *; auto; try lia.
        apply nth_error_None. rewrite repeat_length. lia. }
    replace (0 + S m)%nat with (n - 1)%nat in Hd2 by lia.
    destruct ub as [u|]; apply Hfin; unfold cell_extent; rewrite Hd2;
      replace (S (n - 1)) with n by lia; now rewrite Hlast.
  - rewrite upd_ok by (rewrite repeat_length; lia). cbn [rbind].
    destruct (nth_error_lt sites 0) as [s0 Hs0]; [lia|].
    destruct (nth_error_lt sites 1) as [s1 Hs1]; [lia|].
    rewrite (rd_some _ _ _ Hs0), (rd_some _ _ _ Hs1). cbn [rbind].
    destruct (extents_loop_spec sites None ub fill (n - 1 - 1) 1 None ((s0 + s1) / 2) None
                (set_nth (repeat (Fin 0) n) 0 fill))
      as (oi' & od2' & e' & Hl & Hlen' & Hnth & Hend); auto; fold n; try lia.
    { rewrite set_nth_length; rewrite repeat_length; lia. }
    { now apply boundary_mid. }
    rewrite Hl. cbn [rbind].
    destruct (n - 1 - 1)%nat as [|m] eqn:Em; [lia|].
    destruct Hend as [-> (d2 & -> & Hd2)].
    assert (Hfin : forall v, v = cell_extent sites None ub fill (n - 1) ->
      upd e' (S (1 + S m - 1)) v
      = Ok (map (cell_extent sites None ub fill) (seq 0 n))).
    { intros v ->. replace (S (1 + S m - 1)) with (n - 1)%nat by lia.
      rewrite upd_ok by lia. f_equal. apply nth_error_ext. intros k.
      rewrite nth_error_map_seq.
      destruct (Nat.eq_dec k (n - 1)) as [->|Hk].
      - rewrite set_nth_same by lia. now rewrite (proj2 (Nat.ltb_lt _ _)) by lia.
      - rewrite set_nth_other by lia. rewrite Hnth.
        destruct (Nat.eq_dec k 0) as [->|Hk0].
        + cbn [Nat.leb andb]. rewrite set_nth_same by (rewrite repeat_length; lia).
          rewrite (proj2 (Nat.ltb_lt _ _)) by lia. reflexivity.
        + rewrite set_nth_other by (rewrite ?repeat_length; lia).
          rewrite (proj2 (Nat.leb_le _ _)) by lia. cbn [andb].
          destruct (k <? 1 + S m)%nat eqn:E1; destruct (k <? n)%nat eqn:E2;
            rewrite ?Nat.ltb_lt, ?Nat.ltb_ge in *; auto; try lia.
          apply nth_error_None. rewrite repeat_length. lia. }
    replace (1 + S m)%nat with (n - 1)%nat in Hd2 by lia.
    destruct ub as [u|]; apply Hfin; unfold cell_extent; rewrite Hd2;
      replace (S (n - 1)) with n by lia; now rewrite Hlast.
Qed.

Lemma rsum_app a b : rsum (a ++ b) = rsum a + rsum b.
Proof. unfold rsum. induction a as [|x a IH]; cbn; [|rewrite IH]; lra. Qed.

(** Real version of the boundary for a left-bounded tessellation. *)
Definition bnd (s : list R) (l : R) (i : nat) : R :=
  match i with
  | O => l
  | S j => (nth j s 0 + nth i s 0) / 2
  end.
Lemma boundary_bnd s l ub i :
  (i < length s)%nat -> boundary s (Some l) ub i = Some (bnd s l i).
Proof.
  intros H. destruct i as [|j]; auto. unfold boundary, bnd.
  rewrite (nth_error_nth' s 0 (n := j)) by lia.
  rewrite (nth_error_nth' s 0 (n := S j)) by lia. reflexivity.
Qed.

Lemma bnd_mono s l ub i :
  sortedR s -> (forall a, nth_error s 0 = Some a -> l <= a) ->
  (forall a, nth_error s (length s - 1) = Some a -> a <= ub) ->
  (i < length s)%nat ->
  bnd s l i <= match nth_error s (S i) with Some _ => bnd s l (S i) | None => ub end.
Proof.
  intros Hs Hl Hu Hi.
  destruct (nth_error_lt s i) as [a Ha]; auto.
  assert (Hbi : bnd s l i <= a).
  { destruct i as [|j]; cbn [bnd]. { auto. }
    destruct (nth_error_lt s j) as [c Hc]; [lia|].
    rewrite (nth_error_nth _ _ 0 Ha), (nth_error_nth _ _ 0 Hc).
    assert (c <= a) by (eapply (Hs j (S j)); eauto). lra. }
  destruct (nth_error s (S i)) as [b|] eqn:Hb.
  - cbn [bnd]. rewrite (nth_error_nth _ _ 0 Ha), (nth_error_nth _ _ 0 Hb).
    assert (a <= b) by (eapply (Hs i (S i)); eauto). lra.
  - apply nth_error_None in Hb. assert (i = (length s - 1)%nat) by lia. subst i.
    specialize (Hu _ Ha). lra.
Qed.

Definition ext_real (e : ext) : R := match e with Fin r => r | _ => 0 end.

Lemma extents_bounded sites l u fill :
  (2 <= length sites)%nat -> sortedR sites ->
  Forall (fun a => l <= a <= u) sites ->
  exists es, compute_voronoi1d_cell_extents sites (Some l) (Some u) fill = Ok (map Fin es) /\
    length es = length sites /\
    Forall (fun e => 0 <= e) es /\ rsum es = u - l /\
    (forall k, (k <= length sites)%nat ->
       exists b, boundary sites (Some l) (Some u) k = Some b /\
                 rsum (firstn k es) = b - l).
Proof.
  intros Hn Hs HF. rewrite extents_spec by exact Hn.
  set (n := length sites) in *.
  assert (Hne : sites <> []) by (intros ->; cbn in *; lia).
  assert (Hbnd : forall k, (k <= n)%nat ->
    boundary sites (Some l) (Some u) k = Some (if (k <? n)%nat then bnd sites l k else u)).
  { intros k Hk. destruct (k <? n)%nat eqn:E.
    - apply Nat.ltb_lt in E. apply boundary_bnd; auto.
    - apply Nat.ltb_ge in E. replace k with n by lia. now apply boundary_last. }
  set (B := fun k => if (k <? n)%nat then bnd sites l k else u) in *.
  exists (map (fun k => B (S k) - B k) (seq 0 n)).
  split; [|split; [|split; [|split]]].
  - f_equal. rewrite map_map. apply map_ext_in. intros k Hk. apply in_seq in Hk.
    unfold cell_extent. rewrite !Hbnd by lia. reflexivity.
  - now rewrite map_length, seq_length.
  - apply Forall_forall. intros e He. apply in_map_iff in He.
    destruct He as (k & <- & Hk). apply in_seq in Hk.
    assert (Hm := bnd_mono sites l u k Hs). fold n in Hm.
    enough (B k <= B (S k)) by lra.
    unfold B. rewrite (proj2 (Nat.ltb_lt k n)) by lia.
    rewrite Forall_forall in HF.
    assert (Hm' := Hm (fun a Ha => proj1 (HF a (nth_error_In _ _ Ha)))
                      (fun a Ha => proj2 (HF a (nth_error_In _ _ Ha)))
                      ltac:(lia)).
    destruct (nth_error sites (S k)) eqn:E.
    + apply nth_error_some_lt in E. fold n in E.
      now rewrite (proj2 (Nat.ltb_lt _ _)) by lia.
    + apply nth_error_None in E. fold n in E.
      now rewrite (proj2 (Nat.ltb_ge _ _)) by lia.
  - assert (H : forall m st, rsum (map (fun k => B (S k) - B k) (seq st m)) = B (st + m)%nat - B st).
    { induction m as [|m IH]; intros st; cbn; [rewrite Nat.add_0_r; lra|].
      rewrite IH. replace (S st + m)%nat with (st + S m)%nat by lia. lra. }
    rewrite H. unfold B. rewrite Nat.add_0_l, Nat.ltb_irrefl.
    rewrite (proj2 (Nat.ltb_lt 0 n)) by lia. reflexivity.
  - intros k Hk. exists (B k). split; [now apply Hbnd|].
    assert (Hf : forall (f : nat -> R) m j, (j <= m)%nat -> firstn j (map f (seq 0 m)) = map f (seq 0 j)).
    { intros f m j Hj. rewrite firstn_map. f_equal.
      apply nth_error_ext. intros i. rewrite nth_error_firstn.
      destruct (i <? j)%nat eqn:E.
      - apply Nat.ltb_lt in E.
        rewrite !(nth_error_nth' _ 0%nat) by (rewrite seq_length; lia).
        now rewrite !seq_nth by lia.
      - apply Nat.ltb_ge in E. symmetry. apply nth_error_None. rewrite seq_length. lia. }
    rewrite Hf by exact Hk.
    assert (H : forall m st, rsum (map (fun k => B (S k) - B k) (seq st m)) = B (st + m)%nat - B st).
    { induction m as [|m IH]; intros st; cbn; [rewrite Nat.add_0_r; lra|].
      rewrite IH. replace (S st + m)%nat with (st + S m)%nat by lia. lra. }
    rewrite H. cbn [Nat.add]. unfold B at 2.
    rewrite (proj2 (Nat.ltb_lt 0 n)) by lia. reflexivity.
Qed.

(** * Interfaces *)
Lemma midpoints_nth s k :
  nth_error (midpoints s) k =
  match nth_error s k, nth_error s (S k) with
  | Some a, Some b => Some ((a + b) / 2)
  | _, _ => None
  end.
Proof.
  revert k. induction s as [|a s IH]; intros k.
  - now destruct k.
  - destruct s as [|b s].
    + destruct k as [|k]; cbn; auto. destruct k; auto.
    + destruct k as [|k]; [reflexivity|].
      change (midpoints (a :: b :: s)) with ((a + b) / 2 :: midpoints (b :: s)).
      cbn [nth_error]. rewrite IH. reflexivity.
Qed.
Lemma midpoints_length s : length (midpoints s) = (length s - 1)%nat.
Proof.
  induction s as [|a s IH]; auto. destruct s as [|b s]; auto.
  change (midpoints (a :: b :: s)) with ((a + b) / 2 :: midpoints (b :: s)).
  cbn [length] in *. lia.
Qed.

Lemma cumsum_length acc l : length (cumsum_from acc l) = length l.
Proof. revert acc. induction l; intros; cbn; auto. Qed.
Lemma cumsum_fin (l : list R) (rest : list ext) acc :
  firstn (length l) (cumsum_from (Fin acc) (map Fin l ++ rest)) =
  map (fun k => Fin (acc + rsum (firstn (S k) l))) (seq 0 (length l)).
Proof.
  revert acc. induction l as [|a l IH]; intros acc; auto.
  cbn [length map app cumsum_from firstn seq]. f_equal.
  - cbn. f_equal. lra.
  - cbn [eadd]. rewrite IH. rewrite <- seq_shift, map_map. apply map_ext.
    intros k. f_equal. cbn [firstn rsum fold_right]. unfold rsum. lra.
Qed.
Lemma removelast_firstn_len' {A} (l : list A) : removelast l = firstn (length l - 1) l.
Proof. rewrite removelast_firstn_len. f_equal. lia. Qed.

Lemma interfaces_agree sites l ub fill e :
  (2 <= length sites)%nat ->
  compute_voronoi1d_cell_extents sites (Some l) ub fill = Ok e ->
  interfaces_extents e (Some l) = Ok (map Fin (interfaces_nuclei sites)).
Proof.
  intros Hn He. rewrite extents_spec in He by exact Hn. injection He as <-.
  unfold interfaces_extents, interfaces_nuclei. f_equal.
  set (n := length sites) in *.
  rewrite removelast_firstn_len', cumsum_length, map_length, seq_length.
  set (f := fun k => bnd sites l (S k) - bnd sites l k).
  assert (Hseq : seq 0 n = seq 0 (n - 1) ++ [(n - 1)%nat]).
  { change [(n - 1)%nat] with (seq (0 + (n - 1)) 1). rewrite <- seq_app. f_equal. lia. }
  rewrite Hseq, map_app.
  replace (map (cell_extent sites (Some l) ub fill) (seq 0 (n - 1)))
    with (map Fin (map f (seq 0 (n - 1)))).
  2:{ rewrite map_map. apply map_ext_in. intros k Hk. apply in_seq in Hk.
      unfold cell_extent. rewrite !boundary_bnd by lia. reflexivity. }
  replace (n - 1)%nat with (length (map f (seq 0 (n - 1)))) at 1
    by (now rewrite map_length, seq_length).
  rewrite cumsum_fin, !map_map, map_length, seq_length.
  assert (Hsum : forall m, rsum (map f (seq 0 m)) = bnd sites l m - l).
  { intros m. assert (H : forall m st, rsum (map f (seq st m)) = bnd sites l (st + m) - bnd sites l st).
    { induction m0 as [|m0 IH]; intros st; cbn; [rewrite Nat.add_0_r; lra|].
      rewrite IH. replace (S st + m0)%nat with (st + S m0)%nat by lia. unfold f. lra. }
    rewrite H. reflexivity. }
  apply nth_error_ext. intros k. rewrite nth_error_map_seq.
  rewrite nth_error_map, midpoints_nth.
  destruct (k <? n - 1)%nat eqn:E.
  - apply Nat.ltb_lt in E.
    rewrite (nth_error_nth' sites 0 (n := k)), (nth_error_nth' sites 0 (n := S k)) by lia.
    cbn [option_map]. f_equal. cbn [eadd]. f_equal.
    rewrite firstn_map.
    replace (firstn (S k) (seq 0 (n - 1))) with (seq 0 (S k)).
    + rewrite Hsum. cbn [bnd]. lra.
    + replace (n - 1)%nat with (S k + (n - 1 - S k))%nat by lia.
      rewrite seq_app, firstn_app, seq_length, Nat.sub_diag, firstn_O.
      rewrite app_nil_r. rewrite firstn_all2; auto. rewrite seq_length. lia.
  - apply Nat.ltb_ge in E.
    replace (nth_error sites (S k)) with (@None R) by (symmetry; apply nth_error_None; lia).
    now destruct (nth_error sites k).
Qed.

(** * Layered profiles *)
Lemma rsum_firstn_S l k a :
  nth_error l k = Some a -> rsum (firstn (S k) l) = rsum (firstn k l) + a.
Proof.
  revert k. induction l as [|b l IH]; intros [|k]; cbn; try easy.
  - intros [= ->]. lra.
  - intros H. specialize (IH _ H). unfold rsum in *. cbn in *. lra.
Qed.

Lemma depth_step_spec x y q : length y = length x -> forall fuel il,
  (il < length x)%nat -> (length x <= fuel + il + 1)%nat ->
  rsum (firstn il x) <= q ->
  exists v k, depth_step fuel x y q il (rsum (firstn il x)) (rsum (firstn (S il) x))
     = Ok (v, k, rsum (firstn k x), rsum (firstn (S k) x)) /\
    (il <= k)%nat /\ in_layer x q k /\ nth_error y k = Some v.
Proof.
  intros Hy. induction fuel as [|fuel IH]; intros il Hil Hf Hq.
  - cbn [depth_step]. rewrite (proj2 (Nat.leb_le (length x) (il + 1))) by lia.
    rewrite orb_true_r.
    destruct (nth_error_lt y il) as [v Hv]; [lia|].
    rewrite (rd_some _ _ _ Hv). cbn [rbind]. exists v, il.
    repeat split; auto. lia.
  - cbn [depth_step].
    destruct (Rleb (rsum (firstn il x)) q && Rltb q (rsum (firstn (S il) x)) ||
              (length x <=? il + 1)%nat)%bool eqn:E.
    + destruct (nth_error_lt y il) as [v Hv]; [lia|].
      rewrite (rd_some _ _ _ Hv). cbn [rbind]. exists v, il.
      repeat split; auto. intros Hlt.
      apply orb_true_iff in E. destruct E as [E|E].
      * apply andb_true_iff in E. now apply Rltb_true.
      * apply Nat.leb_le in E. lia.
    + apply orb_false_iff in E. destruct E as [E1 E2]. apply Nat.leb_gt in E2.
      apply andb_false_iff in E1.
      assert (Hge : rsum (firstn (S il) x) <= q).
      { destruct E1 as [E1|E1]; [apply Rleb_false in E1; lra|now apply Rltb_false in E1]. }
      destruct (nth_error_lt x (S il)) as [w Hw]; [lia|].
      rewrite (rd_some _ _ _ Hw). cbn [rbind].
      rewrite <- (rsum_firstn_S _ _ _ Hw).
      destruct (IH (S il)) as (v & k & He & Hk & Hin & Hv); auto; try lia.
      exists v, k. split; [exact He|]. split; [lia|]. auto.
Qed.

Lemma depth_loop_spec x y : length y = length x -> forall qs il,
  (il < length x)%nat ->
  sortedR qs -> (forall q, nth_error qs 0 = Some q -> rsum (firstn il x) <= q) ->
  exists vs, depth_loop x y qs il (rsum (firstn il x)) (rsum (firstn (S il) x)) = Ok vs /\
    Forall2 (fun q v => exists k, in_layer x q k /\ nth_error y k = Some v) qs vs.
Proof.
  intros Hy. induction qs as [|q qs IH]; intros il Hil Hs Hq.
  - exists []. split; auto.
  - cbn [depth_loop].
    destruct (depth_step_spec x y q Hy (length x) il) as (v & k & He & Hk & Hin & Hv);
      auto; try lia.
    rewrite He. cbn [rbind].
    destruct (IH k) as (vs & Hvs & HF).
    + apply Hin.
    + intros i j a b Hij Ha Hb. apply (Hs (S i) (S j)); auto. lia.
    + intros q' Hq'. destruct Hin as (_ & Hin & _).
      assert (q <= q') by (apply (Hs 0%nat 1%nat); auto). lra.
    + rewrite Hvs. cbn [rbind]. exists (v :: vs). split; auto.
      constructor; eauto.
Qed.

Lemma depth_profile_spec x y qs :
  x <> [] -> length y = length x -> sortedR qs -> Forall (fun q => 0 <= q) qs ->
  exists vs, interpolate_depth_profile x y qs = Ok vs /\
    Forall2 (fun q v => exists k, in_layer x q k /\ nth_error y k = Some v) qs vs.
Proof.
  intros Hne Hy Hs HF. unfold interpolate_depth_profile.
  destruct x as [|w x]; [easy|]. cbn [rd nth_error rbind].
  destruct (depth_loop_spec (w :: x) y Hy qs 0) as (vs & Hvs & H); auto.
  - cbn. lia.
  - intros q Hq. cbn. rewrite Forall_forall in HF. apply HF. eapply nth_error_In. eauto.
  - exists vs. split; auto. rewrite <- Hvs. f_equal. cbn. lra.
Qed.

Lemma rsum_firstn_mono x i j :
  Forall (fun w => 0 <= w) x -> (i <= j)%nat -> rsum (firstn i x) <= rsum (firstn j x).
Proof.
  intros HF. revert i j. induction HF as [|w x Hw HF IH]; intros i j Hij.
  - rewrite !firstn_nil. lra.
  - destruct i as [|i], j as [|j]; try lia; cbn [firstn rsum fold_right].
    + lra.
    + assert (H := IH 0%nat j ltac:(lia)). cbn in H. unfold rsum in *. lra.
    + assert (H := IH i j ltac:(lia)). unfold rsum in *. lra.
Qed.
Lemma in_layer_unique x q i j :
  Forall (fun w => 0 <= w) x -> in_layer x q i -> in_layer x q j -> i = j.
Proof.
  intros HF (Hi & Hi1 & Hi2) (Hj & Hj1 & Hj2).
  destruct (Nat.lt_trichotomy i j) as [H|[H|H]]; auto.
  - specialize (Hi2 ltac:(lia)).
    pose proof (rsum_firstn_mono x (S i) j HF ltac:(lia)). lra.
  - specialize (Hj2 ltac:(lia)).
    pose proof (rsum_firstn_mono x (S j) i HF ltac:(lia)). lra.
Qed.

(** * Profiles and nuclei *)
Lemma strictly_sorted_sorted x : strictly_sortedR x -> sortedR x.
Proof.
  intros Hss i j b c Hij Hb Hc. destruct (Nat.eq_dec i j) as [->|].
  - assert (b = c) by congruence. lra.
  - left. eapply Hss; [|eauto|eauto]. lia.
Qed.

Lemma nearest_site_unique x q i j :
  strictly_sortedR x -> nearest_site x q i -> nearest_site x q j -> i = j.
Proof.
  intros Hss (a & Ha & Hi) (b & Hb & Hj).
  destruct (Hi _ _ Hb) as [H1 H2]. destruct (Hj _ _ Ha) as [H3 H4].
  assert (E : Rabs (a - q) = Rabs (b - q)) by lra.
  assert (L1 : a <= b) by auto. assert (L2 : b <= a) by auto.
  destruct (Nat.lt_trichotomy i j) as [H|[H|H]]; auto.
  - assert (a < b) by (eapply Hss; [|eauto|eauto]; auto). lra.
  - assert (b < a) by (eapply Hss; [|eauto|eauto]; auto). lra.
Qed.

Lemma interp_nearest_strict x y q k :
  strictly_sortedR x -> length y = length x ->
  nearest_site x q k ->
  exists v, interp_nearest q x y = Ok v /\ nth_error y k = Some v.
Proof.
  intros Hss Hl Hk. pose proof (strictly_sorted_sorted _ Hss) as Hs.
  assert (Hne : x <> []).
  { intros ->. destruct Hk as (a & Ha & _). now destruct k. }
  assert (0 < length x)%nat by (destruct x; cbn; try easy; lia).
  unfold interp_nearest.
  destruct (nth_error_lt x 0) as [a Ha]; [lia|].
  destruct (nth_error_lt y 0) as [ya Hya]; [lia|].
  destruct (nth_error_lt x (length x - 1)) as [z Hz]; [lia|].
  destruct (nth_error_lt y (length x - 1)) as [yz Hyz]; [lia|].
  rewrite (rd_some _ _ _ Ha), (rd_some _ _ _ Hz), (rd_some _ _ _ Hya),
    (rd_some _ _ _ Hyz).
  cbn [rbind]. rbool.
  - exists ya. split; auto. replace k with 0%nat; auto.
    apply (nearest_site_unique x q); auto.
    exists a. split; auto. intros j b Hb.
    assert (a <= b) by (eapply (Hs 0%nat j); eauto; lia).
    rewrite (Rabs_right (a - q)), (Rabs_right (b - q)) by lra. lra.
  - exists yz. split; auto. replace k with (length x - 1)%nat; auto.
    apply (nearest_site_unique x q); auto.
    exists z. split; auto. intros j b Hb.
    assert (b <= z).
    { eapply Hs; [|eauto|eauto]. apply nth_error_some_lt in Hb. lia. }
    rewrite (Rabs_left1 (z - q)), (Rabs_left1 (b - q)) by lra. lra.
  - destruct (nearest_neighbour_1d_spec x q Hne Hs) as (j & Hj & Hjn).
    rewrite Hj. cbn [rbind].
    assert (j = k) by (eapply nearest_site_unique; eauto). subst j.
    destruct Hk as (c & Hc & _). apply nth_error_some_lt in Hc.
    destruct (nth_error_lt y k) as [v Hv]; [lia|].
    exists v. now rewrite (rd_some _ _ _ Hv).
Qed.

Lemma layer_nearest sites es fill q k :
  (2 <= length sites)%nat -> strictly_sortedR sites ->
  compute_voronoi1d_cell_extents sites (Some 0) None fill = Ok (map Fin es) ->
  in_layer es q k -> nearest_site sites q k.
Proof.
  intros Hn Hss He Hin. pose proof (strictly_sorted_sorted _ Hss) as Hs.
  rewrite extents_spec in He by exact Hn. injection He as He.
  set (n := length sites) in *.
  assert (Hlen : length es = n).
  { apply (f_equal (@length ext)) in He. rewrite !map_length, seq_length in He. auto. }
  assert (Hes : forall j, (S j < n)%nat ->
     nth_error es j = Some (bnd sites 0 (S j) - bnd sites 0 j)).
  { intros j Hj. apply (f_equal (fun l => nth_error l j)) in He.
    rewrite nth_error_map_seq, nth_error_map in He.
    rewrite (proj2 (Nat.ltb_lt _ _)) in He by lia.
    unfold cell_extent in He. rewrite !boundary_bnd in He by (fold n; lia).
    destruct (nth_error es j); cbn [option_map] in He; congruence. }
  assert (Hsum : forall j, (j < n)%nat -> rsum (firstn j es) = bnd sites 0 j).
  { induction j as [|j IH]; intros Hj; [reflexivity|].
    rewrite (rsum_firstn_S _ _ _ (Hes j Hj)). rewrite IH by lia. lra. }
  destruct Hin as (Hk & Hlo & Hup). rewrite Hlen in *.
  rewrite Hsum in Hlo by auto.
  destruct (nth_error_lt sites k) as [c Hc]; [auto|].
  exists c. split; auto. intros j d Hd.
  assert (Hdc : (j < k)%nat \/ j = k \/ (k < j)%nat) by lia.
  destruct Hdc as [Hj|[->|Hj]].
  - destruct k as [|k]; [lia|].
    destruct (nth_error_lt sites k) as [b Hb]; [fold n; lia|].
    assert (d <= b) by (eapply (Hs j k); eauto; lia).
    assert (b < c) by (eapply (Hss k (S k)); eauto).
    cbn [bnd] in Hlo.
    rewrite (nth_error_nth _ _ 0 Hb), (nth_error_nth _ _ 0 Hc) in Hlo.
    rewrite (Rabs_left1 (d - q)) by lra.
    unfold Rabs. destruct (Rcase_abs (c - q)); split; lra.
  - assert (d = c) by congruence. subst. split; lra.
  - assert (Hlt : (S k < n)%nat).
    { apply nth_error_some_lt in Hd. fold n in Hd. lia. }
    specialize (Hup Hlt). rewrite Hsum in Hup by auto.
    destruct (nth_error_lt sites (S k)) as [b Hb]; [auto|].
    assert (b <= d) by (eapply (Hs (S k) j); eauto).
    assert (c < b) by (eapply (Hss k (S k)); eauto).
    cbn [bnd] in Hup.
    rewrite (nth_error_nth _ _ 0 Hb), (nth_error_nth _ _ 0 Hc) in Hup.
    rewrite (Rabs_right (d - q)) by lra.
    unfold Rabs. destruct (Rcase_abs (c - q)); split; lra.
Qed.

Lemma tessellation_agree sites y es fill qs :
  (2 <= length sites)%nat -> strictly_sortedR sites -> length y = length sites ->
  compute_voronoi1d_cell_extents sites (Some 0) None fill = Ok (map Fin es) ->
  sortedR qs -> Forall (fun q => 0 <= q) qs ->
  exists vs, interpolate_tessellation es y qs Extents = Ok vs /\
             interpolate_tessellation sites y qs Nuclei = Ok vs.
Proof.
  intros Hn Hss Hy He Hqs HF.
  assert (Hlen : length es = length sites).
  { rewrite extents_spec in He by exact Hn. injection He as He.
    apply (f_equal (@length ext)) in He. rewrite !map_length, seq_length in He. auto. }
  destruct (depth_profile_spec es y qs) as (vs & Hvs & H2); auto.
  { intros ->. cbn in *. lia. }
  { lia. }
  exists vs. split; [exact Hvs|]. cbn [interpolate_tessellation].
  unfold interpolate_nearest_1d. clear Hvs Hqs HF.
  induction H2 as [|q v qs vs (k & Hin & Hv) H2 IH]; auto.
  cbn [rmap].
  destruct (interp_nearest_strict sites y q k) as (v' & -> & Hv'); auto.
  { eapply layer_nearest; eauto. }
  cbn [rbind]. rewrite IH. cbn [rbind]. congruence.
Qed.

(** * AR(1) precision matrix *)
Lemma nth_set_nth {A} (l : list A) i j a d :
  (i < length l)%nat ->
  nth j (set_nth l i a) d = if (j =? i)%nat then a else nth j l d.
Proof.
  intros H. destruct (j =? i)%nat eqn:E.
  - apply Nat.eqb_eq in E. subst. apply nth_error_nth. now apply set_nth_same.
  - apply Nat.eqb_neq in E.
    destruct (nth_error l j) as [b|] eqn:Eb.
    + rewrite (nth_error_nth _ _ d Eb). apply nth_error_nth.
      rewrite set_nth_other; auto.
    + apply nth_error_None in Eb. rewrite !nth_overflow; auto.
      rewrite set_nth_length; auto.
Qed.
Lemma Forall_set_nth {A} (P : A -> Prop) l i a :
  Forall P l -> P a -> Forall P (set_nth l i a).
Proof.
  intros HF Ha. unfold set_nth. apply Forall_app. split.
  - apply Forall_forall. intros x Hx. rewrite Forall_forall in HF. apply HF.
    rewrite <- (firstn_skipn i l). apply in_or_app. now left.
  - constructor; auto. apply Forall_forall. intros x Hx. rewrite Forall_forall in HF.
    apply HF. rewrite <- (firstn_skipn (S i) l). apply in_or_app. now right.
Qed.

Lemma upd2_spec n m i j v :
  is_matrix n m -> (i < n)%nat -> (j < n)%nat ->
  exists m', upd2 m i j v = Ok m' /\ is_matrix n m' /\
    forall a b, entry m' a b = if ((a =? i) && (b =? j))%nat then v else entry m a b.
Proof.
  intros [Hm HF] Hi Hj. unfold upd2.
  destruct (nth_error_lt m i) as [row Hrow]; [lia|].
  rewrite (rd_some _ _ _ Hrow). cbn [rbind].
  assert (Hr : length row = n).
  { rewrite Forall_forall in HF. apply HF. eapply nth_error_In. eauto. }
  rewrite upd_ok by lia. cbn [rbind]. rewrite upd_ok by lia.
  eexists. split; [reflexivity|]. split.
  - split; [rewrite set_nth_length; lia|].
    apply Forall_set_nth; auto. rewrite set_nth_length; lia.
  - intros a b. unfold entry. rewrite nth_set_nth by lia.
    destruct (a =? i)%nat eqn:E; cbn [andb]; auto.
    rewrite nth_set_nth by lia. apply Nat.eqb_eq in E. subst a.
    now rewrite (nth_error_nth _ _ [] Hrow).
Qed.

Definition prec_partial (f r : R) (s i j : nat) : R :=
  if (i =? j)%nat then (if ((1 <=? i) && (i <? s))%nat then (1 + r ^ 2) * f else 0)
  else if (((S i =? j) && (j <? s)) || ((S j =? i) && (i <? s)))%nat then - r * f
  else 0.

Ltac natb :=
  repeat match goal with
  | |- context [(?a =? ?b)%nat] => destruct (Nat.eqb_spec a b); try (exfalso; lia)
  | |- context [(?a <? ?b)%nat] => destruct (Nat.ltb_spec a b); try (exfalso; lia)
  | |- context [(?a <=? ?b)%nat] => destruct (Nat.leb_spec a b); try (exfalso; lia)
  end; cbn [andb orb].

Lemma invcov_loop_spec n f r : forall m s oi mat,
  (1 <= s)%nat -> (s + m <= n)%nat -> is_matrix n mat ->
  (forall i j, entry mat i j = prec_partial f r s i j) ->
  exists mat', invcov_loop f r (seq s m) oi mat =
      Ok (match m with O => oi | S _ => Some (s + m - 1)%nat end, mat') /\
    is_matrix n mat' /\
    forall i j, entry mat' i j = prec_partial f r (s + m) i j.
Proof.
  induction m as [|m IH]; intros s oi mat Hs Hsm Hm He.
  - exists mat. rewrite Nat.add_0_r. auto.
  - cbn [seq invcov_loop].
    destruct (upd2_spec n mat s s ((1 + r ^ 2) * f)) as (m1 & H1 & Hm1 & He1); auto; try lia.
    rewrite H1. cbn [rbind].
    destruct (upd2_spec n m1 s (s - 1) (- r * f)) as (m2 & H2 & Hm2 & He2); auto; try lia.
    rewrite H2. cbn [rbind].
    destruct (upd2_spec n m2 (s - 1) s (- r * f)) as (m3 & H3 & Hm3 & He3); auto; try lia.
    rewrite H3. cbn [rbind].
    destruct (IH (S s) (Some s) m3) as (mat' & Hl & Hm' & He'); auto; try lia.
    + intros i j. rewrite He3, He2, He1, He. unfold prec_partial.
      natb; try lia; auto.
    + exists mat'. split; [|split; auto].
      * rewrite Hl. f_equal. f_equal. destruct m; f_equal; lia.
      * intros i j. rewrite He'. f_equal. lia.
Qed.

(** Entries of the matrix. *)
Definition prec (f r : R) (n i j : nat) : R :=
  if (i =? j)%nat then (if ((i =? 0) || (S i =? n))%nat then f else (1 + r ^ 2) * f)
  else if ((S i =? j) || (S j =? i))%nat then - r * f
  else 0.

Lemma inverse_covariance_entries sigma r n :
  (3 <= n)%nat -> sigma ^ 2 * (1 - r ^ 2) <> 0 ->
  exists m, inverse_covariance sigma r n = Ok m /\ is_matrix n m /\
    forall i j, (i < n)%nat -> (j < n)%nat ->
      entry m i j = prec (/ (sigma ^ 2 * (1 - r ^ 2))) r n i j.
Proof.
  intros Hn Hd. unfold inverse_covariance.
  destruct (Reqb (sigma ^ 2 * (1 - r ^ 2)) 0) eqn:E; [now apply Reqb_true in E|].
  destruct (n =? 0)%nat eqn:E0; [apply Nat.eqb_eq in E0; lia|].
  set (f := 1 / (sigma ^ 2 * (1 - r ^ 2))).
  assert (Hf : f = / (sigma ^ 2 * (1 - r ^ 2))) by (unfold f, Rdiv; apply Rmult_1_l).
  assert (Hm0 : is_matrix n (repeat (repeat 0 n) n)).
  { split; [apply repeat_length|]. apply Forall_forall. intros x Hx.
    apply repeat_spec in Hx. subst. apply repeat_length. }
  assert (He0 : forall i j, entry (repeat (repeat 0 n) n) i j = prec_partial f r 1 i j).
  { intros i j. unfold entry.
    replace (nth j (nth i (repeat (repeat 0 n) n) []) 0) with 0.
    - unfold prec_partial. natb; auto; lia.
    - destruct (Nat.lt_ge_cases i n).
      + rewrite (nth_indep _ [] (repeat 0 n)) by (rewrite repeat_length; lia).
        rewrite nth_repeat. now rewrite nth_repeat.
      + rewrite (nth_overflow (repeat (repeat 0 n) n)) by (rewrite repeat_length; lia).
        now destruct j. }
  destruct (invcov_loop_spec n f r (n - 2) 1 None (repeat (repeat 0 n) n))
    as (m1 & H1 & Hm1 & He1); auto; try lia.
  rewrite H1. cbn [rbind].
  destruct (upd2_spec n m1 0 0 f) as (m2 & H2 & Hm2 & He2); auto; try lia.
  rewrite H2. cbn [rbind].
  destruct (upd2_spec n m2 (n - 1) (n - 1) f) as (m3 & H3 & Hm3 & He3); auto; try lia.
  rewrite H3. cbn [rbind].
  destruct (n - 2)%nat as [|p] eqn:Ep; [lia|].
  replace (1 + S p - 1)%nat with (n - 2)%nat by lia.
  destruct (upd2_spec n m3 (S (n - 2)) (n - 2) (- r * f)) as (m4 & H4 & Hm4 & He4); auto; try lia.
  rewrite H4. cbn [rbind].
  destruct (upd2_spec n m4 (n - 2) (S (n - 2)) (- r * f)) as (m5 & H5 & Hm5 & He5); auto; try lia.
  exists m5. split; [exact H5|]. split; auto.
  intros i j Hi Hj. rewrite He5, He4, He3, He2, He1. rewrite <- Hf.
  unfold prec_partial, prec.
  natb; try lia; auto.
Qed.

Lemma sum_ext f g n : (forall i, (i < n)%nat -> f i = g i) -> sum f n = sum g n.
Proof.
  induction n as [|n IH]; intros H; auto. cbn. rewrite IH, H; auto.
Qed.
Lemma sum_plus f g n : sum (fun i => f i + g i) n = sum f n + sum g n.
Proof. induction n; cbn; [|rewrite IHn]; lra. Qed.
Lemma sum_single c (g : nat -> R) n k :
  sum (fun j => if (j =? k)%nat then c * g j else 0) n = if (k <? n)%nat then c * g k else 0.
Proof.
  induction n as [|n IH].
  - cbn. natb; auto; lia.
  - cbn [sum]. rewrite IH. natb; try lia; subst; try lra.
Qed.

Lemma prec_row_sum f r n i (g : nat -> R) :
  (i < n)%nat ->
  sum (fun j => prec f r n i j * g j) n =
    (if ((i =? 0) || (S i =? n))%nat then f else (1 + r ^ 2) * f) * g i
    + (if (i =? 0)%nat then 0 else - r * f * g (i - 1)%nat)
    + (if (S i =? n)%nat then 0 else - r * f * g (S i)).
Proof.
  intros Hi.
  set (d := if ((i =? 0) || (S i =? n))%nat then f else (1 + r ^ 2) * f).
  rewrite (sum_ext _ (fun j =>
    ((if (j =? i)%nat then d * g j else 0)
    + (if (i =? 0)%nat then 0 else if (j =? i - 1)%nat then - r * f * g j else 0))
    + (if (j =? S i)%nat then - r * f * g j else 0))).
  - rewrite !sum_plus. rewrite !sum_single.
    rewrite (proj2 (Nat.ltb_lt _ _)) by auto.
    f_equal; [f_equal|].
    + destruct (i =? 0)%nat eqn:E.
      * clear. induction n; cbn; lra.
      * rewrite sum_single. rewrite (proj2 (Nat.ltb_lt _ _)) by lia. reflexivity.
    + natb; auto; lia.
  - intros j Hj. unfold prec. subst d. natb; try lia; try lra.
Qed.

Lemma dist_le i j : (i <= j)%nat -> dist i j = (j - i)%nat.
Proof. unfold dist. lia. Qed.
Lemma dist_ge i j : (j <= i)%nat -> dist i j = (i - j)%nat.
Proof. unfold dist. lia. Qed.

Lemma ar1_inverse sigma r n i k :
  (3 <= n)%nat -> sigma ^ 2 * (1 - r ^ 2) <> 0 -> (i < n)%nat -> (k < n)%nat ->
  sum (fun j => prec (/ (sigma ^ 2 * (1 - r ^ 2))) r n i j * ar1_cov sigma r j k) n
  = if (i =? k)%nat then 1 else 0.
Proof.
  intros Hn Hd Hi Hk. rewrite prec_row_sum by auto. unfold ar1_cov.
  set (D := sigma ^ 2 * (1 - r ^ 2)) in *.
  assert (Hs : sigma ^ 2 = D * / (1 - r ^ 2)).
  { unfold D. field. intros H. apply Hd. unfold D. rewrite H. lra. }
  assert (Hr : 1 - r ^ 2 <> 0).
  { intros H. apply Hd. unfold D. rewrite H. lra. }
  rewrite Hs. clear Hs.
  assert (Hr2 : 1 - r * r <> 0) by (intros H; apply Hr; cbn; lra).
  clearbody D.
  destruct (Nat.lt_trichotomy i k) as [H|[H|H]].
  - assert (Hne : (i =? k)%nat = false) by (apply Nat.eqb_neq; lia). rewrite Hne.
    destruct (S i =? n)%nat eqn:E1; [apply Nat.eqb_eq in E1; lia|].
    rewrite orb_false_r.
    rewrite (dist_le i k), (dist_le (S i) k) by lia.
    replace (k - i)%nat with (S (k - S i)) by lia.
    destruct (i =? 0)%nat eqn:E0.
    + cbn [pow]. field. auto.
    + apply Nat.eqb_neq in E0. rewrite (dist_le (i - 1) k) by lia.
      replace (k - (i - 1))%nat with (S (S (k - S i))) by lia.
      cbn [pow]. field. auto.
  - subst k. rewrite Nat.eqb_refl. rewrite (dist_le i i), Nat.sub_diag by lia.
    destruct (i =? 0)%nat eqn:E0; destruct (S i =? n)%nat eqn:E1;
      rewrite ?Nat.eqb_eq, ?Nat.eqb_neq in *; try lia; cbn [orb].
    + rewrite (dist_ge (S i) i) by lia. replace (S i - i)%nat with 1%nat by lia.
      cbn [pow]. field. auto.
    + rewrite (dist_le (i - 1) i) by lia. replace (i - (i - 1))%nat with 1%nat by lia.
      cbn [pow]. field. auto.
    + rewrite (dist_ge (S i) i) by lia. replace (S i - i)%nat with 1%nat by lia.
      rewrite (dist_le (i - 1) i) by lia. replace (i - (i - 1))%nat with 1%nat by lia.
      cbn [pow]. field. auto.
  - assert (Hne : (i =? k)%nat = false) by (apply Nat.eqb_neq; lia). rewrite Hne.
    destruct (i =? 0)%nat eqn:E0; [apply Nat.eqb_eq in E0; lia|]. cbn [orb].
    rewrite (dist_ge i k), (dist_ge (i - 1) k) by lia.
    replace (i - k)%nat with (S (i - 1 - k)) by lia.
    destruct (S i =? n)%nat eqn:E1.
    + cbn [pow]. field. auto.
    + rewrite (dist_ge (S i) k) by lia.
      replace (S i - k)%nat with (S (S (i - 1 - k))) by lia.
      cbn [pow]. field. auto.
Qed.

Lemma prec_sym f r n i j : prec f r n i j = prec f r n j i.
Proof. unfold prec. natb; subst; try lia; auto. Qed.
Lemma ar1_sym s r i j : ar1_cov s r i j = ar1_cov s r j i.
Proof. unfold ar1_cov, dist. f_equal. f_equal. lia. Qed.

Lemma inverse_covariance_inverse sigma r n :
  (3 <= n)%nat -> sigma > 0 -> -1 < r < 1 ->
  exists m, inverse_covariance sigma r n = Ok m /\ is_matrix n m /\
    forall i k, (i < n)%nat -> (k < n)%nat ->
      sum (fun j => entry m i j * ar1_cov sigma r j k) n = (if (i =? k)%nat then 1 else 0) /\
      sum (fun j => ar1_cov sigma r i j * entry m j k) n = (if (i =? k)%nat then 1 else 0).
Proof.
  intros Hn Hs Hr.
  assert (Hd : sigma ^ 2 * (1 - r ^ 2) <> 0).
  { apply Rmult_integral_contrapositive. split; [|nra].
    apply pow_nonzero. lra. }
  destruct (inverse_covariance_entries sigma r n Hn Hd) as (m & Hm & Hmm & He).
  exists m. split; auto. split; auto. intros i k Hi Hk. split.
  - rewrite <- ar1_inverse with (sigma := sigma) (r := r) (n := n) by auto.
    apply sum_ext. intros j Hj. now rewrite He.
  - rewrite Nat.eqb_sym.
    rewrite <- ar1_inverse with (sigma := sigma) (r := r) (n := n) by auto.
    apply sum_ext. intros j Hj. rewrite He by auto.
    rewrite prec_sym, ar1_sym. lra.
Qed.
