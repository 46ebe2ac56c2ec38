(** Proofs about drawings of one-dimensional tessellations. *)
From Verif Require Import Base ModelUtils1D ModelPlot SpecUtils1D SpecPlot ProofUtils1D ProofUtils1DB.
Local Open Scope R_scope.

Lemma rbind_ok {A B} (m : res A) (f : A -> res B) b : rbind m f = Ok b -> exists a, m = Ok a /\ f a = Ok b.
Proof. destruct m; cbn; try discriminate. eauto. Qed.

Lemma on_curve_cons a b t q : on_curve (a :: b :: t) q <-> on_segment a b q \/ on_curve (b :: t) q.
Proof.
  split.
  - intros (i & x & y & Hx & Hy & H). destruct i as [|i]; [injection Hx as <-; injection Hy as <-; auto|].
    right. exists i, x, y. auto.
  - intros [H|(i & x & y & Hx & Hy & H)]; [exists 0%nat, a, b; auto|exists (S i), x, y; auto].
Qed.
Lemma on_curve_one a q : ~ on_curve [a] q.
Proof. intros (i & x & y & _ & Hy & _). destruct i; discriminate. Qed.

(** A straight line along an axis. *)
Lemma seg_first x y y' p w : on_segment (x, y) (x, y') (p, w) <-> p = x /\ (y <= w <= y' \/ y' <= w <= y).
Proof.
  unfold on_segment. cbn [fst snd]. split.
  - intros (t & Ht & H1 & H2). split; [lra|]. destruct (Rle_dec y y'); [left|right]; nra.
  - intros [-> H]. destruct (Req_dec y y') as [<-|Hn]; [exists 0; lra|].
    exists ((w - y) / (y' - y)). assert (E : (w - y) / (y' - y) * (y' - y) = w - y) by (field; lra). split; [|split; lra].
    destruct H as [H|H].
    + split; [apply Rmult_le_reg_r with (y' - y); lra|apply Rmult_le_reg_r with (y' - y); lra].
    + assert (E2 : (w - y) / (y' - y) * (y - y') = y - w) by (field; lra).
      split; [apply Rmult_le_reg_r with (y - y'); lra|apply Rmult_le_reg_r with (y - y'); lra].
Qed.
Lemma seg_second x x' y p w : on_segment (x, y) (x', y) (p, w) <-> w = y /\ (x <= p <= x' \/ x' <= p <= x).
Proof.
  rewrite <- (seg_first y x x' w p). unfold on_segment. cbn [fst snd]. split; intros (t & Ht & H1 & H2); exists t; auto.
Qed.

Definition between (a b p : R) : Prop := a <= p <= b \/ b <= p <= a.
Lemma path_swapped ps : forall vs v0 p0 p w, length vs = length ps -> ~ In p (p0 :: ps) ->
  (on_curve (post_path v0 p0 vs ps) (w, p) <->
   exists k a b, nth_error (p0 :: ps) k = Some a /\ nth_error (p0 :: ps) (S k) = Some b /\ between a b p /\ nth_error vs k = Some w).
Proof.
  induction ps as [|p1 ps IH]; intros vs v0 p0 p w Hl Hp; destruct vs as [|v1 vs]; try discriminate Hl.
  - cbn [post_path]. split; [intros H; now apply on_curve_one in H|]. intros (k & a & b & _ & H & _). destruct k; discriminate.
  - cbn [post_path]. rewrite on_curve_cons.
    assert (E : exists t, post_path v1 p1 vs ps = (v1, p1) :: t) by (destruct vs, ps; cbn; eauto). destruct E as [t E].
    rewrite E, on_curve_cons, <- E, seg_second, seg_first, IH; [|now injection Hl|cbn in *; tauto].
    split.
    + intros [[-> _]|[[-> H]|(k & a & b & H)]]; [exfalso; apply Hp; now left|exists 0%nat, p0, p1; cbn; auto|exists (S k), a, b; exact H].
    + intros (k & a & b & Ha & Hb & H & Hw). right. destruct k as [|k]; [|right; exists k, a, b; auto].
      left. cbn in Ha, Hb, Hw. injection Ha as <-. injection Hb as <-. injection Hw as <-. auto.
Qed.
Lemma path_plain xs : forall ys x0 y0 p w, length ys = length xs -> ~ In p (x0 :: xs) ->
  (on_curve (post_path x0 y0 xs ys) (p, w) <->
   exists k a b, nth_error (x0 :: xs) k = Some a /\ nth_error (x0 :: xs) (S k) = Some b /\ between a b p /\ nth_error (y0 :: ys) k = Some w).
Proof.
  induction xs as [|x1 xs IH]; intros ys x0 y0 p w Hl Hp; destruct ys as [|y1 ys]; try discriminate Hl.
  - cbn [post_path]. split; [intros H; now apply on_curve_one in H|]. intros (k & a & b & _ & H & _). destruct k; discriminate.
  - cbn [post_path]. rewrite on_curve_cons.
    assert (E : exists t, post_path x1 y1 xs ys = (x1, y1) :: t) by (destruct xs, ys; cbn; eauto). destruct E as [t E].
    rewrite E, on_curve_cons, <- E, seg_second, seg_first, IH; [|now injection Hl|cbn in *; tauto].
    split.
    + intros [[-> H]|[[-> _]|(k & a & b & H)]]; [exists 0%nat, x0, x1; cbn; auto|exfalso; apply Hp; cbn; auto|exists (S k), a, b; exact H].
    + intros (k & a & b & Ha & Hb & H & Hw). destruct k as [|k]; [left|right; right; exists k, a, b; auto].
      cbn in Ha, Hb, Hw. injection Ha as <-. injection Hb as <-. injection Hw as <-. auto.
Qed.

(** Between two neighbours; the first position may lie anywhere before [p]. *)
Lemma gap_not_in lb xs k a b p : sortedR xs -> lb < p -> nth_error (lb :: xs) k = Some a -> nth_error (lb :: xs) (S k) = Some b -> a < p < b ->
  ~ In p (lb :: xs).
Proof.
  intros Hs Hlb Ha Hb Hp [H|H]; [lra|]. cbn in Hb. apply In_nth_error in H. destruct H as [j Hj]. destruct (Nat.le_gt_cases k j) as [L|L].
  - pose proof (Hs k j _ _ L Hb Hj). lra.
  - destruct k as [|k]; [lia|]. cbn in Ha. pose proof (Hs j k _ _ ltac:(lia) Hj Ha). lra.
Qed.
Lemma gap_unique lb xs k a b j c d p : sortedR xs -> lb < p ->
  nth_error (lb :: xs) k = Some a -> nth_error (lb :: xs) (S k) = Some b -> a < p < b ->
  nth_error (lb :: xs) j = Some c -> nth_error (lb :: xs) (S j) = Some d -> between c d p -> j = k.
Proof.
  intros Hs Hlb Ha Hb Hp Hc Hd H. cbn in Hb, Hd.
  assert (Hcd : c <= p <= d).
  { destruct j as [|j]; [injection Hc as <-; destruct H; lra|]. cbn in Hc. pose proof (Hs j (S j) _ _ ltac:(lia) Hc Hd). destruct H; lra. }
  destruct (Nat.lt_total j k) as [L|[L|L]]; auto; exfalso.
  - destruct k as [|k]; [lia|]. cbn in Ha. pose proof (Hs j k _ _ ltac:(lia) Hd Ha). lra.
  - destruct j as [|j]; [lia|]. cbn in Hc. pose proof (Hs k j _ _ ltac:(lia) Hb Hc). lra.
Qed.
Lemma shows_swapped v0 vals lb ps k a b p w : length vals = length ps -> sortedR ps -> lb < p ->
  nth_error (lb :: ps) k = Some a -> nth_error (lb :: ps) (S k) = Some b -> a < p < b ->
  (on_curve (post_path v0 lb vals ps) (w, p) <-> nth_error vals k = Some w).
Proof.
  intros Hl Hs Hlb Ha Hb Hp. rewrite path_swapped; auto; [|exact (gap_not_in lb ps k a b p Hs Hlb Ha Hb Hp)]. split.
  - intros (j & c & d & Hc & Hd & H & Hw). now rewrite <- (gap_unique lb ps k a b j c d p Hs Hlb Ha Hb Hp Hc Hd H).
  - intros Hw. exists k, a, b. split; auto. split; auto. split; auto. left. lra.
Qed.
Lemma shows_plain v0 vals lb ps k a b p w : length vals = length ps -> sortedR ps -> lb < p ->
  nth_error (lb :: ps) k = Some a -> nth_error (lb :: ps) (S k) = Some b -> a < p < b ->
  (on_curve (post_path lb v0 ps vals) (p, w) <-> nth_error (v0 :: vals) k = Some w).
Proof.
  intros Hl Hs Hlb Ha Hb Hp. rewrite path_plain; auto; [|exact (gap_not_in lb ps k a b p Hs Hlb Ha Hb Hp)]. split.
  - intros (j & c & d & Hc & Hd & H & Hw). now rewrite <- (gap_unique lb ps k a b j c d p Hs Hlb Ha Hb Hp Hc Hd H).
  - intros Hw. exists k, a, b. split; auto. split; auto. split; auto. left. lra.
Qed.

(** * What plot_tessellation hands over *)
Lemma max_abs_nonneg l : 0 <= max_abs l.
Proof. induction l as [|x l IH]; cbn; [lra|]. eapply Rle_trans; [exact IH|apply Rmax_r]. Qed.
Lemma max_abs_in l x : In x l -> Rabs x <= max_abs l.
Proof.
  induction l as [|y l IH]; [intros []|]. cbn. intros [->|H]; [apply Rmax_l|]. eapply Rle_trans; [now apply IH|apply Rmax_r].
Qed.
Lemma last_corner swap x0 y0 xs ys : length xs = length ys -> exists front q, post_path x0 y0 xs ys = front ++ [q] /\
  nth_error ((if swap : bool then y0 :: ys else x0 :: xs)) (length xs) = Some (if swap then snd q else fst q).
Proof.
  revert ys x0 y0. induction xs as [|x1 xs IH]; intros [|y1 ys] x0 y0 H; try discriminate H.
  - exists [], (x0, y0). destruct swap; auto.
  - injection H as H. destruct (IH ys x1 y1 H) as (f & q & E & Hq). exists ((x0, y0) :: (x1, y0) :: f), q. cbn [post_path]. rewrite E.
    split; auto. destruct swap; exact Hq.
Qed.
Lemma plot_inv c vals lb ub swap path : plot_tessellation c vals lb ub swap = Ok path ->
  exists ip stop v0, interface_positions c lb = Ok ip /\ ip <> [] /\ length vals = S (length ip) /\ (forall x, last ip 0 = x -> x <= stop) /\
    match ub with Some u => stop = u /\ last ip 0 < u | None => stop = last ip 0 + max_abs ip / 2 end /\
    path = (if swap then post_path v0 lb vals (ip ++ [stop]) else post_path lb v0 (ip ++ [stop]) vals) /\
    nth_error vals 0 = Some v0 /\ ends_at swap path stop.
Proof.
  unfold plot_tessellation. intros H. apply rbind_ok in H. destruct H as (ip & Hip & H).
  destruct (rev ip) as [|x r] eqn:Er; [discriminate|]. assert (Ei : ip = rev r ++ [x]) by (rewrite <- (rev_involutive ip), Er; reflexivity).
  assert (El : last ip 0 = x) by (rewrite Ei; apply last_last).
  apply rbind_ok in H. destruct H as (stop & Hs & H). destruct vals as [|v0 vs]; [discriminate|].
  assert (Hn : ip <> []) by (rewrite Ei; now destruct (rev r)).
  assert (Hu : match ub with Some u => stop = u /\ last ip 0 < u | None => stop = last ip 0 + max_abs ip / 2 end).
  { destruct ub as [u|].
    - unfold Rltb in Hs. destruct (Rlt_dec x u); [|discriminate]. injection Hs as <-. rewrite El. auto.
    - injection Hs as <-. now rewrite El. }
  assert (Hle : forall y, last ip 0 = y -> y <= stop).
  { intros y <-. destruct ub as [u|]; [lra|]. pose proof (max_abs_nonneg ip). lra. }
  assert (G : forall xs ys, step_post xs ys = Ok path -> length xs = length ys /\ forall x0 y0 xs' ys', xs = x0 :: xs' -> ys = y0 :: ys' -> path = post_path x0 y0 xs' ys').
  { unfold step_post. intros xs ys G. destruct (Nat.eqb_spec (length xs) (length ys)); [|discriminate]. split; auto.
    intros x0 y0 xs' ys' -> ->. now injection G as <-. }
  exists ip, stop, v0. split; auto. split; auto. destruct swap.
  - destruct (G _ _ H) as [Gl Gp]. cbn [length] in Gl. rewrite app_length in Gl. cbn [length] in Gl.
    split; [cbn [length]; lia|]. split; auto. split; auto. specialize (Gp _ _ _ _ eq_refl eq_refl). split; auto. split; auto.
    destruct (last_corner true v0 lb (v0 :: vs) (ip ++ [stop])) as (f & q & E & Hq); [rewrite app_length; cbn [length]; lia|].
    exists (fst q), f. rewrite Gp, E. f_equal. f_equal. unfold place. cbn in Hq. rewrite nth_error_app2 in Hq by lia.
    replace (length vs - length ip)%nat with 0%nat in Hq by lia. cbn in Hq. injection Hq as ->. now destruct q.
  - destruct (G _ _ H) as [Gl Gp]. cbn [length] in Gl. rewrite app_length in Gl. cbn [length] in Gl.
    split; [cbn [length]; lia|]. split; auto. split; auto. specialize (Gp _ _ _ _ eq_refl eq_refl). split; auto. split; auto.
    destruct (last_corner false lb v0 (ip ++ [stop]) (v0 :: vs)) as (f & q & E & Hq); [rewrite app_length; cbn [length]; lia|].
    exists (snd q), f. rewrite Gp, E. f_equal. f_equal. unfold place. rewrite app_length in Hq. cbn [length] in Hq.
    rewrite Nat.add_1_r in Hq. cbn [nth_error] in Hq. rewrite nth_error_app2 in Hq by lia.
    rewrite Nat.sub_diag in Hq. cbn in Hq. injection Hq as ->. now destruct q.
Qed.
Lemma ends_at_unique swap path x y : ends_at swap path x -> ends_at swap path y -> x = y.
Proof.
  intros (v & f & E) (w & g & E'). rewrite E in E'. apply app_inj_tail in E'. destruct E' as [_ E']. destruct swap; cbn in E'; congruence.
Qed.

(** * The positions between the sites *)
Lemma last_nth {A} (l : list A) d : l <> [] -> nth_error l (length l - 1) = Some (last l d).
Proof.
  induction l as [|x l IH]; [congruence|]. intros _. destruct l as [|y l]; auto.
  change (last (x :: y :: l) d) with (last (y :: l) d). rewrite <- IH by discriminate. cbn. now rewrite Nat.sub_0_r.
Qed.
Lemma sorted_snoc ip stop : sortedR ip -> (forall x, last ip 0 = x -> x <= stop) -> sortedR (ip ++ [stop]).
Proof.
  intros Hs Hst i j a b Hij Ha Hb. destruct (Nat.lt_ge_cases j (length ip)) as [L|L].
  - rewrite nth_error_app1 in Ha, Hb by lia. eapply (Hs i j); eauto.
  - rewrite (nth_error_app2 _ _ L) in Hb. destruct (j - length ip)%nat as [|[|]]; try discriminate Hb. injection Hb as <-.
    destruct (Nat.lt_ge_cases i (length ip)) as [Li|Li].
    + rewrite nth_error_app1 in Ha by lia. assert (Hn : ip <> []) by (intros ->; cbn in Li; lia).
      pose proof (Hs i (length ip - 1)%nat _ _ ltac:(lia) Ha (last_nth ip 0 Hn)). specialize (Hst _ eq_refl). lra.
    + rewrite (nth_error_app2 _ _ Li) in Ha. destruct (i - length ip)%nat as [|[|]]; try discriminate Ha. injection Ha as <-. lra.
Qed.
Lemma midpoints_sorted s : strictly_sortedR s -> sortedR (midpoints s).
Proof.
  intros Hs i j a b Hij Ha Hb. rewrite midpoints_nth in Ha, Hb.
  destruct (nth_error s i) as [x|] eqn:Ex; [|discriminate]. destruct (nth_error s (S i)) as [x'|] eqn:Ex'; [|discriminate].
  destruct (nth_error s j) as [y|] eqn:Ey; [|discriminate]. destruct (nth_error s (S j)) as [y'|] eqn:Ey'; [|discriminate].
  injection Ha as <-. injection Hb as <-.
  assert (forall m n u v, (m <= n)%nat -> nth_error s m = Some u -> nth_error s n = Some v -> u <= v) as W.
  { intros m n u v L Hu Hv. destruct (Nat.eq_dec m n) as [->|Hne]; [rewrite Hu in Hv; injection Hv as ->; lra|].
    pose proof (Hs m n u v ltac:(lia) Hu Hv). lra. }
  pose proof (W i j _ _ Hij Ex Ey). pose proof (W (S i) (S j) _ _ ltac:(lia) Ex' Ey'). lra.
Qed.
Lemma nuclei_gap s lb stop p k : strictly_sortedR s -> lb < p < stop -> closest_site s p k ->
  exists a b, nth_error (lb :: midpoints s ++ [stop]) k = Some a /\ nth_error (lb :: midpoints s ++ [stop]) (S k) = Some b /\ a < p < b.
Proof.
  intros Hs Hp (x & Hx & H). assert (Hk : (k < length s)%nat) by (apply nth_error_Some; congruence). pose proof (midpoints_length s) as Hm.
  assert (A : exists a, nth_error (lb :: midpoints s ++ [stop]) k = Some a /\ a < p).
  { destruct k as [|k]; [exists lb; cbn; split; auto; lra|]. cbn [nth_error]. rewrite nth_error_app1 by lia. rewrite midpoints_nth, Hx.
    destruct (nth_error s k) as [y|] eqn:Ey; [|apply nth_error_None in Ey; lia]. eexists. split; [reflexivity|].
    pose proof (H k y ltac:(lia) Ey) as D. pose proof (Hs k (S k) _ _ ltac:(lia) Ey Hx). revert D. unfold Rabs. repeat destruct Rcase_abs; lra. }
  assert (B : exists b, nth_error (lb :: midpoints s ++ [stop]) (S k) = Some b /\ p < b).
  { cbn [nth_error]. destruct (Nat.eq_dec (S k) (length s)) as [E|E].
    - rewrite nth_error_app2 by lia. replace (k - length (midpoints s))%nat with 0%nat by lia. exists stop. split; auto. lra.
    - rewrite nth_error_app1 by lia. rewrite midpoints_nth, Hx.
      destruct (nth_error s (S k)) as [y|] eqn:Ey; [|apply nth_error_None in Ey; lia]. eexists. split; [reflexivity|].
      pose proof (H (S k) y ltac:(lia) Ey) as D. pose proof (Hs k (S k) _ _ ltac:(lia) Hx Ey). revert D. unfold Rabs. repeat destruct Rcase_abs; lra. }
  destruct A as (a & Ha & La), B as (b & Hb & Lb). exists a, b. repeat split; auto.
Qed.

(** Cells given by their extents. *)
Lemma all_finite_map l : all_finite (map Fin l) = Some l.
Proof. induction l as [|x l IH]; cbn; auto. now rewrite IH. Qed.
Lemma interfaces_of_extents es x lb : interface_positions (OfExtents (map Fin es ++ [x])) lb =
  Ok (map (fun k => lb + rsum (firstn (S k) es)) (seq 0 (length es))).
Proof.
  unfold interface_positions, interfaces_extents. cbn [rbind].
  assert (E : removelast (cumsum_from (Fin 0) (map Fin es ++ [x])) = map (fun k => Fin (0 + rsum (firstn (S k) es))) (seq 0 (length es))).
  { rewrite removelast_firstn_len', cumsum_length, app_length, map_length. cbn [length]. rewrite Nat.add_sub. apply cumsum_fin. }
  rewrite E, map_map. cbn [eadd].
  replace (map (fun k => Fin (0 + rsum (firstn (S k) es) + lb)) (seq 0 (length es)))
    with (map Fin (map (fun k => lb + rsum (firstn (S k) es)) (seq 0 (length es)))).
  - now rewrite all_finite_map.
  - rewrite map_map. apply map_ext. intros k. f_equal. lra.
Qed.
Lemma extents_nth es lb k : nth_error (map (fun k => lb + rsum (firstn (S k) es)) (seq 0 (length es))) k =
  if (k <? length es)%nat then Some (lb + rsum (firstn (S k) es)) else None.
Proof.
  rewrite nth_error_map_seq. now destruct (k <? length es)%nat.
Qed.
Lemma extents_sorted es lb : Forall (fun e => 0 <= e) es -> sortedR (map (fun k => lb + rsum (firstn (S k) es)) (seq 0 (length es))).
Proof.
  intros He i j a b Hij Ha Hb. rewrite extents_nth in Ha, Hb.
  destruct (Nat.ltb_spec i (length es)); [|discriminate]. destruct (Nat.ltb_spec j (length es)); [|discriminate].
  injection Ha as <-. injection Hb as <-. pose proof (rsum_firstn_mono es (S i) (S j) He ltac:(lia)) as K. cbn [firstn] in K. lra.
Qed.
Lemma extents_gap es lb stop p k : lb < p < stop -> inside_cell es lb p k ->
  let ip := map (fun k => lb + rsum (firstn (S k) es)) (seq 0 (length es)) in
  exists a b, nth_error (lb :: ip ++ [stop]) k = Some a /\ nth_error (lb :: ip ++ [stop]) (S k) = Some b /\ a < p < b.
Proof.
  intros Hp (Hk & Ha & Hb). cbv zeta. set (ip := map _ _). assert (Hl : length ip = length es) by (unfold ip; now rewrite map_length, seq_length).
  assert (A : exists a, nth_error (lb :: ip ++ [stop]) k = Some a /\ a < p).
  { destruct k as [|k]; [exists lb; cbn; split; auto; lra|]. cbn [nth_error]. rewrite nth_error_app1 by lia. unfold ip. rewrite extents_nth.
    destruct (Nat.ltb_spec k (length es)); [|lia]. eauto. }
  assert (B : exists b, nth_error (lb :: ip ++ [stop]) (S k) = Some b /\ p < b).
  { cbn [nth_error]. destruct (Nat.lt_ge_cases k (length es)) as [L|L].
    - rewrite nth_error_app1 by lia. unfold ip. rewrite extents_nth. destruct (Nat.ltb_spec k (length es)); [|lia]. eauto.
    - rewrite nth_error_app2 by lia. replace (k - length ip)%nat with 0%nat by lia. exists stop. split; auto. lra. }
  destruct A as (a & E1 & La), B as (b & E2 & Lb). exists a, b. repeat split; auto.
Qed.
