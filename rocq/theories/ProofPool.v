(** Mean squares of averages over the samples of several chains. *)
From Coquelicot Require Import Coquelicot.
From Verif Require Import Base SpecWalk SpecMany SpecEstimate SpecAnneal SpecPool ProofBox ProofConverge ProofRanges ProofEstimate ProofEstimateMany ProofAnneal.
From Coq Require Import FunctionalExtensionality.
Local Open Scope R_scope.

Section Shift.
Context {X : Type} (dom : X -> Prop) (ok : (X -> R) -> Prop) (P : (X -> R) -> X -> R).
Context (HP : averages dom ok P).
Context (ok_plus : forall f g, ok f -> ok g -> ok (fun x => f x + g x)).
Context (ok_mult : forall f g, ok f -> ok g -> ok (fun x => f x * g x)).
Context (P_plus : forall f g x, ok f -> ok g -> dom x -> P (fun x => f x + g x) x = P f x + P g x).
Context {D : Type} (next : X -> D -> X) (M : X -> (D -> R) -> R -> Prop) (D0 : X -> D -> Prop).
Context (HM : forall h x, ok h -> dom x -> M x (fun z => h (next x z)) (P h x)).
Context (Hnext : forall x z, dom x -> D0 x z -> dom (next x z)).
Lemma path_mean_shift f (Hf : ok f) a w : forall t x, dom x ->
  mean_path next M D0 (length w) x (fun ds => a + (t + psum w (map f (visited next x ds))) * (t + psum w (map f (visited next x ds)))) (a + mean_square P f w t x).
Proof.
  induction w as [|c w IH]; intros t x Hx; [cbn; unfold mean_square; cbn; ring|].
  cbn [length mean_path]. exists (fun z => a + mean_square P f w (t + pick c (f (next x z))) (next x z)). split.
  - intros z Hz. cbn [visited map psum]. specialize (IH (t + pick c (f (next x z))) (next x z) (Hnext x z Hx Hz)).
    refine (eq_ind _ (fun h => mean_path next M D0 (length w) (next x z) h _) IH _ _). extensionality ds. rewrite !Rplus_assoc. reflexivity.
  - pose proof (square_ok dom ok P HP ok_plus ok_mult f Hf c w t) as Ho. pose proof (ok_const dom ok P HP f Hf a) as Ha.
    rewrite <- (square_step dom ok P HP ok_plus ok_mult P_plus f Hf c w t x Hx).
    replace (a + P (fun y => mean_square P f w (t + pick c (f y)) y) x) with (P (fun y => a + mean_square P f w (t + pick c (f y)) y) x).
    + apply (HM (fun y => a + mean_square P f w (t + pick c (f y)) y)); auto.
    + rewrite (P_plus (fun _ => a)) by auto. f_equal. exact (P_const dom ok P HP f Hf a x Hx).
Qed.
Context (q : nat -> R) (Q : R) (Hq : forall m, rsum (map q (seq 1 m)) <= Q).
(** The mean of the square of [t] plus a multiple of the error of one chain. *)
Lemma estimate_shift g B mu s burnin every n : ok g -> 0 <= 2 * B -> 0 < s ->
  (forall k y, dom y -> Rabs (Nat.iter k P g y - mu) <= 2 * B * q k) -> (forall y, dom y -> Rabs (g y - mu) <= 2 * B) ->
  (0 < every)%nat -> (0 < (n - burnin) / every)%nat ->
  exists l m : X -> R, ok l /\ ok m /\
    (forall x, dom x -> Rabs (l x) <= s * (2 * B * Q) / INR ((n - burnin) / every)) /\
    (forall x, dom x -> m x <= s * s * (4 * (1 + 2 * Q) * (B * B)) / INR ((n - burnin) / every)) /\
    forall a t x, dom x -> mean_path next M D0 n x
      (fun ds => a + (t + s * (average (map g (scheduled burnin every 0 (visited next x ds))) - mu)) ^ 2) (a + (t * t + (2 * t * l x + m x))).
Proof.
  intros Hg HB Hs Hr Hb He HN0. set (N := ((n - burnin) / every)%nat) in *.
  assert (HN : 0 < INR N) by (apply (lt_INR 0); exact HN0). assert (Hi : 0 < s / INR N) by (apply Rdiv_lt_0_compat; auto).
  set (f := fun x => - (s * mu / INR N) + s / INR N * g x). set (w := marks burnin every 0 n).
  assert (Hf : ok f) by now apply (av_aff_ok _ _ _ HP).
  assert (Hw : count w = N).
  { pose proof (marks_count burnin every n He 0) as C. cbn [Nat.sub Nat.add] in C. rewrite Nat.div_0_l, Nat.add_0_r in C by lia. exact C. }
  set (b := 2 * B * (s / INR N)).
  assert (Hb' : forall y, dom y -> Rabs (f y) <= b).
  { intros y Hy. unfold f, b. replace (- (s * mu / INR N) + s / INR N * g y) with ((g y - mu) * (s / INR N)) by (field; lra).
    rewrite Rabs_mult, (Rabs_pos_eq (s / INR N)) by lra. apply Rmult_le_compat_r; [lra|auto]. }
  set (r := fun k => b * q k).
  assert (Hr' : forall k y, dom y -> Rabs (Nat.iter k P f y) <= r k).
  { intros k y Hy. unfold f. rewrite (iter_affine dom ok P HP) by auto. unfold r, b.
    replace (- (s * mu / INR N) + s / INR N * Nat.iter k P g y) with ((Nat.iter k P g y - mu) * (s / INR N)) by (field; lra).
    rewrite Rabs_mult, (Rabs_pos_eq (s / INR N)) by lra. replace (2 * B * (s / INR N) * q k) with (2 * B * q k * (s / INR N)) by ring.
    apply Rmult_le_compat_r; [lra|auto]. }
  assert (Hb0 : 0 <= b) by (unfold b; apply Rmult_le_pos; lra).
  assert (HS : forall m, rsum (map r (seq 1 m)) <= b * Q).
  { intros m. replace (rsum (map r (seq 1 m))) with (b * rsum (map q (seq 1 m))); [apply Rmult_le_compat_l; auto|].
    unfold r. generalize (seq 1 m). induction l as [|j l IH]; [cbn; ring|]. cbn [map]. change (rsum (?a :: ?r)) with (a + rsum r). rewrite <- IH. ring. }
  exists (lin P f w), (qua P f w). split; [exact (lin_ok dom ok P HP ok_plus f Hf w)|]. split; [exact (qua_ok dom ok P HP ok_plus ok_mult f Hf w)|]. split; [|split].
  - intros x Hx. eapply Rle_trans; [exact (lin_bound dom ok P HP ok_plus P_plus f Hf r (b * Q) Hr' HS w x Hx)|]. unfold b. right. field. lra.
  - intros x Hx. eapply Rle_trans; [apply Rle_abs|]. eapply Rle_trans; [exact (qua_bound dom ok P HP ok_plus ok_mult P_plus f Hf b Hb' r (b * Q) Hr' HS w x Hx)|].
    rewrite Hw. unfold b. right. field. lra.
  - intros a t x Hx. pose proof (path_mean_shift f Hf a w t x Hx) as H. unfold w in H. rewrite marks_length in H. fold w in H. unfold mean_square in H.
    eapply mean_path_ext; [|exact H]. intros ds Hl _. cbn beta.
    assert (E : psum w (map f (visited next x ds)) = s * (average (map g (scheduled burnin every 0 (visited next x ds))) - mu)).
    { unfold w. rewrite <- Hl. rewrite <- (visited_length next ds x). rewrite psum_marks. unfold f, average. rewrite rsum_shift, map_length.
      rewrite <- count_marks. rewrite visited_length, Hl. fold w. rewrite Hw. field. lra. }
    rewrite E. ring.
Qed.
End Shift.

(** Several chains. *)
Section Pool.
Context {X D : Type} (dom : X -> Prop) (M : (D -> R) -> R -> Prop) (D0 : D -> Prop) (n : nat).
Context (A : X -> list D -> R) (l m : X -> R).
Context (Hmean : forall a t x, dom x -> mean_rounds M D0 n (fun ds => a + (t + A x ds) ^ 2) (a + (t * t + (2 * t * l x + m x)))).
Definition total (xs : list X) (dss : list (list D)) : R := rsum (map (fun xd => A (fst xd) (snd xd)) (combine xs dss)).
Lemma pool_mean xs : forall t, Forall dom xs ->
  mean_chains M D0 n (length xs) (fun dss => (t + total xs dss) ^ 2) ((t + rsum (map l xs)) ^ 2 + rsum (map (fun x => m x - l x * l x) xs)).
Proof.
  unfold mean_chains. induction xs as [|x xs IH]; intros t Hx; [cbn; ring|]. inversion Hx as [|? ? Hx1 Hx2]; subst. cbn [length mean_rounds].
  exists (fun ds => (t + A x ds + rsum (map l xs)) ^ 2 + rsum (map (fun x => m x - l x * l x) xs)). split.
  - intros ds Hds. specialize (IH (t + A x ds) Hx2). refine (eq_ind _ (fun h => mean_rounds _ _ _ h _) IH _ _). extensionality dss.
    unfold total. cbn [combine map fst snd]. change (rsum (?a :: ?r)) with (a + rsum r). ring.
  - pose proof (Hmean (rsum (map (fun x => m x - l x * l x) xs)) (t + rsum (map l xs)) x Hx1) as H.
    cbn [map]. change (rsum (?a :: ?r)) with (a + rsum r).
    replace ((t + (l x + rsum (map l xs))) ^ 2 + (m x - l x * l x + rsum (map (fun x0 => m x0 - l x0 * l x0) xs)))
      with (rsum (map (fun x0 => m x0 - l x0 * l x0) xs) + ((t + rsum (map l xs)) * (t + rsum (map l xs)) + (2 * (t + rsum (map l xs)) * l x + m x))) by ring.
    refine (eq_ind _ (fun h => mean_rounds _ _ _ h _) H _ _). extensionality ds. ring.
Qed.
Lemma rsum_abs (a : R) xs : (forall x, dom x -> Rabs (l x) <= a) -> Forall dom xs -> Rabs (rsum (map l xs)) <= INR (length xs) * a.
Proof.
  intros Ha. induction 1 as [|x xs Hx _ IH]; [cbn; rewrite Rabs_R0; lra|]. cbn [map length]. change (rsum (?a :: ?r)) with (a + rsum r). rewrite S_INR.
  eapply Rle_trans; [apply Rabs_triang|]. specialize (Ha x Hx). lra.
Qed.
Lemma rsum_le (c : R) xs : (forall x, dom x -> m x <= c) -> Forall dom xs -> rsum (map (fun x => m x - l x * l x) xs) <= INR (length xs) * c.
Proof.
  intros Hc. induction 1 as [|x xs Hx _ IH]; [cbn; lra|]. cbn [map length]. change (rsum (?a :: ?r)) with (a + rsum r). rewrite S_INR.
  specialize (Hc x Hx). nra.
Qed.
Lemma pool_bound a c xs : (forall x, dom x -> Rabs (l x) <= a) -> (forall x, dom x -> m x <= c) -> Forall dom xs ->
  (0 + rsum (map l xs)) ^ 2 + rsum (map (fun x => m x - l x * l x) xs) <= (INR (length xs) * a) ^ 2 + INR (length xs) * c.
Proof.
  intros Ha Hc Hx. apply Rplus_le_compat; [|now apply rsum_le]. rewrite Rplus_0_l. rewrite <- (pow2_abs (rsum _)). apply pow_incr. split; [apply Rabs_pos|now apply rsum_abs].
Qed.
End Pool.

Lemma rsum_two l1 l2 : rsum (l1 ++ l2) = rsum l1 + rsum l2.
Proof. induction l1 as [|x l1 IH]; cbn [app]; [change (rsum []) with 0; ring|]. change (rsum (?a :: ?r)) with (a + rsum r). rewrite IH. ring. Qed.
(** The average over all samples is the average of the averages. *)
Lemma average_pooled {X D} (samples : X -> list D -> list X) (g : X -> R) N (ok : X -> list D -> Prop) : (0 < N)%nat ->
  (forall x ds, ok x ds -> length (samples x ds) = N) -> forall xs dss, Forall2 ok xs dss -> xs <> [] -> forall mu,
  average (map g (pooled samples xs dss)) - mu = total (fun x ds => / INR (length xs) * (average (map g (samples x ds)) - mu)) xs dss.
Proof.
  intros HN HL xs dss HF Hne mu. assert (HNr : 0 < INR N) by (apply lt_0_INR; lia).
  assert (E : forall xs dss, Forall2 ok xs dss -> length (pooled samples xs dss) = (length xs * N)%nat /\
    forall c, total (fun x ds => c * (average (map g (samples x ds)) - mu)) xs dss = c * (rsum (map g (pooled samples xs dss)) / INR N - INR (length xs) * mu)).
  { clear xs dss HF Hne. induction 1 as [|x ds xs dss Hx HF [IH1 IH2]]; [split; [reflexivity|]; intros c; unfold total, pooled; cbn; field; lra|].
    unfold total, pooled in *. cbn [combine map concat length fst snd] in *. split.
    - rewrite app_length, IH1, (HL x ds Hx). cbn. lia.
    - intros c. change (rsum (?a :: ?r)) with (a + rsum r). rewrite IH2. unfold average. rewrite map_length, (HL x ds Hx), map_app, rsum_two, S_INR. field. lra. }
  destruct (E xs dss HF) as [E1 E2]. rewrite E2. unfold average. rewrite map_length, E1, mult_INR.
  assert (0 < INR (length xs)) by (apply lt_0_INR; destruct xs; [congruence|cbn; lia]). field. split; lra.
Qed.

Lemma chains_length {X D} (D0 : D -> Prop) n (dss : list (list D)) : Forall (drawn_by_chain D0 n) dss -> forall xs : list X, length dss = length xs ->
  Forall2 (fun _ ds => length ds = n) xs dss.
Proof. induction 1 as [|ds dss [Hds _] HD IH]; intros [|x xs] Hl; try discriminate; constructor; auto. Qed.
(** A burn-in during which the rule changes. *)
Section Burn.
Context {X D : Type} (dom : X -> Prop) (ok : (X -> R) -> Prop) (P : nat -> (X -> R) -> X -> R) (HP : forall i, averages dom ok (P i)).
Context (ok_plus : forall f g, ok f -> ok g -> ok (fun x => f x + g x)).
Context (P_plus : forall i f g x, ok f -> ok g -> dom x -> P i (fun x => f x + g x) x = P i f x + P i g x).
Context (next : nat -> X -> D -> X) (M : (D -> R) -> R -> Prop) (D0 : D -> Prop) (b e n : nat).
Context (HM : forall i h x, ok h -> dom x -> M (fun z => h (next i x z)) (P i h x)).
Context (Hnext : forall i x z, dom x -> D0 z -> dom (next i x z)).
Context (Hlate : forall i, (b <= i)%nat -> next i = next b).
Context (h : list X -> R) (A C : R) (l m : X -> R) (Hl : ok l) (Hm : ok m).
Context (HA : forall x, dom x -> Rabs (l x) <= A) (HC : forall x, dom x -> m x <= C).
Context (Hmean : forall a t x, dom x -> mean_rounds M D0 n (fun ds => a + (t + h (scheduled 0 e 0 (visited (next b) x ds))) ^ 2) (a + (t * t + (2 * t * l x + m x)))).
Lemma shift_mean i a t (k v : X -> R) x : ok k -> ok v -> dom x ->
  ok (fun y => a + (t * t + (2 * t * k y + v y))) /\ P i (fun y => a + (t * t + (2 * t * k y + v y))) x = a + (t * t + (2 * t * P i k x + P i v x)).
Proof.
  intros Hk Hv Hx. pose proof (av_aff_ok _ _ _ (HP i) (a + t * t) (2 * t) k Hk) as H1. pose proof (ok_plus _ _ H1 Hv) as H2.
  assert (E : (fun y => a + (t * t + (2 * t * k y + v y))) = (fun y => a + t * t + 2 * t * k y + v y)) by (extensionality y; ring).
  rewrite E. split; [exact H2|]. rewrite (P_plus i _ _ x H1 Hv Hx), (av_aff _ _ _ (HP i)) by auto. ring.
Qed.
Lemma burn_shift j : forall i, (i + j = b)%nat -> exists k v, ok k /\ ok v /\ (forall x, dom x -> Rabs (k x) <= A) /\ (forall x, dom x -> v x <= C) /\
  forall a t x, dom x -> mean_rounds M D0 (j + n) (fun ds => a + (t + h (scheduled b e i (visited_at next i x ds))) ^ 2) (a + (t * t + (2 * t * k x + v x))).
Proof.
  induction j as [|j IH]; intros i Hi.
  - assert (i = b) by lia. subst i. exists l, m. split; [auto|]. split; [auto|]. split; [auto|]. split; [auto|]. intros a t x Hx.
    eapply mean_rounds_ext; [|exact (Hmean a t x Hx)]. intros ds _ _. cbn beta. rewrite (visited_from next b Hlate) by lia.
    pose proof (scheduled_from b e (visited (next b) x ds) 0) as E. rewrite Nat.add_0_r in E. now rewrite E.
  - destruct (IH (S i) ltac:(lia)) as (k & v & Hk & Hv & HkA & HvC & H). exists (P i k), (P i v).
    split; [now apply (av_ok _ _ _ (HP i))|]. split; [now apply (av_ok _ _ _ (HP i))|]. split; [|split].
    + intros x Hx. exact (P_bound dom ok (P i) (HP i) k A Hk HkA x Hx).
    + intros x Hx. exact (upper dom ok (P i) (HP i) v C Hv HvC x Hx).
    + intros a t x Hx. cbn [Nat.add mean_rounds]. exists (fun z => a + (t * t + (2 * t * k (next i x z) + v (next i x z)))).
      destruct (shift_mean i a t k v x Hk Hv Hx) as [Ho <-]. split; [|exact (HM i (fun y => a + (t * t + (2 * t * k y + v y))) x Ho Hx)].
      intros z Hz. eapply mean_rounds_ext; [|exact (H a t (next i x z) (Hnext i x z Hx Hz))].
      intros ds _ _. cbn [visited_at scheduled]. destruct (Nat.ltb_spec b (S i)); [lia|]. reflexivity.
Qed.
End Burn.

Section Ranges.
Context (rs : list (R * R)) (Hrs : proper rs) (sds : list R) (Hlen : length sds = length rs) (Hsds : Forall (fun s => 0 < s) sds).
Context (F phi : R -> R) (HF : normal_cdf F) (Hphi : forall z, derivable_pt_lim F z (phi z)).
Context (L : list R -> R) (HL : cont_ranges rs L).
Let step (t : R) (x : list R) (z : list R * R) : list R := roam rs sds t L x (fst z) (snd z).
Lemma roams_pool : exists C, 0 <= C /\ forall g B, cont_ranges rs g -> (forall xs, in_ranges rs xs -> Rabs (g xs) <= B) ->
  forall b (T : nat -> R) every n starts, (forall i, 0 < T i) -> (forall i, (b <= i)%nat -> T i = 1) ->
  starts <> [] -> Forall (in_ranges rs) starts -> (0 < every)%nat -> (0 < (n - b) / every)%nat ->
  exists m, mean_chains (one rs phi) (draws rs) n (length starts)
      (fun dss => (average (map g (pooled (fun x ds => scheduled b every 0 (visited_at (fun i => step (T i)) 0 x ds)) starts dss)) - level rs 1 L g / norm rs 1 L) ^ 2) m /\
    m <= C * (B * B) * (1 / (INR (length starts) * INR ((n - b) / every)) + 1 / (INR ((n - b) / every)) ^ 2).
Proof.
  destruct (later_converges rs Hrs sds Hlen Hsds 1 Rlt_0_1 F phi HF Hphi L HL) as (rho & Hrho & H).
  set (Q := 1 / (1 - rho)). assert (HQ : 0 < Q) by (apply Rdiv_lt_0_compat; lra).
  exists (4 * (1 + 2 * Q) + 4 * (Q * Q)). split; [nra|].
  intros g B Hg HB b T every n starts HT Hb Hne Hx He HN. set (N := ((n - b) / every)%nat) in *. set (p := length starts).
  assert (HNr : 0 < INR N) by (apply lt_0_INR; lia).
  assert (Hpr : 0 < INR p) by (apply lt_0_INR; unfold p; destruct starts; [congruence|cbn; lia]).
  set (mu := level rs 1 L g / norm rs 1 L).
  assert (HB0 : 0 <= 2 * B).
  { destruct starts as [|x0 st]; [congruence|]. inversion Hx as [|? ? H0 _]; subst. pose proof (HB x0 H0). pose proof (Rabs_pos (g x0)). lra. }
  assert (Hp : forall t, 0 < t -> averages (in_ranges rs) (cont_ranges rs) (roams rs sds t phi L)) by (intros t Ht; now apply (roams_averages rs Hrs sds Hlen Hsds t Ht F)).
  destruct (estimate_shift (in_ranges rs) (cont_ranges rs) (roams rs sds 1 phi L) (Hp 1 Rlt_0_1)
    (cont_ranges_plus rs Hrs) (cont_ranges_mult rs Hrs) (roams_plus rs Hrs sds Hlen Hsds 1 F phi HF Hphi L HL)
    (step 1) (fun _ => one rs phi) (fun _ => draws rs)) with (q := fun k => rho ^ k) (Q := Q) (g := g) (B := B)
    (mu := mu) (s := / INR p) (burnin := 0%nat) (every := every) (n := (n - b)%nat) as (l0 & m0 & Hlo & Hmo & Hl0 & Hm0 & Hmean); auto.
  - intros h x Hh Hxx. unfold one. cbn [fst snd]. now apply (roams_step rs Hrs sds Hlen Hsds 1 F phi HF Hphi L HL).
  - intros x z Hxx [Hz _]. now apply roam_inside.
  - intros k. now apply geometric_sum.
  - now apply Rinv_0_lt_compat.
  - intros k y Hy. rewrite (roams_later rs Hrs sds Hlen Hsds 1 Rlt_0_1 F phi HF Hphi L HL) by auto. now apply H.
  - intros y Hy. pose proof (H g B Hg HB O y Hy) as H0. rewrite later_O in H0 by auto. cbn [pow] in H0. now rewrite Rmult_1_r in H0.
  - now rewrite Nat.sub_0_r.
  - rewrite Nat.sub_0_r in Hl0, Hm0. fold N in Hl0, Hm0.
    assert (Hbn : (b <= n)%nat). { destruct (Nat.le_gt_cases b n); auto. unfold N in HN. replace (n - b)%nat with O in HN by lia. rewrite Nat.div_0_l in HN by lia. lia. }
    destruct (burn_shift (in_ranges rs) (cont_ranges rs) (fun i => roams rs sds (T i) phi L) (fun i => Hp (T i) (HT i)) (cont_ranges_plus rs Hrs)
      (fun i => roams_plus rs Hrs sds Hlen Hsds (T i) F phi HF Hphi L HL)
      (fun i => step (T i)) (one rs phi) (draws rs) b every (n - b)%nat) with
      (h := fun l => / INR p * (average (map g l) - mu)) (A := / INR p * (2 * B * Q) / INR N) (C := / INR p * / INR p * (4 * (1 + 2 * Q) * (B * B)) / INR N)
      (l := l0) (m := m0) (j := b) (i := O) as (l & m & _ & _ & Hl & Hm & Hmean'); auto.
    + intros i h x Hh Hxx. unfold one. cbn [fst snd]. now apply (roams_step rs Hrs sds Hlen Hsds (T i) F phi HF Hphi L HL).
    + intros i x z Hxx [Hz _]. now apply roam_inside.
    + intros i Hi. now rewrite (Hb i Hi), (Hb b (Nat.le_refl b)).
    + intros a t x Hxx. rewrite (Hb b (Nat.le_refl b)). exact (path_rounds _ _ _ _ _ _ _ (Hmean a t x Hxx)).
    + replace (b + (n - b))%nat with n in Hmean' by lia.
      set (A := fun x ds => / INR p * (average (map g (scheduled b every 0 (visited_at (fun i => step (T i)) 0 x ds))) - mu)).
      exists ((0 + rsum (map l starts)) ^ 2 + rsum (map (fun x => m x - l x * l x) starts)). split.
      * pose proof (pool_mean (in_ranges rs) (one rs phi) (draws rs) n A l m Hmean' starts 0 Hx) as Hpm. unfold mean_chains in *. fold p in Hpm.
        eapply mean_rounds_ext; [|exact Hpm]. intros dss Hd HD. cbn beta. f_equal.
        rewrite (average_pooled _ g N (fun x ds => length ds = n)); auto.
        -- unfold A, p. ring.
        -- intros x ds Hds. rewrite <- count_marks.
           assert (Ev : forall ds i x, length (visited_at (fun i => step (T i)) i x ds) = length ds) by (clear; induction ds as [|z ds IH]; intros i x; cbn; auto).
           rewrite Ev, Hds. pose proof (marks_count b every n He 0) as C. cbn [Nat.sub Nat.add] in C. rewrite Nat.div_0_l, Nat.add_0_r in C by lia. exact C.
        -- now apply (chains_length (draws rs)).
      * eapply Rle_trans; [exact (pool_bound (in_ranges rs) l m _ _ starts Hl Hm Hx)|]. fold p.
        replace ((INR p * (/ INR p * (2 * B * Q) / INR N)) ^ 2 + INR p * (/ INR p * / INR p * (4 * (1 + 2 * Q) * (B * B)) / INR N))
          with (4 * (Q * Q) * (B * B) * (1 / INR N ^ 2) + 4 * (1 + 2 * Q) * (B * B) * (1 / (INR p * INR N))) by (field; split; lra).
        assert (H1 : 0 <= 1 / INR N ^ 2) by (apply Rlt_le, Rdiv_lt_0_compat; [lra|now apply pow_lt]).
        assert (H2 : 0 <= 1 / (INR p * INR N)) by (apply Rlt_le, Rdiv_lt_0_compat; [lra|now apply Rmult_lt_0_compat]).
        assert (H3 : 0 <= B * B) by nra. assert (H4 : 0 <= Q * Q) by nra.
        rewrite Rmult_plus_distr_l.
        assert (4 * (Q * Q) * (B * B) * (1 / INR N ^ 2) <= (4 * (1 + 2 * Q) + 4 * (Q * Q)) * (B * B) * (1 / INR N ^ 2)).
        { apply Rmult_le_compat_r; [exact H1|]. apply Rmult_le_compat_r; lra. }
        assert (4 * (1 + 2 * Q) * (B * B) * (1 / (INR p * INR N)) <= (4 * (1 + 2 * Q) + 4 * (Q * Q)) * (B * B) * (1 / (INR p * INR N))).
        { apply Rmult_le_compat_r; [exact H2|]. apply Rmult_le_compat_r; lra. }
        lra.
Qed.
End Ranges.
