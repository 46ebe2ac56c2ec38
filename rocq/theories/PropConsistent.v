(** C95: the estimates from the results of an inversion are consistent: with enough samples they are close to the
    posterior means with a probability close to 1. *)
From Coquelicot Require Import Coquelicot.
From Coq Require Import FunctionalExtensionality.
From Verif Require Import Base ModelPrior ModelState ModelSpace ModelPerturb ModelChain ModelSampler ModelLikelihood ModelInversion SpecWalk SpecInvariance SpecMany SpecEstimate SpecAnneal SpecPool SpecConsistent SpecUtils1D SpecLikelihood.
From Verif Require Import ProofBox ProofInvariance ProofMany ProofRanges ProofEstimate PropMany PropManyLike PropEstimate PropAnneal PropWhole PropPool.
Local Open Scope string_scope.
Local Open Scope list_scope.
Local Open Scope R_scope.

(** * Means *)
Section Means.
Context (F phi : R -> R) (HF : normal_cdf F) (Hphi : forall z, derivable_pt_lim F z (phi z)).
Lemma deviate_affine a b h m : mean_deviate phi h m -> mean_deviate phi (fun z => a + b * h z) (a + b * m).
Proof.
  intros (G & HG & Hl). destruct (mean_const F phi HF Hphi a) as (G1 & HG1 & Hl1). exists (fun t => G1 t + b * G t). split.
  - intros t Ht. pose proof (is_RInt_plus _ _ _ _ _ _ (HG1 t Ht) (is_RInt_scal _ _ _ b _ (HG t Ht))) as H. eapply is_RInt_ext; [|exact H].
    intros z _. unfold plus, scal; cbn; unfold mult; cbn. ring.
  - eapply is_lim_plus; [exact Hl1|apply is_lim_scal_l; exact Hl|]. cbn. reflexivity.
Qed.
Lemma deviates_affine a b d : forall h m, mean_deviates phi d h m -> mean_deviates phi d (fun zs => a + b * h zs) (a + b * m).
Proof.
  induction d as [|d IH]; intros h m; cbn; [now intros ->|]. intros (k & Hk & Hm). exists (fun z => a + b * k z). split; [|now apply deviate_affine].
  intros z. exact (IH _ _ (Hk z)).
Qed.
Lemma unit_affine a b h m : mean_unit h m -> mean_unit (fun u => a + b * h u) (a + b * m).
Proof.
  unfold mean_unit. intros H. pose proof (is_RInt_plus _ _ _ _ _ _ (is_RInt_const 0 1 a) (is_RInt_scal _ _ _ b _ H)) as H1.
  replace (a + b * m) with (plus (scal (1 - 0) a) (scal b m)) by (unfold plus, scal; cbn; unfold mult; cbn; ring). eapply is_RInt_ext; [|exact H1].
  intros z _. unfold plus, scal; cbn; unfold mult; cbn. ring.
Qed.
Lemma one_affine ns a b k m : one_mean phi ns k m -> one_mean phi ns (fun z => a + b * k z) (a + b * m).
Proof.
  intros (hz & H1 & H2). exists (fun zs => a + b * hz zs). split; [|now apply deviates_affine].
  intros zs Hz. exact (unit_affine a b _ _ (H1 zs Hz)).
Qed.
Lemma rounds_affine {D} (M : (D -> R) -> R -> Prop) D0 a b (HM : forall k m, M k m -> M (fun z => a + b * k z) (a + b * m)) n : forall h m,
  mean_rounds M D0 n h m -> mean_rounds M D0 n (fun ds => a + b * h ds) (a + b * m).
Proof.
  induction n as [|n IH]; intros h m; cbn; [now intros ->|]. intros (k & Hk & Hm). exists (fun z => a + b * k z). split; [|now apply HM].
  intros z Hz. exact (IH _ _ (Hk z Hz)).
Qed.
Lemma chains_affine ns a b n p h m : mean_chains (one_mean phi ns) (one_draw ns) n p h m ->
  mean_chains (one_mean phi ns) (one_draw ns) n p (fun dss => a + b * h dss) (a + b * m).
Proof. apply rounds_affine. intros k m'. apply rounds_affine. intros k' m''. apply one_affine. Qed.

Lemma phi_nonneg z : 0 <= phi z.
Proof. destruct (phi_bell F phi HF Hphi) as (c & Hc & E). rewrite E. pose proof (exp_pos (- (z * z) / 2)). unfold bell. apply Rmult_le_pos; [lra|apply Rlt_le, exp_pos]. Qed.
Lemma deviate_le h h' m m' : (forall z, h z <= h' z) -> mean_deviate phi h m -> mean_deviate phi h' m' -> m <= m'.
Proof.
  intros Hle (G & HG & Hl) (G' & HG' & Hl'). apply (is_lim_le_loc G G' p_infty m m'); auto. exists 0. intros t Ht.
  apply (is_RInt_le (fun z => phi z * h z) (fun z => phi z * h' z) (- t) t); auto; [lra|]. intros z _. apply Rmult_le_compat_l; [apply phi_nonneg|auto].
Qed.
Lemma deviates_le d : forall h h' m m', (forall zs, length zs = d -> h zs <= h' zs) -> mean_deviates phi d h m -> mean_deviates phi d h' m' -> m <= m'.
Proof.
  induction d as [|d IH]; intros h h' m m' Hle; cbn; [intros -> ->; now apply Hle|]. intros (k & Hk & Hm) (k' & Hk' & Hm').
  eapply deviate_le; [|exact Hm|exact Hm']. intros z. eapply IH; [|apply Hk|apply Hk']. intros zs Hz. apply Hle. cbn. now rewrite Hz.
Qed.
Lemma one_le ns k k' m m' : (forall z, one_draw ns z -> k z <= k' z) -> one_mean phi ns k m -> one_mean phi ns k' m' -> m <= m'.
Proof.
  intros Hle (hz & H1 & H2) (hz' & H1' & H2'). eapply deviates_le; [|exact H2|exact H2']. intros zs Hz.
  apply (is_RInt_le (fun u => k (zs, u)) (fun u => k' (zs, u)) 0 1); [lra|exact (H1 zs Hz)|exact (H1' zs Hz)|]. intros u Hu. apply Hle. split; auto.
Qed.
Lemma rounds_le {D} (M : (D -> R) -> R -> Prop) (D0 : D -> Prop) (HM : forall k k' m m', (forall z, D0 z -> k z <= k' z) -> M k m -> M k' m' -> m <= m') n : forall h h' m m',
  (forall ds, length ds = n -> Forall D0 ds -> h ds <= h' ds) -> mean_rounds M D0 n h m -> mean_rounds M D0 n h' m' -> m <= m'.
Proof.
  induction n as [|n IH]; intros h h' m m' Hle; cbn; [intros -> ->; now apply Hle|]. intros (k & Hk & Hm) (k' & Hk' & Hm').
  eapply HM; [|exact Hm|exact Hm']. intros z Hz. eapply IH; [|now apply Hk|now apply Hk']. intros ds Hl Hd. apply Hle; cbn; auto.
Qed.
Lemma chains_le ns n p h h' m m' : (forall dss, drawn_by_chains (one_draw ns) n p dss -> h dss <= h' dss) ->
  mean_chains (one_mean phi ns) (one_draw ns) n p h m -> mean_chains (one_mean phi ns) (one_draw ns) n p h' m' -> m <= m'.
Proof.
  intros Hle. apply rounds_le; [|intros; apply Hle; now split]. intros k k' l l' Hk. apply rounds_le; [apply one_le|]. intros ds Hl Hd. apply Hk. now split.
Qed.
End Means.

(** [likely] bounds probabilities from below. *)
Theorem C95_probability F phi ns n p A c q : normal_cdf F -> (forall z, derivable_pt_lim F z (phi z)) ->
  likely (one_mean phi ns) (one_draw ns) n p A c -> probability (one_mean phi ns) (one_draw ns) n p A q -> c <= q.
Proof.
  intros HF Hphi (f & m & Hf & Hm & Hc) (ind & Hi & Hq). eapply Rle_trans; [exact Hc|]. eapply (chains_le F phi HF Hphi); [|exact Hm|exact Hq].
  intros dss Hd. destruct (Hf dss Hd) as [H1 H2]. destruct (Hi dss Hd) as [H3 H4]. destruct (Classical_Prop.classic (A dss)) as [HA|HA]; [rewrite (H3 HA)|rewrite (H4 HA)]; auto.
Qed.
Lemma chebyshev F phi ns n p (h : list (list (list R * R)) -> R) m b eps : normal_cdf F -> (forall z, derivable_pt_lim F z (phi z)) -> 0 < eps ->
  mean_chains (one_mean phi ns) (one_draw ns) n p (fun dss => h dss ^ 2) m -> m <= b ->
  likely (one_mean phi ns) (one_draw ns) n p (fun dss => Rabs (h dss) < eps) (1 - b / eps ^ 2).
Proof.
  intros HF Hphi He Hm Hb. assert (He2 : 0 < eps ^ 2) by nra. assert (Hi : 0 < / eps ^ 2) by now apply Rinv_0_lt_compat.
  exists (fun dss => 1 + - / eps ^ 2 * h dss ^ 2), (1 + - / eps ^ 2 * m). split; [|split; [now apply (chains_affine F)|]].
  - intros dss _. assert (Hs : 0 <= h dss ^ 2) by nra. split; [nra|]. intros Hn.
    assert (Hh : eps <= Rabs (h dss)) by lra. assert (eps ^ 2 <= h dss ^ 2) by (rewrite <- (pow2_abs (h dss)); apply pow_incr; lra).
    assert (1 <= / eps ^ 2 * h dss ^ 2); [|lra]. rewrite <- (Rinv_l (eps ^ 2)) by lra. apply Rmult_le_compat_l; lra.
  - unfold Rdiv. nra.
Qed.

(** * The estimates *)
(** As C94, with probabilities: the average over the results is within [eps] of the posterior mean [v / Z]. *)
Theorem C95_estimates ns L F phi :
  ranged ns -> normal_cdf F -> (forall z, derivable_pt_lim F z (phi z)) -> cont_ranges (ranges ns) L ->
  exists Z C, 0 < Z /\ ranges_integral (ranges ns) (fun xs => exp (L xs)) Z /\ 0 <= C /\
    forall g B, cont_ranges (ranges ns) g -> (forall xs, in_ranges (ranges ns) xs -> Rabs (g xs) <= B) ->
    exists v, ranges_integral (ranges ns) (fun xs => exp (L xs) * g xs) v /\
      forall sc n starts eps, starts <> [] -> Forall (in_ranges (ranges ns)) starts -> (0 < sc_every sc)%nat -> (0 < (n - sc_burnin sc) / sc_every sc)%nat -> 0 < eps ->
      let c := 1 - C * (B * B) * (1 / (INR (length starts) * INR ((n - sc_burnin sc) / sc_every sc)) + 1 / INR ((n - sc_burnin sc) / sc_every sc) ^ 2) / eps ^ 2 in
      likely (one_mean phi ns) (one_draw ns) n (length starts)
        (fun dss => Rabs (average (map g (pooled (vanilla_samples ns L sc) starts dss)) - v / Z) < eps) c /\
      forall T0, likely (one_mean phi ns) (one_draw ns) n (length starts)
        (fun dss => Rabs (average (map g (pooled (annealing_samples ns L T0 sc) starts dss)) - v / Z) < eps) c.
Proof.
  intros Hr HF Hphi HL. destruct (C94_estimates ns L F phi Hr HF Hphi HL) as (Z & C & HZ & HI & HC & H).
  exists Z, C. split; [exact HZ|]. split; [exact HI|]. split; [exact HC|]. intros g B Hg HB. destruct (H g B Hg HB) as (v & Hv & Hm).
  exists v. split; [exact Hv|]. intros sc n starts eps Hne Hx He HN Heps c. destruct (Hm sc n starts Hne Hx He HN) as ((m & Hmm & Hle) & Ha). split.
  - exact (chebyshev F phi ns n _ _ m _ eps HF Hphi Heps Hmm Hle).
  - intros T0. destruct (Ha T0) as (m' & Hm' & Hle'). exact (chebyshev F phi ns n _ _ m' _ eps HF Hphi Heps Hm' Hle').
Qed.
Lemma likely_less {D} (M : (D -> R) -> R -> Prop) D0 n p A c c' : c' <= c -> likely M D0 n p A c -> likely M D0 n p A c'.
Proof. intros Hc (f & m & H1 & H2 & H3). exists f, m. split; [exact H1|]. split; [exact H2|lra]. Qed.
(** Consistency: for every [eps] and [delta], from some number of samples per chain on, the estimate is within [eps] with
    probability at least [1 - delta], whatever the chains, their starts, the burn-in and the starting temperature. *)
Theorem C95_consistent ns L F phi :
  ranged ns -> normal_cdf F -> (forall z, derivable_pt_lim F z (phi z)) -> cont_ranges (ranges ns) L ->
  exists Z, 0 < Z /\ ranges_integral (ranges ns) (fun xs => exp (L xs)) Z /\
    forall g B, cont_ranges (ranges ns) g -> (forall xs, in_ranges (ranges ns) xs -> Rabs (g xs) <= B) ->
    exists v, ranges_integral (ranges ns) (fun xs => exp (L xs) * g xs) v /\
      forall eps delta, 0 < eps -> 0 < delta -> exists N, forall sc n starts, starts <> [] -> Forall (in_ranges (ranges ns)) starts ->
      (0 < sc_every sc)%nat -> (N <= (n - sc_burnin sc) / sc_every sc)%nat ->
      likely (one_mean phi ns) (one_draw ns) n (length starts)
        (fun dss => Rabs (average (map g (pooled (vanilla_samples ns L sc) starts dss)) - v / Z) < eps) (1 - delta) /\
      forall T0, likely (one_mean phi ns) (one_draw ns) n (length starts)
        (fun dss => Rabs (average (map g (pooled (annealing_samples ns L T0 sc) starts dss)) - v / Z) < eps) (1 - delta).
Proof.
  intros Hr HF Hphi HL. destruct (C95_estimates ns L F phi Hr HF Hphi HL) as (Z & C & HZ & HI & HC & H).
  exists Z. split; [exact HZ|]. split; [exact HI|]. intros g B Hg HB. destruct (H g B Hg HB) as (v & Hv & Hm).
  exists v. split; [exact Hv|]. intros eps delta Heps Hdelta.
  assert (He2 : 0 < eps ^ 2) by nra. assert (HK : 0 <= C * (B * B) * 2 / eps ^ 2).
  { apply Rmult_le_pos; [|apply Rlt_le, Rinv_0_lt_compat; lra]. pose proof (Rle_0_sqr B). unfold Rsqr in *. nra. }
  set (K := C * (B * B) * 2 / eps ^ 2) in *.
  assert (Ha : exists N, K / delta < INR N).
  { destruct (archimed (K / delta)) as [Ha _]. exists (Z.to_nat (up (K / delta))). rewrite INR_IZR_INZ.
    assert (H0 : 0 <= K / delta) by (apply Rmult_le_pos; [lra|apply Rlt_le, Rinv_0_lt_compat; lra]).
    rewrite Z2Nat.id; [lra|]. apply le_IZR. lra. }
  destruct Ha as [N HN]. exists (S N). intros sc n starts Hne Hx He HNn.
  set (k := ((n - sc_burnin sc) / sc_every sc)%nat) in *.
  destruct (Hm sc n starts eps Hne Hx He ltac:(lia) Heps) as [H1 H2]. fold k in H1, H2.
  assert (Hb : 1 - delta <= 1 - C * (B * B) * (1 / (INR (length starts) * INR k) + 1 / INR k ^ 2) / eps ^ 2).
  { assert (Hk : INR N + 1 <= INR k) by (rewrite <- S_INR; apply le_INR; lia). pose proof (pos_INR N) as HN0.
    assert (Hp : 1 <= INR (length starts)) by (destruct starts; [congruence|cbn [length]; rewrite S_INR; pose proof (pos_INR (length starts)); lra]).
    assert (I1 : 1 / (INR (length starts) * INR k) <= / INR k) by (unfold Rdiv; rewrite Rmult_1_l; apply Rinv_le_contravar; nra).
    assert (I2 : 1 / INR k ^ 2 <= / INR k) by (unfold Rdiv; rewrite Rmult_1_l; apply Rinv_le_contravar; nra).
    assert (HCB : 0 <= C * (B * B)) by (pose proof (Rle_0_sqr B); unfold Rsqr in *; nra).
    assert (I3 : C * (B * B) * (1 / (INR (length starts) * INR k) + 1 / INR k ^ 2) / eps ^ 2 <= K * / INR k).
    { unfold K, Rdiv. replace (C * (B * B) * 2 * / eps ^ 2 * / INR k) with (C * (B * B) * (/ INR k + / INR k) * / eps ^ 2) by ring.
      apply Rmult_le_compat_r; [apply Rlt_le, Rinv_0_lt_compat; lra|]. apply Rmult_le_compat_l; [exact HCB|]. unfold Rdiv in *. lra. }
    assert (I4 : K * / INR k <= delta).
    { apply (Rmult_le_reg_r (INR k)); [lra|]. rewrite Rmult_assoc, Rinv_l, Rmult_1_r by lra.
      assert (K <= delta * INR N); [|nra]. apply (Rmult_lt_compat_r delta) in HN; [|lra]. unfold Rdiv in HN. rewrite Rmult_assoc, Rinv_l, Rmult_1_r in HN by lra. lra. }
    lra. }
  split; [exact (likely_less _ _ _ _ _ _ _ Hb H1)|]. intros T0. exact (likely_less _ _ _ _ _ _ _ Hb (H2 T0)).
Qed.

(** * Whole inversions *)
Lemma likely_weaken {D} (M : (D -> R) -> R -> Prop) D0 n p (A A' : list (list D) -> Prop) c :
  (forall dss, drawn_by_chains D0 n p dss -> A dss -> A' dss) -> likely M D0 n p A c -> likely M D0 n p A' c.
Proof.
  intros H (f & m & H1 & H2 & H3). exists f, m. split; [|now split]. intros dss Hd. destruct (H1 dss Hd) as [Ha Hb]. split; [exact Ha|].
  intros Hn. apply Hb. intros HA. apply Hn. now apply H.
Qed.
Lemma in_ranges_nth ns : forall xs i a, in_ranges (ranges ns) xs -> nth_error ns i = Some a -> nm_lo a <= nth i xs 0 <= nm_hi a.
Proof.
  induction ns as [|b ns IH]; intros xs [|i] a Hx Hi; try discriminate; inversion Hx; subst; cbn in *.
  - injection Hi as <-. auto.
  - now apply IH.
Qed.
(** After the run on the draws, get_results returns for the number [a] a list of values whose average is within [eps] of [mu]. *)
Definition estimated elements hash_of ns ll save (run : list (chain state ovalue) -> M (list (chain state ovalue) * option exn)) sts (a : number) mu eps (dss : list (list (list R * R))) : Prop :=
  forall tss tr, map (map snd) tss = dss -> Forall (Forall (tape_ok ns)) tss ->
  exists cs cs' r ys, inversion_chains [many_space ns] ll save (length sts) (concat (map start_tape sts) ++ run_tape tss ++ tr) = Ret cs (run_tape tss ++ tr) /\
    run cs (run_tape tss ++ tr) = Ret (cs', None) tr /\
    get_results elements hash_of (AList (map (fun c => OChain (c_saved c)) cs')) None true = Ok (RConcat r) /\
    dget ("m." ++ nm_name a)%string r = Some (map (fun y => OArr (Arr [y])) ys) /\ Rabs (average ys - mu) < eps.
Lemma whole_estimated elements hash_of ns ll save run n N samples sts i a mu eps c phi :
  whole ns ll save run n N samples -> (0 < N)%nat -> sts <> [] -> Forall (start_ok ns) sts -> nth_error ns i = Some a -> contains "dpred" (nm_name a) = false ->
  likely (one_mean phi ns) (one_draw ns) n (length sts) (fun dss => Rabs (average (map (fun ys => nth i ys 0) (pooled samples (map (start_at ns) sts) dss)) - mu) < eps) c ->
  likely (one_mean phi ns) (one_draw ns) n (length sts) (estimated elements hash_of ns ll save run sts a mu eps) c.
Proof.
  intros Hw HN Hne Hs Hi Hp. apply likely_weaken. intros dss [Hl Hd] HA tss tr <- Ht. rewrite map_length in Hl.
  assert (Hf : Forall (fun ts => length ts = n /\ Forall (tape_ok ns) ts) tss).
  { clear - Hd Ht. induction Ht as [|ts tss H1 H2 IH]; [constructor|]. cbn [map] in Hd.
    pose proof (Forall_inv Hd) as [Hn _]. pose proof (Forall_inv_tail Hd) as Hd'. constructor; [|now apply IH].
    split; [now rewrite map_length in Hn|exact H1]. }
  destruct (C94_results elements hash_of ns ll save run n N samples Hw HN sts tss tr Hne Hs Hl Hf) as (cs & cs' & r & Hc & Hrun & Hg & Hr).
  exists cs, cs', r, (map (fun ys => nth i ys 0) (pooled samples (map (start_at ns) sts) (map (map snd) tss))).
  split; [exact Hc|]. split; [exact Hrun|]. split; [exact Hg|]. split; [|exact HA]. rewrite map_map. exact (Hr i a Hi Hp).
Qed.
(** From some number of samples per chain on, the mean of what get_results returns for a number is within [eps] of its
    posterior mean with probability at least [1 - delta], for data with Gaussian noise of known size. *)
Theorem C95_inversion elements hash_of ns ts fs K P G ll save F phi i a :
  named ns -> ns <> [] -> ranged ns -> normal_cdf F -> (forall z, derivable_pt_lim F z (phi z)) ->
  gaussian_data ns ts fs K P G -> (forall t i, In t ts -> cont_ranges (ranges ns) (fun xs => nth i (G t xs) 0)) ->
  loglike_init (Some (map ATarget ts)) (Some (map AFwd fs)) None None = Ok ll ->
  nth_error ns i = Some a -> contains "dpred" (nm_name a) = false ->
  let L := data_logpdf K P G ts in
  let E := inversion_env [many_space ns] ll save in
  exists Z v, 0 < Z /\ ranges_integral (ranges ns) (fun xs => exp (L xs)) Z /\ ranges_integral (ranges ns) (fun xs => exp (L xs) * nth i xs 0) v /\
    forall eps delta, 0 < eps -> 0 < delta -> exists N, forall jobs n sc sts, sc_verbose sc = false -> (0 < sc_every sc)%nat ->
    (N <= (n - sc_burnin sc) / sc_every sc)%nat -> sts <> [] -> Forall (start_ok ns) sts ->
    likely (one_mean phi ns) (one_draw ns) n (length sts)
      (estimated elements hash_of ns ll save (inversion_run (vanilla [] [] [] []) (vanilla_run E (vanilla [] [] [] []) (Some jobs) n sc) (1 <? jobs)%Z) sts a (v / Z) eps) (1 - delta) /\
    forall T0 rate, 0 < T0 -> likely (one_mean phi ns) (one_draw ns) n (length sts)
      (estimated elements hash_of ns ll save (inversion_run (simulated_annealing E T0 (sc_burnin sc) rate [] [] [] []) (sa_run E T0 [] [] [] [] (Some jobs) n sc) (1 <? jobs)%Z) sts a (v / Z) eps) (1 - delta).
Proof.
  intros Hn Hne Hr HF Hphi Hgd HG Hll Hi Hp L E. pose proof (C88_continuous ns K P G ts Hr HG) as HL. fold L in HL.
  destruct (C93_data ns ts fs K P G ll save F phi Hn Hne Hr HF Hphi Hgd HG Hll) as (_ & _ & _ & _ & _ & Hv & Ha & _). fold L E in Hv, Ha.
  destruct (C95_consistent ns L F phi Hr HF Hphi HL) as (Z & HZ & HI & H).
  destruct (H (fun xs => nth i xs 0) (Rabs (nm_lo a) + Rabs (nm_hi a)) (cont_nth _ i)) as (v & Hvi & Hm).
  { intros xs Hx. pose proof (in_ranges_nth ns xs i a Hx Hi) as Hb. apply Rabs_le. pose proof (Rle_abs (nm_hi a)). pose proof (Rle_abs (- nm_lo a)) as Hlo. rewrite Rabs_Ropp in Hlo.
    pose proof (Rabs_pos (nm_lo a)). pose proof (Rabs_pos (nm_hi a)). lra. }
  exists Z, v. split; [exact HZ|]. split; [exact HI|]. split; [exact Hvi|]. intros eps delta He Hd. destruct (Hm eps delta He Hd) as (N & HN).
  exists (S N). intros jobs n sc sts Hq Hev HNn Hs0 Hs.
  assert (Hx : Forall (in_ranges (ranges ns)) (map (start_at ns) sts)) by (apply Forall_map; eapply Forall_impl; [|exact Hs]; intros st Hst; now apply start_inside).
  assert (Hx0 : map (start_at ns) sts <> []) by (destruct sts; [congruence|discriminate]).
  destruct (HN sc n (map (start_at ns) sts) Hx0 Hx Hev ltac:(lia)) as [H1 H2]. rewrite map_length in H1, H2. split.
  - eapply whole_estimated; [exact (Hv jobs n sc Hq Hev)|lia|exact Hs0|exact Hs|exact Hi|exact Hp|exact H1].
  - intros T0 rate HT. eapply whole_estimated; [exact (Ha T0 rate jobs n sc HT Hq Hev)|lia|exact Hs0|exact Hs|exact Hi|exact Hp|exact (H2 T0)].
Qed.

(** * A case *)
(** Straight-line data (C88): from some number of samples on, the slope is within 1/100 of its posterior mean with
    probability 99/100, for any number of chains started anywhere, with either sampler. *)
Example C95_case : exists F phi Z v N, normal_cdf F /\ (forall z, derivable_pt_lim F z (phi z)) /\
  ranges_integral (ranges line_numbers) (fun xs => exp (data_logpdf line_K line_P line_G [line_target] xs)) Z /\
  ranges_integral (ranges line_numbers) (fun xs => exp (data_logpdf line_K line_P line_G [line_target] xs) * nth 1 xs 0) v /\
  forall starts, starts <> [] -> Forall (in_ranges (ranges line_numbers)) starts ->
    likely (one_mean phi line_numbers) (one_draw line_numbers) (1000 + N * 5) (length starts)
      (fun dss => Rabs (average (map (fun ys => nth 1 ys 0) (pooled (vanilla_samples line_numbers (data_logpdf line_K line_P line_G [line_target]) (Build_sched 1000 5 false 1)) starts dss)) - v / Z) < / 100) (99 / 100) /\
    likely (one_mean phi line_numbers) (one_draw line_numbers) (1000 + N * 5) (length starts)
      (fun dss => Rabs (average (map (fun ys => nth 1 ys 0) (pooled (annealing_samples line_numbers (data_logpdf line_K line_P line_G [line_target]) 10 (Build_sched 1000 5 false 1)) starts dss)) - v / Z) < / 100) (99 / 100).
Proof.
  destruct C88_posterior_case as (ll & F & phi & Hn & Hr & HF & Hphi & Hgd & HG & Hll).
  pose proof (C88_continuous line_numbers line_K line_P line_G [line_target] Hr HG) as HL.
  destruct (C95_consistent line_numbers _ F phi Hr HF Hphi HL) as (Z & HZ & HI & H).
  destruct (H (fun ys => nth 1 ys 0) 5) as (v & Hv & Hm).
  - apply cont_nth.
  - intros xs Hxs. inversion Hxs as [|? x ? xs' _ H1]; subst. inversion H1 as [|? y ? ys' Hy _]; subst. cbn in *. apply Rabs_le. lra.
  - destruct (Hm (/ 100) (/ 100)) as (N & HN); [lra|lra|]. exists F, phi, Z, v, N. split; [exact HF|]. split; [exact Hphi|]. split; [exact HI|]. split; [exact Hv|].
    intros starts Hne Hx. destruct (HN (Build_sched 1000 5 false 1) (1000 + N * 5)%nat starts Hne Hx) as [H1 H2]; [cbn; lia| |].
    + cbn [sc_burnin sc_every]. replace (1000 + N * 5 - 1000)%nat with (N * 5)%nat by lia. rewrite Nat.div_mul by lia. lia.
    + replace (99 / 100) with (1 - / 100) by lra. split; [exact H1|exact (H2 10)].
Qed.
(** The same from the construction of the inversion to np.mean(inversion.get_results()["m.m1"]), with two chains. *)
Example C95_inversion_case elements hash_of : exists ll F phi Z v N, normal_cdf F /\ (forall z, derivable_pt_lim F z (phi z)) /\
  loglike_init (Some (map ATarget [line_target])) (Some (map AFwd [line_fwd])) None None = Ok ll /\
  ranges_integral (ranges line_numbers) (fun xs => exp (data_logpdf line_K line_P line_G [line_target] xs)) Z /\
  ranges_integral (ranges line_numbers) (fun xs => exp (data_logpdf line_K line_P line_G [line_target] xs) * nth 1 xs 0) v /\
  likely (one_mean phi line_numbers) (one_draw line_numbers) (1000 + N * 5) 2
    (estimated elements hash_of line_numbers ll true (inversion_run (vanilla [] [] [] []) (vanilla_run (inversion_env [many_space line_numbers] ll true) (vanilla [] [] [] []) (Some 2%Z) (1000 + N * 5) (Build_sched 1000 5 false 1)) true)
      [[(7, / 2); (8, / 5)]; [(7, 3 / 4); (8, 2 / 5)]] (nth 1 line_numbers (mkNumber "" 0 1 1)) (v / Z) (/ 100)) (99 / 100).
Proof.
  destruct C88_posterior_case as (ll & F & phi & Hn & Hr & HF & Hphi & Hgd & HG & Hll).
  assert (Hne : line_numbers <> []) by discriminate.
  destruct (C95_inversion elements hash_of line_numbers _ _ _ _ _ ll true F phi 1 _ Hn Hne Hr HF Hphi Hgd HG Hll eq_refl eq_refl) as (Z & v & HZ & HI & Hv & H).
  destruct (H (/ 100) (/ 100)) as (N & HN); [lra|lra|]. exists ll, F, phi, Z, v, N.
  split; [exact HF|]. split; [exact Hphi|]. split; [exact Hll|]. split; [exact HI|]. split; [exact Hv|].
  replace (99 / 100) with (1 - / 100) by lra.
  refine (proj1 (HN 2%Z (1000 + N * 5)%nat (Build_sched 1000 5 false 1) [[(7, / 2); (8, / 5)]; [(7, 3 / 4); (8, 2 / 5)]] eq_refl _ _ _ _)).
  - cbn; lia.
  - cbn [sc_burnin sc_every]. replace (1000 + N * 5 - 1000)%nat with (N * 5)%nat by lia. rewrite Nat.div_mul by lia. lia.
  - discriminate.
  - repeat constructor; cbn; lra.
Qed.
