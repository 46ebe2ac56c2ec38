(** C98: percentiles of the results of an inversion (the ends of credible intervals, the median) are consistent estimates of
    posterior percentiles. *)
From Coquelicot Require Import Coquelicot.
From Verif Require Import Base ModelPrior ModelState ModelSpace ModelPerturb ModelChain ModelSampler ModelLikelihood ModelInversion ModelEnsemble SpecEnsemble SpecWalk SpecInvariance SpecMany SpecEstimate SpecAnneal SpecPool SpecConsistent SpecUtils1D SpecLikelihood.
From Verif Require Import ProofBox ProofInvariance ProofMany ProofRanges ProofAnneal PropMany PropManyLike PropEstimate PropAnneal PropWhole PropPool PropConsistent PropSpread ProofShare PropShare.
From Verif Require ProofEnsemble PropEnsemble.
Local Open Scope string_scope.
Local Open Scope list_scope.
Local Open Scope R_scope.

(** * One list *)
Lemma counts_below v l : counts (fun x => x <= v) l (length (filter (below v) l)).
Proof. induction l as [|x l IH]; cbn [filter]; [constructor|]. unfold below at 1. destruct (Rle_dec x v); cbn [length]; constructor; auto. Qed.
Lemma counts_above v l : exists c, counts (fun x => v <= x) l c /\ forall b, b < v -> (c + length (filter (below b) l) <= length l)%nat.
Proof.
  induction l as [|x l (c & Hc & IH)]; [exists O; split; [constructor|cbn; lia]|]. destruct (Rle_dec v x) as [H|H].
  - exists (S c). split; [now constructor|]. intros b Hb. cbn [filter]. unfold below at 1. destruct (Rle_dec x b); [lra|]. cbn [length]. specialize (IH b Hb). lia.
  - exists c. split; [now constructor|]. intros b Hb. cbn [filter]. specialize (IH b Hb). destruct (below b x); cbn [length]; lia.
Qed.
Lemma below_mono v c l : v <= c -> (length (filter (below v) l) <= length (filter (below c) l))%nat.
Proof.
  intros H. induction l as [|x l IH]; cbn [filter]; [lia|]. assert (K : below v x = true -> below c x = true) by (unfold below; destruct (Rle_dec x v); destruct (Rle_dec x c); intros; auto; lra).
  destruct (below v x); [rewrite K by reflexivity|destruct (below c x)]; cbn [length]; lia.
Qed.
(** The percentile is between [c1] and [c2] when clearly less than [q] percent of the values are up to [c1] and clearly more
    are up to [c2]. *)
Lemma percentile_between l q c1 c2 e : l <> [] -> 0 <= q <= 100 -> 1 <= e * INR (length l) ->
  share (below c1) l < q / 100 - e -> q / 100 + e < share (below c2) l -> exists v, np_percentile l q = Ok v /\ c1 < v <= c2.
Proof.
  intros Hne Hq He H1 H2. destruct (ProofEnsemble.np_percentile_spec l q Hne Hq) as (v & Hv & Hp). exists v. split; [exact Hv|].
  destruct (PropEnsemble.C65_percentile l q v Hp) as (K1 & K2 & _).
  assert (HN : 0 < INR (length l)) by (apply lt_0_INR; destruct l; [congruence|cbn; lia]).
  assert (S1 : INR (length (filter (below c1) l)) < (q / 100 - e) * INR (length l)).
  { unfold share in H1. apply (Rmult_lt_compat_r (INR (length l))) in H1; [|exact HN]. unfold Rdiv at 1 in H1. rewrite Rmult_assoc, Rinv_l, Rmult_1_r in H1 by lra. exact H1. }
  assert (S2 : (q / 100 + e) * INR (length l) < INR (length (filter (below c2) l))).
  { unfold share in H2. apply (Rmult_lt_compat_r (INR (length l))) in H2; [|exact HN]. unfold Rdiv at 2 in H2. rewrite Rmult_assoc, Rinv_l, Rmult_1_r in H2 by lra. exact H2. }
  split.
  - apply Rnot_le_lt. intros Hle. pose proof (K1 _ (counts_below v l)) as K. pose proof (le_INR _ _ (below_mono v c1 l Hle)). lra.
  - apply Rnot_lt_le. intros Hlt. destruct (counts_above v l) as (c & Hc & Hs). pose proof (K2 c Hc) as K. pose proof (le_INR _ _ (Hs c2 Hlt)) as Hi. rewrite plus_INR in Hi. lra.
Qed.

(** * The results *)
Lemma pooled_length {X D} (samples : X -> list D -> list X) D0 n N p starts dss : drawn_by_chains D0 n p dss -> p = length starts ->
  (forall x ds, length ds = n -> length (samples x ds) = N) -> length (pooled samples starts dss) = (p * N)%nat.
Proof.
  intros [Hl Hd] -> Hs. unfold pooled. revert dss Hl Hd. induction starts as [|x starts IH]; intros [|ds dss] Hl Hd; try discriminate; [reflexivity|].
  pose proof (Forall_inv Hd) as [Hn _]. cbn [combine map concat fst snd length]. rewrite app_length, (Hs x ds Hn), (IH dss); [reflexivity|now injection Hl|exact (Forall_inv_tail Hd)].
Qed.
(** [p1] and [p2] are the posterior probabilities that the number [i] is at most [c1] and [c2]. *)
Theorem C98_consistent ns L F phi :
  ranged ns -> normal_cdf F -> (forall z, derivable_pt_lim F z (phi z)) -> cont_ranges (ranges ns) L ->
  exists Z, 0 < Z /\ ranges_integral (ranges ns) (fun xs => exp (L xs)) Z /\
    forall i c1 c2 p1 p2 q, posterior_mass (ranges ns) L Z (fun xs => below c1 (nth i xs 0)) p1 -> posterior_mass (ranges ns) L Z (fun xs => below c2 (nth i xs 0)) p2 ->
    0 <= q <= 100 -> p1 < q / 100 < p2 ->
    forall delta, 0 < delta -> exists N, forall sc n starts, starts <> [] -> Forall (in_ranges (ranges ns)) starts ->
    (0 < sc_every sc)%nat -> (N <= (n - sc_burnin sc) / sc_every sc)%nat ->
    likely (one_mean phi ns) (one_draw ns) n (length starts)
      (fun dss => exists v, np_percentile (map (fun ys => nth i ys 0) (pooled (vanilla_samples ns L sc) starts dss)) q = Ok v /\ c1 < v <= c2) (1 - delta) /\
    forall T0, likely (one_mean phi ns) (one_draw ns) n (length starts)
      (fun dss => exists v, np_percentile (map (fun ys => nth i ys 0) (pooled (annealing_samples ns L T0 sc) starts dss)) q = Ok v /\ c1 < v <= c2) (1 - delta).
Proof.
  intros Hr HF Hphi HL. destruct (C97_consistent ns L F phi Hr HF Hphi HL) as (Z & HZ & HI & H).
  exists Z. split; [exact HZ|]. split; [exact HI|]. intros i c1 c2 p1 p2 q M1 M2 Hq Hp delta Hd.
  set (e := Rmin (q / 100 - p1) (p2 - q / 100) / 2).
  assert (He : 0 < e) by (unfold e; assert (0 < Rmin (q / 100 - p1) (p2 - q / 100)) by (apply Rmin_glb_lt; lra); lra).
  assert (E1 : p1 + e <= q / 100 - e) by (unfold e; pose proof (Rmin_l (q / 100 - p1) (p2 - q / 100)); lra).
  assert (E2 : q / 100 + e <= p2 - e) by (unfold e; pose proof (Rmin_r (q / 100 - p1) (p2 - q / 100)); lra).
  destruct (H _ p1 M1 e (delta / 2) He ltac:(lra)) as (N1 & HN1). destruct (H _ p2 M2 e (delta / 2) He ltac:(lra)) as (N2 & HN2).
  destruct (archimed (/ e)) as [Ha _]. set (N3 := Z.to_nat (up (/ e))).
  assert (H3 : 1 <= e * INR N3).
  { unfold N3. rewrite INR_IZR_INZ. assert (Hi : 0 < / e) by now apply Rinv_0_lt_compat. rewrite Z2Nat.id by (apply le_IZR; lra).
    apply (Rmult_lt_compat_l e) in Ha; [|exact He]. rewrite Rinv_r in Ha by lra. lra. }
  assert (N3p : (0 < N3)%nat) by (apply INR_lt; cbn; nra).
  exists (N1 + N2 + N3)%nat. intros sc n starts Hne Hx Hev HN.
  destruct (HN1 sc n starts Hne Hx Hev ltac:(lia)) as [A1 A2]. destruct (HN2 sc n starts Hne Hx Hev ltac:(lia)) as [B1 B2].
  replace (1 - delta) with (1 - (delta / 2 + delta / 2)) by lra.
  assert (K : forall samples : list R -> list (list R * R) -> list (list R),
    (forall x ds, length ds = n -> length (samples x ds) = ((n - sc_burnin sc) / sc_every sc)%nat) ->
    forall dss, drawn_by_chains (one_draw ns) n (length starts) dss ->
    Rabs (share (fun xs => below c1 (nth i xs 0)) (pooled samples starts dss) - p1) < e /\ Rabs (share (fun xs => below c2 (nth i xs 0)) (pooled samples starts dss) - p2) < e ->
    exists v, np_percentile (map (fun ys => nth i ys 0) (pooled samples starts dss)) q = Ok v /\ c1 < v <= c2).
  { intros samples Hsl dss Hds [S1 S2]. apply Rabs_def2 in S1, S2. pose proof (pooled_length samples (one_draw ns) n _ _ starts dss Hds eq_refl Hsl) as Hlen.
    assert (Hge : (N3 <= length (pooled samples starts dss))%nat).
    { rewrite Hlen. destruct starts as [|x0 st]; [congruence|]. cbn [length Nat.mul]. lia. }
    apply percentile_between with e.
    - intros E0. apply (f_equal (@length _)) in E0. rewrite map_length in E0. cbn in E0. lia.
    - exact Hq.
    - rewrite map_length. pose proof (le_INR _ _ Hge). nra.
    - rewrite share_map. lra.
    - rewrite share_map. lra. }
  split.
  - eapply likely_weaken; [|exact (likely_and F phi ns n _ _ _ _ _ HF Hphi A1 B1)]. intros dss Hds E. apply K; auto.
    intros x ds Hl. unfold vanilla_samples. rewrite <- (visited_constant _ ds 0 x). now apply samples_length.
  - intros T0. eapply likely_weaken; [|exact (likely_and F phi ns n _ _ _ _ _ HF Hphi (A2 T0) (B2 T0))]. intros dss Hds E. apply K; auto.
    intros x ds Hl. now apply samples_length.
Qed.

(** * Whole inversions *)
Theorem C98_inversion elements hash_of ns ts fs K P G ll save F phi i a :
  named ns -> ns <> [] -> ranged ns -> normal_cdf F -> (forall z, derivable_pt_lim F z (phi z)) ->
  gaussian_data ns ts fs K P G -> (forall t i, In t ts -> cont_ranges (ranges ns) (fun xs => nth i (G t xs) 0)) ->
  loglike_init (Some (map ATarget ts)) (Some (map AFwd fs)) None None = Ok ll ->
  nth_error ns i = Some a -> contains "dpred" (nm_name a) = false ->
  let L := data_logpdf K P G ts in
  let E := inversion_env [many_space ns] ll save in
  exists Z, 0 < Z /\ ranges_integral (ranges ns) (fun xs => exp (L xs)) Z /\
    forall c1 c2 p1 p2 q, posterior_mass (ranges ns) L Z (fun xs => below c1 (nth i xs 0)) p1 -> posterior_mass (ranges ns) L Z (fun xs => below c2 (nth i xs 0)) p2 ->
    0 <= q <= 100 -> p1 < q / 100 < p2 ->
    forall delta, 0 < delta -> exists N, forall jobs n sc sts, sc_verbose sc = false -> (0 < sc_every sc)%nat ->
    (N <= (n - sc_burnin sc) / sc_every sc)%nat -> sts <> [] -> Forall (start_ok ns) sts ->
    likely (one_mean phi ns) (one_draw ns) n (length sts)
      (returned elements hash_of ns ll save (inversion_run (vanilla [] [] [] []) (vanilla_run E (vanilla [] [] [] []) (Some jobs) n sc) (1 <? jobs)%Z) sts a
        (fun ys => exists v, np_percentile ys q = Ok v /\ c1 < v <= c2)) (1 - delta) /\
    forall T0 rate, 0 < T0 -> likely (one_mean phi ns) (one_draw ns) n (length sts)
      (returned elements hash_of ns ll save (inversion_run (simulated_annealing E T0 (sc_burnin sc) rate [] [] [] []) (sa_run E T0 [] [] [] [] (Some jobs) n sc) (1 <? jobs)%Z) sts a
        (fun ys => exists v, np_percentile ys q = Ok v /\ c1 < v <= c2)) (1 - delta).
Proof.
  intros Hn Hne Hr HF Hphi Hgd HG Hll Hi Hp L E. pose proof (C88_continuous ns K P G ts Hr HG) as HL. fold L in HL.
  destruct (C93_data ns ts fs K P G ll save F phi Hn Hne Hr HF Hphi Hgd HG Hll) as (_ & _ & _ & _ & _ & Hv & Ha & _). fold L E in Hv, Ha.
  destruct (C98_consistent ns L F phi Hr HF Hphi HL) as (Z & HZ & HI & H).
  exists Z. split; [exact HZ|]. split; [exact HI|]. intros c1 c2 p1 p2 q M1 M2 Hq Hpq delta Hd. destruct (H i c1 c2 p1 p2 q M1 M2 Hq Hpq delta Hd) as (N & HN).
  exists (S N). intros jobs n sc sts Hsv Hev HNn Hs0 Hs.
  assert (Hx : Forall (in_ranges (ranges ns)) (map (start_at ns) sts)) by (apply Forall_map; eapply Forall_impl; [|exact Hs]; intros st Hst; now apply start_inside).
  assert (Hx0 : map (start_at ns) sts <> []) by (destruct sts; [congruence|discriminate]).
  destruct (HN sc n (map (start_at ns) sts) Hx0 Hx Hev ltac:(lia)) as [H1 H2]. rewrite map_length in H1, H2. split.
  - eapply whole_returned; [exact (Hv jobs n sc Hsv Hev)|lia|exact Hs0|exact Hs|exact Hi|exact Hp|exact H1].
  - intros T0 rate HT. eapply whole_returned; [exact (Ha T0 rate jobs n sc HT Hsv Hev)|lia|exact Hs0|exact Hs|exact Hi|exact Hp|exact (H2 T0)].
Qed.

(** * A case *)
(** Below and above the range of a number the posterior probabilities are 0 and 1. *)
Lemma mass_outside ns L Z i a c : ranged ns -> ranges_integral (ranges ns) (fun xs => exp (L xs)) Z -> 0 < Z -> nth_error ns i = Some a ->
  (c < nm_lo a -> posterior_mass (ranges ns) L Z (fun xs => below c (nth i xs 0)) 0) /\ (nm_hi a < c -> posterior_mass (ranges ns) L Z (fun xs => below c (nth i xs 0)) 1).
Proof.
  intros Hr HI HZ Hi. assert (Hlt : (i < length ns)%nat) by (apply nth_error_Some; congruence).
  assert (Hin : forall xs, in_ranges (ranges ns) xs -> nm_lo a <= nth i xs 0 <= nm_hi a) by (intros xs Hx; exact (in_ranges_nth ns xs i a Hx Hi)).
  assert (H0 : ranges_integral (ranges ns) (fun xs => exp (L xs) * 0) 0).
  { pose proof (integral_minus _ _ _ _ _ HI HI) as H0. rewrite Rminus_diag_eq in H0 by reflexivity. eapply ranges_integral_ext; [|exact H0]. intros xs _. cbn beta. ring. }
  assert (C : forall k, cont_ranges (ranges ns) (fun _ => k)).
  { intros k eps He. exists 1. split; [lra|]. intros. rewrite Rminus_diag_eq, Rabs_R0 by reflexivity. exact He. }
  split; intros Hc e He.
  - exists (fun _ => 0), (fun xs => ramp c (nm_lo a - c) (nth i xs 0)), 1, 0, 0. split; [apply C|]. split; [apply ramp_cont; lra|]. split; [|split; [|split; [|split; [|split]]]].
    + intros xs _. split; [rewrite Rabs_R0; lra|]. rewrite Rabs_pos_eq; apply ramp_range.
    + intros xs. unfold below. destruct (Rle_dec _ _); [rewrite ramp_one by lra; lra|]. pose proof (ramp_range c (nm_lo a - c) (nth i xs 0)). lra.
    + exact H0.
    + eapply ranges_integral_ext; [|exact H0]. intros xs Hx. cbn beta. rewrite ramp_zero; [reflexivity|lra|]. specialize (Hin xs Hx). lra.
    + nra.
    + nra.
  - exists (fun xs => ramp (nm_hi a) (c - nm_hi a) (nth i xs 0)), (fun _ => 1), 1, Z, Z. split; [apply ramp_cont; lra|]. split; [apply C|]. split; [|split; [|split; [|split; [|split]]]].
    + intros xs _. split; [|rewrite Rabs_R1; lra]. rewrite Rabs_pos_eq; apply ramp_range.
    + intros xs. unfold below. pose proof (ramp_range (nm_hi a) (c - nm_hi a) (nth i xs 0)). destruct (Rle_dec _ _); [lra|]. rewrite ramp_zero by lra. lra.
    + eapply ranges_integral_ext; [|exact HI]. intros xs Hx. cbn beta. rewrite ramp_one; [ring|lra|]. apply Hin, Hx.
    + eapply ranges_integral_ext; [|exact HI]. intros xs Hx. cbn beta. ring.
    + nra.
    + nra.
Qed.
(** Straight-line data (C88), two chains: the 40th or the 60th percentile of get_results()["m.m1"] is on the same side of 2 as
    the posterior percentile, with probability 99/100. *)
Example C98_case elements hash_of : exists ll F phi Z p q c1 c2 N, normal_cdf F /\ (forall z, derivable_pt_lim F z (phi z)) /\
  loglike_init (Some (map ATarget [line_target])) (Some (map AFwd [line_fwd])) None None = Ok ll /\
  ranges_integral (ranges line_numbers) (fun xs => exp (data_logpdf line_K line_P line_G [line_target] xs)) Z /\
  posterior_mass (ranges line_numbers) (data_logpdf line_K line_P line_G [line_target]) Z (fun xs => below 2 (nth 1 xs 0)) p /\
  (q = 40 /\ q / 100 < p /\ c2 = 2 \/ q = 60 /\ p < q / 100 /\ c1 = 2) /\
  likely (one_mean phi line_numbers) (one_draw line_numbers) (1000 + N * 5) 2
    (returned elements hash_of line_numbers ll true (inversion_run (vanilla [] [] [] []) (vanilla_run (inversion_env [many_space line_numbers] ll true) (vanilla [] [] [] []) (Some 2%Z) (1000 + N * 5) (Build_sched 1000 5 false 1)) true)
      [[(7, / 2); (8, / 5)]; [(7, 3 / 4); (8, 2 / 5)]] (nth 1 line_numbers (mkNumber "" 0 1 1)) (fun ys => exists v, np_percentile ys q = Ok v /\ c1 < v <= c2)) (99 / 100).
Proof.
  destruct C88_posterior_case as (ll & F & phi & Hn & Hr & HF & Hphi & Hgd & HG & Hll).
  assert (Hne : line_numbers <> []) by discriminate.
  destruct (C98_inversion elements hash_of line_numbers _ _ _ _ _ ll true F phi 1 _ Hn Hne Hr HF Hphi Hgd HG Hll eq_refl eq_refl) as (Z & HZ & HI & H).
  pose proof (C88_continuous line_numbers line_K line_P line_G [line_target] Hr HG) as HL.
  destruct (C97_below line_numbers _ Z 1 2 Hr HL HI HZ) as (p & _ & Hm); [cbn; lia|].
  assert (M0 := proj1 (mass_outside line_numbers _ Z 1 _ (-1) Hr HI HZ eq_refl) ltac:(cbn; lra)).
  assert (M1 := proj2 (mass_outside line_numbers _ Z 1 _ 6 Hr HI HZ eq_refl) ltac:(cbn; lra)).
  assert (K : exists q c1 c2 p1 p2, posterior_mass (ranges line_numbers) (data_logpdf line_K line_P line_G [line_target]) Z (fun xs => below c1 (nth 1 xs 0)) p1 /\
    posterior_mass (ranges line_numbers) (data_logpdf line_K line_P line_G [line_target]) Z (fun xs => below c2 (nth 1 xs 0)) p2 /\ 0 <= q <= 100 /\ p1 < q / 100 < p2 /\
    (q = 40 /\ q / 100 < p /\ c2 = 2 \/ q = 60 /\ p < q / 100 /\ c1 = 2)).
  { destruct (Rlt_le_dec (/ 2) p) as [Hp|Hp].
    - exists 40, (-1), 2, 0, p. split; [exact M0|]. split; [exact Hm|]. split; [lra|]. split; [lra|]. left. repeat split; lra.
    - exists 60, 2, 6, p, 1. split; [exact Hm|]. split; [exact M1|]. split; [lra|]. split; [lra|]. right. repeat split; lra. }
  destruct K as (q & c1 & c2 & p1 & p2 & K1 & K2 & Kq & Kp & K).
  destruct (H c1 c2 p1 p2 q K1 K2 Kq Kp (/ 100)) as (N & HN); [lra|]. exists ll, F, phi, Z, p, q, c1, c2, N.
  split; [exact HF|]. split; [exact Hphi|]. split; [exact Hll|]. split; [exact HI|]. split; [exact Hm|]. split; [exact K|].
  replace (99 / 100) with (1 - / 100) by lra.
  refine (proj1 (HN 2%Z (1000 + N * 5)%nat (Build_sched 1000 5 false 1) [[(7, / 2); (8, / 5)]; [(7, 3 / 4); (8, 2 / 5)]] eq_refl _ _ _ _)).
  - cbn; lia.
  - cbn [sc_burnin sc_every]. replace (1000 + N * 5 - 1000)%nat with (N * 5)%nat by lia. rewrite Nat.div_mul by lia. lia.
  - discriminate.
  - repeat constructor; cbn; lra.
Qed.
