(** C99: np.mean, np.std and np.median of the results of an inversion are consistent estimates of the posterior mean, standard
    deviation and median. *)
From Coquelicot Require Import Coquelicot.
From Verif Require Import Base ModelPrior ModelState ModelSpace ModelPerturb ModelChain ModelSampler ModelLikelihood ModelInversion ModelEnsemble SpecEnsemble SpecWalk SpecInvariance SpecMany SpecEstimate SpecAnneal SpecPool SpecConsistent SpecUtils1D SpecLikelihood.
From Verif Require Import ProofBox ProofInvariance ProofMany ProofRanges ProofAnneal PropMany PropManyLike PropEstimate PropAnneal PropWhole PropPool PropConsistent PropSpread ProofShare PropShare PropPercentile.
From Verif Require ProofEnsemble ProofEnsembleB PropEnsemble.
Local Open Scope string_scope.
Local Open Scope list_scope.
Local Open Scope R_scope.

Lemma sqrt_near v s e : 0 < e -> Rabs (v - s) < e ^ 2 -> Rabs (sqrt v - sqrt s) < e.
Proof.
  intros He. assert (K : forall v s, v - s < e ^ 2 -> sqrt v - sqrt s < e).
  { clear v s. intros v s H. apply Rnot_le_lt. intros Hn. pose proof (sqrt_pos v). pose proof (sqrt_pos s).
    destruct (Rle_lt_dec v 0) as [Hv|Hv]; [rewrite (sqrt_neg_0 v Hv) in *; lra|]. pose proof (sqrt_sqrt v (Rlt_le _ _ Hv)) as Ev.
    destruct (Rle_lt_dec s 0) as [Hs|Hs].
    - rewrite (sqrt_neg_0 s Hs) in *. assert (e * e <= sqrt v * sqrt v) by (apply Rmult_le_compat; lra).
      replace (e ^ 2) with (e * e) in H by ring. lra.
    - pose proof (sqrt_sqrt s (Rlt_le _ _ Hs)) as Es. assert (e * e <= (sqrt v - sqrt s) * (sqrt v - sqrt s)) by (apply Rmult_le_compat; lra). nra. }
  intros H. apply Rabs_def2 in H. apply Rabs_def1; [apply K; lra|]. pose proof (K s v). lra.
Qed.

(** Mean and standard deviation near [mu] and [s]. *)
Definition mean_std (mu s eps : R) (ys : list R) : Prop := Rabs (np_mean ys - mu) < eps /\ Rabs (np_std ys - s) < eps.
Lemma close_std mu s2 eps ys : 0 < eps -> close mu s2 (Rmin eps (eps ^ 2)) ys -> mean_std mu (sqrt s2) eps ys.
Proof.
  intros He [H1 H2]. pose proof (Rmin_l eps (eps ^ 2)). pose proof (Rmin_r eps (eps ^ 2)). split.
  - change (np_mean ys) with (average ys). lra.
  - change (np_std ys) with (sqrt (variance ys)). apply sqrt_near; [exact He|lra].
Qed.
Lemma median_50 ys c1 c2 : (exists v, np_percentile ys 50 = Ok v /\ c1 < v <= c2) -> exists v, np_median ys = Ok v /\ c1 < v <= c2.
Proof.
  intros (v & Hv & Hc). assert (Hne : ys <> []).
  { intros ->. unfold np_percentile in Hv. destruct (Rltb 50 0 || Rltb 100 50); [discriminate|]. cbn [rsort length] in Hv. unfold idx in Hv. destruct (Z.to_nat _) in Hv; discriminate. }
  destruct (ProofEnsemble.np_percentile_spec ys 50 Hne) as (w & Hw & Hp); [lra|]. rewrite Hv in Hw. injection Hw as <-.
  destruct (ProofEnsemble.np_median_spec ys Hne) as (d & Hd & Hm). apply (PropEnsemble.C65_median ys d Hne) in Hm.
  rewrite (ProofEnsembleB.percentile_fun _ _ _ _ Hp Hm) in Hc. now exists d.
Qed.
Lemma returned_weaken elements hash_of ns ll save run sts a (Q Q' : list R -> Prop) dss : (forall ys, Q ys -> Q' ys) ->
  returned elements hash_of ns ll save run sts a Q dss -> returned elements hash_of ns ll save run sts a Q' dss.
Proof. intros HQ H tss tr H1 H2. destruct (H tss tr H1 H2) as (cs & cs' & r & ys & A & B & C & D & E). exists cs, cs', r, ys. auto 8. Qed.

(** [mu] and [s2] are posterior mean and variance of the number [i]. *)
Theorem C99_mean_std elements hash_of ns ts fs K P G ll save F phi i a :
  named ns -> ns <> [] -> ranged ns -> normal_cdf F -> (forall z, derivable_pt_lim F z (phi z)) ->
  gaussian_data ns ts fs K P G -> (forall t i, In t ts -> cont_ranges (ranges ns) (fun xs => nth i (G t xs) 0)) ->
  loglike_init (Some (map ATarget ts)) (Some (map AFwd fs)) None None = Ok ll ->
  nth_error ns i = Some a -> contains "dpred" (nm_name a) = false ->
  let L := data_logpdf K P G ts in
  let E := inversion_env [many_space ns] ll save in
  exists Z mu s2, 0 < Z /\ ranges_integral (ranges ns) (fun xs => exp (L xs)) Z /\
    ranges_integral (ranges ns) (fun xs => exp (L xs) * nth i xs 0) (mu * Z) /\
    ranges_integral (ranges ns) (fun xs => exp (L xs) * (nth i xs 0 - mu) ^ 2) (s2 * Z) /\
    forall eps delta, 0 < eps -> 0 < delta -> exists N, forall jobs n sc sts, sc_verbose sc = false -> (0 < sc_every sc)%nat ->
    (N <= (n - sc_burnin sc) / sc_every sc)%nat -> sts <> [] -> Forall (start_ok ns) sts ->
    likely (one_mean phi ns) (one_draw ns) n (length sts)
      (returned elements hash_of ns ll save (inversion_run (vanilla [] [] [] []) (vanilla_run E (vanilla [] [] [] []) (Some jobs) n sc) (1 <? jobs)%Z) sts a (mean_std mu (sqrt s2) eps)) (1 - delta) /\
    forall T0 rate, 0 < T0 -> likely (one_mean phi ns) (one_draw ns) n (length sts)
      (returned elements hash_of ns ll save (inversion_run (simulated_annealing E T0 (sc_burnin sc) rate [] [] [] []) (sa_run E T0 [] [] [] [] (Some jobs) n sc) (1 <? jobs)%Z) sts a (mean_std mu (sqrt s2) eps)) (1 - delta).
Proof.
  intros Hn Hne Hr HF Hphi Hgd HG Hll Hi Hp L E.
  destruct (C96_inversion elements hash_of ns ts fs K P G ll save F phi i a Hn Hne Hr HF Hphi Hgd HG Hll Hi Hp) as (Z & mu & s2 & HZ & HI & Hmu & Hs2 & H).
  exists Z, mu, s2. split; [exact HZ|]. split; [exact HI|]. split; [exact Hmu|]. split; [exact Hs2|]. intros eps delta He Hd.
  destruct (H (Rmin eps (eps ^ 2)) delta) as (N & HN); [apply Rmin_glb_lt; [exact He|now apply pow_lt]|exact Hd|].
  exists N. intros jobs n sc sts Hv Hev HNn Hs0 Hs. destruct (HN jobs n sc sts Hv Hev HNn Hs0 Hs) as [H1 H2]. split.
  - eapply likely_weaken; [|exact H1]. intros dss _ Hq. refine (returned_weaken _ _ _ _ _ _ _ _ _ _ dss _ Hq). intros ys. now apply close_std.
  - intros T0 rate HT. eapply likely_weaken; [|exact (H2 T0 rate HT)]. intros dss _ Hq. refine (returned_weaken _ _ _ _ _ _ _ _ _ _ dss _ Hq). intros ys. now apply close_std.
Qed.
(** [p1] and [p2] are the posterior probabilities that the number [i] is at most [c1] and [c2]. *)
Theorem C99_median elements hash_of ns ts fs K P G ll save F phi i a :
  named ns -> ns <> [] -> ranged ns -> normal_cdf F -> (forall z, derivable_pt_lim F z (phi z)) ->
  gaussian_data ns ts fs K P G -> (forall t i, In t ts -> cont_ranges (ranges ns) (fun xs => nth i (G t xs) 0)) ->
  loglike_init (Some (map ATarget ts)) (Some (map AFwd fs)) None None = Ok ll ->
  nth_error ns i = Some a -> contains "dpred" (nm_name a) = false ->
  let L := data_logpdf K P G ts in
  let E := inversion_env [many_space ns] ll save in
  exists Z, 0 < Z /\ ranges_integral (ranges ns) (fun xs => exp (L xs)) Z /\
    forall c1 c2 p1 p2, posterior_mass (ranges ns) L Z (fun xs => below c1 (nth i xs 0)) p1 -> posterior_mass (ranges ns) L Z (fun xs => below c2 (nth i xs 0)) p2 ->
    p1 < 1 / 2 < p2 ->
    forall delta, 0 < delta -> exists N, forall jobs n sc sts, sc_verbose sc = false -> (0 < sc_every sc)%nat ->
    (N <= (n - sc_burnin sc) / sc_every sc)%nat -> sts <> [] -> Forall (start_ok ns) sts ->
    likely (one_mean phi ns) (one_draw ns) n (length sts)
      (returned elements hash_of ns ll save (inversion_run (vanilla [] [] [] []) (vanilla_run E (vanilla [] [] [] []) (Some jobs) n sc) (1 <? jobs)%Z) sts a
        (fun ys => exists v, np_median ys = Ok v /\ c1 < v <= c2)) (1 - delta) /\
    forall T0 rate, 0 < T0 -> likely (one_mean phi ns) (one_draw ns) n (length sts)
      (returned elements hash_of ns ll save (inversion_run (simulated_annealing E T0 (sc_burnin sc) rate [] [] [] []) (sa_run E T0 [] [] [] [] (Some jobs) n sc) (1 <? jobs)%Z) sts a
        (fun ys => exists v, np_median ys = Ok v /\ c1 < v <= c2)) (1 - delta).
Proof.
  intros Hn Hne Hr HF Hphi Hgd HG Hll Hi Hp L E.
  destruct (C98_inversion elements hash_of ns ts fs K P G ll save F phi i a Hn Hne Hr HF Hphi Hgd HG Hll Hi Hp) as (Z & HZ & HI & H).
  exists Z. split; [exact HZ|]. split; [exact HI|]. intros c1 c2 p1 p2 M1 M2 Hpp delta Hd.
  destruct (H c1 c2 p1 p2 50 M1 M2 ltac:(lra) ltac:(lra) delta Hd) as (N & HN).
  exists N. intros jobs n sc sts Hv Hev HNn Hs0 Hs. destruct (HN jobs n sc sts Hv Hev HNn Hs0 Hs) as [H1 H2]. split.
  - eapply likely_weaken; [|exact H1]. intros dss _ Hq. refine (returned_weaken _ _ _ _ _ _ _ _ _ _ dss _ Hq). intros ys. apply median_50.
  - intros T0 rate HT. eapply likely_weaken; [|exact (H2 T0 rate HT)]. intros dss _ Hq. refine (returned_weaken _ _ _ _ _ _ _ _ _ _ dss _ Hq). intros ys. apply median_50.
Qed.

(** * A case *)
(** Straight-line data (C88), two chains: mean and standard deviation of get_results()["m.m1"], and its median, which is on the
    same side of 2 as the posterior median, unless that is 2. *)
Example C99_case elements hash_of : exists ll F phi Z mu s2 N, normal_cdf F /\ (forall z, derivable_pt_lim F z (phi z)) /\
  loglike_init (Some (map ATarget [line_target])) (Some (map AFwd [line_fwd])) None None = Ok ll /\
  ranges_integral (ranges line_numbers) (fun xs => exp (data_logpdf line_K line_P line_G [line_target] xs)) Z /\
  ranges_integral (ranges line_numbers) (fun xs => exp (data_logpdf line_K line_P line_G [line_target] xs) * nth 1 xs 0) (mu * Z) /\
  ranges_integral (ranges line_numbers) (fun xs => exp (data_logpdf line_K line_P line_G [line_target] xs) * (nth 1 xs 0 - mu) ^ 2) (s2 * Z) /\
  likely (one_mean phi line_numbers) (one_draw line_numbers) (1000 + N * 5) 2
    (returned elements hash_of line_numbers ll true (inversion_run (vanilla [] [] [] []) (vanilla_run (inversion_env [many_space line_numbers] ll true) (vanilla [] [] [] []) (Some 2%Z) (1000 + N * 5) (Build_sched 1000 5 false 1)) true)
      [[(7, / 2); (8, / 5)]; [(7, 3 / 4); (8, 2 / 5)]] (nth 1 line_numbers (mkNumber "" 0 1 1)) (mean_std mu (sqrt s2) (/ 100))) (99 / 100).
Proof.
  destruct C88_posterior_case as (ll & F & phi & Hn & Hr & HF & Hphi & Hgd & HG & Hll).
  assert (Hne : line_numbers <> []) by discriminate.
  destruct (C99_mean_std elements hash_of line_numbers _ _ _ _ _ ll true F phi 1 _ Hn Hne Hr HF Hphi Hgd HG Hll eq_refl eq_refl) as (Z & mu & s2 & HZ & HI & Hmu & Hs2 & H).
  destruct (H (/ 100) (/ 100)) as (N & HN); [lra|lra|]. exists ll, F, phi, Z, mu, s2, N.
  split; [exact HF|]. split; [exact Hphi|]. split; [exact Hll|]. split; [exact HI|]. split; [exact Hmu|]. split; [exact Hs2|].
  replace (99 / 100) with (1 - / 100) by lra.
  refine (proj1 (HN 2%Z (1000 + N * 5)%nat (Build_sched 1000 5 false 1) [[(7, / 2); (8, / 5)]; [(7, 3 / 4); (8, 2 / 5)]] eq_refl _ _ _ _)).
  - cbn; lia.
  - cbn [sc_burnin sc_every]. replace (1000 + N * 5 - 1000)%nat with (N * 5)%nat by lia. rewrite Nat.div_mul by lia. lia.
  - discriminate.
  - repeat constructor; cbn; lra.
Qed.
Example C99_median_case elements hash_of : exists ll F phi Z, normal_cdf F /\ (forall z, derivable_pt_lim F z (phi z)) /\
  loglike_init (Some (map ATarget [line_target])) (Some (map AFwd [line_fwd])) None None = Ok ll /\
  ranges_integral (ranges line_numbers) (fun xs => exp (data_logpdf line_K line_P line_G [line_target] xs)) Z /\
  exists p, posterior_mass (ranges line_numbers) (data_logpdf line_K line_P line_G [line_target]) Z (fun xs => below 2 (nth 1 xs 0)) p /\
  (p <> 1 / 2 -> exists c1 c2 N, (1 / 2 < p /\ c2 = 2 \/ p < 1 / 2 /\ c1 = 2) /\
  likely (one_mean phi line_numbers) (one_draw line_numbers) (1000 + N * 5) 2
    (returned elements hash_of line_numbers ll true (inversion_run (vanilla [] [] [] []) (vanilla_run (inversion_env [many_space line_numbers] ll true) (vanilla [] [] [] []) (Some 2%Z) (1000 + N * 5) (Build_sched 1000 5 false 1)) true)
      [[(7, / 2); (8, / 5)]; [(7, 3 / 4); (8, 2 / 5)]] (nth 1 line_numbers (mkNumber "" 0 1 1)) (fun ys => exists v, np_median ys = Ok v /\ c1 < v <= c2)) (99 / 100)).
Proof.
  destruct C88_posterior_case as (ll & F & phi & Hn & Hr & HF & Hphi & Hgd & HG & Hll).
  assert (Hne : line_numbers <> []) by discriminate.
  destruct (C99_median elements hash_of line_numbers _ _ _ _ _ ll true F phi 1 _ Hn Hne Hr HF Hphi Hgd HG Hll eq_refl eq_refl) as (Z & HZ & HI & H).
  pose proof (C88_continuous line_numbers line_K line_P line_G [line_target] Hr HG) as HL.
  destruct (C97_below line_numbers _ Z 1 2 Hr HL HI HZ) as (p & _ & Hm); [cbn; lia|].
  assert (M0 := proj1 (mass_outside line_numbers _ Z 1 _ (-1) Hr HI HZ eq_refl) ltac:(cbn; lra)).
  assert (M1 := proj2 (mass_outside line_numbers _ Z 1 _ 6 Hr HI HZ eq_refl) ltac:(cbn; lra)).
  exists ll, F, phi, Z. split; [exact HF|]. split; [exact Hphi|]. split; [exact Hll|]. split; [exact HI|]. exists p. split; [exact Hm|]. intros Hp.
  assert (K : exists c1 c2 p1 p2, posterior_mass (ranges line_numbers) (data_logpdf line_K line_P line_G [line_target]) Z (fun xs => below c1 (nth 1 xs 0)) p1 /\
    posterior_mass (ranges line_numbers) (data_logpdf line_K line_P line_G [line_target]) Z (fun xs => below c2 (nth 1 xs 0)) p2 /\ p1 < 1 / 2 < p2 /\
    (1 / 2 < p /\ c2 = 2 \/ p < 1 / 2 /\ c1 = 2)).
  { destruct (Rtotal_order p (1 / 2)) as [Hl|[Hl|Hl]]; [|contradiction|].
    - exists 2, 6, p, 1. split; [exact Hm|]. split; [exact M1|]. split; [lra|]. right. split; [exact Hl|reflexivity].
    - exists (-1), 2, 0, p. split; [exact M0|]. split; [exact Hm|]. split; [lra|]. left. split; [exact Hl|reflexivity]. }
  destruct K as (c1 & c2 & p1 & p2 & K1 & K2 & Kp & K).
  destruct (H c1 c2 p1 p2 K1 K2 Kp (/ 100)) as (N & HN); [lra|]. exists c1, c2, N. split; [exact K|].
  replace (99 / 100) with (1 - / 100) by lra.
  refine (proj1 (HN 2%Z (1000 + N * 5)%nat (Build_sched 1000 5 false 1) [[(7, / 2); (8, / 5)]; [(7, 3 / 4); (8, 2 / 5)]] eq_refl _ _ _ _)).
  - cbn; lia.
  - cbn [sc_burnin sc_every]. replace (1000 + N * 5 - 1000)%nat with (N * 5)%nat by lia. rewrite Nat.div_mul by lia. lia.
  - discriminate.
  - repeat constructor; cbn; lra.
Qed.
