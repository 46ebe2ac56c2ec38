(** C96: the variances of the results of an inversion are consistent estimates of posterior variances. *)
From Coquelicot Require Import Coquelicot.
From Coq Require Import FunctionalExtensionality.
From Verif Require Import Base ModelPrior ModelState ModelSpace ModelPerturb ModelChain ModelSampler ModelLikelihood ModelInversion SpecWalk SpecInvariance SpecMany SpecEstimate SpecAnneal SpecPool SpecConsistent SpecUtils1D SpecLikelihood.
From Verif Require Import ProofBox ProofInvariance ProofMany ProofRanges ProofEstimate ProofEstimateMany ProofAnneal ProofPool PropMany PropManyLike PropEstimate PropAnneal PropWhole PropPool PropConsistent.
Local Open Scope string_scope.
Local Open Scope list_scope.
Local Open Scope R_scope.

(** np.var of a list. *)
Definition variance (l : list R) : R := average (map (fun x => (x - average l) ^ 2) l).

(** * Two events *)
Lemma deviate_plus phi h h' m m' : mean_deviate phi h m -> mean_deviate phi h' m' -> mean_deviate phi (fun z => h z + h' z) (m + m').
Proof.
  intros (G & HG & Hl) (G' & HG' & Hl'). exists (fun t => G t + G' t). split.
  - intros t Ht. eapply is_RInt_ext; [|exact (is_RInt_plus _ _ _ _ _ _ (HG t Ht) (HG' t Ht))]. intros z _. unfold plus; cbn. ring.
  - eapply is_lim_plus; [exact Hl|exact Hl'|]. reflexivity.
Qed.
Lemma deviates_plus phi d : forall h h' m m', mean_deviates phi d h m -> mean_deviates phi d h' m' -> mean_deviates phi d (fun zs => h zs + h' zs) (m + m').
Proof.
  induction d as [|d IH]; intros h h' m m'; cbn; [now intros -> ->|]. intros (k & Hk & Hm) (k' & Hk' & Hm').
  exists (fun z => k z + k' z). split; [|now apply deviate_plus]. intros z. exact (IH _ _ _ _ (Hk z) (Hk' z)).
Qed.
Lemma one_plus phi ns k k' m m' : one_mean phi ns k m -> one_mean phi ns k' m' -> one_mean phi ns (fun z => k z + k' z) (m + m').
Proof.
  intros (hz & H1 & H2) (hz' & H1' & H2'). exists (fun zs => hz zs + hz' zs). split; [|now apply deviates_plus].
  intros zs Hz. unfold mean_unit. exact (is_RInt_plus _ _ _ _ _ _ (H1 zs Hz) (H1' zs Hz)).
Qed.
Lemma rounds_plus {D} (M : (D -> R) -> R -> Prop) D0 (HM : forall k k' m m', M k m -> M k' m' -> M (fun z => k z + k' z) (m + m')) n : forall h h' m m',
  mean_rounds M D0 n h m -> mean_rounds M D0 n h' m' -> mean_rounds M D0 n (fun ds => h ds + h' ds) (m + m').
Proof.
  induction n as [|n IH]; intros h h' m m'; cbn; [now intros -> ->|]. intros (k & Hk & Hm) (k' & Hk' & Hm').
  exists (fun z => k z + k' z). split; [|now apply HM]. intros z Hz. exact (IH _ _ _ _ (Hk z Hz) (Hk' z Hz)).
Qed.
Lemma likely_and F phi ns n p A A' c c' : normal_cdf F -> (forall z, derivable_pt_lim F z (phi z)) ->
  likely (one_mean phi ns) (one_draw ns) n p A (1 - c) -> likely (one_mean phi ns) (one_draw ns) n p A' (1 - c') ->
  likely (one_mean phi ns) (one_draw ns) n p (fun dss => A dss /\ A' dss) (1 - (c + c')).
Proof.
  intros HF Hphi (f & m & H1 & H2 & H3) (f' & m' & H1' & H2' & H3').
  exists (fun dss => -1 + 1 * (f dss + f' dss)), (-1 + 1 * (m + m')). split; [|split; [|lra]].
  - intros dss Hd. destruct (H1 dss Hd) as [Ha Hb]. destruct (H1' dss Hd) as [Ha' Hb']. split; [lra|]. intros Hn.
    destruct (Classical_Prop.classic (A dss)) as [HA|HA]; [|specialize (Hb HA); lra].
    destruct (Classical_Prop.classic (A' dss)) as [HA'|HA']; [exfalso; auto|specialize (Hb' HA'); lra].
  - apply (chains_affine F phi HF Hphi). unfold mean_chains. apply rounds_plus; [|exact H2|exact H2']. intros. apply rounds_plus; auto. intros. now apply one_plus.
Qed.

(** * Variances *)
Lemma variance_about mu l : l <> [] -> variance l = average (map (fun x => (x - mu) ^ 2) l) - (average l - mu) ^ 2.
Proof.
  intros Hne. assert (HN : 0 < INR (length l)) by (apply lt_0_INR; destruct l; [congruence|cbn; lia]). unfold variance.
  assert (E : forall a, rsum (map (fun x => (x - a) ^ 2) l) = rsum (map (fun x => (x - mu) ^ 2) l) + 2 * (mu - a) * (rsum l - INR (length l) * mu) + INR (length l) * (mu - a) ^ 2).
  { intros a. clear. induction l as [|x l IH]; [cbn; ring|]. cbn [map length]. change (rsum (?a :: ?r)) with (a + rsum r). rewrite IH, S_INR. ring. }
  unfold average at 1 3. rewrite !map_length, E. unfold average. field. lra.
Qed.
Lemma samples_length {X D} (next : nat -> X -> D -> X) burnin every n x ds : (0 < every)%nat -> length ds = n ->
  length (scheduled burnin every 0 (visited_at next 0 x ds)) = ((n - burnin) / every)%nat.
Proof.
  intros He Hl. rewrite <- count_marks. assert (Hv : forall ds i x, length (visited_at next i x ds) = length ds) by (intros ds0; induction ds0 as [|z ds0 IH]; intros i0 x0; cbn; auto).
  rewrite Hv, Hl. pose proof (marks_count burnin every n He 0) as C. cbn [Nat.sub Nat.add] in C. rewrite Nat.div_0_l, Nat.add_0_r in C by lia. exact C.
Qed.
Lemma pooled_some {X D} (samples : X -> list D -> list X) D0 n p starts dss : starts <> [] -> drawn_by_chains D0 n p dss -> p = length starts ->
  (forall x ds, length ds = n -> samples x ds <> []) -> pooled samples starts dss <> [].
Proof.
  intros Hne [Hl Hd] -> Hs. destruct starts as [|x starts]; [congruence|]. destruct dss as [|ds dss]; [discriminate|]. pose proof (Forall_inv Hd) as [Hn _].
  unfold pooled. cbn [combine map concat fst snd]. specialize (Hs x ds Hn). destruct (samples x ds); [congruence|discriminate].
Qed.
(** The average and the variance of [l] are within [eps] of [mu] and [s2]. *)
Definition close (mu s2 eps : R) (l : list R) : Prop := Rabs (average l - mu) < eps /\ Rabs (variance l - s2) < eps.
Lemma close_from mu s2 eps e (g : list R -> R) l : l <> [] -> 0 < e -> e <= eps / 2 -> e <= 1 ->
  Rabs (average (map g l) - mu) < e -> Rabs (average (map (fun x => (g x - mu) ^ 2) l) - s2) < e -> close mu s2 eps (map g l).
Proof.
  intros Hne He H1 H2 Ha Hv. split; [lra|]. rewrite (variance_about mu) by (destruct l; [congruence|discriminate]). rewrite map_map.
  assert (Hq : 0 <= (average (map g l) - mu) ^ 2 < e).
  { split; [apply pow2_ge_0|]. rewrite <- (pow2_abs (_ - _)). pose proof (Rabs_pos (average (map g l) - mu)) as Hp.
    revert Ha Hp. generalize (Rabs (average (map g l) - mu)). intros a Ha Hp. cbn [pow]. nra. }
  unfold Rabs in Hv |- *. destruct (Rcase_abs _) in Hv; destruct (Rcase_abs _); lra.
Qed.

(** [mu] and [s2] are the posterior mean and variance of [g]. *)
Theorem C96_consistent ns L F phi :
  ranged ns -> normal_cdf F -> (forall z, derivable_pt_lim F z (phi z)) -> cont_ranges (ranges ns) L ->
  exists Z, 0 < Z /\ ranges_integral (ranges ns) (fun xs => exp (L xs)) Z /\
    forall g B, cont_ranges (ranges ns) g -> (forall xs, in_ranges (ranges ns) xs -> Rabs (g xs) <= B) ->
    exists mu s2, ranges_integral (ranges ns) (fun xs => exp (L xs) * g xs) (mu * Z) /\
      ranges_integral (ranges ns) (fun xs => exp (L xs) * (g xs - mu) ^ 2) (s2 * Z) /\
      forall eps delta, 0 < eps -> 0 < delta -> exists N, forall sc n starts, starts <> [] -> Forall (in_ranges (ranges ns)) starts ->
      (0 < sc_every sc)%nat -> (N <= (n - sc_burnin sc) / sc_every sc)%nat ->
      likely (one_mean phi ns) (one_draw ns) n (length starts) (fun dss => close mu s2 eps (map g (pooled (vanilla_samples ns L sc) starts dss))) (1 - delta) /\
      forall T0, likely (one_mean phi ns) (one_draw ns) n (length starts) (fun dss => close mu s2 eps (map g (pooled (annealing_samples ns L T0 sc) starts dss))) (1 - delta).
Proof.
  intros Hr HF Hphi HL. destruct (C95_consistent ns L F phi Hr HF Hphi HL) as (Z & HZ & HI & H).
  exists Z. split; [exact HZ|]. split; [exact HI|]. intros g B Hg HB. destruct (H g B Hg HB) as (v & Hv & Hm). set (mu := v / Z) in *.
  assert (Hd : cont_ranges (ranges ns) (fun xs => g xs - mu)).
  { intros e He. destruct (Hg e He) as (d & Hd & Hc). exists d. split; [exact Hd|]. intros xs ys Hx Hy Hn. replace (g xs - mu - (g ys - mu)) with (g xs - g ys) by ring. now apply Hc. }
  assert (Hsq : cont_ranges (ranges ns) (fun xs => (g xs - mu) ^ 2)).
  { pose proof (cont_ranges_mult (ranges ns) (ranged_proper ns Hr) _ _ Hd Hd) as Hq. replace (fun xs => (g xs - mu) ^ 2) with (fun xs => (g xs - mu) * (g xs - mu)) by (extensionality xs; ring). exact Hq. }
  destruct (H (fun xs => (g xs - mu) ^ 2) ((B + Rabs mu) ^ 2) Hsq) as (w & Hw & Hm2).
  { intros xs Hx. rewrite Rabs_pos_eq by apply pow2_ge_0. rewrite <- (pow2_abs (_ - _)). apply pow_incr. split; [apply Rabs_pos|].
    eapply Rle_trans; [apply (Rabs_triang (g xs) (- mu))|]. rewrite Rabs_Ropp. specialize (HB xs Hx). lra. }
  exists mu, (w / Z). split; [replace (mu * Z) with v by (unfold mu; field; lra); exact Hv|]. split; [replace (w / Z * Z) with w by (field; lra); exact Hw|].
  intros eps delta He Hdel. set (e := Rmin 1 (eps / 2)).
  assert (He0 : 0 < e) by (apply Rmin_glb_lt; lra). assert (He1 : e <= 1) by apply Rmin_l. assert (He2 : e <= eps / 2) by apply Rmin_r.
  destruct (Hm e (delta / 2) He0 ltac:(lra)) as (N1 & HN1). destruct (Hm2 e (delta / 2) He0 ltac:(lra)) as (N2 & HN2).
  exists (S (N1 + N2)). intros sc n starts Hne Hx Hev HN.
  destruct (HN1 sc n starts Hne Hx Hev ltac:(lia)) as [A1 A2]. destruct (HN2 sc n starts Hne Hx Hev ltac:(lia)) as [B1 B2].
  replace (1 - delta) with (1 - (delta / 2 + delta / 2)) by lra.
  assert (Hlen : forall (next : nat -> list R -> list R * R -> list R) x ds, length ds = n -> scheduled (sc_burnin sc) (sc_every sc) 0 (visited_at next 0 x ds) <> []).
  { intros next x ds Hl E. pose proof (samples_length next (sc_burnin sc) (sc_every sc) n x ds Hev Hl) as Hc. rewrite E in Hc. cbn [length] in Hc. lia. }
  split.
  - eapply likely_weaken; [|exact (likely_and F phi ns n _ _ _ _ _ HF Hphi A1 B1)]. intros dss Hds [E1 E2]. cbn beta in E1, E2. apply close_from with e; auto.
    eapply pooled_some; [exact Hne|exact Hds|reflexivity|]. intros x ds Hl. unfold vanilla_samples. rewrite <- (visited_constant _ ds 0 x). now apply Hlen.
  - intros T0. eapply likely_weaken; [|exact (likely_and F phi ns n _ _ _ _ _ HF Hphi (A2 T0) (B2 T0))]. intros dss Hds [E1 E2]. cbn beta in E1, E2. apply close_from with e; auto.
    eapply pooled_some; [exact Hne|exact Hds|reflexivity|]. intros x ds Hl. now apply Hlen.
Qed.

(** * Whole inversions *)
(** After the run on the draws, get_results returns for the number [a] a list of values whose average and variance are within
    [eps] of [mu] and [s2]. *)
Definition summarized elements hash_of ns ll save (run : list (chain state ovalue) -> M (list (chain state ovalue) * option exn)) sts (a : number) mu s2 eps (dss : list (list (list R * R))) : Prop :=
  forall tss tr, map (map snd) tss = dss -> Forall (Forall (tape_ok ns)) tss ->
  exists cs cs' r ys, inversion_chains [many_space ns] ll save (length sts) (concat (map start_tape sts) ++ run_tape tss ++ tr) = Ret cs (run_tape tss ++ tr) /\
    run cs (run_tape tss ++ tr) = Ret (cs', None) tr /\
    get_results elements hash_of (AList (map (fun c => OChain (c_saved c)) cs')) None true = Ok (RConcat r) /\
    dget ("m." ++ nm_name a)%string r = Some (map (fun y => OArr (Arr [y])) ys) /\ close mu s2 eps ys.
Lemma whole_summarized elements hash_of ns ll save run n N samples sts i a mu s2 eps c phi :
  whole ns ll save run n N samples -> (0 < N)%nat -> sts <> [] -> Forall (start_ok ns) sts -> nth_error ns i = Some a -> contains "dpred" (nm_name a) = false ->
  likely (one_mean phi ns) (one_draw ns) n (length sts) (fun dss => close mu s2 eps (map (fun ys => nth i ys 0) (pooled samples (map (start_at ns) sts) dss))) c ->
  likely (one_mean phi ns) (one_draw ns) n (length sts) (summarized elements hash_of ns ll save run sts a mu s2 eps) c.
Proof.
  intros Hw HN Hne Hs Hi Hp. apply likely_weaken. intros dss [Hl Hd] HA tss tr <- Ht. rewrite map_length in Hl.
  assert (Hf : Forall (fun ts => length ts = n /\ Forall (tape_ok ns) ts) tss).
  { clear - Hd Ht. induction Ht as [|ts tss H1 H2 IH]; [constructor|]. cbn [map] in Hd.
    pose proof (Forall_inv Hd) as [Hn _]. pose proof (Forall_inv_tail Hd) as Hd'. constructor; [|now apply IH].
    split; [now rewrite map_length in Hn|exact H1]. }
  destruct (C94_results elements hash_of ns ll save run n N samples Hw HN sts tss tr Hne Hs Hl Hf) as (cs & cs' & r & Hc & Hrun & Hg & Hr).
  exists cs, cs', r, (map (fun ys => nth i ys 0) (pooled samples (map (start_at ns) sts) (map (map snd) tss))).
  split; [exact Hc|]. split; [exact Hrun|]. split; [exact Hg|]. split; [|exact HA]. rewrite map_map. exact (Hr i a Hi Hp).
Qed.
Theorem C96_inversion elements hash_of ns ts fs K P G ll save F phi i a :
  named ns -> ns <> [] -> ranged ns -> normal_cdf F -> (forall z, derivable_pt_lim F z (phi z)) ->
  gaussian_data ns ts fs K P G -> (forall t i, In t ts -> cont_ranges (ranges ns) (fun xs => nth i (G t xs) 0)) ->
  loglike_init (Some (map ATarget ts)) (Some (map AFwd fs)) None None = Ok ll ->
  nth_error ns i = Some a -> contains "dpred" (nm_name a) = false ->
  let L := data_logpdf K P G ts in
  let E := inversion_env [many_space ns] ll save in
  exists Z mu s2, 0 < Z /\ ranges_integral (ranges ns) (fun xs => exp (L xs)) Z /\
    ranges_integral (ranges ns) (fun xs => exp (L xs) * nth i xs 0) (mu * Z) /\
    ranges_integral (ranges ns) (fun xs => exp (L xs) * (nth i xs 0 - mu) ^ 2) (s2 * Z) /\
    forall eps delta, 0 < eps -> 0 < delta -> exists N, forall jobs n sc sts, sc_verbose sc = false -> (0 < sc_every sc)%nat ->
    (N <= (n - sc_burnin sc) / sc_every sc)%nat -> sts <> [] -> Forall (start_ok ns) sts ->
    likely (one_mean phi ns) (one_draw ns) n (length sts)
      (summarized elements hash_of ns ll save (inversion_run (vanilla [] [] [] []) (vanilla_run E (vanilla [] [] [] []) (Some jobs) n sc) (1 <? jobs)%Z) sts a mu s2 eps) (1 - delta) /\
    forall T0 rate, 0 < T0 -> likely (one_mean phi ns) (one_draw ns) n (length sts)
      (summarized elements hash_of ns ll save (inversion_run (simulated_annealing E T0 (sc_burnin sc) rate [] [] [] []) (sa_run E T0 [] [] [] [] (Some jobs) n sc) (1 <? jobs)%Z) sts a mu s2 eps) (1 - delta).
Proof.
  intros Hn Hne Hr HF Hphi Hgd HG Hll Hi Hp L E. pose proof (C88_continuous ns K P G ts Hr HG) as HL. fold L in HL.
  destruct (C93_data ns ts fs K P G ll save F phi Hn Hne Hr HF Hphi Hgd HG Hll) as (_ & _ & _ & _ & _ & Hv & Ha & _). fold L E in Hv, Ha.
  destruct (C96_consistent ns L F phi Hr HF Hphi HL) as (Z & HZ & HI & H).
  destruct (H (fun xs => nth i xs 0) (Rabs (nm_lo a) + Rabs (nm_hi a)) (cont_nth _ i)) as (mu & s2 & Hmu & Hs2 & Hm).
  { intros xs Hx. pose proof (in_ranges_nth ns xs i a Hx Hi) as Hb. apply Rabs_le. pose proof (Rle_abs (nm_hi a)). pose proof (Rle_abs (- nm_lo a)) as Hlo. rewrite Rabs_Ropp in Hlo.
    pose proof (Rabs_pos (nm_lo a)). pose proof (Rabs_pos (nm_hi a)). lra. }
  exists Z, mu, s2. split; [exact HZ|]. split; [exact HI|]. split; [exact Hmu|]. split; [exact Hs2|]. intros eps delta He Hd. destruct (Hm eps delta He Hd) as (N & HN).
  exists (S N). intros jobs n sc sts Hq Hev HNn Hs0 Hs.
  assert (Hx : Forall (in_ranges (ranges ns)) (map (start_at ns) sts)) by (apply Forall_map; eapply Forall_impl; [|exact Hs]; intros st Hst; now apply start_inside).
  assert (Hx0 : map (start_at ns) sts <> []) by (destruct sts; [congruence|discriminate]).
  destruct (HN sc n (map (start_at ns) sts) Hx0 Hx Hev ltac:(lia)) as [H1 H2]. rewrite map_length in H1, H2. split.
  - eapply whole_summarized; [exact (Hv jobs n sc Hq Hev)|lia|exact Hs0|exact Hs|exact Hi|exact Hp|exact H1].
  - intros T0 rate HT. eapply whole_summarized; [exact (Ha T0 rate jobs n sc HT Hq Hev)|lia|exact Hs0|exact Hs|exact Hi|exact Hp|exact (H2 T0)].
Qed.

(** * Cases *)
(** np.var([1, 5, 6]) *)
Example C96_variance_case : variance [1; 5; 6] = 14 / 3.
Proof. unfold variance, average. cbn [map length rsum fold_right INR]. field. Qed.
(** Straight-line data (C88), two chains: mean and variance of get_results()["m.m1"]. *)
Example C96_case elements hash_of : exists ll F phi Z mu s2 N, normal_cdf F /\ (forall z, derivable_pt_lim F z (phi z)) /\
  loglike_init (Some (map ATarget [line_target])) (Some (map AFwd [line_fwd])) None None = Ok ll /\
  ranges_integral (ranges line_numbers) (fun xs => exp (data_logpdf line_K line_P line_G [line_target] xs)) Z /\
  ranges_integral (ranges line_numbers) (fun xs => exp (data_logpdf line_K line_P line_G [line_target] xs) * nth 1 xs 0) (mu * Z) /\
  ranges_integral (ranges line_numbers) (fun xs => exp (data_logpdf line_K line_P line_G [line_target] xs) * (nth 1 xs 0 - mu) ^ 2) (s2 * Z) /\
  likely (one_mean phi line_numbers) (one_draw line_numbers) (1000 + N * 5) 2
    (summarized elements hash_of line_numbers ll true (inversion_run (vanilla [] [] [] []) (vanilla_run (inversion_env [many_space line_numbers] ll true) (vanilla [] [] [] []) (Some 2%Z) (1000 + N * 5) (Build_sched 1000 5 false 1)) true)
      [[(7, / 2); (8, / 5)]; [(7, 3 / 4); (8, 2 / 5)]] (nth 1 line_numbers (mkNumber "" 0 1 1)) mu s2 (/ 100)) (99 / 100).
Proof.
  destruct C88_posterior_case as (ll & F & phi & Hn & Hr & HF & Hphi & Hgd & HG & Hll).
  assert (Hne : line_numbers <> []) by discriminate.
  destruct (C96_inversion elements hash_of line_numbers _ _ _ _ _ ll true F phi 1 _ Hn Hne Hr HF Hphi Hgd HG Hll eq_refl eq_refl) as (Z & mu & s2 & HZ & HI & Hmu & Hs2 & H).
  destruct (H (/ 100) (/ 100)) as (N & HN); [lra|lra|]. exists ll, F, phi, Z, mu, s2, N.
  split; [exact HF|]. split; [exact Hphi|]. split; [exact Hll|]. split; [exact HI|]. split; [exact Hmu|]. split; [exact Hs2|].
  replace (99 / 100) with (1 - / 100) by lra.
  refine (proj1 (HN 2%Z (1000 + N * 5)%nat (Build_sched 1000 5 false 1) [[(7, / 2); (8, / 5)]; [(7, 3 / 4); (8, 2 / 5)]] eq_refl _ _ _ _)).
  - cbn; lia.
  - cbn [sc_burnin sc_every]. replace (1000 + N * 5 - 1000)%nat with (N * 5)%nat by lia. rewrite Nat.div_mul by lia. lia.
  - discriminate.
  - repeat constructor; cbn; lra.
Qed.
