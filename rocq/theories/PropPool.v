(** C94: the results of a whole inversion with several chains: get_results returns the samples of all chains, and their
    average estimates the posterior mean with an error that goes down with the number of chains as well as with the
    number of samples of each. *)
From Coquelicot Require Import Coquelicot.
From Coq Require Import FunctionalExtensionality.
From Verif Require Import Base ModelPrior ModelState ModelSpace ModelPerturb ModelChain ModelSampler ModelLikelihood ModelInversion SpecChain SpecSampler SpecWalk SpecInvariance SpecMany SpecEstimate SpecAnneal SpecPool SpecUtils1D SpecLikelihood SpecInversion.
From Verif Require Import ProofChain ProofChainB ProofBox ProofInvariance ProofConverge ProofMany ProofRanges ProofEstimate ProofEstimateMany ProofPool PropMany PropManyLike PropEstimate PropAnneal PropWhole.
From Verif Require ExampleWalk PropInversion ProofInversion ProofSamplerC.
Local Open Scope string_scope.
Local Open Scope list_scope.
Local Open Scope R_scope.

(** * The results *)
Lemma pooled_map {X D S Y} (samples : X -> list D -> list X) (f : S -> X) (h : Y -> list D) sts tss :
  pooled samples (map f sts) (map h tss) = concat (map (fun st => samples (f (fst st)) (h (snd st))) (combine sts tss)).
Proof. unfold pooled. f_equal. revert tss. induction sts as [|s sts IH]; intros [|t tss]; cbn; auto. now rewrite IH. Qed.
Lemma dicts {S Y} (Q : S -> Y -> dict (list ovalue) -> Prop) : forall sts tss (cs : list (chain state ovalue)), length tss = length sts -> length cs = length sts ->
  (forall p st ts, nth_error sts p = Some st -> nth_error tss p = Some ts -> exists c d, nth_error cs p = Some c /\ c_saved c = SDict d /\ Q st ts d) ->
  exists ds, map (fun c => OChain (c_saved c)) cs = map (fun d => OChain (SDict d)) ds /\ Forall2 (fun d x => Q (fst x) (snd x) d) ds (combine sts tss).
Proof.
  induction sts as [|st sts IH]; intros [|ts tss] [|c cs] H1 H2 H; try discriminate; [exists []; split; [reflexivity|constructor]|].
  destruct (H O st ts eq_refl eq_refl) as (c' & d & E & Hd & HQ). injection E as <-.
  destruct (IH tss cs) as (ds & E & HF); [cbn [length] in *; lia|cbn [length] in *; lia| |].
  - intros p st' ts' Hs Ht. exact (H (Datatypes.S p) st' ts' Hs Ht).
  - exists (d :: ds). split; [cbn [map]; now rewrite Hd, E|constructor; auto].
Qed.
(** [get_results] after the run (C93): under the name of each number the samples of the first chain, then those of the
    second ... *)
Theorem C94_results elements hash_of ns ll save run n N samples : whole ns ll save run n N samples -> (0 < N)%nat ->
  forall sts tss tr, sts <> [] -> Forall (start_ok ns) sts -> length tss = length sts -> Forall (fun ts => length ts = n /\ Forall (tape_ok ns) ts) tss ->
  exists cs cs' r, inversion_chains [many_space ns] ll save (length sts) (concat (map start_tape sts) ++ run_tape tss ++ tr) = Ret cs (run_tape tss ++ tr) /\
    run cs (run_tape tss ++ tr) = Ret (cs', None) tr /\
    get_results elements hash_of (AList (map (fun c => OChain (c_saved c)) cs')) None true = Ok (RConcat r) /\
    forall i a, nth_error ns i = Some a -> contains "dpred" (nm_name a) = false ->
      dget ("m." ++ nm_name a)%string r = Some (map (fun ys => OArr (Arr [nth i ys 0])) (pooled samples (map (start_at ns) sts) (map (map snd) tss))).
Proof.
  intros Hw HN sts tss tr Hne Hs Hl Ht. destruct (Hw sts tss tr Hs Hl Ht) as (cs & cs' & Hcs & Hrun & Hl' & H).
  destruct (dicts (fun st ts d => NoDup (dkeys d) /\ length (samples (start_at ns st) (map snd ts)) = N /\
    forall i a, nth_error ns i = Some a -> contains "dpred" (nm_name a) = false ->
      stored ("m." ++ nm_name a)%string d = map (fun ys => OArr (Arr [nth i ys 0])) (samples (start_at ns st) (map snd ts))) sts tss cs' Hl Hl' H) as (ds & Eds & HF).
  assert (Hds : ds <> [] /\ Forall (fun d => NoDup (dkeys d)) ds).
  { split.
    - destruct sts as [|st sts]; [congruence|]. destruct tss as [|ts tss]; [discriminate|]. inversion HF; discriminate.
    - clear - HF. induction HF as [|d x ds l (H1 & _) HF IH]; constructor; auto. }
  destruct (PropInversion.C35_concatenated (St:=state) elements hash_of ds None (proj1 Hds) (proj2 Hds)) as (r & Hr & _ & Hg).
  exists cs, cs', r. split; [exact Hcs|]. split; [exact Hrun|]. split; [now rewrite Eds|].
  intros i a Hi Hp. apply Hg. split; [exact I|]. split.
  - destruct HF as [|d x ds l (_ & Hlen & Hst) HF]; [destruct Hds; congruence|]. exists d. split; [now left|].
    specialize (Hst i a Hi Hp). unfold stored in Hst. destruct (dget _ d) as [vs|] eqn:Ed.
    + destruct (in_dec string_dec ("m." ++ nm_name a)%string (dkeys d)) as [|Hno]; auto. apply ProofInversion.dget_none_keys in Hno. congruence.
    + exfalso. apply (f_equal (@length _)) in Hst. rewrite map_length, Hlen in Hst. cbn in Hst. lia.
  - rewrite pooled_map. clear - HF Hi Hp. induction HF as [|d x ds l (_ & _ & Hst) HF IH]; [reflexivity|]. cbn [map concat]. rewrite map_app, IH. f_equal.
    symmetry. exact (Hst i a Hi Hp).
Qed.

(** * The estimates *)
Lemma visited_constant {X D} (next : X -> D -> X) ds : forall i x, visited_at (fun _ => next) i x ds = visited next x ds.
Proof. induction ds as [|z ds IH]; intros i x; cbn; auto. now rewrite IH. Qed.
Theorem C94_estimates ns L F phi :
  ranged ns -> normal_cdf F -> (forall z, derivable_pt_lim F z (phi z)) -> cont_ranges (ranges ns) L ->
  exists Z C, 0 < Z /\ ranges_integral (ranges ns) (fun xs => exp (L xs)) Z /\ 0 <= C /\
    forall g B, cont_ranges (ranges ns) g -> (forall xs, in_ranges (ranges ns) xs -> Rabs (g xs) <= B) ->
    exists v, ranges_integral (ranges ns) (fun xs => exp (L xs) * g xs) v /\
      forall sc n starts, starts <> [] -> Forall (in_ranges (ranges ns)) starts -> (0 < sc_every sc)%nat -> (0 < (n - sc_burnin sc) / sc_every sc)%nat ->
      let bound := C * (B * B) * (1 / (INR (length starts) * INR ((n - sc_burnin sc) / sc_every sc)) + 1 / INR ((n - sc_burnin sc) / sc_every sc) ^ 2) in
      (exists m, mean_chains (one_mean phi ns) (one_draw ns) n (length starts)
          (fun dss => (average (map g (pooled (vanilla_samples ns L sc) starts dss)) - v / Z) ^ 2) m /\ m <= bound) /\
      forall T0, exists m, mean_chains (one_mean phi ns) (one_draw ns) n (length starts)
          (fun dss => (average (map g (pooled (annealing_samples ns L T0 sc) starts dss)) - v / Z) ^ 2) m /\ m <= bound.
Proof.
  intros Hr HF Hphi HL.
  pose proof (ranged_proper ns Hr) as Hp. pose proof (ranged_sds ns Hr) as Hs. pose proof (sds_len ns) as Hl.
  destruct (roams_pool (ranges ns) Hp (map nm_sd ns) Hl Hs F phi HF Hphi L HL) as (C & HC & H).
  assert (E1 : forall x, L x / 1 = L x) by (intros; field).
  assert (Ef : (fun xs => exp (L xs / 1)) = (fun xs => exp (L xs))) by (apply functional_extensionality; intros; now rewrite E1).
  exists (norm (ranges ns) 1 L), C. split; [exact (norm_pos (ranges ns) Hp (map nm_sd ns) Hl Hs 1 L HL)|].
  split; [rewrite <- Ef; exact (norm_is (ranges ns) Hp (map nm_sd ns) Hl Hs 1 L HL)|]. split; [exact HC|].
  intros g B Hg HB. exists (level (ranges ns) 1 L g). split.
  { pose proof (level_is (ranges ns) Hp (map nm_sd ns) Hl Hs 1 L HL g Hg) as HI.
    replace (fun xs => exp (L xs) * g xs) with (fun xs => exp (L xs / 1) * g xs) by (apply functional_extensionality; intros; now rewrite E1). exact HI. }
  intros sc n starts Hne Hx He HN bound.
  assert (D1 : one (ranges ns) phi = one_mean phi ns) by (unfold one, one_mean; now rewrite ranges_len).
  assert (D2 : draws (ranges ns) = one_draw ns) by (unfold draws, one_draw; now rewrite ranges_len). split.
  - destruct (H g B Hg HB (sc_burnin sc) (fun _ => 1) (sc_every sc) n starts (fun _ => Rlt_0_1) (fun _ _ => eq_refl) Hne Hx He HN) as (m & Hm & Hle).
    exists m. split; [|exact Hle]. rewrite D1, D2 in Hm.
    replace (vanilla_samples ns L sc) with (fun x ds => scheduled (sc_burnin sc) (sc_every sc) 0 (visited_at (fun _ => metropolis ns L 1) 0 x ds)); [exact Hm|].
    extensionality x. extensionality ds. unfold vanilla_samples. now rewrite visited_constant.
  - intros T0. destruct (H g B Hg HB (sc_burnin sc) (cool T0 (sc_burnin sc)) (sc_every sc) n starts (cool_pos T0 (sc_burnin sc)) (fun i Hi => ProofSamplerC.cool_after T0 (sc_burnin sc) i Hi) Hne Hx He HN) as (m & Hm & Hle).
    exists m. split; [|exact Hle]. rewrite D1, D2 in Hm. exact Hm.
Qed.
(** There is only one mean over the draws of all chains. *)
Theorem C94_mean_unique phi ns n p : forall h m m',
  mean_chains (one_mean phi ns) (one_draw ns) n p h m -> mean_chains (one_mean phi ns) (one_draw ns) n p h m' -> m = m'.
Proof.
  unfold mean_chains. induction p as [|p IH]; intros h m m'; cbn [mean_rounds]; [congruence|]. intros (k & Hk & Hm) (k' & Hk' & Hm').
  eapply C90_mean_unique; [exact Hm|]. eapply mean_rounds_ext; [|exact Hm']. intros ds Hl Hd.
  assert (Hc : drawn_by_chain (one_draw ns) n ds) by now split. eapply IH; [now apply Hk'|now apply Hk].
Qed.

(** * Gaussian data with known noise *)
Theorem C94_data elements hash_of ns ts fs K P G ll save F phi :
  named ns -> ns <> [] -> ranged ns -> normal_cdf F -> (forall z, derivable_pt_lim F z (phi z)) ->
  gaussian_data ns ts fs K P G -> (forall t i, In t ts -> cont_ranges (ranges ns) (fun xs => nth i (G t xs) 0)) ->
  loglike_init (Some (map ATarget ts)) (Some (map AFwd fs)) None None = Ok ll ->
  let L := data_logpdf K P G ts in
  let E := inversion_env [many_space ns] ll save in
  exists Z C, 0 < Z /\ ranges_integral (ranges ns) (fun xs => exp (L xs)) Z /\ 0 <= C /\
    (forall jobs n sc sts tss tr, sc_verbose sc = false -> (0 < sc_every sc)%nat -> (0 < (n - sc_burnin sc) / sc_every sc)%nat ->
      sts <> [] -> Forall (start_ok ns) sts -> length tss = length sts -> Forall (fun ts => length ts = n /\ Forall (tape_ok ns) ts) tss ->
      exists cs cs' r, inversion_chains [many_space ns] ll save (length sts) (concat (map start_tape sts) ++ run_tape tss ++ tr) = Ret cs (run_tape tss ++ tr) /\
        inversion_run (vanilla [] [] [] []) (vanilla_run E (vanilla [] [] [] []) (Some jobs) n sc) (1 <? jobs)%Z cs (run_tape tss ++ tr) = Ret (cs', None) tr /\
        get_results elements hash_of (AList (map (fun c => OChain (c_saved c)) cs')) None true = Ok (RConcat r) /\
        forall i a, nth_error ns i = Some a -> contains "dpred" (nm_name a) = false ->
          dget ("m." ++ nm_name a)%string r = Some (map (fun ys => OArr (Arr [nth i ys 0])) (pooled (vanilla_samples ns L sc) (map (start_at ns) sts) (map (map snd) tss)))) /\
    forall g B, cont_ranges (ranges ns) g -> (forall xs, in_ranges (ranges ns) xs -> Rabs (g xs) <= B) ->
    exists v, ranges_integral (ranges ns) (fun xs => exp (L xs) * g xs) v /\
      forall sc n sts, sts <> [] -> Forall (start_ok ns) sts -> (0 < sc_every sc)%nat -> (0 < (n - sc_burnin sc) / sc_every sc)%nat ->
      exists m, mean_chains (one_mean phi ns) (one_draw ns) n (length sts)
          (fun dss => (average (map g (pooled (vanilla_samples ns L sc) (map (start_at ns) sts) dss)) - v / Z) ^ 2) m /\
        m <= C * (B * B) * (1 / (INR (length sts) * INR ((n - sc_burnin sc) / sc_every sc)) + 1 / INR ((n - sc_burnin sc) / sc_every sc) ^ 2).
Proof.
  intros Hn Hne Hr HF Hphi Hgd HG Hll L E.
  pose proof (C88_continuous ns K P G ts Hr HG) as HL. fold L in HL.
  destruct (C93_data ns ts fs K P G ll save F phi Hn Hne Hr HF Hphi Hgd HG Hll) as (_ & _ & _ & _ & _ & Hrun & _).
  destruct (C94_estimates ns L F phi Hr HF Hphi HL) as (Z & C & HZ & HI & HC & H).
  exists Z, C. split; [exact HZ|]. split; [exact HI|]. split; [exact HC|]. split.
  - intros jobs n sc sts tss tr Hv He HN. exact (C94_results elements hash_of ns ll save _ n _ _ (Hrun jobs n sc Hv He) HN sts tss tr).
  - intros g B Hg HB. destruct (H g B Hg HB) as (v & Hv & Hm). exists v. split; [exact Hv|]. intros sc n sts Hs0 Hs He HN.
    destruct (Hm sc n (map (start_at ns) sts)) as ((m & Hmm & Hle) & _); auto.
    + destruct sts; [congruence|discriminate].
    + apply Forall_map. eapply Forall_impl; [|exact Hs]. intros st Hst. now apply start_inside.
    + rewrite map_length in Hmm, Hle. exists m. split; [exact Hmm|exact Hle].
Qed.

(** * A case *)
(** The two chains of [C93_case]: the results hold 1 and 5 under "m.m0".  The average of m1 over 100 samples of each of
    the two chains has a squared error whose mean is at most a constant times 25 (1/200 + 1/10000). *)
Example C94_case elements hash_of : exists ll F phi Z C,
  normal_cdf F /\ (forall z, derivable_pt_lim F z (phi z)) /\
  loglike_init (Some (map ATarget [line_target])) (Some (map AFwd [line_fwd])) None None = Ok ll /\
  (exists cs cs' r, inversion_chains [many_space line_numbers] ll true 2
       ([DVal 7; DU (/ 2); DVal 8; DU (/ 5); DVal 7; DU (3 / 4); DVal 8; DU (2 / 5)] ++ [DU 0; DInt 0; DU 0; DInt 0; DZ 1; DZ 0; DU (/ 2); DU 0; DInt 0; DU 0; DInt 0; DZ 6; DZ 0; DU (/ 2)]) =
       Ret cs [DU 0; DInt 0; DU 0; DInt 0; DZ 1; DZ 0; DU (/ 2); DU 0; DInt 0; DU 0; DInt 0; DZ 6; DZ 0; DU (/ 2)] /\
     inversion_run (vanilla [] [] [] []) (vanilla_run (inversion_env [many_space line_numbers] ll true) (vanilla [] [] [] []) (Some 1%Z) 1 (Build_sched 0 1 false 1)) false cs
       [DU 0; DInt 0; DU 0; DInt 0; DZ 1; DZ 0; DU (/ 2); DU 0; DInt 0; DU 0; DInt 0; DZ 6; DZ 0; DU (/ 2)] = Ret (cs', None) [] /\
     get_results elements hash_of (AList (map (fun c => OChain (c_saved c)) cs')) None true = Ok (RConcat r) /\
     dget "m.m0" r = Some [OArr (Arr [1]); OArr (Arr [5])]) /\
  exists v, ranges_integral (ranges line_numbers) (fun xs => exp (data_logpdf line_K line_P line_G [line_target] xs) * nth 1 xs 0) v /\
    exists m, mean_chains (one_mean phi line_numbers) (one_draw line_numbers) 1500 2
      (fun dss => (average (map (fun ys => nth 1 ys 0) (pooled (vanilla_samples line_numbers (data_logpdf line_K line_P line_G [line_target]) (Build_sched 1000 5 false 1))
        (map (start_at line_numbers) [[(7, / 2); (8, / 5)]; [(7, 3 / 4); (8, 2 / 5)]]) dss)) - v / Z) ^ 2) m /\
    m <= C * (5 * 5) * (1 / (INR 2 * INR 100) + 1 / INR 100 ^ 2).
Proof.
  destruct C88_posterior_case as (ll & F & phi & Hn & Hr & HF & Hphi & Hgd & HG & Hll).
  assert (Hne : line_numbers <> []) by discriminate.
  destruct (C94_data elements hash_of line_numbers _ _ _ _ _ ll true F phi Hn Hne Hr HF Hphi Hgd HG Hll) as (Z & C & HZ & HI & HC & Hrun & H).
  assert (Hst : Forall (start_ok line_numbers) [[(7, / 2); (8, / 5)]; [(7, 3 / 4); (8, 2 / 5)]]) by (repeat constructor; cbn; lra).
  exists ll, F, phi, Z, C. split; [exact HF|]. split; [exact Hphi|]. split; [exact Hll|]. split.
  - destruct (Hrun 1%Z 1%nat (Build_sched 0 1 false 1) [[(7, / 2); (8, / 5)]; [(7, 3 / 4); (8, 2 / 5)]]
      [[(0, 0, ([1; 0], / 2))]; [(0, 0, ([6; 0], / 2))]] []) as (cs & cs' & r & Hcs & Ha & Hg & Hs); auto.
    { discriminate. }
    { repeat constructor; cbn; lra. }
    exists cs, cs', r. split; [exact Hcs|]. split; [exact Ha|]. split; [exact Hg|].
    pose proof (Hs 0%nat _ eq_refl eq_refl) as Hb. cbn [nm_name] in Hb. change ("m." ++ "m0")%string with "m.m0" in Hb. rewrite Hb.
    unfold pooled, vanilla_samples, start_at. cbn [map snd fst visited line_numbers combine concat app nm_lo nm_hi scheduled sc_burnin sc_every Nat.ltb Nat.leb andb Nat.sub Nat.modulo Nat.divmod Nat.eqb].
    unfold metropolis, roam. cbn [map nm_sd line_numbers jump fst snd]. cbv zeta.
    replace (-10 + (10 - -10) * / 2 + 1 * 1) with 1 by field. replace (0 + (5 - 0) * / 5 + 0 * / 4) with 1 by field.
    replace (-10 + (10 - -10) * / 2) with 0 by field. replace (0 + (5 - 0) * / 5) with 1 by field.
    rewrite (in_inr (ranges line_numbers) [1; 1]) by (repeat constructor; cbn; lra).
    destruct (Rlt_dec (ln (/ 2)) _) as [_|Hno]; [|exfalso; apply Hno; apply Rlt_trans with 0].
    + cbn [inr ranges line_numbers map nm_lo nm_hi fst snd]. destruct (Rle_dec _ _); [|repeat f_equal; lra].
      destruct (Rle_dec (-10 + (10 - -10) * (3 / 4) + 6 * 1) 10) as [Hbd|_]; [exfalso; lra|]. cbn [nth map]. repeat f_equal; lra.
    + rewrite <- ln_1. apply ln_increasing; lra.
    + unfold data_logpdf, normal_logpdf, quad, line_G, line_at. cbn [map rsum fold_right nth sum line_target t_dobs length]. unfold line_P. cbn [Nat.eqb]. lra.
  - destruct (H (fun ys => nth 1 ys 0) 5) as (v & Hv & Hm).
    + apply cont_nth.
    + intros xs Hxs. inversion Hxs as [|? x ? xs' _ H1]; subst. inversion H1 as [|? y ? ys' Hy _]; subst. cbn in *. apply Rabs_le. lra.
    + exists v. split; [exact Hv|].
      destruct (Hm (Build_sched 1000 5 false 1) 1500%nat [[(7, / 2); (8, / 5)]; [(7, 3 / 4); (8, 2 / 5)]]) as (m & Hmm & Hle); [discriminate|exact Hst|cbn; lia|vm_compute; lia|].
      exists m. split; [exact Hmm|]. exact Hle.
Qed.
