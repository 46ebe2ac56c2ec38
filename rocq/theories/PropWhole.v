(** C93: whole inversions, from the construction of BayesianInversion to what its run has saved: estimates of posterior
    means for several numbers with uniform priors. *)
From Coq Require Import FunctionalExtensionality.
From Coquelicot Require Import Coquelicot.
From Verif Require Import Base ModelPrior ModelState ModelSpace ModelPerturb ModelChain ModelSampler ModelLikelihood SpecChain SpecSampler SpecWalk SpecInvariance SpecMany SpecEstimate SpecAnneal SpecUtils1D SpecLikelihood.
From Verif Require Import ProofChain ProofChainB ProofSamplerC ProofBox ProofInvariance ProofConverge ProofMany ProofRanges ProofEstimate ProofEstimateMany ProofAnneal PropMany PropManyLike PropEstimate PropAnneal.
From Verif Require ExampleWalk ProofState ProofTree ProofRun PropRun.
Local Open Scope string_scope.
Local Open Scope list_scope.
Local Open Scope R_scope.

(** * The start *)
(** What the initialization of one chain draws: per number the content of an array that np.empty returns (not used
    for priors without positions) and a uniform number. *)
Definition start_tape (st : list (R * R)) : trace := concat (map (fun x => [DVal (fst x); DU (snd x)]) st).
Definition start_ok (ns : list number) (st : list (R * R)) : Prop := length st = length ns /\ Forall (fun x => 0 <= snd x < 1) st.
(** The numbers it starts from. *)
Definition start_at (ns : list number) (st : list (R * R)) : list R :=
  map (fun ax => nm_lo (fst ax) + (nm_hi (fst ax) - nm_lo (fst ax)) * snd (snd ax)) (combine ns st).
Lemma start_length ns st : length st = length ns -> length (start_at ns st) = length ns.
Proof. intros H. unfold start_at. rewrite map_length, combine_length. lia. Qed.
Lemma start_inside ns st : ranged ns -> start_ok ns st -> in_ranges (ranges ns) (start_at ns st).
Proof.
  intros Hr [Hl Hs]. unfold in_ranges, ranges, start_at. revert st Hl Hs. induction Hr as [|a ns [Ha _] Hr IH]; intros [|x st] Hl Hs; try discriminate; cbn [combine map]; constructor.
  - inversion Hs as [|? ? Hx _]; subst. cbn [fst snd]. split; nra.
  - inversion Hs; subst. apply IH; auto.
Qed.
Lemma start_values (go : list (string * param) -> M (dict value)) :
  (forall tr, go [] tr = Ret [] tr) ->
  (forall k p t tr, go ((k, PPrior p) :: t) tr = (g <- repeatM 1 drawVal ;; a <- p_initialize p (map P1 g) ;; r <- go t ;; ret ((k, Arr a) :: r)) tr) ->
  forall ns st, start_ok ns st -> forall tr,
  go (map (fun a => (nm_name a, PPrior (number_prior a))) ns) (start_tape st ++ tr) = Ret (values ns (start_at ns st)) tr.
Proof.
  intros H0 H1. induction ns as [|a ns IH]; intros [|x st] [Hl Hs] tr; try discriminate; [apply H0|].
  inversion Hs as [|? ? Hx Hs']; subst. cbn [map]. rewrite H1. unfold start_tape. cbn [map concat app]. fold (start_tape st).
  assert (Hl2 : length st = length ns) by (cbn [length] in Hl; lia). specialize (IH st (conj Hl2 Hs') tr).
  assert (Eg : repeatM 1 drawVal (DVal (fst x) :: DU (snd x) :: start_tape st ++ tr) = Ret [fst x] (DU (snd x) :: start_tape st ++ tr)) by reflexivity.
  assert (Ea : p_initialize (number_prior a) [P1 (fst x)] (DU (snd x) :: start_tape st ++ tr) = Ret [nm_lo a + (nm_hi a - nm_lo a) * snd x] (start_tape st ++ tr)).
  { cbn [p_initialize number_prior p_dist rmap get_hyper rbind lift mapM fst snd]. unfold bind, ret, uniform, bind. cbn [lift mapM fst snd]. unfold bind, ret. rewrite drawU_ok by exact Hx. reflexivity. }
  unfold bind at 1. rewrite Eg. cbn [map]. unfold bind at 1. rewrite Ea. unfold bind. rewrite IH. reflexivity.
Qed.
(** The chains of a new inversion whose targets have known noise. *)
Lemma starts ns ll save : named ns -> ns <> [] -> (forall t, In t (ll_targets ll) -> is_hier t = false) -> forall sts tr, Forall (start_ok ns) sts ->
  exists cs, inversion_chains [many_space ns] ll save (length sts) (concat (map start_tape sts) ++ tr) = Ret cs tr /\
    Forall2 (fun c st => c_temp c = 1 /\ c_saved c = SDict [] /\ c_nprop_tot c = O /\ st_cache (c_cur c) = [] /\ holds ns (c_cur c) (start_at ns st)) cs sts.
Proof.
  intros Hn Hne Hh sts tr H. induction H as [|st sts Hst H IH]; [exists []; split; [reflexivity|constructor]|].
  destruct IH as (cs & Hcs & HF). unfold inversion_chains in *. cbn [length repeatM map concat]. rewrite <- app_assoc.
  set (p := PS 1 (values ns (start_at ns st)) (values ns (start_at ns st)) []).
  set (s := mkState [("m", EPS p)] [("m", EPS p)] 1 [] []).
  assert (Es : forall tr, starting_state [many_space ns] ll (start_tape st ++ tr) = Ret s tr).
  { intros tr0. unfold starting_state, initialize_all. unfold bind at 1 2. cbn [mapM]. unfold bind at 1 2. unfold many_space at 1. cbn [ModelSpace.initialize]. unfold bind at 1.
    unfold init_n at 1. cbn [sp_fixed]. unfold ret at 1. unfold bind at 1.
    match goal with |- context [?g (map (fun a => (nm_name a, PPrior (number_prior a))) ns) (start_tape st ++ tr0)] =>
      rewrite (start_values g (fun _ => eq_refl) (fun _ _ _ _ => eq_refl) ns st Hst tr0) end.
    rewrite ProofState.mk_ps_complete.
    - cbn [lift]. unfold bind, ret. cbn [sp_name many_space]. change (mk_state [("m", EPS (PS 1 (values ns (start_at ns st)) (values ns (start_at ns st)) []))] 1 []) with s.
      unfold ll_initialize. clear -Hh. induction (ll_targets ll) as [|t ts IH]; [reflexivity|]. cbn [targets_initialize]. unfold bind, target_initialize.
      rewrite (Hh t (or_introl eq_refl)). unfold ret at 1. apply IH. intros. apply Hh. now right.
    - unfold dkeys. rewrite (values_keys ns _ (start_length ns st (proj1 Hst))). apply Hn.
    - intros k v Hin. unfold values in Hin. apply in_combine_r in Hin. apply in_map_iff in Hin. destruct Hin as (x & <- & _). split; [reflexivity|discriminate]. }
  exists (new_chain (inversion_env [many_space ns] ll save) s :: cs). split.
  - assert (Eb : (s0 <- starting_state [many_space ns] ll ;; ret (new_chain (inversion_env [many_space ns] ll save) s0)) (start_tape st ++ concat (map start_tape sts) ++ tr) =
      Ret (new_chain (inversion_env [many_space ns] ll save) s) (concat (map start_tape sts) ++ tr)) by (unfold bind; rewrite Es; reflexivity).
    rewrite (bind_ret _ _ _ _ _ Eb), (bind_ret _ _ _ _ _ Hcs). reflexivity.
  - constructor; auto. repeat split; auto.
    + apply start_length, Hst.
    + do 2 eexists. reflexivity.
Qed.

(** * The run *)
Lemma untargeted ts fs ratio func ll : loglike_init ts fs ratio func = Ok ll -> ll_hier ll = [] -> forall t, In t (ll_targets ll) -> is_hier t = false.
Proof.
  intros H Hh t Hin. rewrite (PropRun.init_hier _ _ _ _ _ H) in Hh. unfold ProofRun.hier_of in Hh. destruct (is_hier t) eqn:E; auto.
  assert (In t (filter is_hier (ll_targets ll))) as Hf by now apply filter_In. rewrite Hh in Hf. destruct Hf.
Qed.
Lemma scheduled_count {X} burnin every (l : list X) : (0 < every)%nat -> length (scheduled burnin every 0 l) = ((length l - burnin) / every)%nat.
Proof.
  intros He. rewrite <- count_marks. pose proof (marks_count burnin every (length l) He 0) as C. cbn [Nat.sub Nat.add] in C.
  rewrite Nat.div_0_l, Nat.add_0_r in C by lia. exact C.
Qed.
Lemma visited_count {X D} (next : X -> D -> X) ds : forall x, length (visited next x ds) = length ds.
Proof. induction ds as [|z ds IH]; intros x; cbn; auto. Qed.
Lemma visited_at_count {X D} (next : nat -> X -> D -> X) ds : forall i x, length (visited_at next i x ds) = length ds.
Proof. induction ds as [|z ds IH]; intros i x; cbn; auto. Qed.

(** The tape of a whole inversion: the starts of all chains, then the iterations of the first chain, of the second ... *)
Definition run_tape (tss : list (list (R * R * (list R * R)))) : trace := concat (map (fun ts => concat (map tape ts)) tss).
(** A new inversion with as many chains as [sts] starts from them; its run returns, and under the name of each number
    chain [p] has saved what [samples] says, one entry per scheduled iteration. *)
Definition whole (ns : list number) (ll : loglike) (save : bool) (run : list (chain state ovalue) -> M (list (chain state ovalue) * option exn))
    (n N : nat) (samples : list R -> list (list R * R) -> list (list R)) : Prop :=
  forall sts tss tr, Forall (start_ok ns) sts -> length tss = length sts -> Forall (fun ts => length ts = n /\ Forall (tape_ok ns) ts) tss ->
  exists cs cs', inversion_chains [many_space ns] ll save (length sts) (concat (map start_tape sts) ++ run_tape tss ++ tr) = Ret cs (run_tape tss ++ tr) /\
    run cs (run_tape tss ++ tr) = Ret (cs', None) tr /\ length cs' = length sts /\
    forall p st ts, nth_error sts p = Some st -> nth_error tss p = Some ts ->
    exists c d, nth_error cs' p = Some c /\ c_saved c = SDict d /\ NoDup (dkeys d) /\ length (samples (start_at ns st) (map snd ts)) = N /\
      forall i a, nth_error ns i = Some a -> contains "dpred" (nm_name a) = false ->
        stored ("m." ++ nm_name a)%string d = map (fun ys => OArr (Arr [nth i ys 0])) (samples (start_at ns st) (map snd ts)).
Lemma starting ns ll L kept save : named ns -> ns <> [] -> ranged ns -> (forall t, In t (ll_targets ll) -> is_hier t = false) -> evaluates ns 1 ll L kept ->
  forall sts tr, Forall (start_ok ns) sts ->
  exists cs, inversion_chains [many_space ns] ll save (length sts) (concat (map start_tape sts) ++ tr) = Ret cs tr /\
    Forall2 (fun c st => ready ns 1 kept c (start_at ns st) /\ in_ranges (ranges ns) (start_at ns st) /\ c_saved c = SDict [] /\ c_nprop_tot c = O) cs sts.
Proof.
  intros Hn Hne Hr Hh Hev sts tr Hs. destruct (starts ns ll save Hn Hne Hh sts tr Hs) as (cs & Hcs & HF). exists cs. split; [exact Hcs|].
  clear Hcs. revert Hs. induction HF as [|c st cs sts (HT & Hd & H0 & Hca & Hh') HF IH]; intros Hs; constructor; inversion Hs as [|? ? Hst Hs']; subst; auto.
  split; [|split; [now apply start_inside|split; auto]]. split; [split; [exact Hh'|exact (ev_empty _ _ _ _ _ Hev _ _ Hh' Hca)]|]. split; [exact HT|]. now exists [].
Qed.

(** The saved samples of a chain that starts from [xs], given the draws of its iterations: the numbers move together and
    stay in their ranges ([roam]: random-walk Metropolis with the log-likelihood [L] divided by a temperature). *)
Definition metropolis (ns : list number) (L : list R -> R) (T : R) (xs : list R) (z : list R * R) : list R :=
  roam (ranges ns) (map nm_sd ns) T L xs (fst z) (snd z).
Definition vanilla_samples (ns : list number) (L : list R -> R) (sc : sched) (xs : list R) (ds : list (list R * R)) : list (list R) :=
  scheduled (sc_burnin sc) (sc_every sc) 0 (visited (metropolis ns L 1) xs ds).
Definition annealing_samples (ns : list number) (L : list R -> R) (T0 : R) (sc : sched) (xs : list R) (ds : list (list R * R)) : list (list R) :=
  scheduled (sc_burnin sc) (sc_every sc) 0 (visited_at (fun i => metropolis ns L (cool T0 (sc_burnin sc) i)) 0 xs ds).

(** * VanillaSampler *)
Theorem C93_vanilla ns ts fs ratio func ll L kept save F phi :
  named ns -> ns <> [] -> ranged ns -> normal_cdf F -> (forall z, derivable_pt_lim F z (phi z)) -> cont_ranges (ranges ns) L ->
  loglike_init ts fs ratio func = Ok ll -> evaluates ns 1 ll L kept ->
  let E := inversion_env [many_space ns] ll save in
  exists Z C, 0 < Z /\ ranges_integral (ranges ns) (fun xs => exp (L xs)) Z /\ 0 <= C /\
    (forall jobs n sc, sc_verbose sc = false -> (0 < sc_every sc)%nat ->
      whole ns ll save (inversion_run (vanilla [] [] [] []) (vanilla_run E (vanilla [] [] [] []) (Some jobs) n sc) (1 <? jobs)%Z)
        n ((n - sc_burnin sc) / sc_every sc) (vanilla_samples ns L sc)) /\
    forall g B, cont_ranges (ranges ns) g -> (forall xs, in_ranges (ranges ns) xs -> Rabs (g xs) <= B) ->
    exists v, ranges_integral (ranges ns) (fun xs => exp (L xs) * g xs) v /\
      forall sc n xs, in_ranges (ranges ns) xs -> (0 < sc_every sc)%nat -> (0 < (n - sc_burnin sc) / sc_every sc)%nat ->
      exists m, mean_rounds (one_mean phi ns) (one_draw ns) n (fun ds => (average (map g (vanilla_samples ns L sc xs ds)) - v / Z) ^ 2) m /\
        m <= C * (B * B) / INR ((n - sc_burnin sc) / sc_every sc).
Proof.
  intros Hn Hne Hr HF Hphi HL Hll Hev E.
  set (next := roam (ranges ns) (map nm_sd ns) 1 L).
  assert (Hnext : follows E ns 1 kept next) by (intros c0 xs w w' zs u tr Hc0 Hb Hw Hw' Hz Hu; apply iterates; auto; lra).
  destruct (C90_estimates ns 1 ll L kept save F phi next Hn Hne Hr ltac:(lra) HF Hphi HL Hev Hnext) as (Z & C & HZ & HI & HC & H).
  assert (E1 : forall x, L x / 1 = L x) by (intros; field).
  exists Z, C.
  split; [exact HZ|]. split.
  { replace (fun xs => exp (L xs)) with (fun xs => exp (L xs / 1)) by (apply functional_extensionality; intros; now rewrite E1). exact HI. }
  split; [exact HC|]. split.
  - intros jobs n sc Hv He sts tss tr Hs Hlen Htss.
    destruct (starting ns ll L kept save Hn Hne Hr (untargeted _ _ _ _ _ Hll (ev_hier _ _ _ _ _ Hev)) Hev sts (run_tape tss ++ tr) Hs) as (cs & Hcs & HFc).
    assert (Hall : exists cs', each_chain (advance E n sc (Some nothing) (Some nothing)) cs (run_tape tss ++ tr) = Ret (cs', None) tr /\ length cs' = length sts /\
      forall p st ts, nth_error sts p = Some st -> nth_error tss p = Some ts ->
      exists c d, nth_error cs' p = Some c /\ c_saved c = SDict d /\ NoDup (dkeys d) /\
        length (scheduled (sc_burnin sc) (sc_every sc) 0 (visited (drawn next) (start_at ns st) (map snd ts))) = ((n - sc_burnin sc) / sc_every sc)%nat /\
        forall i a, nth_error ns i = Some a -> contains "dpred" (nm_name a) = false ->
          stored ("m." ++ nm_name a)%string d = map (fun ys => OArr (Arr [nth i ys 0])) (scheduled (sc_burnin sc) (sc_every sc) 0 (visited (drawn next) (start_at ns st) (map snd ts)))).
    { clear - Hn Hne Hev Hnext Hv He HFc Hlen Htss. revert tss Hlen Htss. induction HFc as [|c st cs sts (Hc & Hx & Hd & H0) HFc IH]; intros [|ts tss] Hlen Htss; try discriminate.
      - exists []. split; [reflexivity|]. split; [reflexivity|]. intros [|p]; discriminate.
      - inversion Htss as [|? ? [Hl Ht] Htss']; subst. unfold run_tape. cbn [map concat each_chain]. rewrite <- app_assoc. fold (run_tape tss).
        destruct (C90_saved ns ll L kept save next sc c (start_at ns st) ts (run_tape tss ++ tr) [] Hn Hne Hev Hnext Hv He Hc Hx Hd Ht) as (c' & d' & Ha & Hd' & Hnd & Hst).
        assert (Hl2 : length tss = length sts) by (cbn [length] in Hlen; lia).
        destruct (IH tss Hl2 Htss') as (cs' & Hes & Hls & Hcs').
        exists (c' :: cs'). split; [|split; [cbn; now rewrite Hls|]].
        + rewrite (bind_ret _ _ _ _ _ Ha). rewrite (bind_ret _ _ _ _ _ Hes). reflexivity.
        + intros [|p] st0 ts0 H2 H3; cbn [nth_error] in *; [|now apply (Hcs' p st0 ts0)]. injection H2 as <-. injection H3 as <-.
          exists c', d'. split; [reflexivity|]. split; [exact Hd'|]. split; [apply Hnd; constructor|]. split.
          * rewrite scheduled_count by exact He. now rewrite visited_count, map_length.
          * intros i a Hi Hp. rewrite (Hst i a Hi Hp), H0. reflexivity. }
    destruct Hall as (cs' & Hes & Hls & Hcs'). exists cs, cs'. split; [exact Hcs|]. split; [|split; [exact Hls|exact Hcs']].
    assert (Hes2 : each_chain (advance E n sc (Some (begin_iteration (vanilla [] [] [] []))) (Some (end_iteration (vanilla [] [] [] [])))) cs (run_tape tss ++ tr) = Ret (cs', None) tr) by exact Hes.
    unfold inversion_run, ModelSampler.initialize. cbn [vanilla sm_on_initialize sm_x_initialize call_all]. unfold nothing_l, bind at 1 2, ret at 1 2 3.
    unfold bind. unfold vanilla_run, advance_chain, bind. rewrite Hes2. reflexivity.
  - intros g B Hg HB. destruct (H g B Hg HB) as (v & Hv & Hm). exists v. split.
    + replace (fun xs => exp (L xs) * g xs) with (fun xs => exp (L xs / 1) * g xs) by (apply functional_extensionality; intros; now rewrite E1). exact Hv.
    + intros sc n xs Hx He HN. exact (Hm (sc_burnin sc) (sc_every sc) n xs Hx He HN).
Qed.

(** * SimulatedAnnealing *)
Theorem C93_annealing ns ts fs ratio func ll L kept save F phi :
  named ns -> ns <> [] -> ranged ns -> normal_cdf F -> (forall z, derivable_pt_lim F z (phi z)) -> cont_ranges (ranges ns) L ->
  loglike_init ts fs ratio func = Ok ll -> (forall t, 0 < t -> evaluates ns t ll L kept) -> tempered kept ->
  let E := inversion_env [many_space ns] ll save in
  exists Z C, 0 < Z /\ ranges_integral (ranges ns) (fun xs => exp (L xs)) Z /\ 0 <= C /\
    (forall T0 rate jobs n sc, 0 < T0 -> sc_verbose sc = false -> (0 < sc_every sc)%nat ->
      whole ns ll save (inversion_run (simulated_annealing E T0 (sc_burnin sc) rate [] [] [] []) (sa_run E T0 [] [] [] [] (Some jobs) n sc) (1 <? jobs)%Z)
        n ((n - sc_burnin sc) / sc_every sc) (annealing_samples ns L T0 sc)) /\
    forall g B, cont_ranges (ranges ns) g -> (forall xs, in_ranges (ranges ns) xs -> Rabs (g xs) <= B) ->
    exists v, ranges_integral (ranges ns) (fun xs => exp (L xs) * g xs) v /\
      forall T0 sc n xs, in_ranges (ranges ns) xs -> (0 < sc_every sc)%nat -> (0 < (n - sc_burnin sc) / sc_every sc)%nat ->
      exists m, mean_rounds (one_mean phi ns) (one_draw ns) n (fun ds => (average (map g (annealing_samples ns L T0 sc xs ds)) - v / Z) ^ 2) m /\
        m <= C * (B * B) / INR ((n - sc_burnin sc) / sc_every sc).
Proof.
  intros Hn Hne Hr HF Hphi HL Hll Hev Hkept E. pose proof (Hev 1 ltac:(lra)) as Hev1.
  set (next := fun t => roam (ranges ns) (map nm_sd ns) t L).
  assert (Hnext : forall t, 0 < t -> follows E ns t kept (next t)) by (intros t Ht c0 xs w w' zs u tr Hc0 Hb Hw Hw' Hz Hu; apply iterates; auto).
  destruct (C91_estimates ns ll L kept save F phi next Hn Hne Hr HF Hphi HL Hev Hnext) as (Z & C & HZ & HI & HC & H).
  exists Z, C.
  split; [exact HZ|]. split; [exact HI|]. split; [exact HC|]. split.
  - intros T0 rate jobs n sc HT Hv He sts tss tr Hs Hlen Htss.
    destruct (starting ns ll L kept save Hn Hne Hr (untargeted _ _ _ _ _ Hll (ev_hier _ _ _ _ _ Hev1)) Hev1 sts (run_tape tss ++ tr) Hs) as (cs & Hcs & HFc).
    assert (Hb : Forall2 (begins ns kept) cs (map (start_at ns) sts)).
    { clear - HFc. induction HFc as [|c st cs sts (Hc & Hx & _ & H0) HFc IH]; cbn [map]; constructor; auto. split; [now exists 1|auto]. }
    assert (Hlc : length cs = length sts) by (clear - HFc; induction HFc; cbn; auto).
    destruct (C91_saved ns ll L kept save next T0 rate jobs n sc cs (map (start_at ns) sts) tss tr Hn Hne Hev Hkept Hnext HT Hv He Hb
      (eq_trans Hlen (eq_sym Hlc)) Htss) as (cs' & Ha & Hl & Hsv).
    exists cs, cs'. split; [exact Hcs|]. split; [exact Ha|]. split; [now rewrite Hl|].
    intros p st ts0 Hp Ht.
    assert (Hc : exists c, nth_error cs p = Some c /\ c_saved c = SDict []).
    { clear - HFc Hp. revert p Hp. induction HFc as [|c st' cs sts (_ & _ & Hd & _) HFc IH]; intros [|p] Hp; try discriminate; [exists c; auto|now apply IH]. }
    destruct Hc as (c & Hc & Hd0).
    destruct (Hsv p c (start_at ns st) ts0 Hc ltac:(now rewrite nth_error_map, Hp) Ht) as (c' & Hc' & d & d' & Hd & Hd' & Hnd & Hst).
    assert (d = []) by congruence. subst d.
    exists c', d'. split; [exact Hc'|]. split; [exact Hd'|]. split; [apply Hnd; constructor|]. split.
    + unfold annealing_samples. rewrite scheduled_count by exact He. rewrite visited_at_count, map_length.
      rewrite Forall_forall in Htss. destruct (Htss ts0 (nth_error_In _ _ Ht)) as [-> _]. reflexivity.
    + intros i a Hi Hpn. rewrite (Hst i a Hi Hpn). reflexivity.
  - intros g B Hg HB. destruct (H g B Hg HB) as (v & Hv & Hm). exists v. split; [exact Hv|].
    intros T0 sc n xs Hx He HN. exact (Hm T0 (sc_burnin sc) (sc_every sc) n xs Hx He HN).
Qed.

(** There is only one integral. *)
Theorem C93_integral_unique rs : Forall (fun r => fst r <= snd r) rs -> forall f v w, ranges_integral rs f v -> ranges_integral rs f w -> v = w.
Proof.
  induction 1 as [|r rs Hr _ IH]; intros f v w; cbn [ranges_integral]; [congruence|].
  intros (h & Hh & Iv) (k & Hk & Iw). apply (is_RInt_unique (V := R_CompleteNormedModule)) in Iv, Iw. rewrite <- Iv, <- Iw.
  apply RInt_ext. intros x Hx. rewrite Rmin_left, Rmax_right in Hx by lra. apply (IH (fun xs => f (x :: xs))); [apply Hh|apply Hk]; lra.
Qed.
Lemma ranged_ordered ns : ranged ns -> Forall (fun r => fst r <= snd r) (ranges ns).
Proof. intros H. unfold ranges. induction H as [|a ns [Ha _] _ IH]; cbn; constructor; auto. cbn. lra. Qed.

(** * Gaussian data with known noise *)
Lemma predictions_tempered ns ts G : tempered (own_predictions ns ts G).
Proof. intros t s H xs t1 c Hh. exact (H xs t1 c Hh). Qed.
Theorem C93_data ns ts fs K P G ll save F phi :
  named ns -> ns <> [] -> ranged ns -> normal_cdf F -> (forall z, derivable_pt_lim F z (phi z)) ->
  gaussian_data ns ts fs K P G -> (forall t i, In t ts -> cont_ranges (ranges ns) (fun xs => nth i (G t xs) 0)) ->
  loglike_init (Some (map ATarget ts)) (Some (map AFwd fs)) None None = Ok ll ->
  let L := data_logpdf K P G ts in
  let E := inversion_env [many_space ns] ll save in
  exists Z C, 0 < Z /\ ranges_integral (ranges ns) (fun xs => exp (L xs)) Z /\ 0 <= C /\
    (forall jobs n sc, sc_verbose sc = false -> (0 < sc_every sc)%nat ->
      whole ns ll save (inversion_run (vanilla [] [] [] []) (vanilla_run E (vanilla [] [] [] []) (Some jobs) n sc) (1 <? jobs)%Z)
        n ((n - sc_burnin sc) / sc_every sc) (vanilla_samples ns L sc)) /\
    (forall T0 rate jobs n sc, 0 < T0 -> sc_verbose sc = false -> (0 < sc_every sc)%nat ->
      whole ns ll save (inversion_run (simulated_annealing E T0 (sc_burnin sc) rate [] [] [] []) (sa_run E T0 [] [] [] [] (Some jobs) n sc) (1 <? jobs)%Z)
        n ((n - sc_burnin sc) / sc_every sc) (annealing_samples ns L T0 sc)) /\
    forall g B, cont_ranges (ranges ns) g -> (forall xs, in_ranges (ranges ns) xs -> Rabs (g xs) <= B) ->
    exists v, ranges_integral (ranges ns) (fun xs => exp (L xs) * g xs) v /\
      forall sc n xs, in_ranges (ranges ns) xs -> (0 < sc_every sc)%nat -> (0 < (n - sc_burnin sc) / sc_every sc)%nat ->
      (exists m, mean_rounds (one_mean phi ns) (one_draw ns) n (fun ds => (average (map g (vanilla_samples ns L sc xs ds)) - v / Z) ^ 2) m /\
        m <= C * (B * B) / INR ((n - sc_burnin sc) / sc_every sc)) /\
      forall T0, exists m, mean_rounds (one_mean phi ns) (one_draw ns) n (fun ds => (average (map g (annealing_samples ns L T0 sc xs ds)) - v / Z) ^ 2) m /\
        m <= C * (B * B) / INR ((n - sc_burnin sc) / sc_every sc).
Proof.
  intros Hn Hne Hr HF Hphi Hgd HG Hll L E.
  pose proof (C88_continuous ns K P G ts Hr HG) as HL. fold L in HL.
  assert (Hev : forall t, 0 < t -> evaluates ns t ll L (own_predictions ns ts G)) by (intros t Ht; exact (C88_gaussian_data ns t ts fs K P G ll Ht Hgd Hll)).
  destruct (C93_vanilla ns _ _ _ _ ll L _ save F phi Hn Hne Hr HF Hphi HL Hll (Hev 1 ltac:(lra))) as (Z & C & HZ & HI & HC & Hrun & H).
  destruct (C93_annealing ns _ _ _ _ ll L _ save F phi Hn Hne Hr HF Hphi HL Hll Hev (predictions_tempered ns ts G)) as (Z' & C' & HZ' & HI' & HC' & Hrun' & H').
  pose proof (C93_integral_unique _ (ranged_ordered ns Hr) _ _ _ HI HI') as EZ. subst Z'.
  exists Z, (Rmax C C'). split; [exact HZ|]. split; [exact HI|]. split; [eapply Rle_trans; [exact HC|apply Rmax_l]|]. split; [exact Hrun|]. split; [exact Hrun'|].
  intros g B Hg HB. destruct (H g B Hg HB) as (v & Hv & Hm). destruct (H' g B Hg HB) as (v' & Hv' & Hm').
  pose proof (C93_integral_unique _ (ranged_ordered ns Hr) _ _ _ Hv Hv') as Ev. subst v'. exists v. split; [exact Hv|]. intros sc n xs Hx He HN.
  assert (HNr : 0 < INR ((n - sc_burnin sc) / sc_every sc)) by (apply lt_0_INR; lia).
  assert (Hle : forall c, c <= Rmax C C' -> c * (B * B) / INR ((n - sc_burnin sc) / sc_every sc) <= Rmax C C' * (B * B) / INR ((n - sc_burnin sc) / sc_every sc)).
  { intros c Hc. unfold Rdiv. apply Rmult_le_compat_r; [left; now apply Rinv_0_lt_compat|]. apply Rmult_le_compat_r; [nra|exact Hc]. }
  split.
  - destruct (Hm sc n xs Hx He HN) as (m & Hmm & Hmb). exists m. split; [exact Hmm|]. eapply Rle_trans; [exact Hmb|]. apply Hle, Rmax_l.
  - intros T0. destruct (Hm' T0 sc n xs Hx He HN) as (m & Hmm & Hmb). exists m. split; [exact Hmm|]. eapply Rle_trans; [exact Hmb|]. apply Hle, Rmax_r.
Qed.

(** * A case *)
(** The straight line of [C88_posterior_case].  Two chains start from the uniform numbers 1/2, 1/5 and 3/4, 2/5, that is
    from (0, 1) and (5, 2).  In one iteration the first moves to the better fitting (1, 1); the move of the second leaves
    the range of m0 and is refused.  The first has saved 1 as "m.m0", the second 5.  The average of m1 over 100 samples,
    every fifth after 1000 iterations, has a squared error whose mean is at most a constant times 25/100. *)
Example C93_case : exists ll F phi Z C,
  normal_cdf F /\ (forall z, derivable_pt_lim F z (phi z)) /\
  loglike_init (Some (map ATarget [line_target])) (Some (map AFwd [line_fwd])) None None = Ok ll /\
  (exists cs c1 c2 d1 d2, inversion_chains [many_space line_numbers] ll true 2
       ([DVal 7; DU (/ 2); DVal 8; DU (/ 5); DVal 7; DU (3 / 4); DVal 8; DU (2 / 5)] ++ [DU 0; DInt 0; DU 0; DInt 0; DZ 1; DZ 0; DU (/ 2); DU 0; DInt 0; DU 0; DInt 0; DZ 6; DZ 0; DU (/ 2)]) =
       Ret cs [DU 0; DInt 0; DU 0; DInt 0; DZ 1; DZ 0; DU (/ 2); DU 0; DInt 0; DU 0; DInt 0; DZ 6; DZ 0; DU (/ 2)] /\
     inversion_run (vanilla [] [] [] []) (vanilla_run (inversion_env [many_space line_numbers] ll true) (vanilla [] [] [] []) (Some 1%Z) 1 (Build_sched 0 1 false 1)) false cs
       [DU 0; DInt 0; DU 0; DInt 0; DZ 1; DZ 0; DU (/ 2); DU 0; DInt 0; DU 0; DInt 0; DZ 6; DZ 0; DU (/ 2)] = Ret ([c1; c2], None) [] /\
     c_saved c1 = SDict d1 /\ stored "m.m0" d1 = [OArr (Arr [1])] /\ c_saved c2 = SDict d2 /\ stored "m.m0" d2 = [OArr (Arr [5])]) /\
  exists v, ranges_integral (ranges line_numbers) (fun xs => exp (data_logpdf line_K line_P line_G [line_target] xs) * nth 1 xs 0) v /\
    exists m, mean_rounds (one_mean phi line_numbers) (one_draw line_numbers) 1500
      (fun ds => (average (map (fun ys => nth 1 ys 0) (vanilla_samples line_numbers (data_logpdf line_K line_P line_G [line_target]) (Build_sched 1000 5 false 1) [0; 1] ds)) - v / Z) ^ 2) m /\
    m <= C * (5 * 5) / INR 100.
Proof.
  destruct C88_posterior_case as (ll & F & phi & Hn & Hr & HF & Hphi & Hgd & HG & Hll).
  assert (Hne : line_numbers <> []) by discriminate.
  destruct (C93_data line_numbers _ _ _ _ _ ll true F phi Hn Hne Hr HF Hphi Hgd HG Hll) as (Z & C & HZ & HI & HC & Hrun & _ & H).
  exists ll, F, phi, Z, C. split; [exact HF|]. split; [exact Hphi|]. split; [exact Hll|]. split.
  - destruct (Hrun 1%Z 1%nat (Build_sched 0 1 false 1) eq_refl ltac:(cbn; lia) [[(7, / 2); (8, / 5)]; [(7, 3 / 4); (8, 2 / 5)]]
      [[(0, 0, ([1; 0], / 2))]; [(0, 0, ([6; 0], / 2))]] []) as (cs & cs' & Hcs & Ha & Hl & Hs).
    { repeat constructor; cbn; lra. }
    { reflexivity. }
    { repeat constructor; cbn; lra. }
    destruct cs' as [|c1 [|c2 [|]]]; try discriminate.
    destruct (Hs 0%nat _ _ eq_refl eq_refl) as (c1' & d1 & E1 & Hd1 & _ & _ & Hst1). injection E1 as <-.
    destruct (Hs 1%nat _ _ eq_refl eq_refl) as (c2' & d2 & E2 & Hd2 & _ & _ & Hst2). injection E2 as <-.
    exists cs, c1, c2, d1, d2. split; [exact Hcs|]. split; [exact Ha|]. split; [exact Hd1|].
    pose proof (Hst1 0%nat _ eq_refl eq_refl) as Hb1. pose proof (Hst2 0%nat _ eq_refl eq_refl) as Hb2.
    cbn [nm_name] in Hb1, Hb2. change ("m." ++ "m0")%string with "m.m0" in Hb1, Hb2. rewrite Hb1, Hb2.
    unfold vanilla_samples, start_at. cbn [map snd fst visited line_numbers combine nm_lo nm_hi scheduled sc_burnin sc_every Nat.ltb Nat.leb andb Nat.sub Nat.modulo Nat.divmod Nat.eqb].
    unfold metropolis, roam. cbn [map nm_sd line_numbers jump fst snd]. cbv zeta.
    replace (-10 + (10 - -10) * / 2 + 1 * 1) with 1 by field. replace (0 + (5 - 0) * / 5 + 0 * / 4) with 1 by field.
    replace (-10 + (10 - -10) * / 2) with 0 by field. replace (0 + (5 - 0) * / 5) with 1 by field.
    rewrite (in_inr (ranges line_numbers) [1; 1]) by (repeat constructor; cbn; lra).
    split; [|split; [exact Hd2|]].
    + destruct (Rlt_dec _ _) as [|Hno]; [reflexivity|]. exfalso. apply Hno. apply Rlt_trans with 0.
      * rewrite <- ln_1. apply ln_increasing; lra.
      * unfold data_logpdf, normal_logpdf, quad, line_G, line_at. cbn [map rsum fold_right nth sum line_target t_dobs length]. unfold line_P. cbn [Nat.eqb]. lra.
    + cbn [inr ranges line_numbers map nm_lo nm_hi fst snd]. destruct (Rle_dec _ _); [|repeat f_equal; lra].
      destruct (Rle_dec (-10 + (10 - -10) * (3 / 4) + 6 * 1) 10) as [Hb|_]; [exfalso; lra|]. cbn [nth map]. repeat f_equal; lra.
  - destruct (H (fun ys => nth 1 ys 0) 5) as (v & Hv & Hm).
    + apply cont_nth.
    + intros xs Hxs. inversion Hxs as [|? x ? xs' _ H1]; subst. inversion H1 as [|? y ? ys' Hy _]; subst. cbn in *. apply Rabs_le. lra.
    + exists v. split; [exact Hv|].
      destruct (Hm (Build_sched 1000 5 false 1) 1500%nat [0; 1]) as [Hm1 _]; [repeat constructor; cbn; lra|cbn; lia|vm_compute; lia|]. exact Hm1.
Qed.
