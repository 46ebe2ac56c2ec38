(** C69: inversions in memory, where chains and states share objects that are changed in place and
    processes work on copies, do what the inversions of values do, about which the other properties
    speak.  The code is ModelHeapSampler.v and ModelSampler.v. *)
From Verif Require Import Base ModelUtils1D ModelPrior ModelState ModelSpace ModelChain ModelSampler ModelPerturb ModelLikelihood ModelHeap
  ModelHeapSampler SpecState SpecSpace SpecChain SpecRun SpecHeap SpecRefine SpecRefineChain SpecRefineSampler ProofState ProofSpace ProofChain
  ProofSamplerB ProofRun ProofRunB ProofRunC ProofHeap ProofHeapB ProofRefine ProofRefineB ProofRefineF ProofRefineK ProofRefineL ProofRefineM ProofRefineN
  ProofRefineO ProofRefineP ProofRefineQ ProofRefineR PropRun PropRefineChain ExampleRun.
Local Open Scope string_scope.
Local Open Scope R_scope.
Local Opaque Rleb Rltb Reqb py_int.

Lemma agree_mono {A B} (R R' : heap -> A -> B -> Prop) x y : (forall h a b, R h a b -> R' h a b) -> agree R x y -> agree R' x y.
Proof.
  intros H. unfold agree. destruct (fst x), y; auto. intros [? ?]. auto.
Qed.

(** * Runs
    Chains in memory that stand for chains of values, no two with the same State object as their
    current state: the same random draws, the same exception, and at the end again chains that stand
    for those of values, no two with the same State object.  Of the objects that were there, only the
    States that were current have changed, in nothing but temperature, cache and extra_storage. *)
Theorem C69_vanilla spaces ll save like jobs n sc h cs cs' tr :
  likelihood_reads ll like -> setup_ok spaces (ll_targets ll) -> ll_hier ll = hier_of (ll_targets ll) ->
  chains_stand h cs cs' -> (forall c, In c cs' -> good spaces (ll_targets ll) (c_cur c)) ->
  let E := h_inversion_env spaces ll save like in
  let E' := inversion_env spaces ll save in
  let x := h_inversion_run h_nothing_l (h_vanilla_run E (Some jobs) n sc) (1 <? jobs)%Z cs h tr in
  let y := inversion_run (vanilla [] [] [] []) (vanilla_run E' (vanilla [] [] [] []) (Some jobs) n sc) (1 <? jobs)%Z cs' tr in
  agree (fun h' a b => chains_stand h' (fst a) (fst b) /\ snd a = snd b) x y /\ only (current cs) h (snd x).
Proof.
  intros Hl Hset Hh H Hp. cbv zeta.
  destruct (run_ok spaces ll (1 <? jobs)%Z h_nothing_l _ (vanilla [] [] [] []) _ (nothing_l_ok spaces ll) eq_refl
    (vanilla_ok spaces ll save like Hl Hset Hh jobs n sc) (current cs) h cs cs' (fun _ a Ha => Ha) H Hp tr) as [U A].
  split; [|exact U]. revert A. apply agree_mono. intros h' a b (K1 & K2 & _). auto.
Qed.
Theorem C69_tempering spaces ll save like frac tmax fuel jobs swap n sc h cs cs' tr :
  likelihood_reads ll like -> setup_ok spaces (ll_targets ll) -> ll_hier ll = hier_of (ll_targets ll) ->
  chains_stand h cs cs' -> (forall c, In c cs' -> good spaces (ll_targets ll) (c_cur c)) ->
  let E := h_inversion_env spaces ll save like in
  let E' := inversion_env spaces ll save in
  let s := parallel_tempering E' frac tmax [] [] [] [] in
  let x := h_inversion_run (h_pt_on_initialize frac tmax) (h_pt_loop E fuel (Some jobs) swap n sc) (1 <? jobs)%Z cs h tr in
  let y := inversion_run s (pt_loop E' fuel s (Some jobs) swap n sc) (1 <? jobs)%Z cs' tr in
  agree (fun h' a b => chains_stand h' (fst a) (fst b) /\ snd a = snd b) x y /\ only (current cs) h (snd x).
Proof.
  intros Hl Hset Hh H Hp. cbv zeta.
  destruct (run_ok spaces ll (1 <? jobs)%Z _ _ (parallel_tempering (inversion_env spaces ll save) frac tmax [] [] [] []) _
    (pt_init_ok spaces ll save Hset Hh frac tmax) eq_refl
    (pt_loop_ok spaces ll save like Hl Hset Hh frac tmax jobs swap n sc fuel) (current cs) h cs cs' (fun _ a Ha => Ha) H Hp tr) as [U A].
  split; [|exact U]. revert A. apply agree_mono. intros h' a b (K1 & K2 & _). auto.
Qed.
Theorem C69_annealing spaces ll save like T0 rate jobs n sc h cs cs' tr :
  likelihood_reads ll like -> setup_ok spaces (ll_targets ll) -> ll_hier ll = hier_of (ll_targets ll) ->
  chains_stand h cs cs' -> (forall c, In c cs' -> good spaces (ll_targets ll) (c_cur c)) ->
  let E := h_inversion_env spaces ll save like in
  let E' := inversion_env spaces ll save in
  let x := h_inversion_run (h_sa_on_initialize T0) (h_sa_run E T0 (Some jobs) n sc) (1 <? jobs)%Z cs h tr in
  let y := inversion_run (simulated_annealing E' T0 (sc_burnin sc) rate [] [] [] []) (sa_run E' T0 [] [] [] [] (Some jobs) n sc)
             (1 <? jobs)%Z cs' tr in
  agree (fun h' a b => chains_stand h' (fst a) (fst b) /\ snd a = snd b) x y /\ only (current cs) h (snd x).
Proof.
  intros Hl Hset Hh H Hp. cbv zeta.
  destruct (run_ok spaces ll (1 <? jobs)%Z _ _ (simulated_annealing (inversion_env spaces ll save) T0 (sc_burnin sc) rate [] [] [] []) _
    (sa_init_ok spaces ll save Hset Hh T0) eq_refl
    (sa_ok spaces ll save like Hl Hset Hh T0 jobs n sc) (current cs) h cs cs' (fun _ a Ha => Ha) H Hp tr) as [U A].
  split; [|exact U]. revert A. apply agree_mono. intros h' a b (K1 & K2 & _). auto.
Qed.
(** What the samplers do in processes reaches no object of the main process: the chains that the
    inversion keeps when a process raises are as they were. *)
Theorem C69_processes spaces ll save like jobs n sc h cs cs' tr :
  likelihood_reads ll like -> setup_ok spaces (ll_targets ll) -> ll_hier ll = hier_of (ll_targets ll) ->
  chains_stand h cs cs' -> (forall c, In c cs' -> good spaces (ll_targets ll) (c_cur c)) -> (1 < jobs)%Z ->
  let E := h_inversion_env spaces ll save like in
  forall fuel swap T0,
  only (fun _ => False) h (snd (h_vanilla_run E (Some jobs) n sc cs h tr)) /\
  only (fun _ => False) h (snd (h_pt_loop E fuel (Some jobs) swap n sc cs h tr)) /\
  only (fun _ => False) h (snd (h_sa_run E T0 (Some jobs) n sc cs h tr)).
Proof.
  intros Hl Hset Hh H Hp Hj. cbv zeta. intros fuel swap T0. assert (Ej : (1 <? jobs)%Z = true) by now apply Z.ltb_lt.
  pose proof (vanilla_ok spaces ll save like Hl Hset Hh jobs n sc) as A.
  pose proof (pt_loop_ok spaces ll save like Hl Hset Hh 0 1 jobs swap n sc fuel) as B.
  pose proof (sa_ok spaces ll save like Hl Hset Hh T0 jobs n sc) as C. rewrite Ej in A, B, C.
  assert (D : true = false -> forall a, current cs a -> False) by discriminate.
  repeat split; [apply (A (fun _ => False) h cs cs' D H Hp tr)|apply (B (fun _ => False) h cs cs' D H Hp tr)|apply (C (fun _ => False) h cs cs' D H Hp tr)].
Qed.

(** * A new inversion
    Creation draws the same numbers as in the model of values; its chains stand for those of values,
    no two have the same State object, all of these are new, and no object changes. *)
Theorem C69_creation spaces ll save n h tr : setup_ok spaces (ll_targets ll) ->
  let x := h_inversion_chains spaces ll n h tr in
  agree (fun h' cs cs' => chains_stand h' cs cs' /\ forall a, current cs a -> (length h <= a)%nat) x
    (inversion_chains spaces ll save n tr) /\
  only (fun _ => False) h (snd x).
Proof.
  intros Hset. cbv zeta. destruct (sim_chains spaces ll save Hset n (fun _ => False) h tr) as [U A]. split; [|exact U].
  revert A. apply agree_mono. intros h' a b (K1 & _ & K2). auto.
Qed.

(** * All histories
    Every chain in memory of an inversion after any number of runs with any of the samplers stands
    for a chain of values of an inversion, after the runs of values. *)
Lemma run_transfer spaces ll save like h cs h' hs vs : likelihood_reads ll like -> setup_ok spaces (ll_targets ll) ->
  ll_hier ll = hier_of (ll_targets ll) -> chains_stand h cs vs -> Ps spaces ll vs ->
  mem_run (h_inversion_env spaces ll save like) h cs h' hs ->
  exists vs', one_run (inversion_env spaces ll save) vs vs' /\ chains_stand h' hs vs' /\ Ps spaces ll vs'.
Proof.
  intros Hl Hset Hh H Hp R.
  assert (K0 : callbacks_ok (St := state) (V := ovalue) [] [] []) by (split; constructor).
  assert (G : forall par init run s run' tr o tr', list_ok spaces ll false init (sm_on_initialize s) -> sm_x_initialize s = [] -> list_ok spaces ll par run run' ->
    h_inversion_run init run par cs h tr = (Ret (hs, o) tr', h') ->
    exists vs', inversion_run s run' par vs tr = Ret (vs', o) tr' /\ chains_stand h' hs vs' /\ Ps spaces ll vs').
  { intros par init run s run' tr o tr' A1 A2 A3 Eq.
    destruct (run_ok spaces ll par init run s run' A1 A2 A3 (current cs) h cs vs (fun _ a Ha => Ha) H Hp tr) as [_ A].
    rewrite Eq in A. unfold agree in A. cbn [fst snd] in A. destruct (inversion_run s run' par vs tr) as [[vs' o'] t|e t| |]; try contradiction.
    destruct A as (-> & A3' & A4 & A5 & _). cbn [fst snd] in *. subst o'. eauto. }
  destruct R as [jobs n sc tr cs1 o tr' h1 Eq|frac tmax fuel jobs swap n sc tr cs1 o tr' h1 Eq|T0 jobs n sc tr cs1 o tr' h1 Eq].
  - destruct (G _ _ _ (vanilla [] [] [] []) _ _ _ _ (nothing_l_ok spaces ll) eq_refl (vanilla_ok spaces ll save like Hl Hset Hh jobs n sc) Eq) as (vs' & E1 & E2 & E3).
    exists vs'. split; auto. eapply run_vanilla; eauto.
  - destruct (G _ _ _ (parallel_tempering (inversion_env spaces ll save) frac tmax [] [] [] []) _ _ _ _ (pt_init_ok spaces ll save Hset Hh frac tmax) eq_refl
      (pt_loop_ok spaces ll save like Hl Hset Hh frac tmax jobs swap n sc fuel) Eq) as (vs' & E1 & E2 & E3).
    exists vs'. split; auto. eapply run_tempering; eauto.
  - destruct (G _ _ _ (simulated_annealing (inversion_env spaces ll save) T0 (sc_burnin sc) 0 [] [] [] []) _ _ _ _ (sa_init_ok spaces ll save Hset Hh T0) eq_refl
      (sa_ok spaces ll save like Hl Hset Hh T0 jobs n sc) Eq) as (vs' & E1 & E2 & E3).
    exists vs'. split; auto. eapply run_annealing; eauto.
Qed.
Theorem C69_histories spaces ll save like h c :
  likelihood_reads ll like -> setup_ok spaces (ll_targets ll) -> ll_hier ll = hier_of (ll_targets ll) ->
  mem_chain_of spaces ll (h_inversion_env spaces ll save like) h c ->
  exists c', chain_of spaces ll save c' /\ chain_stands h c c'.
Proof.
  intros Hl Hset Hh (h0 & n & tr & cs0 & tr' & h1 & cs & E0 & R & Hc).
  destruct (sim_chains spaces ll save Hset n (fun _ => False) h0 tr) as [_ A]. rewrite E0 in A. unfold agree in A. cbn [fst snd] in A.
  destruct (inversion_chains spaces ll save n tr) as [vs0 t|e t| |] eqn:Ev; try contradiction. destruct A as (-> & H0 & P0 & _).
  assert (G : exists vs, many_runs (inversion_env spaces ll save) vs0 vs /\ chains_stand h cs vs /\ Ps spaces ll vs).
  { clear Hc. induction R as [|h2 cs2 h3 cs3 R IH R1]; [exists vs0; split; [constructor|auto]|].
    destruct IH as (vs & M & K1 & K2). destruct (run_transfer spaces ll save like h2 cs2 h3 cs3 vs Hl Hset Hh K1 K2 R1) as (vs' & O & K3 & K4).
    exists vs'. split; auto. econstructor; eauto. }
  destruct G as (vs & M & [F _] & _). apply In_nth_error in Hc. destruct Hc as [i Hi]. destruct (nth_Forall2 _ _ _ _ _ F Hi) as (c' & Hc' & K).
  exists c'. split; auto. exists n, tr, vs0, t, vs. repeat split; auto. eapply nth_error_In; eauto.
Qed.
(** So whatever is in saved_states of a chain in memory shows a well-formed state of one of the
    spaces, noise within the limits of its target, or predictions -- after all that has happened to
    the objects since. *)
Lemma chain_of_saved spaces ll save c : setup_ok spaces (ll_targets ll) -> ll_hier ll = hier_of (ll_targets ll) ->
  chain_of spaces ll save c -> chain_ok (inversion_env spaces ll save) (good spaces (ll_targets ll)) c.
Proof.
  intros Hset Hh (n & tr & cs0 & tr' & cs & E & M & Hin).
  assert (K : Forall (chain_ok (inversion_env spaces ll save) (good spaces (ll_targets ll))) cs).
  { eapply many_runs_ok; [now apply inversion_preserving|exact M|]. eapply chains_ok; eauto. }
  rewrite Forall_forall in K. auto.
Qed.
Theorem C69_saved spaces ll save like h c :
  likelihood_reads ll like -> setup_ok spaces (ll_targets ll) -> ll_hier ll = hier_of (ll_targets ll) ->
  mem_chain_of spaces ll (h_inversion_env spaces ll save like) h c ->
  exists d, c_saved c = SDict d /\
    forall k x, In x (stored k d) -> exists v, stands h x v /\ saved_shows spaces (ll_targets ll) k v.
Proof.
  intros Hl Hset Hh Hc. destruct (C69_histories _ _ _ _ _ _ Hl Hset Hh Hc) as (c2 & K & H). apply chain_of_saved in K; auto.
  pose proof (cs_saved _ _ _ H) as Sv. destruct K as [_ K].
  destruct (c_saved c) as [d|], (c_saved c2) as [d2|]; cbn in Sv; try contradiction. exists d. split; auto.
  intros k x Hx. pose proof (dr_get _ _ _ k Sv) as G. unfold stored in Hx. cbn in K.
  destruct (dget k d) as [l|]; [|destruct Hx]. destruct (dget k d2) as [l2|] eqn:E2; [|contradiction].
  assert (Hin : exists v, In v l2 /\ stands h x v).
  { clear - Hx G. induction G as [|u w l l2 K G IH]; [destruct Hx|]. destruct Hx as [<-|Hx]; [exists w; cbn; auto|].
    destruct (IH Hx) as (v & ? & ?). exists v. cbn. auto. }
  destruct Hin as (v & Hv1 & Hv2). exists v. split; auto. eapply saved_value_shows; eauto. apply K. unfold stored. now rewrite E2.
Qed.

(** * Examples
    An inversion with one chain created in a memory that already holds a state, and one iteration of
    the vanilla sampler, the acceptance of a new cell: the current state and the sample that has been
    saved are those of ExampleRun.v, and the memory that was there is as it was. *)
Definition ex_h_env : henv := h_inversion_env [ex_vor] ex_ll true (mem_like ex_ll).
Definition ex_mem_chain : hchain := mkChain 10%nat 1 [] [] 0 0 [] (SDict []) None [].
Lemma ex_mem_chain_stands : chain_stands ex_mem ex_mem_chain ex_chain0.
Proof. constructor; try reflexivity; [exact ex_mem_rep|constructor]. Qed.
Lemma ex_good : good [ex_vor] (ll_targets ex_ll) (c_cur ex_chain0).
Proof. exact (starting_ok [ex_vor] ex_ll _ _ _ ex_setup (ex_starting [])). Qed.
Example C69_case : exists c h', mem_chain_of [ex_vor] ex_ll ex_h_env h' c /\
  only (fun _ => False) ex_mem h' /\ rep_state h' (c_cur c) (with_pred ex_next) /\ saved_stands h' (c_saved c) (SDict ex_saved).
Proof.
  destruct (C69_creation [ex_vor] ex_ll true 1 ex_mem
    (DInt 1 :: DU (1/2) :: DU (1/2) :: DVal 0 :: DZ (1/2) :: DU 0 :: DU 0 :: []) ex_setup) as [A U].
  rewrite ex_chains in A. unfold agree in A.
  destruct (h_inversion_chains [ex_vor] ex_ll 1 ex_mem _) as [[cs0 t|e t| |] h1] eqn:E1; cbn [fst snd] in *; try contradiction.
  destruct A as (-> & H0 & F0). destruct (ex_run []) as (c' & o & tr' & Er & Hc & Hs).
  destruct (C69_vanilla [ex_vor] ex_ll true (mem_like ex_ll) 1 1 ex_sched h1 cs0 [ex_chain0]
    (DU (1/2) :: DInt 0 :: DU 0 :: DU (8/10) :: DU (3/4) :: DZ 1 :: DU (1/2) :: []) (C68_likelihood ex_ll ex_users) ex_setup eq_refl H0) as [A V].
  { intros c [<-|[]]. exact ex_good. }
  change (1 <? 1)%Z with false in A, V. fold ex_env in A. rewrite Er in A. unfold agree in A. fold ex_h_env in A, V.
  destruct (h_inversion_run _ _ false cs0 h1 _) as [[[cs o']  t|e t| |] h2] eqn:E2; cbn [fst snd] in *; try contradiction.
  destruct A as (-> & [F2 _] & Eo). inversion F2 as [|c x l l' K1 K2]; subst. inversion K2; subst.
  exists c, h2. split; [|split; [|split]].
  - exists ex_mem, 1%nat. eexists _, cs0, _, h1, [c]. split; [exact E1|]. split; [|now left].
    eapply mem_more; [apply mem_none|]. eapply (mem_vanilla _ _ _ 1). exact E2.
  - eapply only_trans; [exact U|exact V|]. intros a Ha Hc0. apply F0 in Hc0. unfold loc in *. lia.
  - rewrite <- Hc. apply cs_cur. exact K1.
  - rewrite <- Hs. apply cs_saved. exact K1.
Qed.

(** * Shared States
    BaseBayesianInversion takes the starting states from its user as they are (_bayes_inversion.py:
    78-112).  If they are the same State object, the theorems above do not apply, and the chains do
    not run as chains of values: after the start of parallel tempering the State of a chain whose
    temperature is 1 has another temperature. *)
Theorem C69_shared_refuted : exists spaces ll h c c' cs h' a b,
  setup_ok spaces (ll_targets ll) /\ good spaces (ll_targets ll) (c_cur c') /\ Forall2 (chain_stands h) [c; c; c] [c'; c'; c'] /\
  h_pt_on_initialize 0 3 [c; c; c] h [] = (Ret (cs, None) [], h') /\
  nth_error cs 0 = Some a /\ c_temp a = 1 /\ nth_error cs 2 = Some b /\ c_temp b = 3 /\
  (exists s, rep_state h' (c_cur a) s) /\ forall s, rep_state h' (c_cur a) s -> st_temp s = 3.
Proof.
  set (h3 := set_nth ex_mem 10%nat (HState 9%nat [("vor", 7%nat); ("d", 8%nat)] 3 [] [])).
  assert (U : only (eq 10%nat) ex_mem h3) by (eapply only_set; reflexivity).
  assert (P : pt_temperatures 3 0 3 = Ok [1; 1; 3]).
  { destruct (pt_temperatures_ok 3 0 3 0) as (ts & Ets & _ & Hl & Hn); [lia|lra|lra|split; cbn; lra|].
    rewrite Ets. f_equal. cbn [Nat.max Nat.sub] in Hn.
    pose proof (Hn 0%nat ltac:(lia)) as H0. pose proof (Hn 1%nat ltac:(lia)) as H1. pose proof (Hn 2%nat ltac:(lia)) as H2.
    cbn [Nat.ltb Nat.leb Nat.sub] in H0, H1, H2.
    replace (INR 0 / INR 1) with 0 in H1 by (cbn; lra). replace (INR 1 / INR 1) with 1 in H2 by (cbn; lra).
    rewrite Rpower_O in H1 by lra. rewrite Rpower_1 in H2 by lra.
    destruct ts as [|x [|y [|z [|]]]]; try discriminate Hl. cbn in H0, H1, H2. congruence. }
  exists [ex_vor], ex_ll, ex_mem, ex_mem_chain, ex_chain0, [with_temp 1 ex_mem_chain; with_temp 1 ex_mem_chain; with_temp 3 ex_mem_chain], h3.
  eexists _, _. split; [exact ex_setup|]. split; [exact ex_good|].
  split; [repeat constructor; exact ex_mem_chain_stands || apply ex_mem_chain_stands|].
  split; [unfold h_pt_on_initialize; cbn [length]; rewrite P; reflexivity|].
  split; [reflexivity|]. split; [reflexivity|]. split; [reflexivity|]. split; [reflexivity|]. split.
  - destruct ex_mem_rep as (d & al & dl & E1 & E2 & D & G). injection E1 as <- <-. injection E2 as <-.
    exists (mkState (st_vals ex_start) (st_attrs ex_start) 3 [] []). exists 9%nat. eexists _, _. split; [reflexivity|]. split; [reflexivity|].
    split.
    + eapply Forall2_mono; [|exact D]. intros x y [K1 K2]. split; auto. eapply rep_entry_only; eauto.
    + intros k b Ek. destruct (G k b Ek) as (e & Ee & K). exists e. split; auto. eapply rep_entry_only; eauto.
  - intros s (d & al & dl & E1 & _). cbn in E1. congruence.
Qed.
(** In two processes the State in memory stays without the cached predictions which the iteration of
    the copy saves; the chain that comes back stands for that of values. *)
Example C69_processes_case : exists c h' tr',
  h_vanilla_run ex_h_env (Some 2%Z) 1 ex_sched [ex_mem_chain] ex_mem
    [DU (1/2); DInt 0; DU 0; DU (8/10); DU (3/4); DZ 1; DU (1/2)] = (Ret ([c], None) tr', h') /\
  nth_error h' 10 = Some (HState 9%nat [("vor", 7%nat); ("d", 8%nat)] 1 [] []) /\ c_cur c <> 10%nat /\
  rep_state h' (c_cur c) (with_pred ex_next).
Proof.
  assert (S0 : chains_stand ex_mem [ex_mem_chain] [ex_chain0]).
  { split; [repeat constructor; apply ex_mem_chain_stands|]. repeat constructor. intros []. }
  assert (P0 : forall c, In c [ex_chain0] -> good [ex_vor] (ll_targets ex_ll) (c_cur c)) by (intros c [<-|[]]; exact ex_good).
  destruct (ex_finish (set_cur (with_pred ex_start) (set_flag true ex_chain0))) as (v & Hf & Hc & _); try reflexivity.
  set (tr := [DU (1/2); DInt 0; DU 0; DU (8/10); DU (3/4); DZ 1; DU (1/2)]) in *.
  destruct (vanilla_ok [ex_vor] ex_ll true (mem_like ex_ll) (C68_likelihood ex_ll ex_users) ex_setup eq_refl 2 1 ex_sched
    (fun _ => False) ex_mem [ex_mem_chain] [ex_chain0] ltac:(discriminate) S0 P0 tr) as [U A].
  fold ex_env ex_h_env in A, U.
  assert (Ev : vanilla_run ex_env (vanilla [] [] [] []) (Some 2%Z) 1 ex_sched [ex_chain0] tr = Ret ([v], None) []).
  { unfold vanilla_run, advance_chain. change (1 <? 2)%Z with true. cbn iota. cbn [each_chain advance].
    unfold bind at 1 2 3, advance_one. change (c_nprop_tot ex_chain0) with 0%nat.
    change (save_flag ex_sched 1) with (@Ok bool true). cbn iota. unfold bind at 1. unfold call_hook at 1, begin_iteration at 1.
    cbn [call_all vanilla sm_on_begin sm_x_begin]. unfold bind at 1, nothing at 1, ret at 1 2.
    unfold bind at 1, ret at 1. cbn iota beta. unfold tr. rewrite ex_next_iteration by reflexivity. rewrite Hf. reflexivity. }
  rewrite Ev in A. unfold agree in A.
  destruct (h_vanilla_run ex_h_env (Some 2%Z) 1 ex_sched [ex_mem_chain] ex_mem tr) as [[[cs o] t|e t| |] h'] eqn:E; cbn [fst snd] in *; try contradiction.
  destruct A as (-> & [F N] & Eo & _ & Hn). cbn [fst snd] in *. subst o. inversion F as [|c x l l' K1 K2]; subst. inversion K2; subst.
  exists c, h'. eexists. split; [reflexivity|].
  assert (E10 : nth_error h' 10 = Some (HState 9%nat [("vor", 7%nat); ("d", 8%nat)] 1 [] [])).
  { destruct (U 10%nat _ eq_refl) as (o & Eo & K). destruct K as [_ K]. rewrite Eo. f_equal. apply K. auto. }
  split; [exact E10|]. pose proof (cs_cur _ _ _ K1) as Rc. rewrite Hc in Rc. split; [|exact Rc].
  intros E0. rewrite E0 in Rc. destruct Rc as (d & al & dl & Q & _). rewrite E10 in Q. discriminate Q.
Qed.
