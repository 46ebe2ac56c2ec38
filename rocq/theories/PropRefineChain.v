(** C68: chains in memory, where states share objects that are changed in place, run as the chains
    of values do, about which the other properties speak.  The code is [h_advance] of ModelHeap.v
    and [advance] of ModelChain.v. *)
From Verif Require Import Base ModelUtils1D ModelPrior ModelState ModelSpace ModelChain ModelSampler ModelPerturb ModelLikelihood ModelHeap
  SpecState SpecSpace SpecChain SpecRun SpecHeap SpecRefine SpecRefineChain ProofState ProofSpace ProofChain ProofRun ProofRunB ProofRunC
  ProofHeap ProofHeapB ProofRefine ProofRefineB ProofRefineF ProofRefineK ProofRefineL ProofRefineM ExampleRun.
Local Open Scope string_scope.
Local Open Scope R_scope.
Local Opaque Rleb Rltb Reqb py_int.

(** * A run
    From a chain in memory that stands for a chain of values: the same random draws, the same
    exception, and at the end again chains that stand for each other -- the current state, all
    counters, and everything saved, item by item.  No object that was there before has other data. *)
Theorem C68_run spaces ll save like n sc h c c' tr :
  likelihood_reads ll like -> setup_ok spaces (ll_targets ll) -> ll_hier ll = hier_of (ll_targets ll) ->
  sc_verbose sc = false -> chain_stands h c c' -> good spaces (ll_targets ll) (c_cur c') ->
  agree (fun h' x y => untouched h h' /\ chain_stands h' (fst x) (fst y) /\ snd x = snd y)
    (h_advance (h_inversion_env spaces ll save like) n sc c h tr)
    (advance (inversion_env spaces ll save) n sc (Some nothing) (Some nothing) c' tr).
Proof.
  intros Hl Hset Hh Hv H Hp. pose proof (sim_advance spaces ll save like Hl Hset Hh n sc Hv h c c' H Hp tr) as S.
  unfold agree in *. destruct (h_advance _ n sc c h tr) as [[x t|x t| |] h']; destruct (advance _ _ _ _ _ _ tr) as [y t'|y t'| |]; cbn in *; auto.
  destruct S as (-> & U & [[S1 S2] _]). auto.
Qed.
(** One pass through the loop of an iteration, with all its outcomes. *)
Theorem C68_attempt spaces ll save like h c c' tr :
  likelihood_reads ll like -> setup_ok spaces (ll_targets ll) ->
  chain_stands h c c' -> good spaces (ll_targets ll) (c_cur c') ->
  agree (fun h' x y => untouched h h' /\ chain_stands h' (fst x) (fst y) /\ snd x = snd y)
    (h_attempt (h_inversion_env spaces ll save like) c h tr) (attempt (inversion_env spaces ll save) c' tr).
Proof. intros Hl Hset H Hp. exact (sim_attempt spaces ll save like Hl Hset h c c' H Hp tr). Qed.

(** * What the chain in memory saves
    Whatever a new chain in memory saves shows a well-formed state of one of the spaces, noise within
    the limits of its target, or predictions. *)
Theorem C68_saved spaces ll save like n sc h a s tr c o tr' h' :
  likelihood_reads ll like -> setup_ok spaces (ll_targets ll) -> ll_hier ll = hier_of (ll_targets ll) ->
  sc_verbose sc = false -> rep_state h a s -> good spaces (ll_targets ll) s ->
  h_advance (h_inversion_env spaces ll save like) n sc (mkChain a 1 [] [] 0 0 [] (SDict []) None []) h tr = (Ret (c, o) tr', h') ->
  exists d, c_saved c = SDict d /\
    forall k x, In x (stored k d) -> exists v, stands h' x v /\ saved_shows spaces (ll_targets ll) k v.
Proof.
  intros Hl Hset Hh Hv R Hg Hr.
  assert (H0 : chain_stands h (mkChain a 1 [] [] 0 0 [] (SDict []) None []) (new_chain (inversion_env spaces ll save) s)).
  { constructor; try reflexivity; [exact R|constructor]. }
  pose proof (C68_run spaces ll save like n sc h _ _ tr Hl Hset Hh Hv H0 Hg) as A. rewrite Hr in A. unfold agree in A. cbn [fst snd] in A.
  destruct (advance _ _ _ _ _ _ tr) as [[c2 o2] t2|e t2| |] eqn:Ev; try contradiction. destruct A as (-> & _ & H & _). cbn [fst] in H.
  assert (K : chain_ok (inversion_env spaces ll save) (good spaces (ll_targets ll)) c2).
  { eapply advance_ok; [now apply inversion_preserving|apply nothing_keeps|apply nothing_keeps|exact Ev|]. now apply new_chain_ok. }
  pose proof (cs_saved _ _ _ H) as Sv. destruct K as [_ K].
  destruct (c_saved c) as [d|], (c_saved c2) as [d2|]; cbn in Sv; try contradiction. exists d. split; auto.
  intros k x Hx. pose proof (dr_get _ _ _ k Sv) as G. unfold stored in Hx. cbn in K.
  destruct (dget k d) as [l|]; [|destruct Hx]. destruct (dget k d2) as [l2|] eqn:E2; [|contradiction].
  assert (Hin : exists v, In v l2 /\ stands h' x v).
  { clear - Hx G. induction G as [|u w l l2 K G IH]; [destruct Hx|]. destruct Hx as [<-|Hx]; [exists w; cbn; auto|].
    destruct (IH Hx) as (v & ? & ?). exists v. cbn. auto. }
  destruct Hin as (v & Hv1 & Hv2). exists v. split; auto. eapply saved_value_shows; eauto. apply K. unfold stored. now rewrite E2.
Qed.
(** A saved array in memory holds the numbers that the chain of values saved. *)
Theorem C68_array h x l : stands h x (OArr (Arr l)) -> (forall o, x <> QAny o) ->
  show h x = Some (OArr (Arr l)).
Proof.
  intros H Hn. remember (OArr (Arr l)) as y eqn:Ey. destruct H as [n|r|b v Rv Nv|q ds F|o|d|n|q]; try discriminate.
  - injection Ey as ->. cbn. inversion Rv as [? ? E| | |]; subst. now rewrite E.
  - now destruct (Hn o).
  - injection Ey as ->. reflexivity.
Qed.

(** * A likelihood in memory
    The code of _log_likelihood.py run on what the two objects show.  User functions are given what
    the entries of param_values show, the temperature, the cache and extra_storage. *)
Definition mem_like (ll : loglike) (h : heap) (a b : loc) (T : R) :
    M ((dict centry * dict ovalue) * (dict centry * dict ovalue) * (ext + exn)) := fun tr =>
  match read_state h a, read_state h b with
  | Some s, Some s' =>
      match log_likelihood_ratio ll s s' T tr with
      | Ret (o, n, r) tr' => Ret ((st_cache o, st_extra o), (st_cache n, st_extra n), r) tr'
      | Err e tr' => Err e tr'
      | UBeh => UBeh
      | Starve => Starve
      end
  | _, _ => UBeh
  end.
Definition same_shown (s u : state) : Prop :=
  SpecState.view_state s = SpecState.view_state u /\ st_temp s = st_temp u /\ st_cache s = st_cache u /\ st_extra s = st_extra u.
(** User functions that look at nothing else. *)
Record users_look (ll : loglike) : Prop := {
  ul_fwd : forall f s u tr, In f (ll_fwds ll) -> same_shown s u -> f_fun f s tr = f_fun f u tr;
  ul_ratio : forall f s u s' u' tr, ll_ratio ll = Some f -> same_shown s u -> same_shown s' u' -> f s s' tr = f u u' tr;
  ul_func : forall f s u tr, ll_func ll = Some f -> same_shown s u -> f s tr = f u tr
}.
Definition oagree {A B} (R : A -> B -> Prop) (x : out A) (y : out B) : Prop :=
  match x, y with
  | Ret a t, Ret b t' => t = t' /\ R a b
  | Err e t, Err e' t' => e = e' /\ t = t'
  | UBeh, UBeh => True
  | Starve, Starve => True
  | _, _ => False
  end.
Lemma oagree_bind {A B A' B'} (m : M A) (m' : M A') R (f : A -> M B) (f' : A' -> M B') S tr :
  oagree R (m tr) (m' tr) -> (forall a b t, R a b -> oagree S (f a t) (f' b t)) -> oagree S (bind m f tr) (bind m' f' tr).
Proof.
  intros H K. unfold bind. destruct (m tr), (m' tr); cbn in *; try contradiction; auto. destruct H as [-> H]. auto.
Qed.
Lemma noise_of_shown t s u : same_shown s u -> noise_of t s = noise_of t u.
Proof. intros (V & _). rewrite <- (noise_of_view t s 0 [] []), <- (noise_of_view t u 0 [] []). now rewrite V. Qed.
Lemma misfit_shown t s u d : same_shown s u -> target_misfit t s d = target_misfit t u d.
Proof. intros H. unfold target_misfit, inv_cov_times, log_det_cov. now rewrite (noise_of_shown t s u H). Qed.
Lemma misfit_loop_shown l : (forall t f s u tr, In (t, f) l -> same_shown s u -> f_fun f s tr = f_fun f u tr) ->
  forall s u m d tr, same_shown s u ->
  oagree (fun x y => same_shown (fst x) (fst y) /\ snd x = snd y) (misfit_loop l s m d tr) (misfit_loop l u m d tr).
Proof.
  intros Hf. induction l as [|[t f] l IH]; intros s u m d tr H; cbn [misfit_loop].
  - cbn. auto.
  - eapply oagree_bind with (R := fun x y => same_shown (fst x) (fst y) /\ snd x = snd y).
    + unfold get_dpred. pose proof H as (_ & _ & Ec & _). rewrite Ec. destruct (dget (dpred_key t) (st_cache u)) as [[dp| |]|]; cbn; auto.
      assert (Et : try (call_fwd f s) tr = try (call_fwd f u) tr).
      { unfold try, call_fwd. destruct (f_tuple f); [reflexivity|]. now rewrite (Hf t f s u tr (or_introl eq_refl) H). }
      unfold bind. rewrite Et. destruct (try (call_fwd f u) tr) as [[x|e] t1|e t1| |]; cbn; auto.
      split; auto. split; auto. destruct H as (V & W & C & X). unfold same_shown, st_save_cache, SpecState.view_state in *. cbn. rewrite C. auto.
    + intros [s1 o1] [u1 o2] t1 [H1 Eo]. cbn [fst snd] in H1, Eo. subst o1. destruct o2 as [dp|e]; [|cbn; auto].
      rewrite (misfit_shown t s1 u1 dp H1). destruct (target_misfit t u1 dp) as [[a b]|e|]; cbn; auto.
      apply IH; auto. intros t0 f0 s0 u0 tr0 Hin. apply (Hf t0). now right.
Qed.
Lemma like_shown ll s s' u u' T tr : users_look ll -> same_shown s u -> same_shown s' u' ->
  oagree (fun x y => same_shown (fst (fst x)) (fst (fst y)) /\ same_shown (snd (fst x)) (snd (fst y)) /\ snd x = snd y)
    (log_likelihood_ratio ll s s' T tr) (log_likelihood_ratio ll u u' T tr).
Proof.
  intros Hu H H'. unfold log_likelihood_ratio. destruct (Reqb T 0); [exact I|].
  apply oagree_bind with (R := fun x y => same_shown (fst (fst x)) (fst (fst y)) /\ same_shown (snd (fst x)) (snd (fst y)) /\ snd x = snd y).
  2:{ intros [[o n] r] [[o2 n2] r2] t (K1 & K2 & K3). cbn in *. subst. auto. }
  unfold raw_ratio. destruct (ll_mode ll).
  - unfold ratio_from_targets.
    assert (Hf : forall t f s u tr, In (t, f) (combine (ll_targets ll) (ll_fwds ll)) -> same_shown s u -> f_fun f s tr = f_fun f u tr).
    { intros t f s0 u0 tr0 Hin. apply in_combine_r in Hin. now apply (ul_fwd ll Hu). }
    eapply oagree_bind; [apply misfit_loop_shown; eauto|]. intros [o1 r1] [o2 r2] t [K Ek]. cbn [fst snd] in K, Ek. subst r1.
    destruct r2 as [[m1 d1]|e]; [|cbn; auto].
    eapply oagree_bind; [apply misfit_loop_shown; eauto|]. intros [n1 r1'] [n2 r2'] t' [K' Ek]. cbn [fst snd] in K', Ek. subst r1'.
    destruct r2' as [[m2 d2]|e]; cbn; auto.
  - destruct (ll_ratio ll) as [f|] eqn:Ef; [|exact I]. unfold wrapped, bind, try. rewrite (ul_ratio ll Hu f s u s' u' tr Ef H H').
    destruct (f u u' tr); cbn; auto.
  - destruct (ll_func ll) as [f|] eqn:Ef; [|exact I]. unfold ratio_from_like, wrapped, bind, try. rewrite (ul_func ll Hu f s u tr Ef H).
    destruct (f u tr) as [x t|x t| |]; cbn; auto. rewrite (ul_func ll Hu f s' u' t Ef H'). destruct (f u' t); cbn; auto.
Qed.
Lemma view_idem p : view (view p) = view p.
Proof.
  induction p as [n vals attrs cache IH] using psstate_ind'. rewrite view_eq. rewrite view_eq. f_equal. unfold view_vals. rewrite map_map. apply map_ext_in.
  intros [k v] Hin. cbn [fst snd]. f_equal. specialize (IH k v). 
  destruct v as [l|l|l|l]; cbn in *; auto; f_equal; rewrite map_map; apply map_ext_in; intros q Hq; eapply IH; eauto.
Qed.
Lemma shown_read s : same_shown s (mkState (SpecState.view_state s) [] (st_temp s) (st_cache s) (st_extra s)).
Proof.
  split; [|auto]. unfold SpecState.view_state. cbn [st_vals]. rewrite map_map. apply map_ext. intros [k e]. cbn [fst snd]. f_equal.
  destruct e; cbn; auto. now rewrite view_idem.
Qed.
Theorem C68_likelihood ll : users_look ll -> likelihood_reads ll (mem_like ll).
Proof.
  intros Hu h a b s s' T tr R R'. unfold mem_like.
  pose proof (run_view_state h a s [] R) as E1. pose proof (run_view_state h b s' [] R') as E2. unfold ModelHeap.view_state in E1, E2.
  destruct (read_state h a) as [x|]; [|discriminate]. injection E1 as ->. destruct (read_state h b) as [x'|]; [|discriminate]. injection E2 as ->.
  pose proof (like_shown ll s s' _ _ T tr Hu (shown_read s) (shown_read s')) as K. unfold oagree in K.
  destruct (log_likelihood_ratio ll s s' T tr) as [[[o n] r] t|e t| |], (log_likelihood_ratio ll _ _ T tr) as [[[o2 n2] r2] t2|e2 t2| |];
    cbn in K; try contradiction; auto.
  - destruct K as (-> & (_ & _ & C1 & X1) & (_ & _ & C2 & X2) & ->). now rewrite C1, C2, X1, X2.
  - destruct K as [-> ->]. reflexivity.
Qed.

(** ** A case
    The starting state of the inversion of ExampleRun.v in memory; nested states, noise.  One
    iteration gives birth to a second cell and saves it. *)
Definition ex_mem : heap :=
  [ HArr [5]; HArr [2]; HArr [1/2];
    HDict [("w", 2%nat)]; HPS 1 3%nat [("w", 2%nat)] []; HLst [4%nat];
    HDict [("discretization", 0%nat); ("v", 1%nat); ("in", 5%nat)];
    HPS 1 6%nat [("discretization", 0%nat); ("v", 1%nat); ("in", 5%nat)] [];
    HNoise (mkNoise 1 (Some 0));
    HDict [("vor", 7%nat); ("d", 8%nat)]; HState 9%nat [("vor", 7%nat); ("d", 8%nat)] 1 [] [] ].
Ltac drels := repeat (apply Forall2_cons || apply Forall2_nil || (split; [reflexivity|cbn [fst snd]])).
Lemma arel_of_drel {B} (R : loc -> B -> Prop) dl vals : drel R dl vals -> arel R dl vals.
Proof. intros D k b E. pose proof (drel_get R dl vals k D) as G. rewrite E in G. exact G. Qed.
Lemma ex_mem_rep : rep_state ex_mem 10%nat ex_start.
Proof.
  assert (R4 : rep ex_mem 4%nat (ex_inner (1/2))).
  { assert (D : drel (repv ex_mem) [("w", 2%nat)] [("w", Arr [1/2])]) by (drels; now constructor).
    eapply (rep_mk ex_mem 4%nat (ex_inner (1/2))); [reflexivity|reflexivity|exact D|now apply arel_of_drel]. }
  assert (R7 : rep ex_mem 7%nat ex_p0).
  { assert (D : drel (repv ex_mem) [("discretization", 0%nat); ("v", 1%nat); ("in", 5%nat)] (ps_vals ex_p0)).
    { drels; [now constructor|now constructor|]. eapply repv_lst; [reflexivity|]. repeat constructor. exact R4. }
    eapply (rep_mk ex_mem 7%nat ex_p0); [reflexivity|reflexivity|exact D|now apply arel_of_drel]. }
  assert (D : drel (rep_entry ex_mem) [("vor", 7%nat); ("d", 8%nat)] (st_vals ex_start)).
  { drels; [constructor; exact R7|constructor; reflexivity]. }
  eapply rep_state_mk; [reflexivity|reflexivity|exact D|now apply (arel_of_drel (rep_entry ex_mem))].
Qed.
Lemma ex_users : users_look ex_ll.
Proof.
  constructor.
  - intros f s u tr [<-|[]] _. reflexivity.
  - discriminate.
  - discriminate.
Qed.
Lemma ex_advance tr : exists c, advance ex_env 1 ex_sched (Some nothing) (Some nothing) ex_chain0
    (DU (1/2) :: DInt 0 :: DU 0 :: DU (8/10) :: DU (3/4) :: DZ 1 :: DU (1/2) :: tr) = Ret (c, None) tr /\
  c_cur c = with_pred ex_next /\ c_saved c = SDict ex_saved.
Proof.
  destruct (ex_finish (set_cur (with_pred ex_start) (set_flag true ex_chain0)))
    as (c & Hf & H1 & H2); try reflexivity.
  exists c. split; [|split; auto]. cbn [advance]. unfold bind at 1, advance_one. change (c_nprop_tot ex_chain0) with 0%nat.
  change (save_flag ex_sched 1) with (@Ok bool true). cbn iota. unfold bind at 1. unfold call_hook at 1, nothing at 1, ret at 1. cbn iota.
  unfold bind at 1. rewrite ex_next_iteration by reflexivity. rewrite Hf. reflexivity.
Qed.
Example C68_case tr : exists c h' d,
  h_advance (h_inversion_env [ex_vor] ex_ll true (mem_like ex_ll)) 1 ex_sched
    (mkChain 10%nat 1 [] [] 0 0 [] (SDict []) None []) ex_mem
    (DU (1/2) :: DInt 0 :: DU 0 :: DU (8/10) :: DU (3/4) :: DZ 1 :: DU (1/2) :: tr) = (Ret (c, None) tr, h') /\
  rep_state h' (c_cur c) (with_pred ex_next) /\ untouched ex_mem h' /\
  c_saved c = SDict d /\ saved_stands h' (SDict d) (SDict ex_saved) /\
  exists x, stored "vor.discretization" d = [x] /\ stands h' x (OArr (Arr [5; 8])).
Proof.
  destruct (ex_advance tr) as (c' & Ea & Hc & Hs).
  assert (H0 : chain_stands ex_mem (mkChain 10%nat 1 [] [] 0 0 [] (SDict []) None []) ex_chain0).
  { constructor; try reflexivity; [exact ex_mem_rep|constructor]. }
  assert (Hg : good [ex_vor] (ll_targets ex_ll) (c_cur ex_chain0)).
  { exact (starting_ok [ex_vor] ex_ll _ _ _ ex_setup (ex_starting [])). }
  pose proof (C68_run [ex_vor] ex_ll true (mem_like ex_ll) 1 ex_sched ex_mem _ _
    (DU (1/2) :: DInt 0 :: DU 0 :: DU (8/10) :: DU (3/4) :: DZ 1 :: DU (1/2) :: tr)
    (C68_likelihood ex_ll ex_users) ex_setup eq_refl eq_refl H0 Hg) as A.
  fold ex_env in A. rewrite Ea in A. unfold agree in A.
  destruct (h_advance _ 1 ex_sched _ ex_mem _) as [[[c o] t|e t| |] h']; cbn [fst snd] in A; try contradiction.
  destruct A as (-> & U & H & Eo). subst o. pose proof (cs_cur _ _ _ H) as Rc. rewrite Hc in Rc.
  pose proof (cs_saved _ _ _ H) as Sv. rewrite Hs in Sv. destruct (c_saved c) as [d|] eqn:Ed; [|contradiction].
  exists c, h', d. split; [reflexivity|]. split; [exact Rc|]. split; [exact U|]. split; [exact Ed|]. split; [exact Sv|].
  pose proof (dr_get _ _ _ "vor.discretization" Sv) as G. unfold stored. destruct (dget "vor.discretization" d) as [l|]; [|contradiction].
  change (dget "vor.discretization" ex_saved) with (Some [OArr (Arr [5; 8])]) in G. inversion G as [|x y l1 l2 K1 K2]; subst.
  inversion K2; subst. eauto.
Qed.
