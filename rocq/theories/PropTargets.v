(** C43: targets added to a likelihood that is in use. *)
From Verif Require Import Base ModelPrior ModelState ModelSpace ModelPerturb ModelChain ModelSampler
  ModelLikelihood SpecState SpecSpace SpecChain SpecRun SpecLikelihood
  ProofChain ProofSampler ProofInversion ProofState ProofSpace ProofPerturb ProofTree ProofRun ProofRunB ProofRunC
  PropRun PropNeighbour PropLikelihood ExampleRun.
Local Open Scope R_scope.
Local Open Scope string_scope.

(** * Specification *)
(** One noise perturbation of weight 1 for the targets of unknown noise, none without such
    targets. *)
Definition noise_moves (ts : list target) (l : list (pfunc * R)) : Prop :=
  (l = [] /\ forall t, In t ts -> ~ unknown_noise t) \/
  (exists us, l = [(FNoise us, 1)] /\ us <> [] /\ forall t, In t us <-> In t ts /\ unknown_noise t).
(** An inversion is in step with the targets: its functions are those of its spaces and the
    noise perturbation, its chains have the same functions, and their current states have
    noise within the limits for every target of unknown noise. *)
Definition obs_in_step (ts : list target) (ob : observer) : Prop :=
  (exists nm, noise_moves ts nm /\
     ob_funcs ob = (map (fun qw => (FSpace (fst qw), snd qw)) (all_funcs (ob_spaces ob)) ++ nm)%list) /\
  Forall (fun c => fst c = ob_funcs ob /\ good (ob_spaces ob) ts (snd c)) (ob_chains ob).
Record in_step (ll : loglike) (obs : list observer) : Prop := {
  is_names : NoDup (map t_name (ll_targets ll));
  is_noise : noise_moves (ll_targets ll) (ll_pfuncs ll);
  is_obs : Forall (obs_in_step (ll_targets ll)) obs
}.
(** What initializing noise leaves alone. *)
Definition only_noise (ts : list target) (s s' : state) : Prop :=
  (forall k, ~ (exists t, In t ts /\ unknown_noise t /\ k = t_name t) -> st_get k s' = st_get k s) /\
  st_cache s' = st_cache s /\ st_temp s' = st_temp s.
(** What the arguments of add_targets give. *)
Definition gives_targets (ts : option (list targ)) (nt : list target) : Prop := ts = Some (map ATarget nt).
Definition gives_fwds (fs : option (list farg)) (nf : list fwd) : Prop :=
  fs = Some (map AFwd nf) \/ fs = None /\ nf = [].

(** * Proofs *)
Lemma nodup_end {A} (l l' : list A) : NoDup (l ++ l') -> NoDup l'.
Proof. induction l as [|a l IH]; cbn; auto. intros H. inversion H; auto. Qed.
Lemma only_targets_all nt : only_targets (map ATarget nt) = Some nt.
Proof. induction nt as [|t l IH]; cbn; auto. now rewrite IH. Qed.
Lemma only_fwds_all nf : only_fwds (map AFwd nf) = Some nf.
Proof. induction nf as [|t l IH]; cbn; auto. now rewrite IH. Qed.
Lemma dup_name_true l : dup_name l = true -> ~ NoDup l.
Proof.
  induction l as [|x l IH]; cbn; intros H Hn; [discriminate|]. inversion Hn as [|? ? H1 H2]; subst.
  apply orb_true_iff in H as [H|H]; [|now apply IH]. apply existsb_exists in H. destruct H as (y & Hy & E).
  apply String.eqb_eq in E. subst. auto.
Qed.
Lemma dup_name_nodup l : NoDup l -> dup_name l = false.
Proof. intros H. destruct (dup_name l) eqn:E; auto. apply dup_name_true in E. contradiction. Qed.
Lemma filter_moves ts : noise_moves ts (match filter is_hier ts with [] => [] | l => [(FNoise l, 1)] end).
Proof.
  fold (hier_of ts). destruct (hier_of ts) as [|u us] eqn:E; [left|right].
  - split; auto. intros t Ht Hu. assert (H : In t (hier_of ts)) by (apply hier_in; auto). rewrite E in H. destruct H.
  - exists (u :: us). split; auto. split; [discriminate|]. intros t. rewrite <- E. apply hier_in.
Qed.
(** A call with targets only and functions only, no name twice. *)
Lemma extend_valid ts fs ll nt nf : gives_targets ts nt -> gives_fwds fs nf ->
  NoDup (map t_name (ll_targets ll ++ nt)) ->
  extend_targets ts fs ll =
  (mkLL (ll_targets ll ++ nt) (ll_fwds ll ++ nf) (ll_ratio ll) (ll_func ll) (ll_mode ll)
        (filter is_hier (ll_targets ll ++ nt)), None).
Proof.
  intros -> Hf Hn. unfold extend_targets. rewrite only_targets_all.
  assert (E : match fs with None => Some [] | Some l => only_fwds l end = Some nf).
  { destruct Hf as [-> | [-> ->]]; auto. apply only_fwds_all. }
  rewrite E. cbn [set_lists ll_targets ll_fwds ll_ratio ll_func ll_mode ll_hier].
  now rewrite dup_name_nodup.
Qed.
Lemma init_target_safe t s : safe (target_initialize t s) (fun _ => True).
Proof.
  unfold target_initialize. destruct (is_hier t); [|now apply safe_ret].
  eapply safe_bind; [apply safe_uniform|]. intros std _. eapply (safe_bind _ _ (fun _ => True)).
  - destruct (t_corr t); [|now apply safe_ret]. eapply safe_bind; [apply safe_uniform|]. intros. now apply safe_ret.
  - intros. now apply safe_ret.
Qed.
Lemma init_targets_safe ts : forall s, safe (targets_initialize ts s) (fun _ => True).
Proof.
  induction ts as [|t ts IH]; intros s; cbn [targets_initialize]; [now apply safe_ret|].
  eapply safe_bind; [apply init_target_safe|]. intros s' _. apply IH.
Qed.
Lemma init_good spaces old nt s tr s' tr' : setup_ok spaces (old ++ nt) -> good spaces old s ->
  targets_initialize nt s tr = Ret s' tr' -> good spaces (old ++ nt) s' /\ only_noise nt s s'.
Proof.
  intros Hset [Hs Hx] H. destruct (setup_parts _ _ Hset) as [N1 N2]. rewrite map_app in N2.
  assert (Ht : forall t, In t nt -> target_ok t).
  { intros t Hin. apply (se_targets _ _ Hset). apply in_or_app. auto. }
  assert (N3 : NoDup (map t_name nt)). { eapply nodup_end; eauto. }
  assert (N4 : forall t u, In t old -> In u nt -> t_name t <> t_name u).
  { intros t u H1 H2 E. clear - N2 H1 H2 E. induction old as [|a l IH]; [destruct H1|]. cbn in N2.
    inversion N2 as [|? ? A B]; subst. destruct H1 as [<-|H1]; auto. apply A. apply in_or_app. right. rewrite E. now apply in_map. }
  destruct (targets_initialize_spec nt Ht N3 s tr s' tr' H (so_nodup _ _ _ Hs)) as (A & B & C & D & F1 & F2 & F3).
  split; [split; [split; auto|congruence]|].
  - intros k. rewrite B, (so_keys _ _ _ Hs). split.
    + intros [[G|(t & G1 & G2)]|(t & G1 & G2)]; auto; right; exists t; (split; [apply in_or_app; auto|auto]).
    + intros [G|(t & G1 & G2)]; auto. apply in_app_or in G1. destruct G1 as [G1|G1]; [left; right; eauto|right; eauto].
  - intros sp Hsp. destruct (so_spaces _ _ _ Hs sp Hsp) as (p & E & Hwf). exists p. split; auto. rewrite C; auto.
    intros Hin. apply in_map_iff in Hin. destruct Hin as (tg & Et & Hin). symmetry in Et. revert Et.
    eapply names_apart; [exact Hset|auto|]. apply in_or_app. auto.
  - intros t Hin Hu. apply in_app_or in Hin. destruct Hin as [Hin|Hin]; [|auto].
    destruct (so_noise _ _ _ Hs t Hin Hu) as (d & E & Hd). exists d. split; auto. rewrite C; auto.
    intros G. apply in_map_iff in G. destruct G as (u & G1 & G2). symmetry in G1. revert G1. now apply N4.
  - split; [|auto]. intros k Hk. destruct (in_dec String.string_dec k (map t_name nt)) as [G|G]; [|auto].
    apply in_map_iff in G. destruct G as (t & <- & G).
    assert (~ unknown_noise t) by (intros ?; apply Hk; eauto).
    destruct (dget (t_name t) (st_vals s')) as [e|] eqn:E1.
    + exfalso. apply dget_some_in in E1. apply in_map with (f := fst) in E1. apply B in E1.
      destruct E1 as [E1|(u & U1 & U2 & U3)]; [|apply Hk; eauto].
      apply (so_keys _ _ _ Hs) in E1. destruct E1 as [(sp & S1 & S2)|(u & U1 & U2 & U3)].
      * eapply names_apart; [exact Hset|exact S1| |symmetry; exact S2]. apply in_or_app. eauto.
      * eapply N4; [exact U1|exact G|auto].
    + unfold st_get. rewrite E1. destruct (dget (t_name t) (st_vals s)) as [e|] eqn:E2; auto. exfalso.
      apply dget_some_in in E2. apply in_map with (f := fst) in E2.
      assert (E3 : In (t_name t) (dkeys (st_vals s'))) by (apply B; left; exact E2).
      apply dget_keys in E3. destruct E3 as (e' & E3). congruence.
Qed.

Section Valid.
Variables old nt : list target.
Variable ll' : loglike.
Hypothesis Htargets : ll_targets ll' = (old ++ nt)%list.
Hypothesis Hhier : ll_hier ll' = filter is_hier (old ++ nt).
Definition chain_step (funcs : list (pfunc * R)) (spaces : list space) (c c' : list (pfunc * R) * state) : Prop :=
  fst c' = funcs /\ good spaces (old ++ nt) (snd c') /\ only_noise nt (snd c) (snd c').
Lemma update_chains_ok funcs spaces cs : setup_ok spaces (old ++ nt) -> Forall (fun c => good spaces old (snd c)) cs ->
  safe (update_chains funcs (Some nt) cs) (fun '(cs', o) => o = None /\ Forall2 (chain_step funcs spaces) cs cs').
Proof.
  intros Hset H. induction H as [|[f s] cs Hs H IH]; cbn [update_chains]; [apply safe_ret; auto|].
  unfold chain_update. eapply (safe_bind _ _ (fun r => snd r = None /\ good spaces (old ++ nt) (fst r) /\ only_noise nt s (fst r))).
  - eapply safe_bind; [eapply safe_results; [apply init_targets_safe|]|].
    + intros tr s' tr' E. exact (init_good _ _ _ _ _ _ _ Hset Hs E).
    + intros s' [_ [A B]]. apply safe_ret. auto.
  - intros [s' o] (E & A & B). cbn in E, A, B. subst o. eapply safe_bind; [exact IH|].
    intros [cs' o'] [-> F]. apply safe_ret. split; auto. constructor; auto. repeat split; auto; apply A || apply B.
Qed.
Definition obs_step (ob ob' : observer) : Prop :=
  ob_spaces ob' = ob_spaces ob /\
  Forall2 (fun c c' => only_noise nt (snd c) (snd c')) (ob_chains ob) (ob_chains ob').
Lemma update_observers_ok obs : Forall (fun ob => setup_ok (ob_spaces ob) (old ++ nt)) obs ->
  Forall (obs_in_step old) obs ->
  safe (update_observers ll' (Some nt) obs)
    (fun '(obs', o) => o = None /\ Forall (obs_in_step (old ++ nt)) obs' /\ Forall2 obs_step obs obs').
Proof.
  intros H1 H2. induction H2 as [|ob obs H2 _ IH]; cbn [update_observers]; [apply safe_ret; auto|].
  inversion H1 as [|? ? H3 H4]; subst. destruct H2 as [_ Hc]. unfold update_observer.
  eapply (safe_bind _ _ (fun r => snd r = None /\ obs_in_step (old ++ nt) (fst r) /\ obs_step ob (fst r))).
  - eapply safe_bind; [eapply update_chains_ok; [exact H3|]|].
    + eapply Forall_impl; [|exact Hc]. intros c [_ HH]. exact HH.
    + intros [cs o] [-> F]. apply safe_ret. cbn [fst snd]. split; auto. split; split; cbn [ob_spaces ob_funcs ob_chains]; auto.
      * eexists. split; [apply (filter_moves (old ++ nt))|]. unfold inv_pfuncs, ll_pfuncs. rewrite Hhier. reflexivity.
      * clear - F. induction F as [|c c' l l' (A & B & _) F IH]; auto.
      * clear - F. induction F as [|c c' l l' (A & _ & B) F IH]; auto.
  - intros [ob' o] (E & A & B). cbn in E, A, B. subst o. eapply safe_bind; [exact (IH H4)|].
    intros [obs' o'] (-> & F & G). apply safe_ret. auto.
Qed.
End Valid.

(** * C43 *)
(** A valid call cannot raise: it adds targets and functions at the end of those there are,
    and puts the likelihood and every observing inversion in step; in the current states only
    the noise of the new targets is set.  Missing is that an invalid call changes nothing
    (C43_refuted), and that new forward functions can be used in every form
    (C43_tuple_refuted). *)
Theorem C43_partial ts fs nt nf ll obs :
  gives_targets ts nt -> gives_fwds fs nf -> in_step ll obs ->
  NoDup (map t_name (ll_targets ll ++ nt)) ->
  Forall (fun ob => setup_ok (ob_spaces ob) (ll_targets ll ++ nt)) obs ->
  safe (add_targets ts fs ll obs) (fun '(ll', obs', o) => o = None /\
    ll_targets ll' = (ll_targets ll ++ nt)%list /\ ll_fwds ll' = (ll_fwds ll ++ nf)%list /\
    ll_ratio ll' = ll_ratio ll /\ ll_func ll' = ll_func ll /\ ll_mode ll' = ll_mode ll /\
    in_step ll' obs' /\ Forall2 (obs_step nt) obs obs').
Proof.
  intros Ht Hf Hin Hn Hset. unfold add_targets. rewrite (extend_valid ts fs ll nt nf Ht Hf Hn).
  rewrite Ht, only_targets_all. eapply safe_bind.
  - apply (update_observers_ok (ll_targets ll) nt); [reflexivity|exact Hset|apply Hin].
  - intros [obs' o] (-> & A & B). apply safe_ret. cbn [ll_targets ll_fwds ll_ratio ll_func ll_mode].
    split; [auto|]. split; [auto|]. split; [auto|]. split; [auto|]. split; [auto|]. split; [auto|]. split; [|exact B].
    split; auto. apply (filter_moves (ll_targets ll ++ nt)).
Qed.
(** Any number of valid calls one after the other. *)
Inductive valid_additions : loglike -> list observer -> list target -> loglike -> list observer -> Prop :=
| adds_none ll obs : valid_additions ll obs [] ll obs
| adds_more ll obs ts fs nt nf tr ll1 obs1 o tr' more ll2 obs2 :
    gives_targets ts nt -> gives_fwds fs nf -> NoDup (map t_name (ll_targets ll ++ nt)) ->
    Forall (fun ob => setup_ok (ob_spaces ob) (ll_targets ll ++ nt)) obs ->
    add_targets ts fs ll obs tr = Ret (ll1, obs1, o) tr' -> valid_additions ll1 obs1 more ll2 obs2 ->
    valid_additions ll obs (nt ++ more) ll2 obs2.
Theorem C43_history_partial ll obs all ll' obs' : in_step ll obs -> valid_additions ll obs all ll' obs' ->
  ll_targets ll' = (ll_targets ll ++ all)%list /\ in_step ll' obs' /\ ll_mode ll' = ll_mode ll.
Proof.
  intros Hin H. induction H as [ll obs|ll obs ts fs nt nf tr ll1 obs1 o tr' more ll2 obs2 H1 H2 H3 H4 H5 H6 IH].
  - rewrite app_nil_r. auto.
  - pose proof (C43_partial ts fs nt nf ll obs H1 H2 Hin H3 H4 tr) as S. rewrite H5 in S.
    destruct S as (_ & S1 & _ & _ & _ & S2 & S3 & _). destruct (IH S3) as (A & B & C).
    rewrite A, S1, C, S2. split; [apply eq_sym, app_assoc|]. auto.
Qed.
(** A call with a name that is taken raises ValueError and does not reach the inversions. *)
Theorem C43_duplicate ts fs nt nf ll obs tr : gives_targets ts nt -> gives_fwds fs nf ->
  ~ NoDup (map t_name (ll_targets ll ++ nt)) ->
  exists ll', add_targets ts fs ll obs tr = Ret (ll', obs, Some EValue) tr.
Proof.
  intros -> Hf Hn. unfold add_targets, extend_targets. rewrite only_targets_all.
  assert (E : match fs with None => Some [] | Some l => only_fwds l end = Some nf).
  { destruct Hf as [-> | [-> ->]]; auto. apply only_fwds_all. }
  rewrite E. cbn [set_lists ll_targets ll_fwds ll_ratio ll_func ll_mode ll_hier].
  destruct (dup_name _) eqn:Ed; [|apply dup_name_false in Ed; contradiction]. eexists. reflexivity.
Qed.
(** But the targets stay: after it every call of add_targets raises, whatever its arguments. *)
Theorem C43_stuck ts fs nt nf ll obs tr ll' obs' o tr' : gives_targets ts nt -> gives_fwds fs nf ->
  ~ NoDup (map t_name (ll_targets ll ++ nt)) -> add_targets ts fs ll obs tr = Ret (ll', obs', o) tr' ->
  ll_targets ll' = (ll_targets ll ++ nt)%list /\ ll_fwds ll' = (ll_fwds ll ++ nf)%list /\
  forall ts2 fs2 obs2 tr2, exists ll2 e, add_targets ts2 fs2 ll' obs2 tr2 = Ret (ll2, obs2, Some e) tr2.
Proof.
  intros -> Hf Hn H. unfold add_targets, extend_targets in H. rewrite only_targets_all in H.
  assert (E : match fs with None => Some [] | Some l => only_fwds l end = Some nf).
  { destruct Hf as [-> | [-> ->]]; auto. apply only_fwds_all. }
  rewrite E in H. cbn [set_lists ll_targets ll_fwds ll_ratio ll_func ll_mode ll_hier] in H.
  destruct (dup_name _) eqn:Ed; [|apply dup_name_false in Ed; contradiction].
  mr H. injection H as <- <- <-. cbn [ll_targets ll_fwds]. split; auto. split; auto.
  intros ts2 fs2 obs2 tr2. unfold add_targets, extend_targets. cbn [set_lists ll_targets ll_fwds ll_ratio ll_func ll_mode ll_hier].
  destruct (match ts2 with None => Some [] | Some l => only_targets l end) as [nt2|]; [|eexists _, _; reflexivity].
  destruct (match fs2 with None => Some [] | Some l => only_fwds l end) as [nf2|]; [|eexists _, _; reflexivity].
  cbn [set_lists ll_targets ll_fwds].
  destruct (dup_name (map t_name ((ll_targets ll ++ nt) ++ nt2))) eqn:E2; [eexists _, _; reflexivity|].
  exfalso. apply dup_name_false in E2. apply Hn. rewrite map_app in E2. clear - E2.
  revert E2. generalize (map t_name (ll_targets ll ++ nt)) as l. induction l as [|a l IH]; cbn; intros E2; [constructor|].
  inversion E2 as [|? ? A B]; subst. constructor; auto. intros Hin. apply A. apply in_or_app. auto.
Qed.

(** ** Cases *)
Local Opaque Rleb Rltb Reqb py_int.
Definition ex_t2 : target := mkTarget "e" [4; 5] None false (1/2) 3 (1/10) 0 1 (1/10).
Definition ex_obs : observer :=
  mkObs [ex_vor] (inv_pfuncs [ex_vor] ex_ll) [(inv_pfuncs [ex_vor] ex_ll, ex_start)].
Lemma ex_start_good : good [ex_vor] [ex_t] ex_start.
Proof.
  pose proof (ex_starting []) as H.
  eapply (starting_ok [ex_vor] ex_ll); [apply ex_setup|exact H].
Qed.
Lemma ex_in_step : in_step ex_ll [ex_obs].
Proof.
  split.
  - constructor; [intros []|constructor].
  - apply (filter_moves [ex_t]).
  - constructor; [|constructor]. split.
    + eexists. split; [apply (filter_moves [ex_t])|reflexivity].
    + constructor; [|constructor]. split; [reflexivity|apply ex_start_good].
Qed.
Lemma ex_setup2 : setup_ok [ex_vor] [ex_t; ex_t2].
Proof.
  destruct ex_setup as [H1 H2 H3 H4]. split; auto.
  - cbn. repeat constructor; cbn; intuition discriminate.
  - intros t [<-|[<-|[]]]; [apply H4; now left|]. split; cbn; lra.
Qed.
(** Adding a second target of unknown noise to the inversion of the examples. *)
Example C43_case : 
  gives_targets (Some [ATarget ex_t2]) [ex_t2] /\ gives_fwds (Some [AFwd (mkFwd ex_fwd false)]) [mkFwd ex_fwd false] /\
  in_step ex_ll [ex_obs] /\ NoDup (map t_name (ll_targets ex_ll ++ [ex_t2])) /\
  Forall (fun ob => setup_ok (ob_spaces ob) (ll_targets ex_ll ++ [ex_t2])) [ex_obs] /\
  exists ll' obs', add_targets (Some [ATarget ex_t2]) (Some [AFwd (mkFwd ex_fwd false)]) ex_ll [ex_obs] [DU (1/2)]
    = Ret (ll', obs', None) [] /\ ll_targets ll' = [ex_t; ex_t2].
Proof.
  split; [reflexivity|]. split; [now left|]. split; [apply ex_in_step|]. split.
  { cbn. repeat constructor; cbn; intuition discriminate. }
  split; [constructor; [apply ex_setup2|constructor]|].
  unfold add_targets, extend_targets. cbn [only_targets only_fwds option_map].
  change (dup_name _) with false. cbn iota.
  cbn [update_observers]. unfold update_observer, ex_obs.
  cbn [ob_chains ob_spaces update_chains]. unfold chain_update. cbn [targets_initialize].
  unfold target_initialize. change (is_hier ex_t2) with true. change (t_corr ex_t2) with false. cbn iota.
  unfold bind, uniform, bind, ret. rewrite drawU_ok by lra. eexists _, _. split; reflexivity.
Qed.
(** The same target again: the call fails, but the target stays and no target can be added
    any more. *)
Theorem C43_refuted : exists ts fs ll obs tr ll' obs' tr', in_step ll obs /\
  add_targets ts fs ll obs tr = Ret (ll', obs', Some EValue) tr' /\
  ll_targets ll' <> ll_targets ll /\ ll_fwds ll' <> ll_fwds ll /\
  (forall ts2 fs2 obs2 tr2, exists ll2 e, add_targets ts2 fs2 ll' obs2 tr2 = Ret (ll2, obs2, Some e) tr2).
Proof.
  exists (Some [ATarget ex_t]), (Some [AFwd (mkFwd ex_fwd false)]), ex_ll, [ex_obs], [].
  assert (Hn : ~ NoDup (map t_name (ll_targets ex_ll ++ [ex_t]))).
  { intros H. inversion H as [|? ? A _]; subst. apply A. now left. }
  destruct (C43_duplicate (Some [ATarget ex_t]) (Some [AFwd (mkFwd ex_fwd false)]) [ex_t] [mkFwd ex_fwd false] ex_ll [ex_obs] []
    eq_refl (or_introl eq_refl) Hn) as (ll' & E).
  destruct (C43_stuck _ _ [ex_t] [mkFwd ex_fwd false] _ _ _ _ _ _ _ eq_refl (or_introl eq_refl) Hn E) as (A & B & C).
  exists ll', [ex_obs], []. split; [apply ex_in_step|]. split; [exact E|]. rewrite A, B. split; [discriminate|].
  split; [discriminate|exact C].
Qed.
(** Forward functions given as tuples with arguments are prepared by the constructor only: a
    target added later with such a function makes every evaluation fail, while the same
    targets and functions given to the constructor work. *)
Definition ex_t3 : target := mkTarget "e" [4; 5; 6] (Some (CScalar 1)) false 0 0 0 0 0 0.
Theorem C43_tuple_refuted : exists ts fs nt nf ll obs tr ll' obs' tr',
  gives_targets ts nt /\ gives_fwds fs nf /\ in_step ll obs /\ NoDup (map t_name (ll_targets ll ++ nt)) /\
  Forall (fun ob => setup_ok (ob_spaces ob) (ll_targets ll ++ nt)) obs /\
  add_targets ts fs ll obs tr = Ret (ll', obs', None) tr' /\
  (forall s tr, In s (map snd (concat (map ob_chains obs'))) -> exists s1 s2,
     log_likelihood_ratio ll' s s 1 tr = Ret (s1, s2, inr EForward) tr) /\
  (exists ll0, loglike_init (Some (map ATarget (ll_targets ll ++ nt))) (Some (map AFwd (ll_fwds ll ++ nf))) None None = Ok ll0 /\
     forall s tr, In s (map snd (concat (map ob_chains obs'))) -> exists s1 s2 x,
       log_likelihood_ratio ll0 s s 1 tr = Ret (s1, s2, inl (Fin x)) tr).
Proof.
  exists (Some [ATarget ex_t3]), (Some [AFwd (mkFwd ex_fwd true)]), [ex_t3], [mkFwd ex_fwd true], ex_ll, [ex_obs], [].
  eexists _, _, []. split; [reflexivity|]. split; [now left|]. split; [apply ex_in_step|]. split.
  { cbn. repeat constructor; cbn; intuition discriminate. }
  split.
  { constructor; [|constructor]. destruct ex_setup as [H1 H2 H3 H4]. split; auto.
    - cbn. repeat constructor; cbn; intuition discriminate.
    - intros t [<-|[<-|[]]]; [apply H4; now left|]. split; cbn; lra. }
  split; [reflexivity|].
  destruct ex_misfit as (m & ld & H).
  assert (Hd : forall s t, dget "d.dpred" (st_cache s) = None ->
    get_dpred ex_t (mkFwd ex_fwd false) s t = Ret (with_pred s, inl [1; 1; 1]) t).
  { intros s t Hs. unfold get_dpred, dpred_key. change (t_name ex_t ++ ".dpred") with "d.dpred".
    rewrite Hs. reflexivity. }
  split.
  - intros s tr [<-|[]]. cbn [snd]. unfold log_likelihood_ratio. rewrite Reqb_f by lra. unfold raw_ratio.
    cbn [ll_mode ex_ll set_hier set_lists]. unfold ratio_from_targets.
    cbn [ll_targets ll_fwds ex_ll set_hier set_lists app combine misfit_loop].
    unfold bind at 1 2 3. rewrite Hd by reflexivity. cbn iota beta. rewrite H by reflexivity.
    eexists _, _. reflexivity.
  - eexists. split; [reflexivity|]. intros s tr [<-|[]]. cbn [snd]. unfold log_likelihood_ratio. rewrite Reqb_f by lra. unfold raw_ratio.
    cbn [ll_mode]. unfold ratio_from_targets.
    cbn [ll_targets ll_fwds ex_ll set_hier set_lists app combine map preprocess_fwd f_fun misfit_loop].
    assert (Hd' : forall s t, dget "e.dpred" (st_cache s) = None ->
      get_dpred ex_t3 (mkFwd ex_fwd false) s t = Ret (st_save_cache "e.dpred" (CPred [1; 1; 1]) s, inl [1; 1; 1]) t).
    { intros s t Hs. unfold get_dpred, dpred_key. change (t_name ex_t3 ++ ".dpred") with "e.dpred".
      rewrite Hs. reflexivity. }
    assert (H3 : exists m ld, forall s, target_misfit ex_t3 s [1; 1; 1] = Ok (m, ld)).
    { eexists _, _. intros s. reflexivity. }
    destruct H3 as (m3 & ld3 & H3).
    unfold bind at 1 2 3. rewrite Hd by reflexivity. cbn iota beta. rewrite H by reflexivity.
    unfold bind at 1. rewrite Hd' by reflexivity. cbn iota beta. rewrite H3.
    unfold bind at 1 2, ret at 1. cbn iota beta. rewrite Hd by reflexivity. rewrite H by reflexivity.
    unfold bind at 1. rewrite Hd' by reflexivity. rewrite H3. eexists _, _, _. reflexivity.
Qed.
(** Functions without targets, with an inversion observing: TypeError after the functions have
    been added. *)
Theorem C43_functions_refuted : exists fs ll obs tr ll' obs' tr', in_step ll obs /\
  add_targets None fs ll obs tr = Ret (ll', obs', Some EType) tr' /\ ll_fwds ll' <> ll_fwds ll.
Proof.
  exists (Some [AFwd (mkFwd ex_fwd false)]), ex_ll, [ex_obs], []. eexists _, _, []. split; [apply ex_in_step|].
  split; [reflexivity|discriminate].
Qed.
(** A likelihood that was made from a function goes on using that function: targets added
    later do not enter. *)
Theorem C43_ignored ts fs ll obs tr ll' obs' o tr' : ll_mode ll <> MTargets ->
  add_targets ts fs ll obs tr = Ret (ll', obs', o) tr' ->
  forall old new T, log_likelihood_ratio ll' old new T = log_likelihood_ratio ll old new T.
Proof.
  intros Hm H. assert (E : ll_mode ll' = ll_mode ll /\ ll_ratio ll' = ll_ratio ll /\ ll_func ll' = ll_func ll).
  { unfold add_targets in H. assert (G : forall l o, extend_targets ts fs ll = (l, o) ->
      ll_mode l = ll_mode ll /\ ll_ratio l = ll_ratio ll /\ ll_func l = ll_func ll).
    { unfold extend_targets. intros l o0. destruct (match ts with None => Some [] | Some l => only_targets l end); [|intros [= <- <-]; auto].
      destruct (match fs with None => Some [] | Some l => only_fwds l end); [|intros [= <- <-]; auto].
      destruct (dup_name _); intros [= <- <-]; auto. }
    destruct (extend_targets ts fs ll) as [l o0] eqn:E0. specialize (G _ _ eq_refl).
    destruct o0 as [e|].
    - mr H. injection H as <- _ _. exact G.
    - mb H as [obs1 o1] E1. mr H. injection H as <- _ _. exact G. }
  destruct E as (E1 & E2 & E3). intros old new T. unfold log_likelihood_ratio, raw_ratio. rewrite E1, E2, E3.
  destruct (ll_mode ll); auto. contradiction.
Qed.
Example C43_ignored_case : exists ll', ll_mode ex_2d_ll <> MTargets /\
  add_targets (Some [ATarget ex_t3]) (Some [AFwd (mkFwd ex_fwd false)]) ex_2d_ll [] [] = Ret (ll', [], None) [] /\
  ll_targets ll' = [ex_t3].
Proof. eexists. split; [discriminate|]. split; reflexivity. Qed.
