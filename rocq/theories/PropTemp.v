(** Properties of the temperature of the states of an inversion: C61. *)
From Verif Require Import Base ModelPrior ModelState ModelSpace ModelPerturb ModelChain ModelSampler
  ModelLikelihood SpecUtils1D SpecPrior SpecState SpecSpace SpecPerturb SpecChain SpecRun
  ProofUtils1D ProofChain ProofChainB ProofChainC ProofSampler ProofInversion
  ProofState ProofSpace ProofPerturb ProofTree ProofRun ProofRunB ProofRunC ProofRunD PropChain ExampleRun.
Local Open Scope R_scope.
Local Open Scope string_scope.

(** * Moves hand on the temperature *)
Lemma mk_state_temp vals t c : st_temp (mk_state vals t c) = t.
Proof.
  unfold mk_state. assert (G : forall l s, st_temp s = t -> st_temp (fold_left (fun s ke => st_set (fst ke) (snd ke) s) l s) = t).
  { induction l as [|ke l IH]; intros s H; cbn; auto. }
  apply G. reflexivity.
Qed.
Lemma st_copy_temp b s s' : st_copy b s = Ok s' -> st_temp s' = st_temp s.
Proof.
  unfold st_copy. intros H. apply rbind_ok in H. destruct H as (v & _ & [= <-]). apply mk_state_temp.
Qed.
Lemma set_in_state_temp w k v s s' : set_in_state w k v s = Ok s' -> st_temp s' = st_temp s.
Proof.
  unfold set_in_state. destruct w as [|[k0 i] w]; [discriminate|].
  destruct (st_get k0 s) as [[p|d]|]; try discriminate. intros H. apply rbind_ok in H.
  destruct H as (p' & _ & [= <-]). reflexivity.
Qed.
Lemma walk_node_temp q t w l : forall s tr s' tr', walk_node q t w l s tr = Ret s' tr' ->
  st_temp (w_new s') = st_temp (w_new s).
Proof.
  induction l as [|[k c] l IH]; intros s tr s' tr' H; cbn [walk_node] in H.
  - mr H. reflexivity.
  - destruct c as [p|ps|]; [| |eauto].
    + destruct (String.eqb k (psp_space q)); [|apply IH in H; exact H].
      destruct (_ =? _)%nat; [|apply IH in H; exact H].
      mb H as [[p' r] ty] Ep. apply IH in H. exact H.
    + destruct (String.eqb k (psp_space q)).
      * mb H as [[[ps' i'] r'] st'] Ep. mb H as new' En. apply IH in H. rewrite H. cbn.
        eapply set_in_state_temp; eauto.
      * destruct ps; [discriminate|]. apply IH in H. exact H.
Qed.
Lemma walk_loop_temp fuel q t : forall s tr s' tr', walk_loop fuel q t s tr = Ret s' tr' ->
  st_temp (w_new s') = st_temp (w_new s).
Proof.
  induction fuel as [|fuel IH]; intros s tr s' tr' H; cbn [walk_loop] in H;
    destruct (w_queue s) as [|[w l] rest]; try (mr H; reflexivity);
    (destruct (w_i s <=? t)%nat; [|mr H; reflexivity]).
  - discriminate.
  - mb H as s1 E1. apply IH in H. rewrite H. apply walk_node_temp in E1. exact E1.
Qed.
Lemma psp_temp q s tr s' r tr' : psp_perturb q s tr = Ret (s', r) tr' -> st_temp s' = st_temp s.
Proof.
  unfold psp_perturb. intros H. mb H as c Ec. mb H as n En. mb H as t Et. mb H as w Ew. mr H. inj H.
  cbn. apply walk_loop_temp in Ew. rewrite Ew. cbn. eapply st_copy_temp; eauto.
Qed.
Lemma noise_temp ts s tr s' r tr' : noise_perturb ts s tr = Ret (s', r) tr' -> st_temp s' = st_temp s.
Proof.
  unfold noise_perturb. intros H. mb H as new En. mb H as c Ec. mr H. inj H. cbn. eapply st_copy_temp; eauto.
Qed.
Lemma pfunc_temp spaces ll save ty f s new lpr tr tr' :
  In (ty, f) (e_funcs (inversion_env spaces ll save)) -> f s tr = Ret (new, lpr) tr' -> st_temp new = st_temp s.
Proof.
  intros Hin H. cbn in Hin. apply in_map_iff in Hin. destruct Hin as ([[q|ts] w] & E & _); cbn in E; injection E as <- <-.
  - eapply psp_temp; eauto.
  - eapply noise_temp; eauto.
Qed.
Lemma like_temp_env spaces ll save old new t tr old' new' r tr' :
  e_like (inversion_env spaces ll save) old new t tr = Ret (old', new', r) tr' ->
  st_temp old' = st_temp old /\ st_temp new' = st_temp new.
Proof. intros H. cbn in H. apply like_values in H. unfold same_values in H. tauto. Qed.

(** * C61: the temperature seen by the state is the chain's
    Chains of an inversion, after any number of runs with any of the samplers.  Callbacks may do
    anything that leaves state and chain in agreement, such as setting the temperature of the chain
    (C61_setter). *)
Definition agree (c : chain state ovalue) : Prop := st_temp (c_cur c) = c_temp c.
Record agreeing (xi : list (lhook state ovalue)) (xb xe : list (hook state ovalue)) : Prop := {
  ag_init : forall h cs tr cs' o tr', In h xi -> h cs tr = Ret (cs', o) tr' -> Forall agree cs -> Forall agree cs';
  ag_begin : forall h c tr c' o tr', In h xb -> h c tr = Ret (c', o) tr' -> agree c -> agree c';
  ag_end : forall h c tr c' o tr', In h xe -> h c tr = Ret (c', o) tr' -> agree c -> agree c'
}.
Lemma agree_keeping spaces ll save : keeping (inversion_env spaces ll save) agree.
Proof.
  set (E := inversion_env spaces ll save).
  split.
  - intros c tr c' v tr' H Hc. eapply (attempt_temp E st_temp); eauto.
    + intros. eapply (pfunc_temp spaces ll save); eauto.
    + intros. eapply (like_temp_env spaces ll save); eauto.
  - intros t c _. reflexivity.
  - intros f c H. exact H.
  - intros c new T tr old' new' r tr' H Hc. apply (like_temp_env spaces ll save) in H. unfold agree in *. cbn. destruct H as [-> _]. auto.
  - intros c old T tr old' new' r tr' H Hc. apply (like_temp_env spaces ll save) in H. unfold agree in *. cbn. destruct H as [_ ->]. auto.
Qed.
Lemma runs_with_impl {St V} (C C' : list (lhook St V) -> list (hook St V) -> list (hook St V) -> Prop) E cs cs' :
  (forall xi xb xe, C xi xb xe -> C' xi xb xe) -> many_runs_with C E cs cs' -> many_runs_with C' E cs cs'.
Proof.
  intros HC H. induction H as [|cs1 cs2 _ IH H1]; [constructor|]. econstructor; [exact IH|].
  destruct H1 as [? ? ? ? ? ? ? ? ? ? ? ? ? Hx H|? ? ? ? ? ? ? ? ? ? ? ? ? ? ? ? ? Hx H|
    ? ? ? ? ? ? ? ? ? ? ? ? ? ? ? Hx H].
  - eapply run_vanilla; eauto.
  - eapply run_tempering; eauto.
  - eapply run_annealing; eauto.
Qed.
Lemma starting_temp spaces ll tr s tr' : starting_state spaces ll tr = Ret s tr' -> st_temp s = 1.
Proof.
  unfold starting_state. intros H. mb H as s0 E0. unfold initialize_all in E0. mb E0 as v Ev. mr E0.
  assert (G : forall ts s s' tr tr', targets_initialize ts s tr = Ret s' tr' -> st_temp s' = st_temp s).
  { induction ts as [|tg ts IH]; intros a0 b0 ta tb Ht; cbn [targets_initialize] in Ht; [mr Ht; reflexivity|].
    mb Ht as s1 E1. apply IH in Ht. rewrite Ht. unfold target_initialize in E1. destruct (is_hier tg).
    - mb E1 as std Es. mb E1 as cor Ec. mr E1. reflexivity.
    - mr E1. reflexivity. }
  unfold ll_initialize in H. apply G in H. rewrite H. apply mk_state_temp.
Qed.
Theorem C61_inversion spaces ll save n tr cs0 tr' cs :
  inversion_chains spaces ll save n tr = Ret cs0 tr' ->
  many_runs_with agreeing (inversion_env spaces ll save) cs0 cs ->
  Forall (fun c => st_temp (c_cur c) = c_temp c) cs.
Proof.
  intros H0 H. change (Forall agree cs).
  apply (runs_with_impl _ (callbacks_keep_K agree)) in H.
  2:{ intros xi xb xe [A B C]. split; apply Forall_forall.
      - intros h Hh cs1 t1 cs2 o t2 E. eapply A; eauto.
      - intros h Hh c t1 c' o t2 E. eapply B; eauto.
      - intros h Hh c t1 c' o t2 E. eapply C; eauto. }
  eapply K_many_runs; [apply agree_keeping|exact H|].
  clear - H0. unfold inversion_chains in H0. revert tr cs0 tr' H0.
  induction n as [|n IH]; intros tr cs0 tr' H; cbn [repeatM] in H.
  - mr H. constructor.
  - mb H as c Ec. mb H as r Er. mr H. constructor; eauto.
    mb Ec as s Es. mr Ec. unfold agree. cbn. eapply starting_temp; eauto.
Qed.
(** Heating is such a callback. *)
Example C61_inversion_case : exists h : hook state ovalue,
  agreeing [] [h] [] /\
  inversion_chains [ex_vor] ex_ll true 1
    [DInt 1; DU (1/2); DU (1/2); DVal 0; DZ (1/2); DU 0; DU 0] = Ret [ex_chain0] [] /\
  exists c, h ex_chain0 [] = Ret (c, None) [] /\ c_temp c = 3 /\ st_temp (c_cur c) = 3.
Proof.
  exists (fun c => ret (set_temperature ex_env 3 c, None)). split; [|split].
  - split.
    + intros h cs tr cs' o tr' [].
    + intros h c tr c' o tr' [<-|[]] H Hc. mr H. inj H. reflexivity.
    + intros h c tr c' o tr' [].
  - apply (ex_chains []).
  - eexists. split; [reflexivity|split; reflexivity].
Qed.
