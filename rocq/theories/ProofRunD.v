(** A property of chains that every attempt of an iteration, the setter of the temperature and the
    exchanges of tempering preserve is preserved by whole runs. *)
From Verif Require Import Base ModelChain ModelSampler SpecChain SpecSampler SpecRun
  ProofUtils1D ProofChain ProofChainB ProofChainC ProofSampler ProofSamplerB.
Local Open Scope R_scope.

Section Keeping.
Context {St V : Type}.
Variable E : env St V.
Variable K : chain St V -> Prop.
Record keeping : Prop := {
  ke_attempt : forall c tr c' v tr', attempt E c tr = Ret (c', v) tr' -> K c -> K c';
  ke_temp : forall t c, K c -> K (set_temperature E t c);
  ke_flag : forall f c, K c -> K (set_flag f c);
  ke_old : forall c new T tr old' new' r tr', e_like E (c_cur c) new T tr = Ret (old', new', r) tr' ->
    K c -> K (set_cur old' c);
  ke_new : forall c old T tr old' new' r tr', e_like E old (c_cur c) T tr = Ret (old', new', r) tr' ->
    K c -> K (set_cur new' c)
}.
Hypothesis HK : keeping.
(** ** Runs of one chain *)
Definition hkeeps (h : hook St V) : Prop :=
  forall c tr c' o tr', h c tr = Ret (c', o) tr' -> K c -> K c'.
Lemma K_keeps_all fs : Forall hkeeps fs -> hkeeps (call_all fs).
Proof.
  intros HF c tr c' o tr' H.
  apply (call_all_respects (fun c c' => K c -> K c') fs) with (o := o) (tr := tr) (tr' := tr'); auto.
Qed.
Lemma K_advance_ok n sc hb he c tr c' o tr' : hkeeps hb -> hkeeps he ->
  advance E n sc (Some hb) (Some he) c tr = Ret (c', o) tr' -> K c -> K c'.
Proof.
  intros Hb He H. revert H.
  apply (advance_respects E (fun c c' => K c -> K c')). constructor; auto.
  - intros f c0. apply (ke_flag HK).
  - intros c0 tr0 c0' v tr0' H. eapply (ke_attempt HK); eauto.
Qed.

(** ** Samplers *)
Definition lhkeeps (h : lhook St V) : Prop :=
  forall cs tr cs' o tr', h cs tr = Ret (cs', o) tr' -> Forall (K) cs -> Forall (K) cs'.
Lemma K_lkeeps_all fs : Forall lhkeeps fs -> lhkeeps (call_all fs).
Proof.
  intros HF c tr c' o tr' H.
  apply (call_all_respects (fun c c' => Forall (K) c -> Forall (K) c') fs) with (o := o) (tr := tr) (tr' := tr'); auto.
Qed.
Lemma Forall2_impl_K cs cs' : Forall2 (fun c c' => K c -> K c') cs cs' ->
  Forall (K) cs -> Forall (K) cs'.
Proof.
  induction 1; auto. intros HF. inversion HF; subst. constructor; auto.
Qed.
Record sampler_keeps_K (s : sampler St V) : Prop := {
  skk_init : lhkeeps (sm_on_initialize s);
  skk_begin : hkeeps (sm_on_begin s);
  skk_end : hkeeps (sm_on_end s);
  skk_adv : lhkeeps (sm_on_end_advance s);
  skk_xinit : Forall lhkeeps (sm_x_initialize s);
  skk_xbegin : Forall hkeeps (sm_x_begin s);
  skk_xend : Forall hkeeps (sm_x_end s)
}.
Lemma K_advance_chain_ok s n_jobs n sc : sampler_keeps_K s -> lhkeeps (advance_chain E s n_jobs n sc).
Proof.
  intros Hs cs tr cs' o tr' H HF. unfold advance_chain in H.
  destruct n_jobs as [jobs|]; [|minv; subst; auto].
  minv. destruct a as [cs1 o1].
  assert (K1 : Forall (K) cs1).
  { eapply Forall2_impl_K; [|exact HF].
    eapply (each_chain_respects (fun c c' => K c -> K c')); [auto| |eassumption].
    intros c ti c' o' ti' Hc. eapply K_advance_ok; [| |exact Hc].
    - apply K_keeps_all. constructor; [apply (skk_begin _ Hs)|apply (skk_xbegin _ Hs)].
    - apply K_keeps_all. constructor; [apply (skk_end _ Hs)|apply (skk_xend _ Hs)]. }
  destruct o1 as [e|].
  - minv. subst. destruct (1 <? jobs)%Z; auto.
  - eapply (skk_adv _ Hs); eauto.
Qed.
Lemma K_nothing_keeps : hkeeps nothing.
Proof. intros c tr c' o tr' H. unfold nothing in H. minv. now subst. Qed.
Lemma K_nothing_lkeeps : lhkeeps nothing_l.
Proof. intros c tr c' o tr' H. unfold nothing_l in H. minv. now subst. Qed.
Lemma K_set_temperatures_ok ts : forall cs cs' o, set_temperatures E ts cs = (cs', o) ->
  Forall (K) cs -> Forall (K) cs'.
Proof.
  induction ts as [|T ts IH]; intros [|c cs] cs' o H HF; cbn [set_temperatures] in H;
    try (injection H as <- <-; auto).
  destruct (set_temperatures E ts cs) as [t' o'] eqn:Et. injection H as <- <-.
  inversion HF; subst. constructor; [now apply (ke_temp HK)|]. eapply IH; eauto.
Qed.
Lemma K_pt_on_initialize_ok frac tmax : lhkeeps (pt_on_initialize E frac tmax).
Proof.
  intros cs tr cs' o tr' H HF. unfold pt_on_initialize in H.
  destruct (pt_temperatures _ _ _) as [ts|e|]; [|minv; now subst|discriminate].
  destruct (set_temperatures E ts cs) as [cs1 o1] eqn:Es. minv. subst. eapply K_set_temperatures_ok; eauto.
Qed.
Lemma K_pt_swaps_ok k : lhkeeps (pt_swaps E k).
Proof.
  intros cs tr cs' o tr' H HF. eapply Forall2_impl_K; [|exact HF].
  eapply (pt_swaps_respects E (fun c c' => K c -> K c')); eauto.
  intros c c' Hst A. destruct Hst as [? ? ? ? ? ? ? ? H'|? ? ? ? ? ? ? ? H'|c T].
  - eapply (ke_old HK); eauto.
  - eapply (ke_new HK); eauto.
  - now apply (ke_temp HK).
Qed.
Lemma K_sa_on_begin_ok T0 b rate : hkeeps (sa_on_begin E T0 b rate).
Proof.
  intros c tr c' o tr' H Hc. unfold sa_on_begin in H.
  destruct (_ <? b)%nat; [|destruct (_ =? b)%nat]; minv; subst; auto using (ke_temp HK).
Qed.
Lemma K_sa_on_initialize_ok T0 : lhkeeps (sa_on_initialize E T0).
Proof.
  intros cs tr cs' o tr' H HF. unfold sa_on_initialize in H. minv. subst.
  apply Forall_map. eapply Forall_impl; [|exact HF]. intros; now apply (ke_temp HK).
Qed.
(** Callbacks of the user. *)
Record callbacks_keep_K (xi : list (lhook St V)) (xb xe : list (hook St V)) : Prop := {
  xkk_init : Forall lhkeeps xi; xkk_begin : Forall hkeeps xb; xkk_end : Forall hkeeps xe
}.
Lemma K_vanilla_keeps xi xb xe xa : callbacks_keep_K xi xb xe -> sampler_keeps_K (vanilla xi xb xe xa).
Proof. intros [A B C]. split; cbn; auto using K_nothing_keeps, K_nothing_lkeeps. Qed.
Lemma K_pt_keeps frac tmax xi xb xe xa : callbacks_keep_K xi xb xe ->
  sampler_keeps_K (parallel_tempering E frac tmax xi xb xe xa).
Proof.
  intros [A B C]. split; cbn; auto using K_nothing_keeps, K_nothing_lkeeps, K_pt_on_initialize_ok.
  intros cs tr cs' o tr' H. eapply K_pt_swaps_ok; exact H.
Qed.
Lemma K_sa_keeps T0 b rate xi xb xe xa : callbacks_keep_K xi xb xe ->
  sampler_keeps_K (simulated_annealing E T0 b rate xi xb xe xa).
Proof.
  intros [A B C]. split; cbn; auto using K_nothing_keeps, K_nothing_lkeeps, K_sa_on_begin_ok, K_sa_on_initialize_ok.
Qed.
Lemma K_pt_loop_ok fuel s n_jobs swap n sc : sampler_keeps_K s -> lhkeeps (pt_loop E fuel s n_jobs swap n sc).
Proof.
  intros Hs. induction fuel as [|fuel IH]; intros cs tr cs' o tr' H HF; cbn [pt_loop] in H; [discriminate|].
  destruct cs as [|c0 cs0]; [minv; now subst|]. minv. destruct a as [cs1 o1].
  match goal with H : advance_chain _ _ _ _ _ _ _ = Ret (cs1, o1) _ |- _ => pose proof (K_advance_chain_ok _ _ _ _ Hs _ _ _ _ _ H HF) as Kc; clear H end.
  destruct o1; minv; subst; auto. destruct (_ <=? _)%nat; minv; subst; auto.
  eapply IH; eauto.
Qed.
Lemma K_sa_run_ok T0 xi xb xe xa n_jobs n sc : callbacks_keep_K xi xb xe -> lhkeeps (sa_run E T0 xi xb xe xa n_jobs n sc).
Proof.
  intros Hx cs tr cs' o tr' H HF. unfold sa_run in H. destruct (_ =? _)%nat.
  - eapply K_advance_chain_ok; eauto using K_sa_keeps.
  - destruct (py_log T0); [|minv; now subst|discriminate]. eapply K_advance_chain_ok; eauto using K_sa_keeps.
Qed.
Lemma K_inversion_run_ok s run parallel : sampler_keeps_K s -> lhkeeps run -> lhkeeps (inversion_run s run parallel).
Proof.
  intros Hs Hr cs tr cs' o tr' H HF. unfold inversion_run in H. minv. destruct a as [cs0 o0].
  assert (K1 : Forall (K) cs0).
  { match goal with H : initialize _ _ _ = _ |- _ => unfold initialize in H; revert H HF; apply K_lkeeps_all end.
    constructor; [apply (skk_init _ Hs)|apply (skk_xinit _ Hs)]. }
  destruct o0 as [e|]; minv; subst; auto. destruct a as [cs1 o1].
  assert (K2 : Forall (K) cs1) by (eapply Hr; eauto).
  destruct o1; minv; subst; auto. destruct parallel; auto.
Qed.

Lemma K_one_run cs cs' : one_run_with callbacks_keep_K E cs cs' -> Forall K cs -> Forall K cs'.
Proof.
  intros H. destruct H as [? ? ? ? ? ? ? ? ? ? ? ? ? Hx H|? ? ? ? ? ? ? ? ? ? ? ? ? ? ? ? ? Hx H|
    ? ? ? ? ? ? ? ? ? ? ? ? ? ? ? Hx H]; revert H; apply K_inversion_run_ok.
  - now apply K_vanilla_keeps.
  - apply K_advance_chain_ok; auto. now apply K_vanilla_keeps.
  - now apply K_pt_keeps.
  - apply K_pt_loop_ok; auto. now apply K_pt_keeps.
  - now apply K_sa_keeps.
  - now apply K_sa_run_ok.
Qed.
Lemma K_many_runs cs cs' : many_runs_with callbacks_keep_K E cs cs' -> Forall K cs -> Forall K cs'.
Proof. intros H HF. induction H as [|cs1 cs2 _ IH H1]; auto. eapply K_one_run; eauto. Qed.
End Keeping.
