(** An invariant of states carries over to everything a chain, a sampler and an inversion
    hold and save. *)
From Verif Require Import Base ModelChain ModelSampler SpecChain SpecSampler SpecRun
  ProofUtils1D ProofChain ProofChainB ProofChainC ProofSampler ProofSamplerB.
From Verif Require Import SpecSpace.
Local Open Scope R_scope.

Section Invariant.
Context {St V : Type}.
Variable E : env St V.
Variable P : St -> Prop.
Let ops := e_ops E.
Let chain := chain St V.

Lemma saved_value_mono_append k v d :
  saved_value E P k v ->
  (forall k' x, In x (SpecChain.stored k' d) -> saved_value E P k' x) ->
  forall k' x, In x (SpecChain.stored k' (append_saved k v d)) -> saved_value E P k' x.
Proof.
  intros Hv Hd k' x Hin. rewrite stored_append in Hin. apply in_app_or in Hin.
  destruct Hin as [Hin|Hin]; auto.
  destruct (String.eqb_spec k k') as [E1|E1]; [subst|destruct Hin].
  destruct Hin as [<-|[]]; auto.
Qed.
Lemma save_items_ok its : forall d d' o,
  save_items E its d = (d', o) ->
  (forall k v, In (k, v) its -> saved_value E P k v) ->
  (forall k x, In x (SpecChain.stored k d) -> saved_value E P k x) ->
  forall k x, In x (SpecChain.stored k d') -> saved_value E P k x.
Proof.
  induction its as [|[k v] its IH]; intros d d' o H Hits Hd; cbn [save_items] in H.
  - injection H as <- <-. exact Hd.
  - destruct (skip_key E k) as [[|]|e|].
    + eapply IH; eauto. intros; apply Hits; now right.
    + eapply IH; eauto.
      * intros; apply Hits; now right.
      * apply saved_value_mono_append; auto. apply Hits. now left.
    + injection H as <- <-. exact Hd.
    + injection H as <- <-. exact Hd.
Qed.
Lemma save_preds_ok cs : forall d,
  (forall k v, contains "dpred" k = true -> In (k, v) cs -> saved_value E P k v) ->
  (forall k x, In x (SpecChain.stored k d) -> saved_value E P k x) ->
  forall k x, In x (SpecChain.stored k (save_preds cs d)) -> saved_value E P k x.
Proof.
  induction cs as [|[k v] cs IH]; intros d Hcs Hd; cbn [save_preds]; auto.
  apply IH.
  - intros; apply Hcs; auto; now right.
  - destruct (contains "dpred" k) eqn:Ek; auto. apply saved_value_mono_append; auto. apply Hcs; auto. now left.
Qed.
Lemma save_state_ok c c' o : save_state E c = (c', o) -> chain_ok E P c -> chain_ok E P c'.
Proof.
  intros H [Hc Hs]. unfold save_state in H. change (e_ops E) with ops in H.
  destruct (c_saved c) as [d|l] eqn:Esv; cbn [saved_ok] in Hs.
  - assert (K : forall (c' : chain) (o : option exn),
      (let '(d1, oe) := save_items E (s_items ops (c_cur c)) d in
          match oe with
          | Some e => (set_saved (SDict d1) c, Some e)
          | None =>
              if e_savedpred E then
                match s_cache ops (c_cur c) with
                | None => (set_saved (SDict d1) c, Some EAttr)
                | Some cs => (set_saved (SDict (save_preds cs d1)) c, None)
                end
              else (set_saved (SDict d1) c, None)
          end) = (c', o) -> chain_ok E P c').
    { clear H c' o. intros c' o H.
      destruct (save_items E (s_items ops (c_cur c)) d) as [d1 oe] eqn:Ei.
      assert (Hd1 : forall k x, In x (SpecChain.stored k d1) -> saved_value E P k x).
      { eapply save_items_ok; eauto. intros k v Hin. exists (c_cur c). auto. }
      destruct oe as [e|].
      - injection H as <- <-. split; auto.
      - destruct (e_savedpred E); [|injection H as <- <-; split; auto].
        destruct (s_cache ops (c_cur c)) as [cs|] eqn:Ec; injection H as <- <-; split; auto.
        cbn. apply save_preds_ok; auto. intros k v Hk Hin. exists (c_cur c). eauto 6. }
    destruct (s_kind ops (c_cur c)); eauto.
    injection H as <- <-. split; auto. rewrite Esv. exact Hs.
  - destruct (s_kind ops (c_cur c)); injection H as <- <-; split; auto; try (rewrite Esv; exact Hs).
    cbn. apply Forall_app. auto.
Qed.

(** A state that can be accepted was proposed with a ratio other than minus infinity. *)
Lemma accepts_live lpr llr u c new tr old' new' tr' :
  evaluates E c new lpr tr old' new' llr tr' -> mhg_accepts (eadd lpr llr) u -> live lpr.
Proof.
  intros He Ha. destruct He as [tr Hi|tr old' new' llr tr' Hi Hl].
  - destruct lpr; cbn in *; auto; discriminate.
  - destruct lpr; cbn in *; auto; try discriminate.
Qed.

(** What the pieces of the chain have to guarantee. *)
Record preserving : Prop := {
  pr_funcs : forall ty f s tr new lpr tr', In (ty, f) (e_funcs E) -> P s ->
    f s tr = Ret (new, lpr) tr' -> live lpr -> P new;
  pr_like : forall old new T tr old' new' r tr', e_like E old new T tr = Ret (old', new', r) tr' ->
    (P old -> P old') /\ (P new -> P new');
  pr_temp : forall t s, P s -> P (s_settemp ops t s)
}.
Hypothesis HP : preserving.

Lemma count_exc_ok e c : chain_ok E P c -> chain_ok E P (count_exc e c).
Proof. intros [A B]. split; auto. Qed.
Lemma set_cur_ok s c : P s -> chain_ok E P c -> chain_ok E P (set_cur s c).
Proof. intros H [A B]. split; auto. Qed.
Lemma set_temperature_ok t c : chain_ok E P c -> chain_ok E P (set_temperature E t c).
Proof.
  intros [A B]. split; auto. cbn. change (e_ops E) with ops. destruct (s_kind ops (c_cur c)); auto. now apply (pr_temp HP).
Qed.
Lemma finish_ok ty acc new c c' v : finish E ty acc new c = (c', v) ->
  chain_ok E P c -> (acc = true -> P new) -> chain_ok E P c'.
Proof.
  intros H Hc Hn. unfold finish in H.
  set (c1 := if acc then set_cur new c else c) in *.
  assert (H1 : chain_ok E P c1) by (unfold c1; destruct acc; auto using set_cur_ok).
  destruct (save_statistics E ty acc new c1) as [c2|e] eqn:Hs.
  2:{ now injection H as <- <-. }
  assert (H2 : chain_ok E P c2).
  { revert Hs. unfold save_statistics.
    destruct (prefix _ _); [destruct (s_pstats _ _)|]; intros [= <-]; destruct H1; split; auto. }
  destruct (c_flag c2) as [fl|]; [|now injection H as <- <-].
  destruct (_ && _)%bool; [|now injection H as <- <-].
  destruct (save_state E c2) as [c3 o] eqn:Hsv. injection H as <- <-.
  eapply save_state_ok; eauto.
Qed.
Lemma proposes_ok c tr ty new lpr tr' : proposes E c tr ty new lpr tr' -> P (c_cur c) -> live lpr -> P new.
Proof.
  intros (i & f & tr1 & _ & Hi & Hf) Hc Hl. eapply (pr_funcs HP); eauto. eapply nth_error_In; eauto.
Qed.
Lemma evaluates_ok c new lpr tr old' new' llr tr' :
  evaluates E c new lpr tr old' new' llr tr' -> (P (c_cur c) -> P old') /\ (P new -> P new').
Proof. intros [? ?|? ? ? ? ? ? H]; auto. eapply (pr_like HP); eauto. Qed.
Lemma attempt_ok c tr c' v tr' : attempt E c tr = Ret (c', v) tr' -> chain_ok E P c -> chain_ok E P c'.
Proof.
  intros H Hc. pose proof Hc as [Hcur _]. apply attempt_cases in H.
  destruct H as [(e & s & _ & Hu & ->)|[(e & _ & ->)|[(e & ty & new & lpr & tr1 & old' & new' & _ & _ & Hl & _ & _ & ->)|
    (ty & new & lpr & tr1 & old' & new' & llr & u & Hp & He & _ & Hcs)]]]; auto.
  - apply count_exc_ok, set_cur_ok; auto. destruct Hu as [|? ? ? ? ? ? ? ? ? ? Hl]; auto.
    exact (proj1 (pr_like HP _ _ _ _ _ _ _ _ Hl) Hcur).
  - apply set_cur_ok; auto. exact (proj1 (pr_like HP _ _ _ _ _ _ _ _ Hl) Hcur).
  - destruct (evaluates_ok _ _ _ _ _ _ _ _ He) as [H1 H2].
    destruct Hcs as [(_ & _ & ->)|(_ & acc & Ha & Hf)]; [apply set_cur_ok; auto|].
    eapply finish_ok; eauto; [apply set_cur_ok; auto|]. intros ->. apply H2.
    eapply proposes_ok; eauto. eapply accepts_live; eauto. now apply Ha.
Qed.

(** ** Runs of one chain *)
Definition keeps (h : hook St V) : Prop :=
  forall c tr c' o tr', h c tr = Ret (c', o) tr' -> chain_ok E P c -> chain_ok E P c'.
Lemma keeps_all fs : Forall keeps fs -> keeps (call_all fs).
Proof.
  intros HF c tr c' o tr' H.
  apply (call_all_respects (fun c c' => chain_ok E P c -> chain_ok E P c') fs) with (o := o) (tr := tr) (tr' := tr'); auto.
Qed.
Lemma advance_ok n sc hb he c tr c' o tr' : keeps hb -> keeps he ->
  advance E n sc (Some hb) (Some he) c tr = Ret (c', o) tr' -> chain_ok E P c -> chain_ok E P c'.
Proof.
  intros Hb He H. revert H.
  apply (advance_respects E (fun c c' => chain_ok E P c -> chain_ok E P c')). constructor; auto.
  - intros c0 tr0 c0' v tr0' H. eapply attempt_ok; eauto.
Qed.

(** ** Samplers *)
Definition lkeeps (h : lhook St V) : Prop :=
  forall cs tr cs' o tr', h cs tr = Ret (cs', o) tr' -> Forall (chain_ok E P) cs -> Forall (chain_ok E P) cs'.
Lemma lkeeps_all fs : Forall lkeeps fs -> lkeeps (call_all fs).
Proof.
  intros HF c tr c' o tr' H.
  apply (call_all_respects (fun c c' => Forall (chain_ok E P) c -> Forall (chain_ok E P) c') fs) with (o := o) (tr := tr) (tr' := tr'); auto.
Qed.
Lemma Forall2_impl_ok cs cs' : Forall2 (fun c c' => chain_ok E P c -> chain_ok E P c') cs cs' ->
  Forall (chain_ok E P) cs -> Forall (chain_ok E P) cs'.
Proof.
  induction 1; auto. intros HF. inversion HF; subst. constructor; auto.
Qed.
Record sampler_keeps (s : sampler St V) : Prop := {
  sk_init : lkeeps (sm_on_initialize s);
  sk_begin : keeps (sm_on_begin s);
  sk_end : keeps (sm_on_end s);
  sk_adv : lkeeps (sm_on_end_advance s);
  sk_xinit : Forall lkeeps (sm_x_initialize s);
  sk_xbegin : Forall keeps (sm_x_begin s);
  sk_xend : Forall keeps (sm_x_end s)
}.
Lemma advance_chain_ok s n_jobs n sc : sampler_keeps s -> lkeeps (advance_chain E s n_jobs n sc).
Proof.
  intros Hs cs tr cs' o tr' H HF. unfold advance_chain in H.
  destruct n_jobs as [jobs|]; [|minv; subst; auto].
  minv. destruct a as [cs1 o1].
  assert (K1 : Forall (chain_ok E P) cs1).
  { eapply Forall2_impl_ok; [|exact HF].
    eapply (each_chain_respects (fun c c' => chain_ok E P c -> chain_ok E P c')); [auto| |eassumption].
    intros c ti c' o' ti' Hc. eapply advance_ok; [| |exact Hc].
    - apply keeps_all. constructor; [apply (sk_begin _ Hs)|apply (sk_xbegin _ Hs)].
    - apply keeps_all. constructor; [apply (sk_end _ Hs)|apply (sk_xend _ Hs)]. }
  destruct o1 as [e|].
  - minv. subst. destruct (1 <? jobs)%Z; auto.
  - eapply (sk_adv _ Hs); eauto.
Qed.
Lemma nothing_keeps : keeps nothing.
Proof. intros c tr c' o tr' H. unfold nothing in H. minv. now subst. Qed.
Lemma nothing_lkeeps : lkeeps nothing_l.
Proof. intros c tr c' o tr' H. unfold nothing_l in H. minv. now subst. Qed.
Lemma set_temperatures_ok ts : forall cs cs' o, set_temperatures E ts cs = (cs', o) ->
  Forall (chain_ok E P) cs -> Forall (chain_ok E P) cs'.
Proof.
  induction ts as [|T ts IH]; intros [|c cs] cs' o H HF; cbn [set_temperatures] in H;
    try (injection H as <- <-; auto).
  destruct (set_temperatures E ts cs) as [t' o'] eqn:Et. injection H as <- <-.
  inversion HF; subst. constructor; [now apply set_temperature_ok|]. eapply IH; eauto.
Qed.
Lemma pt_on_initialize_ok frac tmax : lkeeps (pt_on_initialize E frac tmax).
Proof.
  intros cs tr cs' o tr' H HF. unfold pt_on_initialize in H.
  destruct (pt_temperatures _ _ _) as [ts|e|]; [|minv; now subst|discriminate].
  destruct (set_temperatures E ts cs) as [cs1 o1] eqn:Es. minv. subst. eapply set_temperatures_ok; eauto.
Qed.
Lemma pt_swaps_ok k : lkeeps (pt_swaps E k).
Proof.
  intros cs tr cs' o tr' H HF. eapply Forall2_impl_ok; [|exact HF].
  eapply (pt_swaps_respects E (fun c c' => chain_ok E P c -> chain_ok E P c')); eauto.
  intros c c' Hst [A B]. destruct Hst as [? ? ? ? ? ? ? ? H'|? ? ? ? ? ? ? ? H'|c T].
  - split; auto. exact (proj1 (pr_like HP _ _ _ _ _ _ _ _ H') A).
  - split; auto. exact (proj2 (pr_like HP _ _ _ _ _ _ _ _ H') A).
  - apply set_temperature_ok. split; auto.
Qed.
Lemma sa_on_begin_ok T0 b rate : keeps (sa_on_begin E T0 b rate).
Proof.
  intros c tr c' o tr' H Hc. unfold sa_on_begin in H.
  destruct (_ <? b)%nat; [|destruct (_ =? b)%nat]; minv; subst; auto using set_temperature_ok.
Qed.
Lemma sa_on_initialize_ok T0 : lkeeps (sa_on_initialize E T0).
Proof.
  intros cs tr cs' o tr' H HF. unfold sa_on_initialize in H. minv. subst.
  apply Forall_map. eapply Forall_impl; [|exact HF]. intros; now apply set_temperature_ok.
Qed.
(** Callbacks of the user. *)
Record extras_keep (xi : list (lhook St V)) (xb xe : list (hook St V)) : Prop := {
  xk_init : Forall lkeeps xi; xk_begin : Forall keeps xb; xk_end : Forall keeps xe
}.
Lemma vanilla_keeps xi xb xe xa : extras_keep xi xb xe -> sampler_keeps (vanilla xi xb xe xa).
Proof. intros [A B C]. split; cbn; auto using nothing_keeps, nothing_lkeeps. Qed.
Lemma pt_keeps frac tmax xi xb xe xa : extras_keep xi xb xe ->
  sampler_keeps (parallel_tempering E frac tmax xi xb xe xa).
Proof.
  intros [A B C]. split; cbn; auto using nothing_keeps, nothing_lkeeps, pt_on_initialize_ok.
  intros cs tr cs' o tr' H. eapply pt_swaps_ok; exact H.
Qed.
Lemma sa_keeps T0 b rate xi xb xe xa : extras_keep xi xb xe ->
  sampler_keeps (simulated_annealing E T0 b rate xi xb xe xa).
Proof.
  intros [A B C]. split; cbn; auto using nothing_keeps, nothing_lkeeps, sa_on_begin_ok, sa_on_initialize_ok.
Qed.
Lemma pt_loop_ok fuel s n_jobs swap n sc : sampler_keeps s -> lkeeps (pt_loop E fuel s n_jobs swap n sc).
Proof.
  intros Hs. induction fuel as [|fuel IH]; intros cs tr cs' o tr' H HF; cbn [pt_loop] in H; [discriminate|].
  destruct cs as [|c0 cs0]; [minv; now subst|]. minv. destruct a as [cs1 o1].
  match goal with H : advance_chain _ _ _ _ _ _ _ = Ret (cs1, o1) _ |- _ => pose proof (advance_chain_ok _ _ _ _ Hs _ _ _ _ _ H HF) as K; clear H end.
  destruct o1; minv; subst; auto. destruct (_ <=? _)%nat; minv; subst; auto.
  eapply IH; eauto.
Qed.
Lemma sa_run_ok T0 xi xb xe xa n_jobs n sc : extras_keep xi xb xe -> lkeeps (sa_run E T0 xi xb xe xa n_jobs n sc).
Proof.
  intros Hx cs tr cs' o tr' H HF. unfold sa_run in H. destruct (_ =? _)%nat.
  - eapply advance_chain_ok; eauto using sa_keeps.
  - destruct (py_log T0); [|minv; now subst|discriminate]. eapply advance_chain_ok; eauto using sa_keeps.
Qed.
Lemma inversion_run_ok s run parallel : sampler_keeps s -> lkeeps run -> lkeeps (inversion_run s run parallel).
Proof.
  intros Hs Hr cs tr cs' o tr' H HF. unfold inversion_run in H. minv. destruct a as [cs0 o0].
  assert (K1 : Forall (chain_ok E P) cs0).
  { match goal with H : initialize _ _ _ = _ |- _ => unfold initialize in H; revert H HF; apply lkeeps_all end.
    constructor; [apply (sk_init _ Hs)|apply (sk_xinit _ Hs)]. }
  destruct o0 as [e|]; minv; subst; auto. destruct a as [cs1 o1].
  assert (K2 : Forall (chain_ok E P) cs1) by (eapply Hr; eauto).
  destruct o1; minv; subst; auto. destruct parallel; auto.
Qed.
Lemma new_chain_ok s : P s -> chain_ok E P (new_chain E s).
Proof.
  intros H. split; auto. cbn. unfold init_saved. destruct (s_kind (e_ops E) s); cbn; auto;
    intros k v [].
Qed.
End Invariant.
