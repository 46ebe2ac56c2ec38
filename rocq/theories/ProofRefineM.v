(** Chains in memory and chains of values: iterations. *)
From Verif Require Import Base ModelUtils1D ModelPrior ModelState ModelSpace ModelChain ModelSampler ModelPerturb ModelLikelihood ModelHeap
  SpecState SpecSpace SpecChain SpecRun SpecHeap SpecRefine SpecRefineChain ProofState ProofSpace ProofChain ProofRun ProofRunB ProofRunC
  ProofHeap ProofHeapB ProofRefine ProofRefineB ProofRefineF ProofRefineK ProofRefineL.
Local Open Scope R_scope.

(** * The current state of a chain of values stays good *)
Section Cur.
Context {St V : Type}.
Variable E : env St V.
Variable P : St -> Prop.
Hypothesis HP : preserving E P.
Lemma finish_cur ty acc new c c' v : finish E ty acc new c = (c', v) -> c_cur c' = if acc then new else c_cur c.
Proof.
  intros H. unfold finish in H. set (c1 := if acc then set_cur new c else c) in *.
  assert (H1 : c_cur c1 = if acc then new else c_cur c) by (unfold c1; destruct acc; auto). rewrite <- H1. clearbody c1. clear H1.
  destruct (save_statistics E ty acc new c1) as [c2|e] eqn:Hs; [|now injection H as <- <-].
  assert (H2 : c_cur c2 = c_cur c1).
  { revert Hs. unfold save_statistics. destruct (prefix _ _); [destruct (s_pstats _ _)|]; intros [= <-]; auto. }
  rewrite <- H2. clear H2 Hs. destruct (c_flag c2) as [fl|]; [|now injection H as <- <-].
  destruct (_ && _)%bool; [|now injection H as <- <-].
  destruct (save_state E c2) as [c3 o] eqn:Hsv. injection H as <- <-. revert Hsv. unfold save_state.
  destruct (s_kind _ _), (c_saved c2); try (intros [= <- <-]; reflexivity);
    destruct (save_items _ _ _) as [d1 [e|]]; try (intros [= <- <-]; reflexivity);
    (destruct (e_savedpred E); [destruct (s_cache _ _)|]); intros [= <- <-]; reflexivity.
Qed.
Lemma attempt_cur c tr c' v tr' : attempt E c tr = Ret (c', v) tr' -> P (c_cur c) -> P (c_cur c').
Proof.
  intros H Hcur. apply attempt_cases in H.
  destruct H as [(e & s & _ & Hu & ->)|[(e & _ & ->)|[(e & ty & new & lpr & tr1 & old' & new' & _ & _ & Hl & _ & _ & ->)|
    (ty & new & lpr & tr1 & old' & new' & llr & u & Hp & He & _ & Hcs)]]]; auto.
  - cbn. destruct Hu as [|? ? ? ? ? ? ? ? ? ? Hl]; auto. exact (proj1 (pr_like _ _ HP _ _ _ _ _ _ _ _ Hl) Hcur).
  - cbn. exact (proj1 (pr_like _ _ HP _ _ _ _ _ _ _ _ Hl) Hcur).
  - destruct (evaluates_ok E P HP _ _ _ _ _ _ _ _ He) as [H1 H2].
    destruct Hcs as [(_ & _ & ->)|(_ & acc & Ha & Hf)]; [cbn; auto|].
    rewrite (finish_cur _ _ _ _ _ _ Hf). destruct acc; [|cbn; auto]. apply H2.
    eapply proposes_ok; eauto. eapply accepts_live; eauto. now apply Ha.
Qed.
End Cur.

(** * Relations of chains *)
Lemma chain_stands_ev h h' c c' : untouched h h' -> rep_state h' (c_cur c) (c_cur c') -> chain_stands h c c' -> chain_stands h' c c'.
Proof. intros U R []. constructor; auto. eapply saved_kept; eauto. Qed.
Lemma stands_set_cur h c c' a s : rep_state h a s -> chain_stands h c c' -> chain_stands h (set_cur a c) (set_cur s c').
Proof. intros R []. constructor; auto. Qed.
Lemma stands_count h e c c' : chain_stands h c c' -> chain_stands h (count_exc e c) (count_exc e c').
Proof. intros H. unfold count_exc. rewrite (cs_exc _ _ _ H). destruct H. constructor; auto. Qed.
Lemma stands_flag h b c c' : chain_stands h c c' -> chain_stands h (set_flag b c) (set_flag b c').
Proof. intros []. constructor; auto. Qed.
Lemma set_cur_same {St V} (c : chain St V) : set_cur (c_cur c) c = c.
Proof. now destruct c. Qed.

Section Steps.
Variables (spaces : list space) (ll : loglike) (save : bool).
Variable like : heap -> loc -> loc -> R -> M ((dict centry * dict ovalue) * (dict centry * dict ovalue) * (ext + exn)).
Hypothesis Hlike : likelihood_reads ll like.
Hypothesis Hset : setup_ok spaces (ll_targets ll).
Hypothesis Hhier : ll_hier ll = hier_of (ll_targets ll).
Let E := h_inversion_env spaces ll save like.
Let E' := inversion_env spaces ll save.
Let P := good spaces (ll_targets ll).

Lemma save_state_rep h c c' : chain_stands h c c' ->
  chain_stands h (fst (save_state (env_at E h) c)) (fst (save_state E' c')) /\
  snd (save_state (env_at E h) c) = snd (save_state E' c').
Proof.
  intros H. pose proof (cs_cur _ _ _ H) as Rc. pose proof (cs_saved _ _ _ H) as Rs.
  unfold save_state. cbn [env_at e_ops heap_ops s_kind E' inversion_env chain_env state_opsB s_items s_cache e_savedpred E h_inversion_env he_savedpred].
  destruct (c_saved c) as [d|l] eqn:Es, (c_saved c') as [d'|l'] eqn:Es'; cbn in Rs; try contradiction.
  destruct (items_rep _ _ _ Rc) as (its & -> & Di).
  destruct (save_items_rep h (env_at E h) E' eq_refl its (st_items (c_cur c')) Di d d' Rs) as [D1 Eo].
  destruct (save_items (env_at E h) its d) as [d1 o1], (save_items E' (st_items (c_cur c')) d') as [d2 o2].
  cbn [fst snd] in D1, Eo. subst o2.
  assert (S1 : forall u w, dr (Forall2 (stands h)) u w -> chain_stands h (set_saved (SDict u) c) (set_saved (SDict w) c')).
  { intros u w D. destruct H. constructor; auto. }
  destruct o1 as [e|]; [cbn; auto|]. destruct save; [|cbn; auto].
  destruct Rc as (dd & al & dl & Ec & _). rewrite Ec. cbn [fst snd]. split; auto. apply S1. apply save_preds_rep; auto. apply cache_rep.
Qed.
Lemma save_statistics_rep h ty acc a s c c' : chain_stands h c c' -> rep_state h a s ->
  match save_statistics (env_at E h) ty acc a c, save_statistics E' ty acc s c' with
  | inl c1, inl c1' => chain_stands h c1 c1'
  | inr e, inr e' => e = e'
  | _, _ => False
  end.
Proof.
  intros H (dd & al & dl & Ec & _). unfold save_statistics.
  cbn [env_at e_ops heap_ops s_pstats E' inversion_env chain_env state_opsB]. rewrite Ec.
  assert (S1 : forall st, chain_stands h (put_stats st acc c) (put_stats st acc c')).
  { intros st. unfold put_stats. rewrite (cs_nprop_tot _ _ _ H), (cs_nacc_tot _ _ _ H). destruct H. constructor; auto. }
  rewrite (cs_nprop _ _ _ H), (cs_nacc _ _ _ H).
  destruct (prefix psp_prefix ty); [|apply S1]. destruct (dget "perturb_stats" (st_cache s)) as [[]|]; auto.
Qed.
Lemma finish_rep h ty acc a s c c' : chain_stands h c c' -> rep_state h a s ->
  chain_stands h (fst (finish (env_at E h) ty acc a c)) (fst (finish E' ty acc s c')) /\
  snd (finish (env_at E h) ty acc a c) = snd (finish E' ty acc s c').
Proof.
  intros H R. unfold finish.
  assert (H1 : chain_stands h (if acc then set_cur a c else c) (if acc then set_cur s c' else c')).
  { destruct acc; auto. now apply stands_set_cur. }
  pose proof (save_statistics_rep h ty acc a s _ _ H1 R) as K.
  destruct (save_statistics (env_at E h) ty acc a _) as [c2|e], (save_statistics E' ty acc s _) as [c2'|e']; try contradiction; [|subst; auto].
  rewrite <- (cs_flag _ _ _ K), <- (cs_temp _ _ _ K). destruct (c_flag c2) as [fl|]; [|auto].
  destruct (fl && Reqb (c_temp c2) 1)%bool; [|auto].
  pose proof (save_state_rep h c2 c2' K) as [K1 K2].
  destruct (save_state (env_at E h) c2), (save_state E' c2'). cbn [fst snd] in *. subst. auto.
Qed.
Definition step_rel {A} (h : heap) (x : chain loc hout * A) (y : chain state ovalue * A) : Prop :=
  chain_stands h (fst x) (fst y) /\ snd x = snd y.
Lemma sim_decide h ty a s lpr llr c c' : chain_stands h c c' -> rep_state h a s ->
  sim h (h_decide E ty a lpr llr c) (decide E' ty s lpr llr c') step_rel.
Proof.
  intros H R tr. unfold h_decide. destruct (items_rep _ _ _ (cs_cur _ _ _ H)) as (i1 & -> & _). destruct (items_rep _ _ _ R) as (i2 & -> & _).
  unfold agree, decide, bind, step_rel. cbn [fst snd]. destruct (drawU tr) as [u t|e t| |]; auto.
  destruct (py_log u) as [lu|e|]; cbn; auto.
  - destruct (finish_rep h ty (egtb (eadd lpr llr) (Fin lu)) a s c c' H R) as [K1 K2].
    split; auto. split; [apply untouched_refl|]. auto.
  - split; auto. split; [apply untouched_refl|]. auto.
Qed.
Lemma run_h_save h a d al t c x cx tr : nth_error h a = Some (HState d al t c x) ->
  h_save a cx h tr = (Ret tt tr, set_nth h a (HState d al t (fst cx) (snd cx))).
Proof.
  intros Ea. unfold h_save, hbind at 1. rewrite (run_load_state _ _ _ _ _ _ _ _ Ea). apply run_store. now apply lt_of_nth in Ea.
Qed.
Lemma rep_state_same h a s s' h' : rep_state h a s -> untouched h h' -> same_values s s' ->
  (forall d al, nth_error h a = Some (HState d al (st_temp s) (st_cache s) (st_extra s)) ->
     nth_error h' a = Some (HState d al (st_temp s) (st_cache s') (st_extra s'))) -> rep_state h' a s'.
Proof.
  intros (d & al & dl & E1 & E2 & D & G) U (V1 & V2 & V3 & V4) K.
  destruct (U _ _ E2) as (o & E3 & So). cbn in So. subst o.
  eapply rep_state_mk.
  - rewrite V3. exact (K d al E1).
  - exact E3.
  - rewrite V1. eapply edrel_kept; eauto.
  - rewrite V2. eapply earel_kept; eauto.
Qed.
Lemma untouched_save h a d al t c x c' x' : nth_error h a = Some (HState d al t c x) -> untouched h (set_nth h a (HState d al t c' x')).
Proof.
  intros Ea b o Eb. destruct (Nat.eq_dec a b) as [<-|Hn].
  - rewrite Ea in Eb. injection Eb as <-. eexists. split; [apply nth_set_eq; now apply lt_of_nth in Ea|]. cbn. eauto.
  - exists o. split; [|apply same_data_refl]. rewrite nth_set_ne; auto. now apply lt_of_nth in Ea.
Qed.
Lemma sim_like h a b s s' T : rep_state h a s -> rep_state h b s' -> a <> b ->
  sim h (h_like E a b T) (log_likelihood_ratio ll s s' T)
    (fun h' l y => rep_state h' a (fst (fst y)) /\ rep_state h' b (snd (fst y)) /\ l = snd y).
Proof.
  intros Ra Rb Hab tr. unfold h_like, hbind at 1. cbn [E h_inversion_env he_like]. rewrite (Hlike h a b s s' T tr Ra Rb).
  destruct (log_likelihood_ratio ll s s' T tr) as [[[o n] r] t|e t| |] eqn:El; try (cbn; auto; fail).
  apply like_values in El. destruct El as [Vo Vn].
  pose proof Ra as (d & al & dl & Ea & _). pose proof Rb as (d2 & al2 & dl2 & Eb & _).
  unfold hbind at 1. rewrite (run_h_save _ _ _ _ _ _ _ _ _ Ea). cbn [fst snd].
  set (h1 := set_nth h a (HState d al (st_temp s) (st_cache o) (st_extra o))).
  assert (Eb1 : nth_error h1 b = Some (HState d2 al2 (st_temp s') (st_cache s') (st_extra s'))).
  { unfold h1. rewrite nth_set_ne; auto. now apply lt_of_nth in Ea. }
  assert (Ea1 : nth_error h1 a = Some (HState d al (st_temp s) (st_cache o) (st_extra o))).
  { unfold h1. apply nth_set_eq. now apply lt_of_nth in Ea. }
  unfold hbind at 1. rewrite (run_h_save _ _ _ _ _ _ _ _ _ Eb1). cbn [fst snd].
  assert (U1 : untouched h h1) by (eapply untouched_save; eauto).
  assert (U2 : untouched h1 (set_nth h1 b (HState d2 al2 (st_temp s') (st_cache n) (st_extra n)))) by (eapply untouched_save; eauto).
  assert (U : untouched h (set_nth h1 b (HState d2 al2 (st_temp s') (st_cache n) (st_extra n)))) by (eapply untouched_trans; eauto).
  cbn. split; auto. split; auto. split; [|split; auto].
  - apply (rep_state_same h a s o _ Ra U Vo). intros d' al' Ed. rewrite Ea in Ed. injection Ed as <- <-.
    rewrite nth_set_ne; auto. now apply lt_of_nth in Eb1.
  - apply (rep_state_same h b s' n _ Rb U Vn). intros d' al' Ed. rewrite Eb in Ed. injection Ed as <- <-.
    apply nth_set_eq. now apply lt_of_nth in Eb1.
Qed.
Lemma sim_try_pfunc f h a s : rep_state h a s -> sane_state s ->
  sim h (htry (h_pfunc f a)) (try (pfunc_perturb f s)) (fun h' x y =>
    rep_state h' a s /\
    match x, y with
    | inl u, inl w => srep2 h' u w /\ fst u <> a
    | inr e, inr e' => e = e'
    | _, _ => False
    end).
Proof.
  intros R Ss tr. destruct (ok_pfunc f (length h) h a (le_n _) tr) as [V Q]. pose proof (ev_untouched _ _ _ V) as U.
  pose proof (rep_state_ev _ _ _ _ _ V R) as R'.
  pose proof (sim_pfunc f h a s R Ss tr) as S. unfold agree, htry, try in *.
  destruct (h_pfunc f a h tr) as [[x t|x t| |] h']; destruct (pfunc_perturb f s tr) as [y t'|y t'| |]; cbn in *; try contradiction; auto.
  - destruct S as (-> & _ & S). destruct (Q _ _ eq_refl) as (L & _). repeat split; auto; try apply S.
    destruct R as (d & al & dl & Ea & _). apply lt_of_nth in Ea. unfold loc in *. lia.
  - destruct S as (-> & ->). auto.
Qed.
Lemma sim_attempt h c c' : chain_stands h c c' -> P (c_cur c') -> sim h (h_attempt E c) (attempt E' c') step_rel.
Proof.
  intros H Hp. assert (Ss : sane_state (c_cur c')) by (eapply state_ok_sane; [exact Hset|apply Hp]).
  unfold h_attempt, attempt. cbn [E E' h_inversion_env inversion_env chain_env he_funcs he_weights e_funcs e_weights e_like].
  rewrite !map_length. eapply sim_bind; [apply sim_do|]. cbn beta. intros h1 oi oi' _ [-> ->].
  destruct oi' as [i|e]; [|apply sim_ret; split; auto].
  rewrite !nth_error_map. destruct (nth_error (inv_pfuncs spaces ll) i) as [[f w]|]; cbn [option_map fst snd]; [|apply sim_ret; split; auto].
  eapply sim_bind; [apply (sim_try_pfunc f h (c_cur c) (c_cur c') (cs_cur _ _ _ H) Ss)|]. cbv beta.
  intros h1 x y U (R1 & K). pose proof (chain_stands_ev _ _ _ _ U R1 H) as H1.
  destruct x as [[a lpr]|e], y as [[s lpr']|e']; try contradiction.
  - destruct K as [[Rn El] Hne]. cbn [fst snd] in Rn, El, Hne. subst lpr'.
    destruct (eisinf lpr); [apply sim_decide; auto|].
    rewrite (cs_temp _ _ _ H1).
    eapply sim_bind; [apply (sim_like h1 (c_cur c) a (c_cur c') s); auto|]. cbv beta.
    intros h2 l [[o n] l'] U2 (Ro & Rn' & El). cbn [fst snd] in Ro, Rn', El. subst l'.
    assert (H2 : chain_stands h2 c (set_cur o c')).
    { destruct H1. constructor; auto. eapply saved_kept; eauto. }
    destruct l as [llr|e].
    + apply sim_decide; auto.
    + destruct e; try (apply sim_ret; split; auto; apply stands_count; auto).
  - subst e'. destruct e; try (apply sim_ret; split; auto; apply stands_count; auto).
Qed.
Lemma sim_with {A B} h (m : HM A) (v : M B) R : sim h m v R -> sim h m v (fun h' a b => R h' a b /\ exists tr tr', v tr = Ret b tr').
Proof.
  intros H tr. specialize (H tr). unfold agree in *. destruct (m h tr) as [[a t|e t| |] h1]; destruct (v tr) eqn:Ev; cbn in *; auto.
  destruct H as (-> & U & Hr). eauto 8.
Qed.
Lemma HPres : preserving E' P.
Proof. now apply inversion_preserving. Qed.
Definition run_rel (h : heap) (x : chain loc hout * option exn) (y : chain state ovalue * option exn) : Prop :=
  step_rel h x y /\ P (c_cur (fst y)).
Lemma sim_tries k : forall h c c', chain_stands h c c' -> P (c_cur c') -> sim h (h_tries E k c) (tries E' k c') run_rel.
Proof.
  induction k as [|k IH]; intros h c c' H Hp; cbn [h_tries tries].
  - apply sim_ret. split; [split|]; auto.
  - eapply sim_bind; [apply sim_with, sim_attempt; eauto|]. cbv beta.
    intros h1 [c1 v] [c1' v'] U [[H1 Ev] (t & t' & Ea)]. cbn [fst snd] in H1, Ev. subst v'.
    assert (Hp1 : P (c_cur c1')) by (eapply attempt_cur; eauto; apply HPres).
    destruct v; [apply IH; auto|apply sim_ret; split; [split|]; auto..].
Qed.
Lemma sim_advance n sc : sc_verbose sc = false -> forall h c c', chain_stands h c c' -> P (c_cur c') ->
  sim h (h_advance E n sc c) (advance E' n sc (Some nothing) (Some nothing) c') run_rel.
Proof.
  intros Hv. induction n as [|n IH]; intros h c c' H Hp; cbn [h_advance advance].
  - apply sim_ret. split; [split|]; auto.
  - unfold advance_one. rewrite (cs_nprop_tot _ _ _ H). destruct (save_flag sc _) as [fl|x|].
    + eapply (sim_ext _ _ _ (bind (tries E' 500 (set_flag fl c')) (fun y => let '(c1, o) := y in
        match o with Some x => ret (c1, Some x) | None => advance E' n sc (Some nothing) (Some nothing) c1 end))).
      { intros tr. cbn [call_hook]. unfold next_iteration. unfold nothing at 1. unfold bind, ret.
        destruct (tries E' 500 (set_flag fl c') tr) as [[c2 [e|]] t|e t| |]; auto. cbn [call_hook]. unfold nothing at 1. unfold ret. now rewrite Hv. }
      eapply sim_bind; [apply sim_tries; [apply stands_flag; eauto|auto]|].
      intros h1 [c1 o] [c1' o'] U [[H1 Eo] Hp1]. cbn [fst snd] in H1, Eo, Hp1. subst o'.
      destruct o; [apply sim_ret; split; [split|]; auto|]. apply IH; auto.
    + intros tr. split; [reflexivity|]. split; [apply untouched_refl|]. split; [split|]; auto.
    + intros tr. exact I.
Qed.
End Steps.
