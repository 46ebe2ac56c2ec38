(** Properties of cached and saved predictions: C19 - C21. *)
From Verif Require Import Base ModelPrior ModelState ModelSpace ModelPerturb ModelChain ModelSampler
  ModelLikelihood SpecUtils1D SpecPrior SpecState SpecSpace SpecPerturb SpecChain SpecRun SpecLikelihood
  ProofUtils1D ProofChain ProofChainB ProofChainC ProofSampler ProofInversion
  ProofState ProofSpace ProofPerturb ProofTree ProofRun ProofRunB ProofRunC PropChain PropRun PropLikelihood
  ExampleRun.
Local Open Scope R_scope.
Local Open Scope string_scope.

(** * What perturbations leave in the cache *)
Lemma chars_app a b : list_ascii_of_string (a ++ b) = (list_ascii_of_string a ++ list_ascii_of_string b)%list.
Proof. induction a as [|c a IH]; cbn; auto. now rewrite IH. Qed.
Lemma ends_differ a b x y : (forall l l', (rev (list_ascii_of_string x) ++ l)%list <> (rev (list_ascii_of_string y) ++ l')%list) ->
  a ++ x <> b ++ y.
Proof.
  intros H E. apply (f_equal (fun s => rev (list_ascii_of_string s))) in E. rewrite !chars_app, !rev_app_distr in E.
  eapply H; exact E.
Qed.
Lemma dpred_not_stats t : "perturb_stats" <> dpred_key t.
Proof. apply (ends_differ "" (t_name t) "perturb_stats" ".dpred"). cbn. discriminate. Qed.
Lemma dpred_not_dpred t : "dpred" <> dpred_key t.
Proof.
  intros E. apply (f_equal (fun s => rev (list_ascii_of_string s))) in E. unfold dpred_key in E.
  rewrite chars_app, rev_app_distr in E. cbn in E. discriminate.
Qed.
Definition no_pred (s : state) : Prop := forall t, dget (dpred_key t) (st_cache s) = None.
Lemma mk_state_cache vals t c : st_cache (mk_state vals t c) = c.
Proof.
  unfold mk_state. assert (G : forall l s, st_cache s = c -> st_cache (fold_left (fun s ke => st_set (fst ke) (snd ke) s) l s) = c).
  { induction l as [|ke l IH]; intros s H; cbn; auto. }
  apply G. reflexivity.
Qed.
Lemma st_copy_cache b s s' : st_copy b s = Ok s' ->
  st_cache s' = if b then filter (fun kc => String.eqb (fst kc) "dpred") (st_cache s) else [].
Proof.
  unfold st_copy. intros H. apply rbind_ok in H. destruct H as (v & _ & [= <-]). apply mk_state_cache.
Qed.
Lemma kept_nothing (c : dict centry) t : dget (dpred_key t) (filter (fun kc => String.eqb (fst kc) "dpred") c) = None.
Proof.
  induction c as [|[k v] c IH]; cbn; auto. destruct (String.eqb_spec k "dpred") as [E|E]; auto. cbn.
  destruct (String.eqb_spec (dpred_key t) k) as [E'|E']; auto. exfalso. apply (dpred_not_dpred t). congruence.
Qed.
Lemma copy_no_pred b s s' : st_copy b s = Ok s' -> no_pred s'.
Proof. intros H t. apply st_copy_cache in H. rewrite H. destruct b; [apply kept_nothing|reflexivity]. Qed.
Lemma filter_keys_nodup {A} (f : string * A -> bool) d : NoDup (dkeys d) -> NoDup (dkeys (filter f d)).
Proof.
  unfold dkeys. induction d as [|[k v] d IH]; cbn; intros H; [constructor|]. inversion H as [|? ? Hk Hd]; subst.
  destruct (f (k, v)); cbn; auto. constructor; auto. intros Hin. apply Hk. apply in_map_iff in Hin.
  destruct Hin as (x & <- & Hx). apply filter_In in Hx. apply in_map. tauto.
Qed.
Lemma set_in_state_cache w k v s s' : set_in_state w k v s = Ok s' -> st_cache s' = st_cache s.
Proof.
  unfold set_in_state. destruct w as [|[k0 i] w]; [discriminate|].
  destruct (st_get k0 s) as [[p|d]|]; try discriminate. intros H. apply rbind_ok in H.
  destruct H as (p' & _ & [= <-]). reflexivity.
Qed.
Lemma walk_node_cache q t w l : forall s tr s' tr', walk_node q t w l s tr = Ret s' tr' ->
  st_cache (w_new s') = st_cache (w_new s).
Proof.
  induction l as [|[k c] l IH]; intros s tr s' tr' H; cbn [walk_node] in H.
  - mr H. reflexivity.
  - destruct c as [p|ps|]; [| |eauto].
    + destruct (String.eqb k (psp_space q)); [|apply IH in H; exact H].
      destruct (_ =? _)%nat; [|apply IH in H; exact H].
      mb H as [[p' r] ty] Ep. apply IH in H. exact H.
    + destruct (String.eqb k (psp_space q)).
      * mb H as [[[ps' i'] r'] st'] Ep. mb H as new' En. apply IH in H. rewrite H. cbn.
        eapply set_in_state_cache; eauto.
      * destruct ps; [discriminate|]. apply IH in H. exact H.
Qed.
Lemma walk_loop_cache fuel q t : forall s tr s' tr', walk_loop fuel q t s tr = Ret s' tr' ->
  st_cache (w_new s') = st_cache (w_new s).
Proof.
  induction fuel as [|fuel IH]; intros s tr s' tr' H; cbn [walk_loop] in H;
    destruct (w_queue s) as [|[w l] rest]; try (mr H; reflexivity);
    (destruct (w_i s <=? t)%nat; [|mr H; reflexivity]).
  - discriminate.
  - mb H as s1 E1. apply IH in H. rewrite H. apply walk_node_cache in E1. exact E1.
Qed.
Lemma psp_no_pred q s tr s' r tr' : psp_perturb q s tr = Ret (s', r) tr' -> no_pred s' /\ NoDup (dkeys (st_cache s')).
Proof.
  unfold psp_perturb. intros H. mb H as c Ec. mb H as n En. mb H as t Et. mb H as w Ew. mr H. inj H.
  apply walk_loop_cache in Ew. cbn [w_new] in Ew.
  assert (Hc : st_cache c = []) by exact (st_copy_cache _ _ _ Ec).
  split.
  - intros u. cbn [st_save_cache st_cache]. rewrite Ew, Hc. cbn [dset]. cbn [dget].
    destruct (String.eqb_spec (dpred_key u) "perturb_stats") as [E|E]; auto. exfalso. eapply dpred_not_stats. symmetry. exact E.
  - cbn [st_save_cache st_cache]. rewrite Ew, Hc. cbn. repeat constructor. auto.
Qed.
Lemma noise_no_pred ts s tr s' r tr' : noise_perturb ts s tr = Ret (s', r) tr' ->
  no_pred s' /\ (NoDup (dkeys (st_cache s)) -> NoDup (dkeys (st_cache s'))).
Proof.
  unfold noise_perturb. intros H. mb H as new En. mb H as c Ec. mr H. inj H.
  split.
  - intros t. cbn [st_update_vals st_cache]. eapply copy_no_pred; eauto.
  - intros Hn. cbn [st_update_vals st_cache]. apply st_copy_cache in Ec. rewrite Ec. now apply filter_keys_nodup.
Qed.

(** * The states of a chain *)
Section Chains.
Variable spaces : list space.
Variable ll : loglike.
Variable save : bool.
Variable g : target -> state -> option (list R).
(** The forward functions are deterministic functions of the parameters. *)
Hypothesis Hg : forward_is ll g.
Hypothesis Hgv : forall t s s', st_vals s' = st_vals s -> st_attrs s' = st_attrs s -> g t s' = g t s.
Hypothesis Hlen : ll_mode ll = MTargets -> length (ll_fwds ll) = length (ll_targets ll).
Hypothesis Hnd : NoDup (map t_name (ll_targets ll)).
Let E := inversion_env spaces ll save.
Definition fine (s : state) : Prop := up_to_date ll g s /\ NoDup (dkeys (st_cache s)).
Lemma get_dpred_nodup t f s tr s' o tr' : get_dpred t f s tr = Ret (s', o) tr' ->
  NoDup (dkeys (st_cache s)) -> NoDup (dkeys (st_cache s')).
Proof.
  unfold get_dpred. destruct (dget (dpred_key t) (st_cache s)) as [[?|?|?]|]; intros H; try discriminate.
  - mr H. inj H. auto.
  - mb H as a Ea. destruct a; mr H; inj H; auto. now apply dset_nodup.
Qed.
Lemma misfit_loop_nodup l : forall s m d tr s' o tr', misfit_loop l s m d tr = Ret (s', o) tr' ->
  NoDup (dkeys (st_cache s)) -> NoDup (dkeys (st_cache s')).
Proof.
  induction l as [|[t f] l IH]; intros s m d tr s' o tr' H; cbn [misfit_loop] in H.
  - mr H. inj H. auto.
  - mb H as [s1 od] E1. pose proof (get_dpred_nodup _ _ _ _ _ _ _ E1) as Hn. destruct od as [dp|e].
    + destruct (target_misfit t s1 dp) as [[a b]|e|]; [|mr H; inj H; auto|discriminate].
      intros Hs. eapply IH; eauto.
    + mr H. inj H. auto.
Qed.
Lemma misfit_loop_keeps l : forall s m d tr s' o tr', misfit_loop l s m d tr = Ret (s', o) tr' ->
  forall k v, dget k (st_cache s) = Some v -> dget k (st_cache s') = Some v.
Proof.
  induction l as [|[t f] l IH]; intros s m d tr s' o tr' H; cbn [misfit_loop] in H.
  - mr H. inj H. auto.
  - mb H as [s1 od] E1. destruct od as [dp|e].
    + destruct (get_dpred_inv _ _ _ _ _ _ _ E1) as [_ Hc].
      destruct (target_misfit t s1 dp) as [[a b]|e|]; [|mr H; inj H; auto|discriminate].
      intros k v Hk. eapply IH; eauto.
    + mr H. inj H. unfold get_dpred in E1. destruct (dget (dpred_key t) (st_cache s)) as [[?|?|?]|]; try discriminate.
      mb E1 as r Er. destruct r; mr E1; inj E1; auto. discriminate.
Qed.
Lemma misfit_loop_all l : forall s m d tr s' md tr', misfit_loop l s m d tr = Ret (s', inl md) tr' ->
  forall t f, In (t, f) l -> exists dp, predicted t s' dp.
Proof.
  induction l as [|[t f] l IH]; intros s m d tr s' md tr' H t0 f0 Hin; cbn [misfit_loop] in H; [destruct Hin|].
  mb H as [s1 od] E1. destruct od as [dp|e]; [|mr H; discriminate].
  destruct (get_dpred_inv _ _ _ _ _ _ _ E1) as [Hp _].
  destruct (target_misfit t s1 dp) as [[a b]|e|]; [|mr H; discriminate|discriminate].
  destruct Hin as [[= <- <-]|Hin].
  - exists dp. eapply misfit_loop_keeps; eauto.
  - eapply IH; eauto.
Qed.
Lemma misfit_loop_fine s m d tr s' o tr' : ll_mode ll = MTargets ->
  misfit_loop (combine (ll_targets ll) (ll_fwds ll)) s m d tr = Ret (s', o) tr' -> fine s -> fine s'.
Proof.
  intros Hm H [Hs Hn]. split; [|eapply misfit_loop_nodup; eauto]. specialize (Hlen Hm).
  apply (synced_up ll g Hlen) in Hs.
  pose proof (loop_pure g (proj2 Hg) _ (L_names ll Hlen Hnd) (proj1 Hg) s m d tr Hs) as P.
  destruct (scores g (combine (ll_targets ll) (ll_fwds ll)) s m d) as [md|e|].
  - destruct P as (s1 & E1 & H1). rewrite E1 in H. injection H as <- <- <-. now apply (synced_up ll g Hlen).
  - destruct P as (s1 & E1 & H1). rewrite E1 in H. injection H as <- <- <-. now apply (synced_up ll g Hlen).
  - rewrite P in H. discriminate.
Qed.
Definition cached (s : state) : Prop := forall t, In t (ll_targets ll) -> exists d, predicted t s d.
Lemma like_fine old new T tr old' new' r tr' : log_likelihood_ratio ll old new T tr = Ret (old', new', r) tr' ->
  (fine old -> fine old') /\ (fine new -> fine new') /\ (cached old -> cached old') /\
  (ll_mode ll = MTargets -> forall x, r = inl x -> cached new').
Proof.
  unfold log_likelihood_ratio. destruct (Reqb T 0); [discriminate|]. intros H. mb H as [[o n] r0] E0. mr H. inj H.
  assert (G : (fine old -> fine old') /\ (fine new -> fine new') /\ (cached old -> cached old') /\
    (ll_mode ll = MTargets -> forall x, r0 = inl x -> cached new')).
  { assert (Hms : ll_mode ll = MTargets \/ ll_mode ll = MRatio \/ ll_mode ll = MLike) by (clear; destruct (ll_mode ll); auto).
    unfold raw_ratio in E0. destruct Hms as [Hm|[Hm|Hm]]; rewrite Hm in E0.
    - unfold ratio_from_targets in E0. mb E0 as [o1 r1] E1.
      assert (C1 : cached old -> cached o1).
      { intros Hc u Ht. destruct (Hc u Ht) as (dp & Hp). exists dp. eapply misfit_loop_keeps; eauto. }
      destruct r1 as [[m1 d1]|e].
      2:{ mr E0. inj E0. split; [eapply misfit_loop_fine; eauto|]. split; [auto|split; [auto|intros _ x Hx; discriminate]]. }
      mb E0 as [n1 r2] E2.
      assert (C2 : forall md, r2 = inl md -> cached n1).
      { intros md -> u Ht. destruct (combine_in (ll_targets ll) (ll_fwds ll) u (Hlen Hm) Ht) as (f & Hf).
        eapply misfit_loop_all; eauto. }
      destruct r2 as [[m2 d2]|e]; mr E0; inj E0;
        (split; [eapply misfit_loop_fine; eauto|split; [eapply misfit_loop_fine; eauto|split; auto]]); eauto. intros _ x Hx. discriminate.
    - destruct (ll_ratio ll); [|discriminate]. mb E0 as r1 E1. mr E0. inj E0. split; [auto|split; [auto|split; [auto|intros; congruence]]].
    - destruct (ll_func ll); [|discriminate]. mb E0 as r1 E1. mr E0. inj E0. split; [auto|split; [auto|split; [auto|intros; congruence]]]. }
  destruct G as (G1 & G2 & G3 & G4). split; [auto|split; [auto|split; [auto|]]]. intros Hm x Hx. destruct r0 as [y|e]; [|discriminate].
  eapply G4; eauto.
Qed.
Lemma pfunc_fine ty f s new lpr tr tr' : In (ty, f) (e_funcs E) -> f s tr = Ret (new, lpr) tr' -> fine s -> fine new.
Proof.
  intros Hin H [_ Hn]. cbn in Hin. apply in_map_iff in Hin. destruct Hin as ([[q|ts] w] & E0 & _); cbn in E0; injection E0 as <- <-.
  - apply psp_no_pred in H. destruct H as [H1 H2]. split; auto. intros t c _ Hc. rewrite H1 in Hc. discriminate.
  - apply noise_no_pred in H. destruct H as [H1 H2]. split; auto. intros t c _ Hc. rewrite H1 in Hc. discriminate.
Qed.
Lemma fine_temp t s : fine s -> fine (st_settemp t s).
Proof.
  intros [H1 H2]. split; auto. intros u c Hu Hc. destruct (H1 u c Hu Hc) as (d & -> & Hd). exists d. split; auto.
  rewrite <- Hd. now apply Hgv.
Qed.
Lemma fine_preserving : preserving E fine.
Proof.
  split.
  - intros ty f s tr new lpr tr' Hin Hs H _. eapply pfunc_fine; eauto.
  - intros old new T tr old' new' r tr' H. cbn in H. apply like_fine in H. tauto.
  - intros t s Hs. cbn. now apply fine_temp.
Qed.
Lemma starting_cache tr s tr' : starting_state spaces ll tr = Ret s tr' -> st_cache s = [].
Proof.
  unfold starting_state. intros H. mb H as s0 E0. unfold initialize_all in E0. mb E0 as v Ev. mr E0.
  assert (G : forall ts s s' tr tr', targets_initialize ts s tr = Ret s' tr' -> st_cache s' = st_cache s).
  { induction ts as [|tg ts IH]; intros a0 b0 ta tb Ht; cbn [targets_initialize] in Ht; [mr Ht; reflexivity|].
    mb Ht as s1 E1. apply IH in Ht. rewrite Ht. unfold target_initialize in E1. destruct (is_hier tg).
    - mb E1 as std Es. mb E1 as cor Ec. mr E1. reflexivity.
    - mr E1. reflexivity. }
  unfold ll_initialize in H. apply G in H. rewrite H. apply mk_state_cache.
Qed.
Lemma chain_fine c : chain_of spaces ll save c -> fine (c_cur c).
Proof.
  intros (n & tr & cs0 & tr' & cs & H0 & Hr & Hc).
  assert (HF : Forall (chain_ok E fine) cs).
  { eapply many_runs_ok; [apply fine_preserving|exact Hr|]. clear - H0. unfold inversion_chains in H0. revert tr cs0 tr' H0.
    induction n as [|n IH]; intros tr cs0 tr' H; cbn [repeatM] in H.
    - mr H. constructor.
    - mb H as c0 Ec. mb Ec as s Es. mr Ec. mb H as cs' Ecs. mr H. constructor; eauto.
      apply new_chain_ok. apply starting_cache in Es. split.
      + intros u cu _ Hc. rewrite Es in Hc. discriminate.
      + rewrite Es. constructor. }
  rewrite Forall_forall in HF. apply HF. exact Hc.
Qed.

(** ** Iterations *)
(** [I] holds of the current state, [J] of proposals that can be accepted. *)
Section Rounds.
Variables I J : state -> Prop.
Hypothesis HJ : forall ty f s tr new lpr tr', In (ty, f) (e_funcs E) -> I s -> f s tr = Ret (new, lpr) tr' -> live lpr -> J new.
Hypothesis Hold : forall old new T tr old' new' r tr', e_like E old new T tr = Ret (old', new', r) tr' -> I old -> I old'.
Hypothesis Hnew : forall old new T tr old' new' x tr', e_like E old new T tr = Ret (old', new', inl x) tr' -> J new -> I new'.
Hypothesis Hinf : forall ty f s tr new tr', In (ty, f) (e_funcs E) -> I s -> f s tr = Ret (new, PInf) tr' -> J new -> I new.
Lemma attempt_I c tr c' v tr' : attempt E c tr = Ret (c', v) tr' -> I (c_cur c) -> I (c_cur c').
Proof.
  intros H Hc. apply attempt_cases in H.
  destruct H as [(e & s & _ & Hu & ->)|[(e & _ & ->)|[(e & ty & new & lpr & tr1 & old' & new' & _ & _ & Hl & _ & _ & ->)|
    (ty & new & lpr & tr1 & old' & new' & llr & u & Hp & He & Hu & Hd)]]]; auto.
  - cbn. destruct Hu; eauto.
  - cbn. eauto.
  - pose proof Hp as (i & f & tr0 & _ & Hi & Hf). apply nth_error_In in Hi.
    assert (Ho : I old') by (destruct He; eauto).
    destruct Hd as [(_ & _ & ->)|(_ & acc & Ha & Hfin)]; [exact Ho|].
    assert (Hn : acc = true -> I new').
    { intros Hacc. apply Ha in Hacc. pose proof (accepts_live E lpr llr u c new tr1 old' new' _ He Hacc) as Hlv.
      assert (Hj : J new) by eauto. destruct He as [tr1 Hi'|tr1 old' new' llr tr2 Hi' Hl]; [|eauto].
      destruct lpr; try discriminate; [|destruct Hlv]. eapply Hinf; eauto. }
    assert (Hcur : c_cur c' = (if acc then new' else old')).
    { unfold finish in Hfin. set (c1 := if acc then set_cur new' (set_cur old' c) else set_cur old' c) in *.
      assert (H1 : c_cur c1 = if acc then new' else old') by (unfold c1; destruct acc; reflexivity).
      destruct (save_statistics E ty acc new' c1) as [c2|e] eqn:Hs; [|injection Hfin as <- _; exact H1].
      assert (H2 : c_cur c2 = if acc then new' else old').
      { rewrite <- H1. revert Hs. unfold save_statistics.
        destruct (prefix _ _); [destruct (s_pstats _ _)|]; intros [= <-]; reflexivity. }
      destruct (c_flag c2) as [fl|]; [|injection Hfin as <- _; exact H2].
      destruct (_ && _)%bool; [|injection Hfin as <- _; exact H2].
      destruct (save_state E c2) as [c3 o] eqn:Hsv. apply save_state_frame in Hsv. destruct Hsv as (sv & ->).
      injection Hfin as <- _. exact H2. }
    rewrite Hcur. destruct acc; auto.
Qed.
Lemma tries_I k : forall c tr c' o tr', tries E k c tr = Ret (c', o) tr' -> I (c_cur c) -> I (c_cur c').
Proof.
  induction k as [|k IH]; intros c tr c' o tr' H Hc; cbn [tries] in H.
  - mr H. inj H. auto.
  - mb H as [c1 v] E1. apply attempt_I in E1; auto. destruct v; try (mr H; inj H; auto). eauto.
Qed.
(** Callbacks that look only. *)
Definition looks (h : option (hook state ovalue)) : Prop :=
  leaves_records h /\ forall c tr c' o tr', call_hook h c tr = Ret (c', o) tr' -> c_cur c' = c_cur c.
Lemma rounds_I sc b e : looks b -> looks e -> forall c tr ces c' tr', rounds E sc b e c tr ces c' tr' ->
  I (c_cur c) -> Forall (fun ce => I (c_cur ce)) ces /\ I (c_cur c').
Proof.
  intros [_ Hb] [_ He] c tr ces c' tr' H. induction H as [|c tr ce c1 tr1 ces c' tr' Hr Hrs IH]; intros Hc; auto.
  destruct Hr as (flag & cb & t1 & t2 & _ & H1 & H2 & H3). apply Hb in H1. apply He in H3.
  assert (Hce : I (c_cur ce)). { eapply tries_I; [exact H2|]. rewrite H1. exact Hc. }
  destruct IH as [IH1 IH2]; [now rewrite H3|]. auto.
Qed.
End Rounds.

(** ** What is saved *)
Hypothesis Hset : setup_ok spaces (ll_targets ll).
Hypothesis Hhier : ll_hier ll = hier_of (ll_targets ll).
(** The name of no space makes the entry of a parameter look like predictions. *)
Definition apart (t : target) : Prop := forall sp x, In sp spaces -> dpred_key t <> sp_name sp ++ "." ++ x.
Lemma no_item t s v : apart t -> good spaces (ll_targets ll) s -> ~ In (dpred_key t, v) (st_items s).
Proof.
  intros Ha Hgd Hin. apply items_shows in Hin; [|eapply state_ok_sane; [eauto|apply Hgd]|apply Hgd].
  destruct Hin as [(name & p & Eg & Hs)|(name & d & Eg & Hs)].
  - destruct (good_get_space _ _ _ _ _ Hgd Eg) as (sp & Hsp & -> & _).
    assert (G : forall name k w, shows name p k w -> exists x, k = name ++ "." ++ x).
    { clear. intros name k w H. inversion H; subst; eauto. now exists "n_dimensions". }
    destruct (G _ _ _ Hs) as (x & Ex). exact (Ha sp x Hsp Ex).
  - revert Hs. generalize (eq_refl (dpred_key t)). generalize (dpred_key t) at 2 3. intros k Ek Hs.
    destruct Hs as [nm d|nm d r _]; revert Ek; unfold dpred_key; apply ends_differ; cbn; discriminate.
Qed.
Lemma values_of_map {A B} (f : A -> B) k (d : dict A) : NoDup (dkeys d) ->
  values_of k (map (fun kc => (fst kc, f (snd kc))) d) = match dget k d with Some x => [f x] | None => [] end.
Proof.
  unfold values_of, dkeys. induction d as [|[k0 x] d IH]; cbn; intros H; auto. inversion H as [|? ? Hk Hd]; subst.
  rewrite String.eqb_sym. destruct (String.eqb_spec k k0) as [Ek|Ek]; cbn.
  - subst. f_equal. rewrite IH by auto. destruct (dget k0 d) eqn:Eg; auto. exfalso. apply Hk.
    apply dget_some_in in Eg. now apply in_map with (f := fst) in Eg.
  - auto.
Qed.
Lemma values_of_none {A} k (l : list (string * A)) : (forall v, ~ In (k, v) l) -> values_of k l = [].
Proof.
  unfold values_of. intros H. induction l as [|[k0 x] l IH]; cbn; auto. destruct (String.eqb_spec k0 k) as [Ek|Ek].
  - subst. exfalso. apply (H x). now left.
  - apply IH. intros v Hv. apply (H v). now right.
Qed.
Lemma contains_dpred t : contains "dpred" (dpred_key t) = true.
Proof.
  unfold dpred_key. generalize (t_name t). intros a. induction a as [|c a IH]; [reflexivity|].
  change (contains "dpred" (String c (a ++ ".dpred")) = true). cbn [contains]. rewrite IH. now destruct (prefix _ _).
Qed.
(** What a sample holds for a target. *)
Lemma sample_dpred t s : apart t -> In t (ll_targets ll) -> good spaces (ll_targets ll) s -> fine s ->
  sample E (dpred_key t) s =
  if save then match g t s, dget (dpred_key t) (st_cache s) with Some d, Some _ => [OArr (Arr d)] | _, _ => [] end else [].
Proof.
  intros Ha Ht Hgd [Hu Hn]. unfold sample, sample_values. 
  rewrite (values_of_none (dpred_key t) (s_items (e_ops E) s)) by (intros v; now apply no_item).
  rewrite contains_dpred, andb_true_r. replace (if fixed_entry E (dpred_key t) then [] else []) with (@nil ovalue) by (now destruct (fixed_entry E (dpred_key t))).
  cbn [app]. change (e_savedpred E) with save. destruct save; auto.
  unfold cache_of. cbn [e_ops E inversion_env chain_env s_cache state_opsB]. rewrite values_of_map by auto.
  destruct (dget (dpred_key t) (st_cache s)) as [c|] eqn:Ec.
  - destruct (Hu t c Ht Ec) as (d & -> & ->). reflexivity.
  - now destruct (g t s).
Qed.
Definition some_pred (o : option (list R)) : list ovalue := match o with Some d => [OArr (Arr d)] | None => [] end.
Lemma saved_run n sc b e c tr c' tr' d : save = true -> looks b -> looks e ->
  good spaces (ll_targets ll) (c_cur c) -> fine (c_cur c) ->
  advance E n sc b e c tr = Ret (c', None) tr' -> c_saved c = SDict d ->
  exists ces sel d', rounds E sc b e c tr ces c' tr' /\ length ces = n /\ selects (sampled sc) ces sel /\
    c_saved c' = SDict d' /\
    (forall k, stored k d' = (stored k d ++ concat (map (fun ce => sample E k (c_cur ce)) sel))%list) /\
    (forall t, In t (ll_targets ll) -> apart t -> exists ps,
       stored (dpred_key t) d' = (stored (dpred_key t) d ++ concat (map some_pred ps))%list /\
       Forall2 (fun ce o => (o = None /\ ~ (exists p, predicted t (c_cur ce) p)) \/
                            (exists p, o = Some p /\ g t (c_cur ce) = Some p)) sel ps) /\
    (ll_mode ll = MTargets -> cached (c_cur c) ->
     (forall ty f s tr new tr', In (ty, f) (e_funcs E) -> good spaces (ll_targets ll) s -> f s tr <> Ret (new, PInf) tr') ->
     Forall (fun ce => cached (c_cur ce)) ces /\ cached (c_cur c')).
Proof.
  intros Hsv Hb He Hgd Hf H Hd. destruct (advance_rounds _ _ _ _ _ _ _ _ _ H) as (ces & Hl & Hr).
  destruct (rounds_dict E _ _ _ (proj1 Hb) (proj1 He) _ _ _ _ _ Hr d Hd) as (sel & d' & Hs & Hd' & Hst).
  set (I0 := fun s => good spaces (ll_targets ll) s /\ fine s).
  pose proof (inversion_preserving spaces ll save Hset Hhier) as [P1 P2 P3].
  destruct (fine_preserving) as [Q1 Q2 Q3].
  assert (HI : Forall (fun ce => I0 (c_cur ce)) ces /\ I0 (c_cur c')).
  { eapply (rounds_I I0 I0); [| | | |exact Hb|exact He|exact Hr|split; auto].
    - intros ty f s t0 new lpr t1 Hin [A1 A2] Hf' Hlv. split; eauto.
    - intros old new T t0 old' new' r t1 Hlk [A1 A2]. split; [exact (proj1 (P2 _ _ _ _ _ _ _ _ Hlk) A1)|exact (proj1 (Q2 _ _ _ _ _ _ _ _ Hlk) A2)].
    - intros old new T t0 old' new' r t1 Hlk [A1 A2]. split; [exact (proj2 (P2 _ _ _ _ _ _ _ _ Hlk) A1)|exact (proj2 (Q2 _ _ _ _ _ _ _ _ Hlk) A2)].
    - auto. }
  exists ces, sel, d'. split; [auto|]. split; [auto|]. split; [auto|]. split; [auto|]. split; [auto|]. split.
  - intros t Ht Ha.
    assert (HS : Forall (fun ce => I0 (c_cur ce)) sel).
    { destruct HI as [HI _]. clear - HI Hs. induction Hs as [|a l s Hp Hs IH|a l s Hp Hs IH]; auto; inversion HI; subst; auto. }
    exists (map (fun ce => match dget (dpred_key t) (st_cache (c_cur ce)) with Some _ => g t (c_cur ce) | None => None end) sel).
    rewrite Hst. split.
    + f_equal. rewrite map_map. f_equal. apply map_ext_in. intros ce Hin. rewrite Forall_forall in HS.
      destruct (HS ce Hin) as [A1 A2]. rewrite sample_dpred by auto. rewrite Hsv.
      destruct (dget (dpred_key t) (st_cache (c_cur ce))), (g t (c_cur ce)); reflexivity.
    + clear Hst Hs. induction HS as [|ce sel [A1 A2] HS IH]; constructor; auto.
      destruct (dget (dpred_key t) (st_cache (c_cur ce))) as [x|] eqn:Ec.
      * destruct (proj1 A2 t x Ht Ec) as (p & -> & Eg). right. eauto.
      * left. split; auto. intros (p & Hp). unfold predicted in Hp. congruence.
  - intros Hm Hc Hninf. set (I1 := fun s => I0 s /\ cached s).
    assert (G : Forall (fun ce => I1 (c_cur ce)) ces /\ I1 (c_cur c')).
    { eapply (rounds_I I1 I0); [| | | |exact Hb|exact He|exact Hr|split; [split|]; auto].
      - intros ty f s t0 new lpr t1 Hin [[A1 A2] A3] Hf' Hlv. split; eauto.
      - intros old new T t0 old' new' r t1 Hlk [[A1 A2] A3]. split; [split; [exact (proj1 (P2 _ _ _ _ _ _ _ _ Hlk) A1)|exact (proj1 (Q2 _ _ _ _ _ _ _ _ Hlk) A2)]|].
        cbn in Hlk. apply like_fine in Hlk. tauto.
      - intros old new T t0 old' new' r t1 Hlk [A1 A2]. split; [split; [exact (proj2 (P2 _ _ _ _ _ _ _ _ Hlk) A1)|exact (proj2 (Q2 _ _ _ _ _ _ _ _ Hlk) A2)]|].
        cbn in Hlk. apply like_fine in Hlk. destruct Hlk as (_ & _ & _ & Hlk). eapply Hlk; eauto.
      - intros ty f s t0 new t1 Hin [[A1 A2] A3] Hf' _. exfalso. eapply Hninf; eauto. }
    destruct G as [G1 G2]. split; [|apply G2]. eapply Forall_impl; [|exact G1]. intros ce HH. apply HH.
Qed.
End Chains.

(** * C19 *)
(** The forward functions are deterministic functions of the parameters: [g t s] is the
    prediction for target [t], none when the function raises. *)
Record deterministic (ll : loglike) (g : target -> state -> option (list R)) : Prop := {
  de_fwd : forward_is ll g;
  de_params : forall t s s', st_vals s' = st_vals s -> st_attrs s' = st_attrs s -> g t s' = g t s
}.
(** The predictions cached in the current state of a chain of an inversion, after any number
    of runs with any sampler, are those of that state. *)
Theorem C19_current spaces ts fs ratio func ll save g c :
  loglike_init ts fs ratio func = Ok ll -> deterministic ll g -> chain_of spaces ll save c ->
  up_to_date ll g (c_cur c).
Proof.
  intros Hll [Hg Hv] Hc. destruct (C42_precedence _ _ _ _ _ Hll) as (_ & _ & _ & Hlen & Hnd).
  exact (proj1 (chain_fine spaces ll save g Hg Hv Hlen Hnd c Hc)).
Qed.
(** Saving: the predictions appended for a target are those of the samples in which it has one,
    in order.  [sel] are the chains after the iterations that are on the schedule. *)
Theorem C19_saved spaces ts fs ratio func ll g n sc b e c tr c' tr' d :
  loglike_init ts fs ratio func = Ok ll -> deterministic ll g -> setup_ok spaces (ll_targets ll) ->
  chain_of spaces ll true c -> looks b -> looks e ->
  advance (inversion_env spaces ll true) n sc b e c tr = Ret (c', None) tr' -> c_saved c = SDict d ->
  exists ces sel d', rounds (inversion_env spaces ll true) sc b e c tr ces c' tr' /\ length ces = n /\
    selects (sampled sc) ces sel /\ c_saved c' = SDict d' /\
    (forall k, stored k d' = (stored k d ++ concat (map (fun ce => sample (inversion_env spaces ll true) k (c_cur ce)) sel))%list) /\
    (forall t, In t (ll_targets ll) -> apart spaces t -> exists ps,
       stored (dpred_key t) d' = (stored (dpred_key t) d ++ concat (map some_pred ps))%list /\
       Forall2 (fun ce o => (o = None /\ ~ (exists p, predicted t (c_cur ce) p)) \/
                            (exists p, o = Some p /\ g t (c_cur ce) = Some p)) sel ps).
Proof.
  intros Hll [Hg Hv] Hset Hc Hb He H Hd. destruct (C42_precedence _ _ _ _ _ Hll) as (_ & _ & _ & Hlen & Hnd).
  destruct (saved_run spaces ll true g Hg Hv Hlen Hnd Hset (init_hier _ _ _ _ _ Hll) n sc b e c tr c' tr' d eq_refl Hb He)
    as (ces & sel & d' & A1 & A2 & A3 & A4 & A5 & A6 & _); auto.
  - exact (proj1 (chain_of_ok _ _ _ _ _ _ _ _ Hll Hset Hc)).
  - exact (chain_fine spaces ll true g Hg Hv Hlen Hnd c Hc).
  - exists ces, sel, d'. auto 10.
Qed.
(** * C20 *)
(** From a state whose predictions are there (as after any evaluation of the likelihood that
    succeeded) every sample comes with its predictions, and the state at the end has its
    predictions again, so that this carries over to the next run.  Missing: the runs from the
    start of a chain (C20_refuted), and proposals with an infinite positive log ratio, which are
    accepted without evaluation. *)
Theorem C20_partial spaces ts fs ratio func ll g n sc b e c tr c' tr' d :
  loglike_init ts fs ratio func = Ok ll -> deterministic ll g -> setup_ok spaces (ll_targets ll) ->
  chain_of spaces ll true c -> looks b -> looks e ->
  ll_mode ll = MTargets -> (forall t, In t (ll_targets ll) -> exists p, predicted t (c_cur c) p) ->
  (forall ty f s tr new tr', In (ty, f) (e_funcs (inversion_env spaces ll true)) ->
     good spaces (ll_targets ll) s -> f s tr <> Ret (new, PInf) tr') ->
  advance (inversion_env spaces ll true) n sc b e c tr = Ret (c', None) tr' -> c_saved c = SDict d ->
  exists ces sel d', rounds (inversion_env spaces ll true) sc b e c tr ces c' tr' /\ length ces = n /\
    selects (sampled sc) ces sel /\ c_saved c' = SDict d' /\
    (forall k, stored k d' = (stored k d ++ concat (map (fun ce => sample (inversion_env spaces ll true) k (c_cur ce)) sel))%list) /\
    (forall t, In t (ll_targets ll) -> apart spaces t -> exists ps,
       stored (dpred_key t) d' = (stored (dpred_key t) d ++ map (fun p => OArr (Arr p)) ps)%list /\
       Forall2 (fun ce p => g t (c_cur ce) = Some p) sel ps) /\
    (forall t, In t (ll_targets ll) -> exists p, predicted t (c_cur c') p).
Proof.
  intros Hll [Hg Hv] Hset Hc Hb He Hm Hca Hinf H Hd. destruct (C42_precedence _ _ _ _ _ Hll) as (_ & _ & _ & Hlen & Hnd).
  destruct (saved_run spaces ll true g Hg Hv Hlen Hnd Hset (init_hier _ _ _ _ _ Hll) n sc b e c tr c' tr' d eq_refl Hb He)
    as (ces & sel & d' & A1 & A2 & A3 & A4 & A5 & A6 & A7); auto.
  - exact (proj1 (chain_of_ok _ _ _ _ _ _ _ _ Hll Hset Hc)).
  - exact (chain_fine spaces ll true g Hg Hv Hlen Hnd c Hc).
  - destruct (A7 Hm Hca Hinf) as [B1 B2]. exists ces, sel, d'. split; [auto|]. split; [auto|]. split; [auto|].
    split; [auto|]. split; [auto|]. split; [|exact B2].
    intros t Ht Ha. destruct (A6 t Ht Ha) as (ps & E1 & HF). rewrite E1. clear E1 A1 A2 A4 A5 A6 A7.
    assert (HS : Forall (fun ce => cached ll (c_cur ce)) sel).
    { clear - A3 B1. induction A3 as [|a l s Hp Hs IH|a l s Hp Hs IH]; auto; inversion B1; subst; auto. }
    clear A3 B1. revert HS. induction HF as [|ce o sel ps Hce HF IH]; intros HS.
    + exists []. auto.
    + inversion HS as [|? ? C1 C2]; subst. destruct (IH C2) as (qs & Eq & HF').
      destruct Hce as [[_ Hn]|(p & -> & Eg)]; [destruct Hn; exact (C1 t Ht)|].
      exists (p :: qs). split; [|constructor; auto]. cbn [map some_pred concat].
      apply app_inv_head in Eq. rewrite Eq. reflexivity.
Qed.
(** ** Configurations without proposals accepted unevaluated *)
(** Only the three priors of the library, independent of the position, and births from the
    prior. *)
Definition from_prior (c : sclass) : Prop :=
  match c with Plain => True | Vor1 _ _ _ b => b = true | VorN _ _ _ _ _ _ b => b = true end.
Definition simple_prior (p : prior) : Prop :=
  p_pos p = false /\ match p_dist p with Custom _ _ _ => False | _ => True end.
Definition simple (s : space) : Prop := forall s', sub_space s s' ->
  from_prior (sp_cls s') /\ forall k p, In (k, PPrior p) (sp_params s') -> simple_prior p.
Definition low (r : ext) : Prop := match r with Fin _ | MInf => True | _ => False end.
Lemma low_add a b : low a -> low b -> low (eadd a b).
Proof. destruct a, b; cbn; tauto. Qed.
Lemma p_perturb_low p v at_ b tr v' r tr' : simple_prior p -> p_perturb p v at_ b tr = Ret (v', r) tr' -> low r.
Proof.
  intros [_ Hp] H. unfold p_perturb in H. destruct (p_dist p); [| | |contradiction].
  - mb H as sd E1. mb H as lo E2. mb H as hi E3. mb H as d E4. mr H. injection H as _ <-.
    match goal with |- low (if ?c then _ else _) => destruct c end; exact I.
  - mb H as sd E1. mb H as d E4. mb H as lo E2. mb H as hi E3. mb H as q E5. mr H. now injection H as _ <-.
  - mb H as sd E1. mb H as d E4. mb H as lo E2. mb H as hi E3. mb H as q E5. mr H. now injection H as _ <-.
Qed.
Lemma perturb_value_loop_low l : forall old i x x' put vals acc vals' acc',
  (forall k p, In (k, PPrior p) l -> simple_prior p) ->
  perturb_value_loop l old i x x' put vals acc = Ok (vals', acc') -> acc' = acc.
Proof.
  induction l as [|[k [p|s]] t IH]; intros old i x x' put vals acc vals' acc' Hl H; cbn [perturb_value_loop] in H.
  - now injection H as _ <-.
  - destruct (Hl k p (or_introl eq_refl)) as [Hp _]. rewrite Hp in H. cbn [rbind] in H.
    destruct (match ps_get k old with Some w => put w | None => Raise EType end); cbn [rbind] in H; try discriminate.
    eapply IH; [|exact H]. intros k0 p0 Hin. eapply Hl. right. eauto.
  - cbn [rbind] in H. destruct (match ps_get k old with Some w => put w | None => Raise EType end); cbn [rbind] in H; try discriminate.
    eapply IH; [|exact H]. intros k0 p0 Hin. eapply Hl. right. eauto.
Qed.
Lemma perturb_value_low s p i tr q r tr' : (forall k p, In (k, PPrior p) (sp_params s) -> simple_prior p) ->
  perturb_value s p i tr = Ret (q, r) tr' -> low r.
Proof.
  intros Hl H. unfold perturb_value in H. mb H as x E1. mb H as x' E2. mb H as [vals l] E3. mb H as q1 E4. mb H as q2 E5.
  mr H. injection H as _ <-.
  assert (l = Fin 0); [|subst; exact I].
  destruct (ps_get disc_key p) as [[sites|sites|sites|sites]|], x' as [y|y]; try discriminate.
  - destruct (pick _ _); cbn [rbind] in E3; try discriminate. eapply perturb_value_loop_low in E3; eauto.
  - eapply perturb_value_loop_low in E3; eauto.
Qed.
Lemma perturb_params_low l : forall p i new acc tr q r tr',
  (forall pr, In (PPrior pr) l -> simple_prior pr) ->
  (forall s, In (PSpace s) l -> forall k p, In (k, PPrior p) (sp_params s) -> simple_prior p) -> low acc ->
  perturb_params l p i new acc tr = Ret (q, r) tr' -> low r.
Proof.
  induction l as [|[pr|s] t IH]; intros p i new acc tr q r tr' H1 H2 Ha H; cbn [perturb_params] in H.
  - mb H as c E1. mr H. now injection H as _ <-.
  - destruct (ps_get (p_name pr) p) as [v|]; [|discriminate].
    mb H as old E1. mb H as at_ E2. mb H as [nv r1] E3. mb H as v' E4.
    eapply IH; [| | |exact H]; try (intros; eapply H1 || eapply H2; right; eauto; fail).
    + intros s0 Hin. apply H2. now right.
    + apply low_add; auto. eapply p_perturb_low; [|exact E3]. apply H1. now left.
  - destruct (is_disc s); [|discriminate]. eapply perturb_value_low; [|exact H]. apply H2. now left.
Qed.
Lemma birth_low s p tr q r tr' : from_prior (sp_cls s) -> birth s p tr = Ret (q, r) tr' -> low r.
Proof.
  intros Hs H. unfold birth in H. destruct (is_disc s).
  - unfold vor_birth in H. mb H as [q1 l] E1. mb H as q2 E2. mr H. injection H as _ <-.
    destruct (ps_n p =? sp_max s)%nat; [mr E1; now injection E1 as _ <-|].
    mb E1 as x E3. mb E1 as [born l1] E4. mb E1 as vals E5. mb E1 as q3 E6. mr E1. injection E1 as _ <-.
    unfold newborn_params in E4. destruct (sp_cls s) as [| a b c d | a b c d e f g ]; cbn in Hs; subst; try discriminate;
      mb E4 as r1 E7; mr E4; now injection E4 as _ <-.
  - unfold plain_birth in H. destruct (ps_n p =? sp_max s)%nat; [mr H; now injection H as _ <-|].
    mb H as i E1. mb H as vals E2. mb H as q1 E3. mr H. now injection H as _ <-.
Qed.
Lemma death_low s p tr q r tr' : from_prior (sp_cls s) -> death s p tr = Ret (q, r) tr' -> low r.
Proof.
  intros Hs H. unfold death in H. destruct (is_disc s).
  - unfold vor_death in H. mb H as [q1 l] E1. mb H as q2 E2. mr H. injection H as _ <-.
    destruct (ps_n p =? sp_min s)%nat; [mr E1; now injection E1 as _ <-|].
    mb E1 as x E3. mb E1 as vals E5. mb E1 as q3 E6. mb E1 as l1 E4. mr E1. injection E1 as _ <-.
    unfold log_prob_death_parameters in E4. destruct (sp_cls s) as [| a b c d | a b c d e f g ]; cbn in Hs; subst; try discriminate;
      now injection E4 as <-.
  - unfold plain_death in H. destruct (ps_n p =? sp_min s)%nat; [mr H; now injection H as _ <-|].
    mb H as i E1. mb H as vals E2. mb H as q1 E3. mr H. now injection H as _ <-.
Qed.
Lemma elem_low s e w p tr q r tr' :
  from_prior (sp_cls s) -> (forall k p, In (k, PPrior p) (sp_params s) -> simple_prior p) ->
  In (e, w) (own_elems s) -> elem_perturb e p tr = Ret (q, r) tr' -> low r.
Proof.
  intros H1 H2 Hin H. unfold own_elems in Hin. rewrite !in_app_iff in Hin. destruct Hin as [Hin|[Hin|Hin]].
  - destruct (sp_transd s); [|contradiction]. destruct Hin as [[= <- <-]|[[= <- <-]|[]]].
    + eapply birth_low; eauto.
    + eapply death_low; eauto.
  - destruct (priors_of (sp_params s)) as [|x l] eqn:E; [contradiction|]. destruct Hin as [[= <- <-]|[]]. rewrite <- E in H.
    cbn in H. unfold param_perturb in H. mb H as i Ei. eapply perturb_params_low; [| | |exact H]; [| |exact I].
    + intros pr Hpr. unfold priors_of in Hpr. apply filter_In in Hpr. destruct Hpr as [Hpr _]. apply in_map_iff in Hpr.
      destruct Hpr as ([k x'] & E' & Hpr). cbn in E'. subst. eauto.
    + intros s0 Hpr. unfold priors_of in Hpr. apply filter_In in Hpr. destruct Hpr as [_ Hpr]. discriminate.
  - destruct (is_disc s); [|contradiction]. destruct Hin as [[= <- <-]|[]].
    cbn [elem_perturb] in H. unfold param_perturb in H. mb H as i Ei. eapply perturb_params_low; [| | |exact H]; [| |exact I].
    + intros pr [E|[]]. discriminate.
    + intros s0 [E|[]]. injection E as <-. eauto.
Qed.
Lemma psp_low spaces ts q w s tr s' r tr' : setup_ok spaces ts -> Forall simple spaces -> state_ok spaces ts s ->
  In (q, w) (all_funcs spaces) -> psp_perturb q s tr = Ret (s', r) tr' -> low r.
Proof.
  intros Hset Hsi Hok Hq H.
  destruct (all_funcs_in _ _ _ Hq) as (s0 & sq & Hs0 & Hsq & E).
  unfold own_psp in E. injection E as -> ->.
  destruct (psp_spec (mkPsp (sp_name sq) (own_elems sq)) s (state_ok_sane _ _ _ Hset Hok))
    as (os & [Hnd Hos] & _ & Hdraw & Hfol).
  destruct (Hdraw _ _ _ H) as (t & tr1 & -> & Ht).
  destruct (nth_error os t) as [[pl p]|] eqn:En; [|apply nth_error_None in En; lia].
  specialize (Hfol t tr1 pl p En). rewrite H in Hfol. unfold follows in Hfol.
  destruct (psp_perturb_ps _ p tr1) as [[[p' r'] ty] tr2| | |] eqn:Ep; try contradiction.
  destruct Hfol as [_ (<- & Hch & _)].
  unfold psp_perturb_ps in Ep. cbn [psp_funcs] in Ep. mb Ep as i Ei. mb Ep as ew Eew. mb Ep as [pp rr] Eel.
  mr Ep. injection Ep as -> -> <-. destruct ew as [e we].
  rewrite Forall_forall in Hsi. destruct (Hsi s0 Hs0 sq Hsq) as [H1 H2].
  eapply elem_low; [exact H1|exact H2| |exact Eel].
  unfold idx in Eew. destruct (nth_error (own_elems sq) i) eqn:E; [|discriminate].
  injection Eew as ->. eapply nth_error_In; eauto.
Qed.
Lemma simple_finite spaces ll save ty f s tr new tr' : setup_ok spaces (ll_targets ll) -> Forall simple spaces ->
  In (ty, f) (e_funcs (inversion_env spaces ll save)) -> good spaces (ll_targets ll) s -> f s tr <> Ret (new, PInf) tr'.
Proof.
  intros Hset Hsi Hin [Hs _] H. cbn [inversion_env chain_env e_funcs] in Hin.
  apply in_map_iff in Hin. destruct Hin as ([pf w] & E & Hin). cbn [fst] in E. injection E as <- <-.
  unfold inv_pfuncs in Hin. apply in_app_or in Hin. destruct Hin as [Hin|Hin].
  - apply in_map_iff in Hin. destruct Hin as ([q w'] & E & Hin). cbn in E. injection E as <- <-.
    cbn [pfunc_perturb] in H. exact (psp_low _ _ _ _ _ _ _ _ _ Hset Hsi Hs Hin H).
  - unfold ll_pfuncs in Hin. destruct (ll_hier ll) as [|t ts]; [contradiction|]. destruct Hin as [[= <- <-]|[]].
    cbn [pfunc_perturb] in H. unfold noise_perturb in H. mb H as nw E1. mb H as c E2. mr H. discriminate.
Qed.
(** In these configurations the only thing missing is the start of a chain. *)
Theorem C20_simple_partial spaces ts fs ratio func ll g n sc b e c tr c' tr' d :
  loglike_init ts fs ratio func = Ok ll -> deterministic ll g -> setup_ok spaces (ll_targets ll) ->
  Forall simple spaces -> chain_of spaces ll true c -> looks b -> looks e ->
  ll_mode ll = MTargets -> (forall t, In t (ll_targets ll) -> exists p, predicted t (c_cur c) p) ->
  advance (inversion_env spaces ll true) n sc b e c tr = Ret (c', None) tr' -> c_saved c = SDict d ->
  exists ces sel d', rounds (inversion_env spaces ll true) sc b e c tr ces c' tr' /\ length ces = n /\
    selects (sampled sc) ces sel /\ c_saved c' = SDict d' /\
    (forall k, stored k d' = (stored k d ++ concat (map (fun ce => sample (inversion_env spaces ll true) k (c_cur ce)) sel))%list) /\
    (forall t, In t (ll_targets ll) -> apart spaces t -> exists ps,
       stored (dpred_key t) d' = (stored (dpred_key t) d ++ map (fun p => OArr (Arr p)) ps)%list /\
       Forall2 (fun ce p => g t (c_cur ce) = Some p) sel ps) /\
    (forall t, In t (ll_targets ll) -> exists p, predicted t (c_cur c') p).
Proof.
  intros Hll Hg Hset Hsi Hc Hb He Hm Hca. eapply C20_partial; eauto. intros. eapply simple_finite; eauto.
Qed.

(** ** The chain of the examples *)
Local Opaque Rleb Rltb Reqb py_int.
Definition ex_g (t : target) (s : state) : option (list R) := Some [1; 1; 1].
Lemma ex_deterministic : deterministic ex_ll ex_g.
Proof.
  split; [|reflexivity]. split; [|reflexivity]. intros t f [[= <- <-]|[]] s tr. reflexivity.
Qed.
Lemma ex_apart : apart [ex_vor] ex_t.
Proof. intros sp x [<-|[]] H. discriminate H. Qed.
Lemma ex_simple : Forall simple [ex_vor].
Proof.
  constructor; [|constructor]. intros s H. apply ex_sub in H. destruct H as [-> | ->]; (split; [exact I || reflexivity|]).
  - intros k p [[= <- <-]|[H|[]]]; [|discriminate]. now split.
  - intros k p [[= <- <-]|[]]. now split.
Qed.
Lemma one_rejected {St V} (E : env St V) c tr i ty f tr1 new u tr3 :
  choices (length (e_funcs E)) (e_weights E) tr = Ret i tr1 ->
  nth_error (e_funcs E) i = Some (ty, f) ->
  f (c_cur c) tr1 = Ret (new, MInf) (DU u :: tr3) -> 0 < u < 1 ->
  next_iteration E c tr = Ret (let '(c', x) := finish E ty false new c in
    (c', match x with Done => None | Stop e => Some e | Retry => Some ERuntime end)) tr3.
Proof.
  intros H1 H2 H3 Hu. unfold next_iteration. change 500%nat with (S 499). generalize 499%nat. intros n.
  cbn [tries]. unfold attempt, bind, try. rewrite H1, H2, H3. cbn [eisinf].
  unfold decide, bind. rewrite drawU_ok by lra.
  assert (Hp : py_log u = Ok (ln u)). { unfold py_log. now rewrite Rltb_t by lra. }
  rewrite Hp. cbn [eadd egtb]. unfold ret at 1.
  assert (Hr : snd (finish E ty false new c) <> Retry).
  { unfold finish. destruct (save_statistics E _ _ _ _); [|discriminate].
    destruct (c_flag _); [|discriminate]. destruct (_ && _)%bool; [|discriminate].
    destruct (save_state E _) as [? [?|]]; discriminate. }
  destruct (finish E ty false new c) as [c' [| |]]; try reflexivity. now destruct Hr.
Qed.
Definition ex_next_death : state :=
  mkState [("vor", EPS ex_p0); ("d", ENoise (mkNoise 1 (Some 0)))]
          [("vor", EPS ex_p0); ("d", ENoise (mkNoise 1 (Some 0)))] 1
          [("perturb_stats", CStats [("DeathPerturbation(vor)", 1)])] [].
Lemma ex_death_ps tr :
  psp_perturb_ps ex_own ex_p0 (DU (1/4) :: tr) = Ret (ex_p0, MInf, "DeathPerturbation(vor)") tr.
Proof.
  assert (Hc : choices 4 [1; 1; 3; 1] (DU (1/4) :: tr) = Ret 1%nat tr). { run. same. }
  unfold psp_perturb_ps. unfold ex_own at 1 2, bind at 1. change (length (psp_funcs _)) with 4%nat.
  change (map snd _) with [1; 1; 3; 1]. rewrite Hc.
  unfold bind at 1. cbn [lift idx nth_error ret psp_funcs ex_own own_elems ex_vor sp_transd sp_fixed fst app].
  reflexivity.
Qed.
Lemma ex_death tr :
  psp_perturb ex_own ex_start (DInt 0 :: DU (1/4) :: tr) = Ret (ex_next_death, MInf) tr.
Proof.
  unfold psp_perturb.
  assert (H1 : exists c, st_copy false ex_start = Ok c /\ c = ex_start).
  { eexists. split; [evalR; reflexivity|reflexivity]. }
  destruct H1 as (? & H1 & ->). rewrite H1. unfold lift at 1, bind at 1, ret at 1.
  assert (H2 : count_loop (st_size ex_start) (psp_space ex_own) [st_children ex_start] 0 = Ok 1%nat) by reflexivity.
  rewrite H2. unfold lift at 1, bind at 1, ret at 1. unfold bind at 1.
  change (randint_below 1 (DInt 0 :: DU (1/4) :: tr)) with (Ret 0%nat (DU (1/4) :: tr)).
  cbn iota beta. change (st_size ex_start) with (S (S (S 0)))%nat.
  cbn [walk_loop w_queue Nat.leb w_i st_children map st_vals ex_start fst snd entry_child walk_node].
  change (String.eqb "vor" (psp_space ex_own)) with true. cbn iota. cbn [w_i Nat.eqb].
  unfold bind at 1 2 3. rewrite ex_death_ps. cbn iota beta. unfold ret at 1.
  cbn [w_queue w_new w_i w_ratio w_stats]. evalR. same.
Qed.
Lemma ex_weights : e_weights ex_env = [3; 6; 1].
Proof. cbn -[Rplus]. same. Qed.
Lemma ex_choose_own tr : choices (length (e_funcs ex_env)) (e_weights ex_env) (DU (1/2) :: tr) = Ret 1%nat tr.
Proof. change (length (e_funcs ex_env)) with 3%nat. rewrite ex_weights. run. reflexivity. Qed.
Definition ex_saved0 : dict (list ovalue) :=
  [("vor.n_dimensions", [OInt 1]); ("vor.discretization", [OArr (Arr [5])]); ("vor.v", [OArr (Arr [2])]);
   ("vor.in", [OList [[("vor.in.n_dimensions", OInt 1); ("vor.in.w", OArr (Arr [1/2]))]]]);
   ("d.std", [ONum 1]); ("d.correlation", [ONum 0])].
Lemma ex_finish_death c : c_flag c = Some true -> c_temp c = 1 -> c_saved c = SDict [] -> c_cur c = ex_start -> exists c',
  finish ex_env (psp_name ex_own) false ex_next_death c = (c', Done) /\
  c_cur c' = ex_start /\ c_saved c' = SDict ex_saved0.
Proof.
  intros H1 H2 H3 H4. unfold finish.
  assert (Hs : exists st, save_statistics ex_env (psp_name ex_own) false ex_next_death c = inl (put_stats st false c)).
  { eexists. reflexivity. }
  destruct Hs as (st & ->). cbn [put_stats set_stats c_flag c_temp].
  rewrite H1, H2, Reqb_t by reflexivity. cbn [andb].
  unfold save_state. cbn [c_cur c_saved set_stats put_stats]. rewrite H4.
  change (s_kind (e_ops ex_env) ex_start) with KState. cbn iota. rewrite H3.
  assert (Hi : save_items ex_env (s_items (e_ops ex_env) ex_start) [] = (ex_saved0, None)).
  { evalR. reflexivity. }
  rewrite Hi. eexists. split; [reflexivity|]. split; [exact H4|].
  cbn [e_savedpred ex_env inversion_env chain_env c_saved set_saved]. evalR. reflexivity.
Qed.
Lemma ex_run_death tr : exists c o tr',
  inversion_run (vanilla [] [] [] []) (vanilla_run ex_env (vanilla [] [] [] []) (Some 1%Z) 1 ex_sched) false [ex_chain0]
    (DU (1/2) :: DInt 0 :: DU (1/4) :: DU (1/2) :: tr) = Ret ([c], o) tr' /\
  c_cur c = ex_start /\ c_saved c = SDict ex_saved0.
Proof.
  destruct (ex_finish_death (set_flag true ex_chain0)) as (c & Hf & H1 & H2); try reflexivity.
  exists c. eexists _, _. split; [|split; auto].
  unfold inversion_run. unfold bind at 1.
  change (initialize (vanilla [] [] [] []) [ex_chain0]) with (fun t : trace => Ret ([ex_chain0], @None exn) t).
  cbn iota beta. unfold vanilla_run, advance_chain. cbn [each_chain advance].
  unfold bind at 1 2 3 4, advance_one. change (c_nprop_tot ex_chain0) with 0%nat.
  change (save_flag ex_sched 1) with (@Ok bool true). cbn iota.
  unfold bind at 1. unfold call_hook at 1, begin_iteration at 1. cbn [call_all vanilla sm_on_begin sm_x_begin].
  unfold bind at 1, nothing at 1, ret at 1 2.
  unfold bind at 1, ret at 1. cbn iota beta.
  rewrite (one_rejected ex_env (set_flag true ex_chain0) _ 1%nat (psp_name ex_own) (psp_perturb ex_own) (DInt 0 :: DU (1/4) :: DU (1/2) :: tr) ex_next_death (1/2) tr);
    [|apply ex_choose_own|reflexivity|apply ex_death|lra].
  rewrite Hf. reflexivity.
Qed.
(** The code does not keep the number of predictions and of samples equal: if the first
    proposal has ratio zero (here the death of the only cell) it is rejected before any
    prediction is made, and the sample is saved without one.  All later predictions belong to
    later samples than their index says. *)
Theorem C20_refuted : exists spaces ts fs ll g c d t,
  loglike_init ts fs None None = Ok ll /\ deterministic ll g /\ setup_ok spaces (ll_targets ll) /\
  In t (ll_targets ll) /\ apart spaces t /\ chain_of spaces ll true c /\ c_saved c = SDict d /\
  length (stored "vor.v" d) = 1%nat /\ length (stored (dpred_key t) d) = 0%nat.
Proof.
  destruct (ex_run_death []) as (c & o & tr' & H & _ & Hc).
  exists [ex_vor], (Some [ATarget ex_t]), (Some [AFwd (mkFwd ex_fwd true)]), ex_ll, ex_g, c, ex_saved0, ex_t.
  split; [apply ex_init|]. split; [apply ex_deterministic|]. split; [apply ex_setup|]. split; [now left|].
  split; [apply ex_apart|]. split; [|split; [exact Hc|split; reflexivity]].
  exists 1%nat. eexists. exists [ex_chain0], [], [c]. split; [apply (ex_chains [])|]. split; [|now left].
  eapply runs_more; [apply runs_none|]. eapply run_vanilla; [|exact H]. split; constructor.
Qed.

(** A further iteration of the chain with two cells: a value leaves the bounds of its prior. *)
Definition ex_p2 : psstate :=
  PS 2 [("discretization", Arr [5; 8]); ("v", Arr [12; 5/2]); ("in", Lst [ex_inner (1/2); ex_inner 1])]
       [("discretization", Arr [5; 8]); ("v", Arr [2; 5/2]); ("in", Lst [ex_inner (1/2); ex_inner 1])] [].
Lemma ex_param tr : param_perturb (priors_of (sp_params ex_vor)) ex_p1 (DInt 0 :: DZ 100 :: tr) = Ret (ex_p2, MInf) tr.
Proof. run. same. Qed.
Definition ex_bad : state :=
  mkState [("vor", EPS ex_p2); ("d", ENoise (mkNoise 1 (Some 0)))]
          [("vor", EPS ex_p2); ("d", ENoise (mkNoise 1 (Some 0)))] 1
          [("perturb_stats", CStats [("ParamPerturbation(vor.v)", 1)])] [].
Lemma ex_param_ps tr :
  psp_perturb_ps ex_own ex_p1 (DU (1/2) :: DInt 0 :: DZ 100 :: tr) = Ret (ex_p2, MInf, "ParamPerturbation(vor.v)") tr.
Proof.
  assert (Hc : forall tr, choices 4 [1; 1; 3; 1] (DU (1/2) :: tr) = Ret 2%nat tr). { intros. run. same. }
  unfold psp_perturb_ps. unfold ex_own at 1 2, bind at 1. change (length (psp_funcs _)) with 4%nat.
  change (map snd _) with [1; 1; 3; 1]. rewrite Hc.
  unfold bind at 1. cbn [psp_funcs ex_own].
  change (idx (own_elems ex_vor) 2) with (Ok (EParam "vor" (priors_of (sp_params ex_vor)), 3)).
  cbn [lift]. unfold ret at 1. cbn iota beta. cbn [fst elem_perturb]. unfold bind at 1. rewrite ex_param. reflexivity.
Qed.
Lemma ex_param_move tr :
  psp_perturb ex_own (with_pred ex_next) (DInt 0 :: DU (1/2) :: DInt 0 :: DZ 100 :: tr) = Ret (ex_bad, MInf) tr.
Proof.
  unfold psp_perturb.
  assert (H1 : exists c, st_copy false (with_pred ex_next) = Ok c /\ c = mkState (st_vals ex_next) (st_attrs ex_next) 1 [] []).
  { eexists. split; [evalR; reflexivity|reflexivity]. }
  destruct H1 as (? & H1 & ->). rewrite H1. unfold lift at 1, bind at 1, ret at 1.
  assert (H2 : count_loop (st_size (with_pred ex_next)) (psp_space ex_own) [st_children (with_pred ex_next)] 0 = Ok 1%nat) by reflexivity.
  rewrite H2. unfold lift at 1, bind at 1, ret at 1. unfold bind at 1.
  change (randint_below 1 (DInt 0 :: DU (1/2) :: DInt 0 :: DZ 100 :: tr)) with (Ret 0%nat (DU (1/2) :: DInt 0 :: DZ 100 :: tr)).
  cbn iota beta.
  change (st_children (with_pred ex_next)) with [("vor", COne ex_p1); ("d", CNone)].
  assert (H3 : exists n, st_size (with_pred ex_next) = S n). { eexists. reflexivity. }
  destruct H3 as (n & ->).
  cbn [walk_loop w_queue Nat.leb w_i fst snd walk_node].
  change (String.eqb "vor" (psp_space ex_own)) with true. cbn iota. cbn [w_i Nat.eqb].
  unfold bind at 1 2 3. rewrite ex_param_ps. cbn iota beta. unfold ret at 1.
  cbn [w_queue w_new w_i w_ratio w_stats]. destruct n; evalR; same.
Qed.
Lemma ex_chain_temp : exists c, chain_of [ex_vor] ex_ll true c /\
  c_cur c = with_pred ex_next /\ c_saved c = SDict ex_saved /\ c_temp c = 1.
Proof.
  destruct (ex_finish (set_cur (with_pred ex_start) (set_flag true ex_chain0)))
    as (c & Hf & H1 & H2); try reflexivity.
  assert (HT : c_temp c = 1). { apply finish_done in Hf. decompose [and] Hf. assumption. }
  assert (H : exists o tr', inversion_run (vanilla [] [] [] []) (vanilla_run ex_env (vanilla [] [] [] []) (Some 1%Z) 1 ex_sched) false [ex_chain0]
    (DU (1/2) :: DInt 0 :: DU 0 :: DU (8/10) :: DU (3/4) :: DZ 1 :: DU (1/2) :: []) = Ret ([c], o) tr').
  { eexists _, _. unfold inversion_run. unfold bind at 1.
    change (initialize (vanilla [] [] [] []) [ex_chain0]) with (fun t : trace => Ret ([ex_chain0], @None exn) t).
    cbn iota beta. unfold vanilla_run, advance_chain. cbn [each_chain advance].
    unfold bind at 1 2 3 4, advance_one. change (c_nprop_tot ex_chain0) with 0%nat.
    change (save_flag ex_sched 1) with (@Ok bool true). cbn iota.
    unfold bind at 1. unfold call_hook at 1, begin_iteration at 1. cbn [call_all vanilla sm_on_begin sm_x_begin].
    unfold bind at 1, nothing at 1, ret at 1 2.
    unfold bind at 1, ret at 1. cbn iota beta. rewrite ex_next_iteration by reflexivity. rewrite Hf. reflexivity. }
  destruct H as (o & tr' & H). exists c. split; auto.
  exists 1%nat. eexists. exists [ex_chain0], [], [c]. split; [apply (ex_chains [])|]. split; [|now left].
  eapply runs_more; [apply runs_none|]. eapply run_vanilla; [|exact H]. split; constructor.
Qed.
Definition ex_saved2 : dict (list ovalue) :=
  [("vor.n_dimensions", [OInt 2; OInt 2]); ("vor.discretization", [OArr (Arr [5; 8]); OArr (Arr [5; 8])]);
   ("vor.v", [OArr (Arr [2; 5/2]); OArr (Arr [2; 5/2])]);
   ("vor.in", [OList [[("vor.in.n_dimensions", OInt 1); ("vor.in.w", OArr (Arr [1/2]))];
                      [("vor.in.n_dimensions", OInt 1); ("vor.in.w", OArr (Arr [1]))]];
               OList [[("vor.in.n_dimensions", OInt 1); ("vor.in.w", OArr (Arr [1/2]))];
                      [("vor.in.n_dimensions", OInt 1); ("vor.in.w", OArr (Arr [1]))]]]);
   ("d.std", [ONum 1; ONum 1]); ("d.correlation", [ONum 0; ONum 0]);
   ("d.dpred", [OArr (Arr [1; 1; 1]); OArr (Arr [1; 1; 1])])].
Lemma ex_finish_param c : c_flag c = Some true -> c_temp c = 1 -> c_saved c = SDict ex_saved ->
  c_cur c = with_pred ex_next -> exists c',
  finish ex_env (psp_name ex_own) false ex_bad c = (c', Done) /\
  c_cur c' = with_pred ex_next /\ c_saved c' = SDict ex_saved2.
Proof.
  intros H1 H2 H3 H4. unfold finish.
  assert (Hs : exists st, save_statistics ex_env (psp_name ex_own) false ex_bad c = inl (put_stats st false c)).
  { eexists. reflexivity. }
  destruct Hs as (st & ->). cbn [put_stats set_stats c_flag c_temp].
  rewrite H1, H2, Reqb_t by reflexivity. cbn [andb].
  unfold save_state. cbn [c_cur c_saved set_stats put_stats]. rewrite H4.
  change (s_kind (e_ops ex_env) (with_pred ex_next)) with KState. cbn iota. rewrite H3.
  assert (Hi : save_items ex_env (s_items (e_ops ex_env) (with_pred ex_next)) ex_saved =
    (firstn 6 ex_saved2 ++ [("d.dpred", [OArr (Arr [1; 1; 1])])], None)%list).
  { evalR. reflexivity. }
  rewrite Hi. eexists. split; [reflexivity|]. split; [exact H4|].
  cbn [e_savedpred ex_env inversion_env chain_env c_saved set_saved]. evalR. reflexivity.
Qed.
Definition idle : option (hook state ovalue) := Some (fun c => ret (c, None)).
Lemma looks_nothing : looks idle.
Proof. split; intros c tr c' o tr' H; mr H; injection H as <- _; repeat split; reflexivity. Qed.
(** The hypotheses of the theorems on one more iteration of the chain with two cells; two
    samples and their predictions are then saved. *)
Example C20_case : exists c d tr c' tr',
  loglike_init (Some [ATarget ex_t]) (Some [AFwd (mkFwd ex_fwd true)]) None None = Ok ex_ll /\
  deterministic ex_ll ex_g /\ setup_ok [ex_vor] (ll_targets ex_ll) /\ Forall simple [ex_vor] /\
  chain_of [ex_vor] ex_ll true c /\ looks idle /\ ll_mode ex_ll = MTargets /\
  (forall t, In t (ll_targets ex_ll) -> apart [ex_vor] t /\ exists p, predicted t (c_cur c) p) /\
  advance (inversion_env [ex_vor] ex_ll true) 1 ex_sched idle idle c tr = Ret (c', None) tr' /\ c_saved c = SDict d /\
  c_saved c' = SDict ex_saved2.
Proof.
  destruct ex_chain_temp as (c & Hc & H1 & H2 & H3).
  destruct (ex_finish_param (set_flag true c)) as (c' & Hf & H4 & H5); auto.
  exists c, ex_saved, (DU (1/2) :: DInt 0 :: DU (1/2) :: DInt 0 :: DZ 100 :: DU (1/2) :: []), c', [].
  split; [apply ex_init|]. split; [apply ex_deterministic|]. split; [apply ex_setup|]. split; [apply ex_simple|].
  split; [auto|]. split; [apply looks_nothing|]. split; [reflexivity|]. split.
  { intros t [<-|[]]. split; [apply ex_apart|]. exists [1; 1; 1]. unfold predicted. rewrite H1. reflexivity. }
  split; [|split; auto].
  cbn [advance]. fold ex_env. unfold bind at 1, advance_one.
  assert (Hsf : save_flag ex_sched (S (c_nprop_tot c)) = Ok true).
  { unfold save_flag, ex_sched. cbn [sc_burnin sc_every Nat.leb Nat.eqb]. rewrite Nat.sub_0_r, Nat.mod_1_r. reflexivity. }
  rewrite Hsf. cbn [call_hook idle]. unfold bind at 1. unfold ret at 1. cbn iota beta.
  rewrite (bind_ret _ _ _ _ _ (one_rejected ex_env (set_flag true c) _ 1%nat (psp_name ex_own) (psp_perturb ex_own)
    (DInt 0 :: DU (1/2) :: DInt 0 :: DZ 100 :: DU (1/2) :: []) ex_bad (1/2) []
    (ex_choose_own _) eq_refl (eq_trans (f_equal (fun s => psp_perturb ex_own s _) H1) (ex_param_move _)) ltac:(lra))).
  rewrite Hf. reflexivity.
Qed.
Example C19_case : exists c, loglike_init (Some [ATarget ex_t]) (Some [AFwd (mkFwd ex_fwd true)]) None None = Ok ex_ll /\
  deterministic ex_ll ex_g /\ chain_of [ex_vor] ex_ll true c /\ predicted ex_t (c_cur c) [1; 1; 1].
Proof.
  destruct ex_chain as (c & Hc & H1 & H2). exists c. split; [apply ex_init|]. split; [apply ex_deterministic|]. split; auto.
  unfold predicted. rewrite H1. reflexivity.
Qed.

(** * C21 *)
(** keep_dpred keeps the entry "dpred" of the cache, but predictions are cached as
    "<target>.dpred".  After every noise perturbation, whatever was cached, the evaluation of
    the likelihood runs the forward function again. *)
Theorem C21_runs_again ts s tr new r tr1 t f tr2 : noise_perturb ts s tr = Ret (new, r) tr1 ->
  get_dpred t f new tr2 =
  match call_fwd f new tr2 with
  | Ret d tr3 => Ret (st_save_cache (dpred_key t) (CPred d) new, inl d) tr3
  | Err _ tr3 => Ret (new, inr EForward) tr3
  | UBeh => UBeh
  | Starve => Starve
  end.
Proof.
  intros H. apply noise_no_pred in H. destruct H as [H _]. unfold get_dpred. rewrite H. unfold bind, try.
  destruct (call_fwd f new tr2); reflexivity.
Qed.
(** A forward function that uses a random number: evaluating the current state does not call
    it, evaluating the state after a noise perturbation does. *)
Definition ex_random : fwd := mkFwd (fun _ => z <- drawZ ;; ret [z; z; z]) false.
Theorem C21_refuted : exists ts t f s p new r tr tr1, In t ts /\ predicted t s p /\
  noise_perturb ts s tr = Ret (new, r) tr1 /\ 
  (forall tr2, get_dpred t f s tr2 = Ret (s, inl p) tr2) /\
  (forall z tr2, exists new' p', get_dpred t f new (DZ z :: tr2) = Ret (new', inl p') tr2 /\ p' = [z; z; z]) /\
  (forall tr2, ~ exists new' o, get_dpred t f new tr2 = Ret (new', o) tr2).
Proof.
  assert (H : exists new, noise_perturb [ex_t] (with_pred ex_start) [DZ 0; DZ 0] = Ret (new, Fin 0) []).
  { assert (H1 : exists d, perturb_target ex_t (mkNoise 1 (Some 0)) [DZ 0; DZ 0] = Ret d []).
    { eexists. run. reflexivity. }
    destruct H1 as (d & H1).
    assert (H2 : exists c, st_copy true (with_pred ex_start) = Ok c). { eexists. evalR. reflexivity. }
    destruct H2 as (c & H2).
    eexists. unfold noise_perturb. cbn [perturb_targets].
    change (noise_of ex_t (with_pred ex_start)) with (Ok (mkNoise 1 (Some 0))).
    cbn [lift]. unfold bind at 1 2, ret at 1. rewrite (bind_ret _ _ _ _ _ H1). unfold ret at 1.
    unfold bind at 1. rewrite H2. reflexivity. }
  destruct H as (new & H).
  exists [ex_t], ex_t, ex_random, (with_pred ex_start), [1; 1; 1], new, (Fin 0), [DZ 0; DZ 0], [].
  split; [now left|]. split; [reflexivity|]. split; [auto|]. split; [reflexivity|]. split.
  - intros z tr2. eexists _, _. rewrite (C21_runs_again _ _ _ _ _ _ _ _ _ H). split; reflexivity.
  - intros tr2 (new' & o & E). rewrite (C21_runs_again _ _ _ _ _ _ _ _ _ H) in E. cbn in E. unfold bind, drawZ in E.
    destruct tr2 as [|[] tr2]; try discriminate. cbn in E. injection E as _ _ E.
    clear - E. apply (f_equal (@length _)) in E. cbn in E. lia.
Qed.
