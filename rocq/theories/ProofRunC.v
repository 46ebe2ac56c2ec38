(** The high-level inversion: starting states, all runs, and what is saved. *)
From Verif Require Import Base ModelPrior ModelState ModelSpace ModelPerturb ModelChain ModelSampler
  ModelLikelihood SpecUtils1D SpecPrior SpecState SpecSpace SpecPerturb SpecChain SpecRun
  ProofUtils1D ProofChain ProofChainB ProofChainC ProofSampler ProofInversion
  ProofState ProofSpace ProofSpaceB ProofSpaceC ProofSpaceD ProofSpaceE ProofPerturb ProofTree ProofRun
  ProofRunB.
Local Open Scope R_scope.

(** * Starting states *)
Lemma initialize_all_ok spaces : (forall s, In s spaces -> valid s) -> NoDup (map sp_name spaces) ->
  forall tr s tr', initialize_all spaces tr = Ret s tr' ->
  dkeys (st_vals s) = map sp_name spaces /\ st_extra s = [] /\ st_cache s = [] /\ st_temp s = 1 /\
  (forall sp, In sp spaces -> exists p, st_get (sp_name sp) s = Some (EPS p) /\ wf sp p).
Proof.
  intros Hv Hnd tr s tr' H. unfold initialize_all in H. mb H as vals Ev. mr H.
  assert (K : dkeys vals = map sp_name spaces /\
    forall sp, In sp spaces -> exists p, In (sp_name sp, EPS p) vals /\ wf sp p).
  { clear Hnd. remember tr' as t0 eqn:Et0. clear Et0. revert tr vals t0 Ev. induction spaces as [|s l IH]; intros tr vals t Ev; cbn [mapM] in Ev.
    - mr Ev. subst. split; auto. intros ? [].
    - mb Ev as y Ey. mb Ey as p Ep. mr Ey. mb Ev as ys Eys. mr Ev.
      apply IH in Eys; [|intros; apply Hv; now right]. destruct Eys as [A B]. split.
      + unfold dkeys in *. cbn. now rewrite A.
      + intros sp [<-|Hin].
        * exists p. split; [now left|]. eapply initialize_wf; eauto. apply Hv. now left.
        * destruct (B _ Hin) as (q & Hq & Hwf). exists q. split; auto. now right. }
  destruct K as [A B]. rewrite mk_state_spec by (now rewrite A). cbn. repeat split; auto.
  intros sp Hsp. destruct (B sp Hsp) as (p & Hp & Hwf). exists p. split; auto.
  unfold st_get. cbn [st_vals]. apply dget_in_nodup; auto. now rewrite A.
Qed.
Lemma target_initialize_spec t s tr s' tr' : target_ok t -> target_initialize t s tr = Ret s' tr' ->
  (t_cov t <> None /\ s' = s) \/
  (unknown_noise t /\ exists d, noise_ok t d /\ s' = st_set (t_name t) (ENoise d) s).
Proof.
  intros [H1 H2] H. unfold target_initialize, is_hier, unknown_noise in *.
  destruct (t_cov t) as [c|]; [left; split; [discriminate|now mr H]|]. right. split; auto.
  mb H as std Es. apply uniform_inv in Es; auto. mb H as cor Ec. mr H.
  exists (mkNoise std cor). split; auto. split; [exact Es|]. cbn.
  destruct (t_corr t).
  - mb Ec as c E1. mr Ec. apply uniform_inv in E1; eauto.
  - now mr Ec.
Qed.
Lemma st_get_set k k' e s : st_get k (st_set k' e s) = if String.eqb k k' then Some e else st_get k s.
Proof.
  unfold st_get, st_set. cbn. destruct (String.eqb_spec k k') as [->|E].
  - apply ProofChain.dget_dset_same.
  - now apply ProofChain.dget_dset_other.
Qed.
Lemma targets_initialize_spec ts : (forall t, In t ts -> target_ok t) -> NoDup (map t_name ts) ->
  forall s tr s' tr', targets_initialize ts s tr = Ret s' tr' -> NoDup (dkeys (st_vals s)) ->
  NoDup (dkeys (st_vals s')) /\
  (forall k, In k (dkeys (st_vals s')) <->
     In k (dkeys (st_vals s)) \/ exists t, In t ts /\ unknown_noise t /\ k = t_name t) /\
  (forall k, ~ In k (map t_name ts) -> st_get k s' = st_get k s) /\
  (forall t, In t ts -> unknown_noise t -> exists d, st_get (t_name t) s' = Some (ENoise d) /\ noise_ok t d) /\
  st_extra s' = st_extra s /\ st_cache s' = st_cache s /\ st_temp s' = st_temp s.
Proof.
  induction ts as [|t ts IH]; intros Hok Hnd s tr s' tr' H Hs; cbn [targets_initialize] in H.
  - mr H. repeat split; auto; try (intros ? []). intros [Hk|(x & [] & _)]; auto.
  - mb H as s1 E1. inversion Hnd as [|? ? Hn Hnd']; subst.
    apply target_initialize_spec in E1; [|apply Hok; now left].
    assert (Hs1 : NoDup (dkeys (st_vals s1))).
    { destruct E1 as [[_ ->]|(_ & d & _ & ->)]; auto. cbn. now apply ProofChainC.dset_nodup. }
    apply IH in H; auto; [|intros; apply Hok; now right]. clear IH.
    destruct H as (A & B & C & D & F1 & F2 & F3).
    assert (K : st_extra s1 = st_extra s /\ st_cache s1 = st_cache s /\ st_temp s1 = st_temp s)
      by (destruct E1 as [[_ ->]|(_ & d & _ & ->)]; auto).
    split; auto. split; [|split; [|split; [|intuition congruence]]].
    + intros k. rewrite B. destruct E1 as [[Hc ->]|(Hu & d & Hd & ->)].
      * split.
        -- intros [Hk|(x & Hx & Hr)]; auto. right. exists x. split; [now right|auto].
        -- intros [Hk|(x & [<-|Hx] & Hr)]; auto; [destruct Hr; contradiction|]. right. eauto.
      * cbn [st_set st_vals]. rewrite in_dset_keys. split.
        -- intros [[->|Hk]|(x & Hx & Hr)]; auto.
           ++ right. exists t. cbn. auto.
           ++ right. exists x. cbn. auto.
        -- intros [Hk|(x & [<-|Hx] & Hu' & ->)]; auto. right. eauto.
    + intros k Hk. rewrite C by (intros ?; apply Hk; now right).
      destruct E1 as [[Hc ->]|(Hu & d & Hd & ->)]; auto. rewrite st_get_set.
      destruct (String.eqb_spec k (t_name t)) as [E|E]; auto. exfalso. apply Hk. now left.
    + intros x [<-|Hx] Hu; auto. destruct E1 as [[Hc _]|(_ & d & Hd & E1)]; [contradiction|].
      exists d. split; auto. rewrite C by auto. rewrite E1, st_get_set, String.eqb_refl. auto.
Qed.
Lemma setup_parts spaces ts : setup_ok spaces ts -> NoDup (map sp_name spaces) /\ NoDup (map t_name ts).
Proof.
  intros H. pose proof (se_names _ _ H) as Hn. clear H. revert Hn. generalize (map sp_name spaces).
  intros l. induction l as [|a l IH]; cbn; intros Hn; [split; [constructor|auto]|].
  inversion Hn as [|? ? H1 H2]; subst. destruct (IH H2). split; auto. constructor; auto.
  intros Hin. apply H1, in_or_app. auto.
Qed.
Lemma starting_ok spaces ll tr s tr' : setup_ok spaces (ll_targets ll) ->
  starting_state spaces ll tr = Ret s tr' -> good spaces (ll_targets ll) s.
Proof.
  intros Hset H. destruct (setup_parts _ _ Hset) as [N1 N2]. unfold starting_state in H. mb H as s0 E0.
  apply initialize_all_ok in E0; auto; [|apply (se_valid _ _ Hset)].
  destruct E0 as (A & B & _ & _ & C). unfold ll_initialize in H.
  apply targets_initialize_spec in H; auto; [| |now rewrite A].
  2:{ apply (se_targets _ _ Hset). }
  destruct H as (D & F & G & I & J & _). split; [|congruence]. split; auto.
  - intros k. rewrite F, A. split; (intros [H|H]; [left|right; exact H]).
    + apply in_map_iff in H. destruct H as (sp & <- & Hsp). eauto.
    + destruct H as (sp & Hsp & ->). now apply in_map.
  - intros sp Hsp. destruct (C sp Hsp) as (p & E & Hwf). exists p. split; auto.
    rewrite G; auto. intros Hin. apply in_map_iff in Hin. destruct Hin as (tg & Et & Ht).
    symmetry in Et. revert Et. eapply names_apart; eauto.
Qed.

(** * The chains of the inversion keep their states good *)
Lemma psp_extra q s tr s' r tr' : sane_state s -> psp_perturb q s tr = Ret (s', r) tr' -> st_extra s' = [].
Proof.
  intros Hs H. destruct (psp_spec q s Hs) as (os & _ & _ & Hdraw & Hfol).
  destruct (Hdraw _ _ _ H) as (t & tr1 & -> & Ht).
  destruct (nth_error os t) as [[pl p]|] eqn:En; [|apply nth_error_None in En; lia].
  specialize (Hfol t tr1 pl p En). rewrite H in Hfol. unfold follows in Hfol.
  destruct (psp_perturb_ps _ p tr1) as [[[p' r'] ty] tr2| | |] eqn:Ep; try contradiction.
  destruct Hfol as [_ (_ & _ & _ & K & _)]. exact K.
Qed.
Lemma noise_extra ts s tr s' r tr' : sane_state s -> noise_perturb ts s tr = Ret (s', r) tr' -> st_extra s' = [].
Proof.
  intros Hs H. unfold noise_perturb in H. mb H as new En. mb H as c Ec. mr H. inj H.
  destruct (st_copy_any true s Hs) as (vals & cc & E & _). rewrite E in Ec. injection Ec as <-. reflexivity.
Qed.
Lemma inversion_preserving spaces ll save : setup_ok spaces (ll_targets ll) ->
  ll_hier ll = hier_of (ll_targets ll) ->
  preserving (inversion_env spaces ll save) (good spaces (ll_targets ll)).
Proof.
  intros Hset Hh. split.
  - intros ty f s tr new lpr tr' Hin [Hs Hx] Hf Hl. cbn [inversion_env chain_env e_funcs] in Hin.
    apply in_map_iff in Hin. destruct Hin as ([pf w] & E & Hin). cbn [fst] in E. injection E as <- <-.
    unfold inv_pfuncs in Hin. apply in_app_or in Hin. destruct Hin as [Hin|Hin].
    + apply in_map_iff in Hin. destruct Hin as ([q w'] & E & Hin). cbn in E. injection E as <- <-.
      cbn [pfunc_perturb] in Hf. split.
      * eapply psp_run; eauto.
      * eapply psp_extra; eauto. eapply state_ok_sane; eauto.
    + unfold ll_pfuncs in Hin. rewrite Hh in Hin.
      assert (Hin' : (pf, w) = (FNoise (hier_of (ll_targets ll)), 1)).
      { destruct (hier_of (ll_targets ll)); [destruct Hin|]. destruct Hin as [<-|[]]. reflexivity. }
      injection Hin' as -> ->. cbn [pfunc_perturb] in Hf. split.
      * eapply noise_run; eauto.
      * eapply noise_extra; eauto. eapply state_ok_sane; eauto.
  - intros old new T tr old' new' r tr' H. cbn in H. apply like_values in H.
    destruct H as [(V1 & _ & _ & X1) (V2 & _ & _ & X2)].
    split; intros [A B]; (split; [eapply state_ok_values; eauto|congruence]).
  - intros t s [A B]. split; auto. revert A. now apply state_ok_values.
Qed.
Lemma chains_ok spaces ll save n tr cs tr' : setup_ok spaces (ll_targets ll) ->
  inversion_chains spaces ll save n tr = Ret cs tr' ->
  Forall (chain_ok (inversion_env spaces ll save) (good spaces (ll_targets ll))) cs.
Proof.
  intros Hset. unfold inversion_chains. revert tr cs tr'.
  induction n as [|n IH]; intros tr cs tr' H; cbn [repeatM] in H.
  - mr H. subst. constructor.
  - mb H as c Ec. mb Ec as s Es. mr Ec. mb H as cs' Ecs. mr H. constructor; eauto.
    apply new_chain_ok. eapply starting_ok; eauto.
Qed.

(** * What the saved entries show *)
Lemma in_dset_inv {A} k (v : A) d k' v' : In (k', v') (dset k v d) -> (k' = k /\ v' = v) \/ In (k', v') d.
Proof.
  induction d as [|[k0 v0] d IH]; cbn.
  - intros [[= <- <-]|[]]; auto.
  - destruct (String.eqb_spec k k0) as [E|E]; cbn.
    + intros [[= <- <-]|H]; auto.
    + intros [[= <- <-]|H]; auto. apply IH in H. tauto.
Qed.
Lemma in_dupdate_inv {A} (d' d : dict A) k v : In (k, v) (dupdate d d') -> In (k, v) d \/ In (k, v) d'.
Proof.
  unfold dupdate. revert d. induction d' as [|[k0 v0] d' IH]; cbn; intros d H; auto.
  apply IH in H. destruct H as [H|H]; auto. apply in_dset_inv in H. destruct H as [[-> ->]|H]; auto.
Qed.
(** The fixpoints of ps_todict with their names. *)
Definition show_value (key : string) (v : value) : ovalue :=
  match v with
  | Lst ps => OList (map (ps_todict key) ps)
  | a => OArr a
  end.
Lemma todict_eq name n vals attrs cache : ps_todict name (PS n vals attrs cache) =
  fold_left (fun acc kv => dset (name ++ "." ++ fst kv)%string (show_value (name ++ "." ++ fst kv) (snd kv)) acc)
    vals [((name ++ ".n_dimensions")%string, OInt n)].
Proof.
  cbn [ps_todict]. generalize [((name ++ ".n_dimensions")%string, OInt n)].
  induction vals as [|[k v] t IH]; intros acc; auto. cbn [fold_left fst snd]. rewrite <- IH.
  destruct v; auto.
Qed.
Lemma in_fold_dset {A B} (key : A -> string) (f : A -> B) l : forall acc k o,
  In (k, o) (fold_left (fun acc a => dset (key a) (f a) acc) l acc) ->
  In (k, o) acc \/ exists a, In a l /\ k = key a /\ o = f a.
Proof.
  induction l as [|a l IH]; cbn; intros acc k o H; auto.
  apply IH in H. destruct H as [H|(b & Hb & Hr)]; [|eauto].
  apply in_dset_inv in H. destruct H as [[-> ->]|H]; auto. right. exists a. auto.
Qed.
Lemma todict_shows p : sane p -> forall name k o, In (k, o) (ps_todict name p) -> shows name p k o.
Proof.
  induction p as [n vals attrs cache IH] using psstate_ind'. intros Hs name k o Hin.
  inversion Hs as [? ? ? ? Hnd Hl Hq]; subst.
  rewrite todict_eq in Hin. apply in_fold_dset in Hin. destruct Hin as [[[= <- <-]|[]]|([k0 v] & Hin & -> & ->)].
  - apply (shows_n name (PS n vals attrs cache)).
  - cbn [fst snd]. assert (Hg : ps_get k0 (PS n vals attrs cache) = Some v) by (apply dget_in_nodup; auto).
    destruct v as [l|l|l|l]; cbn [show_value]; try (apply shows_arr; [exact Hg|discriminate]).
    eapply shows_list; [exact Hg|].
    assert (HF : forall q, In q l -> sane q /\ forall name k o, In (k, o) (ps_todict name q) -> shows name q k o).
    { intros q Hin'. split; [eapply Hq; eauto|]. eapply IH; eauto. }
    clear - HF. induction l as [|q l IHl]; cbn; constructor.
    + apply HF. now left.
    + apply IHl. intros; apply HF; now right.
Qed.
Lemma items_shows s k v : sane_state s -> st_extra s = [] -> In (k, v) (st_items s) ->
  (exists name p, st_get name s = Some (EPS p) /\ shows name p k v) \/
  (exists name d, st_get name s = Some (ENoise d) /\ shows_noise name d k v).
Proof.
  intros [Hnd Hsub] Hx Hin. unfold st_items in Hin. rewrite Hx in Hin. apply in_dupdate_inv in Hin.
  destruct Hin as [Hin|[]].
  assert (K : exists name e, In (name, e) (st_vals s) /\
    In (k, v) (match e with EPS p => ps_todict name p | ENoise d => noise_todict name d end)).
  { clear - Hin. revert Hin.
    assert (G : forall l acc, In (k, v) (fold_left (fun acc ke => dupdate acc
        match snd ke with
        | EPS p => ps_todict (fst ke) p
        | ENoise d => noise_todict (fst ke) d
        end) l acc) -> In (k, v) acc \/ exists name e, In (name, e) l /\
    In (k, v) (match e with EPS p => ps_todict name p | ENoise d => noise_todict name d end)).
    { induction l as [|[name e] l IH]; cbn; intros acc H; auto.
      apply IH in H. destruct H as [H|(n' & e' & A & B)]; [|right; exists n', e'; auto].
      apply in_dupdate_inv in H. destruct H as [H|H]; auto. right. exists name, e. auto. }
    intros H. apply G in H. destruct H as [[]|H]; exact H. }
  destruct K as (name & [p|d] & Hv & Hin').
  - left. exists name, p. split; [now apply dget_in_nodup|]. apply todict_shows; eauto.
  - right. exists name, d. split; [now apply dget_in_nodup|]. unfold noise_todict in Hin'.
    destruct Hin' as [[= <- <-]|Hin']; [constructor|].
    destruct (dn_corr d) as [r|] eqn:E; [|destruct Hin']. destruct Hin' as [[= <- <-]|[]]. now constructor.
Qed.
Lemma good_get_space spaces ts s name p : good spaces ts s -> st_get name s = Some (EPS p) ->
  exists sp, In sp spaces /\ name = sp_name sp /\ wf sp p.
Proof.
  intros [H _] Hg. assert (Hk : In name (dkeys (st_vals s))) by (eapply dget_in_keys; exact Hg).
  apply (so_keys _ _ _ H) in Hk. destruct Hk as [(sp & Hsp & ->)|(t & Ht & Hu & ->)].
  - destruct (so_spaces _ _ _ H sp Hsp) as (q & E & Hwf). exists sp. split; auto. split; auto. assert (q = p) by congruence. now subst q.
  - destruct (so_noise _ _ _ H t Ht Hu) as (d & E & _). congruence.
Qed.
Lemma good_get_noise spaces ts s name d : good spaces ts s -> st_get name s = Some (ENoise d) ->
  exists t, In t ts /\ unknown_noise t /\ name = t_name t /\ noise_ok t d.
Proof.
  intros [H _] Hg. assert (Hk : In name (dkeys (st_vals s))) by (eapply dget_in_keys; exact Hg).
  apply (so_keys _ _ _ H) in Hk. destruct Hk as [(sp & Hsp & ->)|(t & Ht & Hu & ->)].
  - destruct (so_spaces _ _ _ H sp Hsp) as (q & E & Hwf). congruence.
  - destruct (so_noise _ _ _ H t Ht Hu) as (d' & E & Hd). exists t. assert (d' = d) by congruence. subst d'. auto.
Qed.
(** Every saved entry shows a well-formed state, noise within its limits, or predictions. *)
Lemma saved_value_shows spaces ll save k v : setup_ok spaces (ll_targets ll) ->
  saved_value (inversion_env spaces ll save) (good spaces (ll_targets ll)) k v ->
  saved_shows spaces (ll_targets ll) k v.
Proof.
  intros Hset (s & Hg & [Hin|(Hk & cs & Ec & Hin)]).
  - cbn in Hin. apply items_shows in Hin; [|eapply state_ok_sane; [eauto|apply Hg]|apply Hg].
    destruct Hin as [(name & p & E & Hs)|(name & d & E & Hs)].
    + destruct (good_get_space _ _ _ _ _ Hg E) as (sp & Hsp & -> & Hwf). left. eauto.
    + destruct (good_get_noise _ _ _ _ _ Hg E) as (t & Ht & Hu & -> & Hd). right. left. eauto 8.
  - right. right. split; auto. cbn in Ec. injection Ec as <-. apply in_map_iff in Hin.
    destruct Hin as ([k' c] & E & _). injection E as _ <-. destruct c; cbn; eauto.
Qed.
