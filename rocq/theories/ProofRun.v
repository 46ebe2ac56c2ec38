(** The states of a run stay well formed. *)
From Coq Require Import Permutation.
From Verif Require Import Base ModelPrior ModelState ModelSpace ModelPerturb ModelChain ModelLikelihood
  SpecUtils1D SpecPrior SpecState SpecSpace SpecPerturb SpecRun
  ProofUtils1D ProofChain ProofChainB ProofChainC ProofInversion
  ProofState ProofSpace ProofSpaceB ProofSpaceC ProofSpaceD ProofSpaceE ProofPerturb ProofTree.
Local Open Scope R_scope.

(** * A change at one place *)
Lemma valid_in s k s' : valid s -> In (k, PSpace s') (sp_params s) -> valid s' /\ k = sp_name s'.
Proof.
  intros Hv Hin. split.
  - intros s2 H2. apply Hv. eapply sub_in; eauto.
  - pose proof (valid_here _ Hv) as (_ & _ & _ & _ & _ & _ & H). eauto.
Qed.
(** A list of states in a well-formed state is the value of a nested space. *)
Lemma list_space s p k l : valid s -> wf s p -> ps_get k p = Some (Lst l) ->
  exists s', In (k, PSpace s') (sp_params s).
Proof.
  intros Hv Hwf Hg. pose proof (wf_local _ _ Hwf) as (_ & (Hk & Hlen & Hp & Hn) & Hs & _).
  assert (Hin : In k (dkeys (ps_vals p))) by (eapply dget_in_keys; exact Hg).
  rewrite Hk in Hin. unfold names in Hin. apply in_app_or in Hin. destruct Hin as [Hin|Hin].
  - unfold is_disc, sites_ok in *. destruct (sp_cls s); [destruct Hin| |];
      destruct Hin as [<-|[]]; destruct Hs as (l0 & E & _); congruence.
  - apply in_map_iff in Hin. destruct Hin as ([k' par] & E & Hin). cbn in E. subst k'.
    destruct par as [pr|s']; eauto. destruct (Hp _ _ Hin) as (l0 & E). congruence.
Qed.
Lemma changed_at_wf (Q : psstate -> psstate -> Prop) w p p' : changed_at Q w p p' -> forall s,
  valid s -> wf s p ->
  (forall c c' s', sub_space s s' -> holds_at p w c -> wf s' c ->
     (w = [] -> s' = s) -> (forall w0 k i, w = w0 ++ [(k, i)] -> k = sp_name s') -> Q c c' -> wf s' c') ->
  wf s p'.
Proof.
  induction 1 as [p p' HQ|p p' k i l l' c c' w Hn Hk Hg Hg' Hc Hc' Hch IH Hlen Hothers Hkeys];
    intros s Hv Hwf H.
  - eapply H; eauto.
    + apply sub_here.
    + constructor.
    + intros w0 k i E. destruct w0; discriminate.
  - destruct (list_space _ _ _ _ Hv Hwf Hg) as (s1 & Hin).
    destruct (valid_in _ _ _ Hv Hin) as [Hv1 Ek].
    pose proof (valid_here _ Hv) as (_ & _ & _ & Hnd & Hdk & _).
    destruct (wf_inv _ _ Hnd Hwf) as (Hdim & Hsites & Hkp & Hdl & Hf).
    destruct (Hf _ _ Hin) as (v & Ev & Hfit). rewrite Hg in Ev. injection Ev as <-.
    cbn in Hfit. destruct Hfit as (l0 & [E0|E0] & Ll & HF); [injection E0 as <-|discriminate].
    rewrite Forall_forall in HF.
    assert (Hwc : wf s1 c) by (apply HF; eapply nth_error_In; eauto).
    assert (Hwc' : wf s1 c').
    { apply (IH s1 Hv1 Hwc). intros x x' s' Hs' Hx Hwx Hw0 Hwk HQ. apply (H x x' s'); auto.
      - eapply sub_in; eauto.
      - econstructor; eauto.
      - discriminate.
      - intros w0 k0 i0 E. destruct w0 as [|a w0]; cbn in E.
        + injection E as <- <- ->. rewrite Hw0 by auto. exact Ek.
        + injection E as <- ->. eapply Hwk; reflexivity. }
    assert (Hget : forall k' v, k' <> k -> ps_get k' p = Some v ->
              exists v', ps_get k' p' = Some v' /\ view_value v' = view_value v).
    { intros k' v' Hne E. specialize (Hkeys k' Hne). rewrite E in Hkeys. cbn in Hkeys.
      destruct (ps_get k' p') as [v2|]; [|discriminate]. injection Hkeys as Hkeys. eauto. }
    assert (Hkd : disc_key <> k).
    { intros E. apply Hdk. rewrite E. apply in_map_iff. eexists. split; [|exact Hin]. reflexivity. }
    assert (Hdisc : forall v, ps_get disc_key p = Some v ->
       exists v', ps_get disc_key p' = Some v' /\ view_value v' = view_value v) by (intros; apply Hget; auto).
    assert (Hpos : forall j at_, position_of s p' j at_ -> position_of s p j at_).
    { intros j at_. unfold position_of, sites_ok in *. destruct (sp_cls s); auto.
      - intros (a & x & E & E2). destruct Hsites as (a0 & E0' & _). destruct (Hdisc _ E0') as (w' & Ew & Vw).
        cbn in Vw. apply view_Arr in Vw. subst w'. rewrite E in Ew. injection Ew as <-. eauto.
      - intros (a & x & E & E2). destruct Hsites as (a0 & E0' & _). destruct (Hdisc _ E0') as (w' & Ew & Vw).
        cbn in Vw. apply view_ArrN in Vw. subst w'. rewrite E in Ew. injection Ew as <-. eauto. }
    apply wf_build; auto.
    + unfold dims_ok in *. congruence.
    + unfold sites_ok in *. destruct (sp_cls s); auto.
      * destruct Hsites as (a0 & E0' & HS). destruct (Hdisc _ E0') as (w' & Ew & Vw).
        cbn in Vw. apply view_Arr in Vw. subst w'. eauto.
      * destruct Hsites as (a0 & E0' & HS). destruct (Hdisc _ E0') as (w' & Ew & Vw).
        cbn in Vw. apply view_ArrN in Vw. subst w'. eauto.
    + congruence.
    + intros Hd. destruct (Hdl Hd) as (v & Ev & Lv). destruct (Hdisc _ Ev) as (w' & Ew & Vw).
      exists w'. split; auto. rewrite <- view_value_len, Vw, view_value_len. congruence.
    + intros k' par Hin'. destruct (Hf _ _ Hin') as (v & Ev & Hfit). rewrite Hn.
      destruct (String.eqb_spec k' k) as [E|Hne]; [subst k'|].
      * assert (par = PSpace s1).
        { apply (dget_in_nodup _ _ _ Hnd) in Hin. apply (dget_in_nodup _ _ _ Hnd) in Hin'. congruence. }
        subst par. exists (Lst l'). split; auto. exists l'. split; auto. split; [congruence|].
        apply Forall_forall. intros x Hx. apply In_nth_error in Hx. destruct Hx as (j & Hj).
        destruct (Nat.eq_dec j i) as [E|E]; [subst j; replace x with c' by congruence; exact Hwc'|].
        specialize (Hothers j E). rewrite Hj in Hothers. cbn in Hothers.
        destruct (nth_error l j) as [y|] eqn:Ey; [|discriminate]. injection Hothers as Hxy.
        apply (wf_view s1 y x); auto. apply HF. eapply nth_error_In; eauto.
      * destruct (Hget _ _ Hne Ev) as (w' & Ew & Vw). exists w'. split; auto.
        destruct par as [pr|s']; cbn in Hfit.
        -- destruct Hfit as (a & -> & La & Hs). cbn in Vw. apply view_Arr in Vw. subst w'.
           exists a. split; auto. split; auto. intros j y at_ Hy Hat. eauto.
        -- destruct Hfit as (a & Ha & La & HFa).
           assert (HW : exists a', (w' = Lst a' \/ w' = AObj a') /\ map view a' = map view a).
           { destruct Ha as [-> | ->]; cbn in Vw; destruct w'; cbn in Vw; try discriminate;
               injection Vw as Vw; eauto. }
           destruct HW as (a' & Hw & Va). exists a'. split; auto. split.
           ++ rewrite <- (map_length view a'), Va, map_length. auto.
           ++ apply Forall_forall. intros y Hy. apply (in_map view) in Hy. rewrite Va in Hy.
              apply in_map_iff in Hy. destruct Hy as (z & Ez & Hz). rewrite Forall_forall in HFa.
              eapply wf_view; eauto.
Qed.

(** * One perturbation of a parameter space *)
Lemma space_funcs_in s q w : In (q, w) (space_funcs s) ->
  exists s', sub_space s s' /\ (q, w) = own_psp s'.
Proof.
  revert s. fix IH 1. intros [name fixed nmin nmax range cls params] H.
  cbn [space_funcs] in H. apply in_app_or in H. destruct H as [H|[H|[]]].
  2:{ exists (Space name fixed nmin nmax range cls params). split; [apply sub_here|auto]. }
  assert (G : exists k s1 s', In (k, PSpace s1) params /\ sub_space s1 s' /\ (q, w) = own_psp s').
  { induction params as [|[k [pr|s1]] t IHt]; [destruct H| |].
    - destruct (IHt H) as (k' & s1 & s' & Hin & R). exists k', s1, s'. split; [right; auto|auto].
    - apply in_app_or in H. destruct H as [H|H].
      + destruct (IH s1 H) as (s' & Hs' & E). exists k, s1, s'. split; [left; auto|auto].
      + destruct (IHt H) as (k' & s2 & s' & Hin & R). exists k', s2, s'. split; [right; auto|auto]. }
  destruct G as (k & s1 & s' & Hin & Hs & E). exists s'. split; auto. eapply sub_in; eauto.
Qed.
Lemma all_funcs_in spaces q w : In (q, w) (all_funcs spaces) ->
  exists s s', In s spaces /\ sub_space s s' /\ (q, w) = own_psp s'.
Proof.
  unfold all_funcs. rewrite in_flat_map. intros (s & Hs & H). apply space_funcs_in in H.
  destruct H as (s' & H & E). eauto.
Qed.

Lemma state_ok_sane spaces ts s : setup_ok spaces ts -> state_ok spaces ts s -> sane_state s.
Proof.
  intros Hset Hok. split; [exact (so_nodup _ _ _ Hok)|]. intros k p Hin.
  assert (Hk : In k (dkeys (st_vals s))) by (apply (in_dkeys _ _ _ Hin)).
  pose proof (dget_in_nodup _ _ _ (so_nodup _ _ _ Hok) Hin) as Hg.
  apply (so_keys _ _ _ Hok) in Hk. destruct Hk as [(sp & Hsp & ->)|(t & Ht & Hu & ->)].
  - destruct (so_spaces _ _ _ Hok sp Hsp) as (p' & E & Hwf). unfold st_get in E.
    assert (p' = p) by congruence. subst p'. eapply wf_sane; [|exact Hwf]. now apply (se_valid _ _ Hset).
  - destruct (so_noise _ _ _ Hok t Ht Hu) as (d & E & _). unfold st_get in E. congruence.
Qed.

Lemma names_apart spaces ts sp t : setup_ok spaces ts -> In sp spaces -> In t ts -> sp_name sp <> t_name t.
Proof.
  intros Hset Hs Ht E. pose proof (se_names _ _ Hset) as H.
  induction spaces as [|a l IH]; [destruct Hs|]. clear IH.
  apply in_split in Hs. destruct Hs as (l1 & l2 & Hs). rewrite Hs in H.
  rewrite map_app, <- app_assoc in H. apply NoDup_remove_2 in H. apply H.
  apply in_or_app. right. apply in_or_app. right. rewrite E. now apply in_map.
Qed.
Lemma space_name_inj spaces ts a b : setup_ok spaces ts -> In a spaces -> In b spaces ->
  sp_name a = sp_name b -> a = b.
Proof. intros Hset Ha Hb E. eapply (se_nested _ _ Hset a b); eauto using sub_here. Qed.

Lemma psp_run spaces ts q w s tr s' r tr' : setup_ok spaces ts -> state_ok spaces ts s ->
  In (q, w) (all_funcs spaces) -> psp_perturb q s tr = Ret (s', r) tr' -> live r ->
  state_ok spaces ts s'.
Proof.
  intros Hset Hok Hq H Hlive.
  destruct (all_funcs_in _ _ _ Hq) as (s0 & sq & Hs0 & Hsq & E).
  unfold own_psp in E. injection E as -> ->.
  destruct (psp_spec (mkPsp (sp_name sq) (own_elems sq)) s (state_ok_sane _ _ _ Hset Hok))
    as (os & [Hnd Hos] & _ & Hdraw & Hfol).
  destruct (Hdraw _ _ _ H) as (t & tr1 & -> & Ht).
  destruct (nth_error os t) as [[pl p]|] eqn:En; [|apply nth_error_None in En; lia].
  specialize (Hfol t tr1 pl p En). rewrite H in Hfol. unfold follows in Hfol.
  destruct (psp_perturb_ps _ p tr1) as [[[p' r'] ty] tr2| | |] eqn:Ep; try contradiction.
  destruct Hfol as [_ (<- & Hch & _)].
  assert (Hin : In (pl, p) os) by (eapply nth_error_In; eauto).
  apply Hos in Hin. cbn [psp_space] in Hin. destruct Hin as [(w0 & j & -> & _) Hh].
  (* the elementary move *)
  unfold psp_perturb_ps in Ep. cbn [psp_funcs] in Ep. mb Ep as i Ei. mb Ep as ew Eew. mb Ep as [pp rr] Eel.
  mr Ep. injection Ep as -> -> <-.
  assert (Hew : In ew (own_elems sq)).
  { unfold idx in Eew. destruct (nth_error (own_elems sq) i) eqn:E; [|discriminate].
    injection Eew as ->. eapply nth_error_In; eauto. }
  destruct ew as [e we]. cbn [fst] in Eel.
  destruct Hch as (k & w' & p0 & p1 & Ew & Hg & Hg' & Hch & Hkeys & Hothers).
  (* the entry of the State *)
  assert (Hk : exists sk, In sk spaces /\ k = sp_name sk).
  { assert (Hk : In k (dkeys (st_vals s))) by (eapply dget_in_keys; exact Hg).
    apply (so_keys _ _ _ Hok) in Hk. destruct Hk as [Hk|(tg & Htg & Hu & ->)]; auto.
    destruct (so_noise _ _ _ Hok tg Htg Hu) as (d & E & _). congruence. }
  destruct Hk as (sk & Hsk & ->).
  destruct (so_spaces _ _ _ Hok sk Hsk) as (p0' & E & Hwf0). rewrite Hg in E. injection E as <-.
  assert (Hwf1 : wf sk p1).
  { apply (changed_at_wf _ _ _ _ Hch sk); auto; [now apply (se_valid _ _ Hset)|].
    intros c c' s1 Hs1 Hc Hwc Hw0 Hwk ->.
    assert (Ec : c = p).
    { destruct Hh as (k2 & w2 & p2 & E2 & Hg2 & Hh2). rewrite E2 in Ew. injection Ew as -> ->.
      rewrite Hg in Hg2. injection Hg2 as <-. clear - Hc Hh2.
      revert c Hc. induction Hh2 as [|pa ka ia la ca wa qa G N Hq' IH]; intros c Hc.
      - now inversion Hc.
      - inversion Hc; subst. apply IH. congruence. }
    subst c.
    assert (En1 : sp_name s1 = sp_name sq).
    { destruct w0 as [|a w0]; cbn in Ew.
      - injection Ew as E1 E2 <-. rewrite Hw0 by auto. congruence.
      - injection Ew as -> <-. symmetry. eapply Hwk; reflexivity. }
    assert (s1 = sq).
    { eapply (se_nested _ _ Hset sk s0); eauto. }
    subst s1. eapply (elem_wf sq e); eauto.
    - intros s2 H2. apply (se_valid _ _ Hset s0 Hs0). clear - Hsq H2.
      induction Hsq; auto. eapply sub_in; eauto.
    - eapply own_elems_of; eauto. intros s2 H2. apply (se_valid _ _ Hset s0 Hs0). clear - Hsq H2.
      induction Hsq; auto. eapply sub_in; eauto. }
  split.
  - rewrite Hkeys. exact (so_nodup _ _ _ Hok).
  - intros k. rewrite Hkeys. apply (so_keys _ _ _ Hok).
  - intros sp Hsp. destruct (String.eqb_spec (sp_name sp) (sp_name sk)) as [E|E].
    + assert (sp = sk) by (eapply space_name_inj; eauto). subst sp. eauto.
    + destruct (so_spaces _ _ _ Hok sp Hsp) as (p2 & E2 & Hwf2). specialize (Hothers _ E).
      rewrite E2 in Hothers. cbn in Hothers. destruct (st_get (sp_name sp) s') as [[p3|d]|]; try discriminate.
      injection Hothers as V. exists p3. split; auto. now apply (wf_view sp p2 p3).
  - intros tg Htg Hu. destruct (so_noise _ _ _ Hok tg Htg Hu) as (d & E & Hd).
    assert (Hne : t_name tg <> sp_name sk) by (intros E2; symmetry in E2; revert E2; eapply names_apart; eauto).
    specialize (Hothers _ Hne). rewrite E in Hothers. cbn in Hothers.
    destruct (st_get (t_name tg) s') as [[p3|d']|]; try discriminate. injection Hothers as ->. eauto.
Qed.

Ltac inj H := injection H; clear H; intros; subst.
(** * Changing the noise *)
Lemma perturb_noise_value_in vmin vmax step old tr x tr' :
  perturb_noise_value vmin vmax step old tr = Ret x tr' -> vmin <= x <= vmax.
Proof.
  intros H. unfold perturb_noise_value in H. apply until_inv in H. destruct H as (Hb & _).
  apply negb_true_iff, orb_false_iff in Hb. destruct Hb as [A B].
  unfold Rltb in A, B. destruct (Rlt_dec x vmin), (Rlt_dec vmax x); try discriminate. lra.
Qed.
Lemma perturb_target_ok t d tr d' tr' : perturb_target t d tr = Ret d' tr' -> noise_ok t d'.
Proof.
  unfold perturb_target. intros H. mb H as std Es. apply perturb_noise_value_in in Es. unfold noise_ok.
  destruct (t_corr t).
  - destruct (dn_corr d) as [r|]; [|mb H as z Ez; discriminate].
    mb H as cor Ec. mr H. apply perturb_noise_value_in in Ec. cbn. eauto.
  - mr H. cbn. auto.
Qed.
Lemma perturb_targets_spec ts s : forall new tr new' tr', perturb_targets ts s new tr = Ret new' tr' ->
  NoDup (map t_name ts) -> NoDup (dkeys new) ->
  NoDup (dkeys new') /\
  (forall k, ~ In k (map t_name ts) -> dget k new' = dget k new) /\
  (forall t, In t ts -> exists d, dget (t_name t) new' = Some (ENoise d) /\ noise_ok t d).
Proof.
  induction ts as [|t ts IH]; intros new tr new' tr' H Hnd Hn; cbn [perturb_targets] in H.
  - mr H. split; auto. split; auto. intros t [].
  - mb H as d Ed. mb H as d' Ed'. inversion Hnd as [|? ? Hni Hnd']; subst.
    apply IH in H; auto; [|now apply dset_nodup].
    destruct H as (A & B & C). split; auto. split.
    + intros k Hk. rewrite B by (intros E; apply Hk; cbn; auto). apply dget_dset_other.
      intros ->. apply Hk. cbn. auto.
    + intros t' [<-|Ht']; auto. exists d'. split; [|eapply perturb_target_ok; eauto].
      rewrite B by auto. apply dget_dset_same.
Qed.
Definition hier_of (ts : list target) : list target := filter is_hier ts.
Lemma hier_in ts t : In t (hier_of ts) <-> In t ts /\ unknown_noise t.
Proof.
  unfold hier_of. rewrite filter_In. unfold is_hier, unknown_noise. destruct (t_cov t); intuition congruence.
Qed.
Lemma nodup_filter_map {A B} (f : A -> B) p l : NoDup (map f l) -> NoDup (map f (filter p l)).
Proof.
  induction l as [|a l IH]; cbn; auto. intros H. inversion H as [|? ? Hn Hd]; subst.
  destruct (p a); cbn; auto. constructor; auto. intros Hin. apply Hn.
  apply in_map_iff in Hin. destruct Hin as (x & E & Hx). rewrite <- E. apply in_map.
  apply filter_In in Hx. tauto.
Qed.
Lemma st_copy_any b s : sane_state s -> exists vals c, st_copy b s = Ok (mkState vals vals (st_temp s) c []) /\
  same_state s (mkState vals vals (st_temp s) c []) /\ (b = false -> c = []).
Proof.
  intros Hs. destruct (st_copy_spec s Hs) as (vals & E & Hsame & _).
  unfold st_copy in *. destruct (rmap _ (st_vals s)) as [v|e|] eqn:Er; try discriminate. cbn [rbind] in *.
  injection E as E.
  assert (Hnd : NoDup (dkeys v)).
  { assert (Ek : dkeys v = dkeys (st_vals s)).
    { clear - Er. revert v Er. induction (st_vals s) as [|[k e] t IH]; intros v Er; cbn in Er.
      - now injection Er as <-.
      - destruct (entry_copy e) as [e'| |]; try discriminate. cbn in Er.
        destruct (rmap _ t) as [v'| |]; try discriminate. injection Er as <-. cbn. f_equal. now apply IH. }
    rewrite Ek. apply Hs. }
  rewrite mk_state_spec in E by auto. injection E as E. subst vals.
  rewrite mk_state_spec by auto. eexists v, _. split; [reflexivity|]. split; [exact Hsame|].
  intros ->. reflexivity.
Qed.
Lemma noise_run spaces ts s tr s' r tr' : setup_ok spaces ts -> state_ok spaces ts s ->
  noise_perturb (hier_of ts) s tr = Ret (s', r) tr' -> state_ok spaces ts s'.
Proof.
  intros Hset Hok H. unfold noise_perturb in H. mb H as new En. mb H as c Ec. mr H. inj H.
  destruct (st_copy_any true s (state_ok_sane _ _ _ Hset Hok)) as (vals & cc & E & Hsame & _).
  rewrite E in Ec. injection Ec as <-.
  assert (Hndt : NoDup (map t_name (hier_of ts))).
  { apply nodup_filter_map. pose proof (se_names _ _ Hset) as Hn. clear - Hn.
    induction (map sp_name spaces); auto. inversion Hn; auto. }
  apply perturb_targets_spec in En; auto; [|constructor]. destruct En as (Hnd & Hothers & Hset').
  assert (Hk : dkeys vals = dkeys (st_vals s)).
  { rewrite <- (view_state_keys s). unfold same_state in Hsame. rewrite <- Hsame, view_state_keys. reflexivity. }
  assert (Hsub : forall k, In k (dkeys new) -> In k (dkeys vals)).
  { intros k Hin. rewrite Hk. destruct (in_dec string_dec k (map t_name (hier_of ts))) as [Ht|Ht].
    - apply in_map_iff in Ht. destruct Ht as (t & <- & Ht). apply hier_in in Ht.
      apply (so_keys _ _ _ Hok). right. exists t. tauto.
    - specialize (Hothers k Ht). cbn in Hothers. apply dget_none_keys in Hothers. contradiction. }
  assert (Hkeys : dkeys (dupdate vals new) = dkeys (st_vals s)) by (rewrite dkeys_dupdate; auto).
  split; cbn [st_vals st_update_vals].
  - rewrite Hkeys. exact (so_nodup _ _ _ Hok).
  - rewrite Hkeys. exact (so_keys _ _ _ Hok).
  - intros sp Hsp. destruct (so_spaces _ _ _ Hok sp Hsp) as (p & Eg & Hwf).
    unfold st_get, st_update_vals. cbn [st_vals]. rewrite dget_dupdate by auto.
    rewrite Hothers.
    + cbn. destruct (same_state_get _ _ _ _ Hsame Eg) as (p' & E' & V). cbn in E'.
      exists p'. split; auto. now apply (wf_view sp p p').
    + intros Hin. apply in_map_iff in Hin. destruct Hin as (t & Et & Ht). apply hier_in in Ht.
      symmetry in Et. revert Et. eapply names_apart; eauto. tauto.
  - intros t Ht Hu. destruct (Hset' t) as (d & Ed & Hd); [now apply hier_in|].
    exists d. split; auto. unfold st_get, st_update_vals. cbn [st_vals]. rewrite dget_dupdate by auto.
    now rewrite Ed.
Qed.

(** * The likelihood only changes caches *)
Definition same_values (s s' : state) : Prop :=
  st_vals s' = st_vals s /\ st_attrs s' = st_attrs s /\ st_temp s' = st_temp s /\ st_extra s' = st_extra s.
Lemma same_values_refl s : same_values s s.
Proof. repeat split. Qed.
Lemma same_values_trans a b c : same_values a b -> same_values b c -> same_values a c.
Proof. unfold same_values. intuition congruence. Qed.
Lemma get_dpred_values t f s tr s' o tr' : get_dpred t f s tr = Ret (s', o) tr' -> same_values s s'.
Proof.
  unfold get_dpred. destruct (dget (dpred_key t) (st_cache s)) as [[d|l|n]|]; intros H; try discriminate.
  - mr H. inj H. apply same_values_refl.
  - mb H as a Ea. destruct a; mr H; inj H; repeat split.
Qed.
Lemma misfit_loop_values l : forall s m d tr s' o tr', misfit_loop l s m d tr = Ret (s', o) tr' -> same_values s s'.
Proof.
  induction l as [|[t f] l IH]; intros s m d tr s' o tr' H; cbn [misfit_loop] in H.
  - mr H. inj H. apply same_values_refl.
  - mb H as [s1 od] E1. apply get_dpred_values in E1. destruct od as [d0|e].
    + destruct (target_misfit t s1 d0) as [[m' ld]|e|]; [|mr H; inj H; auto|discriminate].
      apply IH in H. eapply same_values_trans; eauto.
    + mr H. inj H; auto.
Qed.
Lemma raw_ratio_values ll old new tr old' new' r tr' : raw_ratio ll old new tr = Ret (old', new', r) tr' ->
  same_values old old' /\ same_values new new'.
Proof.
  unfold raw_ratio. intros H. destruct (ll_mode ll).
  - unfold ratio_from_targets in H. mb H as [o1 r1] E1. apply misfit_loop_values in E1.
    destruct r1 as [[m1 d1]|e].
    + mb H as [n1 r2] E2. apply misfit_loop_values in E2. destruct r2 as [[m2 d2]|e]; mr H;
        inj H; auto.
    + mr H. inj H. split; auto. apply same_values_refl.
  - destruct (ll_ratio ll); [|discriminate]. mb H as a Ea. mr H. inj H.
    split; apply same_values_refl.
  - destruct (ll_func ll); [|discriminate]. mb H as a Ea. mr H. inj H.
    split; apply same_values_refl.
Qed.
Lemma like_values ll old new T tr old' new' r tr' :
  log_likelihood_ratio ll old new T tr = Ret (old', new', r) tr' -> same_values old old' /\ same_values new new'.
Proof.
  unfold log_likelihood_ratio. intros H. destruct (Reqb T 0); [discriminate|].
  mb H as [[o n] x] E. mr H. inj H. eapply raw_ratio_values; eauto.
Qed.
Lemma state_ok_values spaces ts s s' : st_vals s' = st_vals s -> state_ok spaces ts s -> state_ok spaces ts s'.
Proof.
  intros E [A B C D]. split; unfold st_get in *; rewrite E; auto.
Qed.
