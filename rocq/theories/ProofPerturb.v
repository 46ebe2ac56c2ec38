(** Proofs about the model of the perturbation functions: one state. *)
From Verif Require Import Base ModelUtils1D ModelPrior ModelState ModelSpace ModelPerturb SpecUtils1D SpecPrior
  SpecState SpecSpace ProofUtils1D ProofUtils1DB ProofChain ProofChainC ProofInversion ProofState
  PropPrior ProofSpace ProofSpaceB ProofSpaceC ProofSpaceD ProofSpaceE.
From Coq Require Import Sorting.Permutation.
Local Open Scope R_scope.

(** * Dictionaries *)
Lemma dget_in_keys {A} k (v : A) d : dget k d = Some v -> In k (dkeys d).
Proof. intros H. destruct (in_dec string_dec k (dkeys d)); auto. apply dget_none_keys in n. congruence. Qed.
Lemma dget_dupdate {A} k (d' d : dict A) : NoDup (dkeys d') ->
  dget k (dupdate d d') = match dget k d' with Some v => Some v | None => dget k d end.
Proof.
  unfold dupdate. revert d. induction d' as [|[k' v'] t IH]; intros d H; cbn [fold_left fst snd dget]; auto.
  inversion H as [|? ? H1 H2]; subst. rewrite IH by auto.
  destruct (String.eqb_spec k k') as [->|Hne].
  - rewrite dget_dset_same. destruct (dget k' t) as [w|] eqn:E; auto.
    exfalso. apply H1. eapply dget_in_keys; eauto.
  - now rewrite dget_dset_other by congruence.
Qed.
Lemma dkeys_dupdate {A} (d' d : dict A) : (forall k, In k (dkeys d') -> In k (dkeys d)) ->
  dkeys (dupdate d d') = dkeys d.
Proof.
  unfold dupdate. revert d. induction d' as [|[k' v'] t IH]; intros d H; cbn [fold_left fst snd]; auto.
  assert (E : dkeys (dset k' v' d) = dkeys d) by (apply dkeys_dset_in; apply H; cbn; auto).
  rewrite IH, E; auto. intros k Hk. rewrite E. apply H. cbn. auto.
Qed.

Lemma in_dset_keys {A} k (v : A) d x : In x (dkeys (dset k v d)) <-> x = k \/ In x (dkeys d).
Proof.
  rewrite dset_keys. unfold dmem. destruct (dget k d) eqn:E.
  - split; auto. intros [->|H]; auto. eapply dget_in_keys; eauto.
  - rewrite in_app_iff. cbn. intuition.
Qed.

(** * Well-formed states are sane *)
Lemma wf_sane s : valid s -> forall p, wf s p -> sane p.
Proof.
  induction s as [s IH] using space_ind'. intros Hv p Hwf.
  pose proof (valid_here _ Hv) as (Hmm & _ & Hc & Hnd & Hdk & _).
  pose proof (wf_local _ _ Hwf) as (_ & (Hk & Hlen & _) & _).
  destruct (wf_inv _ _ Hnd Hwf) as (Hdim & Hsites & _ & Hdl & Hf).
  assert (Hndp : NoDup (dkeys (ps_vals p))).
  { rewrite Hk. unfold names. destruct (is_disc s); cbn [app]; auto. now constructor. }
  destruct p as [n vals attrs cache]. cbn [ps_n ps_vals] in *.
  assert (HL : forall k v, In (k, v) vals -> value_len v = n /\ v <> Lst []).
  { intros k v Hin. assert (L : value_len v = n) by (apply (Hlen k); apply dget_in_nodup; auto).
    split; auto. intros ->. cbn in L. unfold dims_ok in Hdim. cbn in Hdim. lia. }
  constructor; auto.
  intros k v q Hin Hq.
  assert (Hg : ps_get k (PS n vals attrs cache) = Some v) by (apply dget_in_nodup; auto).
  assert (Hkn : In k (names s)).
  { rewrite <- Hk. apply in_map_iff. exists (k, v). auto. }
  unfold names in Hkn. apply in_app_or in Hkn. destruct Hkn as [Hkn|Hkn].
  - destruct (is_disc s) eqn:Hd; [|destruct Hkn]. destruct Hkn as [<-|[]].
    unfold sites_ok, is_disc in *.
    destruct (sp_cls s); try discriminate; destruct Hsites as (l & E & _); rewrite E in Hg;
      injection Hg as <-; destruct Hq.
  - apply in_map_iff in Hkn. destruct Hkn as ([k' par] & E & Hpar). cbn in E. subst k'.
    destruct (Hf _ _ Hpar) as (w & Ew & Hfit). rewrite Hg in Ew. injection Ew as <-.
    destruct par as [pr|s']; cbn in Hfit.
    + destruct Hfit as (l & -> & _). destruct Hq.
    + destruct Hfit as (l & Hl & _ & HF). assert (Hql : In q l) by (destruct Hl as [-> | ->]; exact Hq).
      rewrite Forall_forall in HF. eapply IH; eauto. eapply valid_in; eauto.
Qed.

(** * Perturbation of values *)
Definition changed (s : space) (p : psstate) (i : nat) (acc : ext) (k : string) (v : value) : Prop :=
  exists pr a x, In (k, PPrior pr) (sp_params s) /\ ps_get k p = Some (Arr a) /\ (i < length a)%nat /\
    v = Arr (set_nth a i x) /\
    (live acc -> forall at_, position_of s p i at_ -> in_support pr at_ x).
Definition site_of (p : psstate) (i : nat) : res (option pos) :=
  match ps_get disc_key p with
  | None => Ok None
  | Some d => x <-? site_at (Some d) i ;; Ok (Some x)
  end.
Lemma site_of_spec s p i at_ : valid s -> wf s p -> site_of p i = Ok at_ -> position_of s p i at_.
Proof.
  intros Hv Hwf H. pose proof (valid_here _ Hv) as (Hmm & _ & Hc & Hnd & Hdk & _).
  destruct (wf_inv _ _ Hnd Hwf) as (Hdim & Hsites & Hk & Hdl & Hf).
  unfold site_of in H. destruct (is_disc s) eqn:Hd.
  - destruct (Hdl Hd) as (d & E & _). rewrite E in H. apply rbind_ok in H.
    destruct H as (x & Ex & [= <-]). unfold site_at in Ex. apply rbind_ok in Ex.
    destruct Ex as (ps & Eps & Ex). apply idx_ok in Ex. rewrite <- E in Eps.
    apply (positions_spec s p ps Hd Hsites Eps). eauto.
  - assert (E : ps_get disc_key p = None).
    { unfold ps_get. apply dget_none_keys. rewrite Hk. unfold names. rewrite Hd. exact Hdk. }
    rewrite E in H. injection H as <-. unfold position_of, is_disc in *. now destruct (sp_cls s).
Qed.
Lemma position_fun s p i a b : position_of s p i a -> position_of s p i b -> a = b.
Proof.
  unfold position_of. destruct (sp_cls s); [congruence| |];
    intros (l & x & E1 & E2 & ->) (l' & x' & E1' & E2' & ->); congruence.
Qed.

Definition of_space (s : space) (par : param) : Prop :=
  match par with PPrior p => In (p_name p, PPrior p) (sp_params s) | PSpace s' => s' = s end.
Lemma perturb_params_spec s p i : valid s -> wf s p -> forall l new acc tr q r tr',
  Forall (of_space s) l -> NoDup (dkeys new) ->
  (forall k v, dget k new = Some v -> changed s p i acc k v) ->
  perturb_params l p i new acc tr = Ret (q, r) tr' ->
  (In (PSpace s) l /\ is_disc s = true /\ exists tr0, perturb_value s p i tr0 = Ret (q, r) tr') \/
  (exists c new', ps_copy p = Ok c /\ ps_n q = ps_n c /\ ps_attrs q = ps_attrs c /\
     ps_cache q = ps_cache c /\ ps_vals q = dupdate (ps_vals c) new' /\ NoDup (dkeys new') /\
     (forall k v, dget k new' = Some v -> changed s p i r k v) /\
     (forall k, In k (dkeys new') <-> In k (dkeys new) \/ exists pr, In (PPrior pr) l /\ k = p_name pr)).
Proof.
  intros Hv Hwf. pose proof (valid_here _ Hv) as Hok. pose proof Hok as (Hmm & _ & Hc & Hnd & Hdk & _).
  destruct (wf_inv _ _ Hnd Hwf) as (Hdim & Hsites & Hk & Hdl & Hf).
  induction l as [|[pr|s'] l IH]; intros new acc tr q r tr' Hl Hnn Hch H; cbn [perturb_params] in H.
  - right. mb H as c Ec. mr H. injection H as <- <-. exists c, new. cbn [ps_n ps_attrs ps_cache ps_vals].
    split; auto. split; auto. split; auto. split; auto. split; auto. split; auto. split; auto.
    intros k. split; auto. intros [Hin|(pr & [] & _)]; auto.
  - inversion Hl as [|? ? Ho Hl']; subst. cbn in Ho.
    destruct (Hf _ _ Ho) as (v & Ev & Hfit). cbn in Hfit. destruct Hfit as (a & -> & La & Hsup).
    rewrite Ev in H. mb H as old Eold. mb H as at_ Eat. mb H as [nv r1] Ep. mb H as v' Ev'.
    change (site_of p i = Ok at_) in Eat. pose proof (site_of_spec s p i at_ Hv Hwf Eat) as Hat.
    unfold set_num in Ev'. destruct (Nat.ltb_spec i (length a)) as [Hi|]; [|discriminate].
    injection Ev' as <-.
    assert (Hprior : prior_ok pr) by (eapply prior_of; eauto).
    apply IH in H; auto.
    + destruct H as [(H1 & H2)|(c & new' & E1 & E2 & E3 & E4 & E5 & E6 & E7 & E8)].
      * left. split; [right; auto|auto].
      * right. exists c, new'. repeat (split; [assumption|]).
        intros k. rewrite E8. split.
        -- intros [Hin|(p1 & Hin & ->)]; [|right; exists p1; cbn; auto].
           apply in_dset_keys in Hin. destruct Hin as [->|Hin]; [|auto]. right. exists pr. cbn. auto.
        -- intros [Hin|(p1 & [[= ->]|Hin] & ->)]; [left; apply in_dset_keys; auto|left; apply in_dset_keys; auto|].
           right. eauto.
    + now apply dset_nodup.
    + intros k w Hw. destruct (string_dec k (p_name pr)) as [->|Hne].
      * rewrite dget_dset_same in Hw. injection Hw as <-. exists pr, a, nv.
        split; auto. split; auto. split; auto. split; auto. intros Hlv at' Hat'.
        apply live_eadd in Hlv. assert (at' = at_) by (eapply position_fun; eauto). subst at'.
        eapply p_perturb_inv; eauto. tauto.
      * rewrite dget_dset_other in Hw by auto. destruct (Hch _ _ Hw) as (p1 & a1 & x1 & A & B & C & D & E).
        exists p1, a1, x1. split; auto. split; auto. split; auto. split; auto.
        intros Hlv. apply E. now apply live_eadd in Hlv.
  - inversion Hl as [|? ? Ho Hl']; subst. cbn in Ho. subst s'. left.
    destruct (is_disc s) eqn:Hd; [|discriminate]. split; [cbn; auto|]. eauto.
Qed.

(** Values of priors changed in place at one index. *)
Lemma changed_wf s p q i r : valid s -> wf s p -> ps_n q = ps_n p ->
  dkeys (ps_vals q) = dkeys (ps_vals p) -> live r ->
  (forall k, (exists v, ps_get k q = Some v /\ changed s p i r k v) \/
             (forall v, ps_get k p = Some v -> exists w, ps_get k q = Some w /\ view_value w = view_value v)) ->
  wf s q.
Proof.
  intros Hv Hwf Hn Hk Hlive H. pose proof (valid_here _ Hv) as Hok.
  pose proof Hok as (Hmm & _ & Hc & Hnd & Hdk & _).
  destruct (wf_inv _ _ Hnd Hwf) as (Hdim & Hsites & Hkp & Hdl & Hf).
  assert (Hdisc : forall v, ps_get disc_key p = Some v ->
     exists w, ps_get disc_key q = Some w /\ view_value w = view_value v).
  { destruct (H disc_key) as [(v & _ & pr & a & x & Hin & _)|Hd]; auto.
    exfalso. apply Hdk. apply in_map_iff. eexists. split; [|exact Hin]. reflexivity. }
  assert (Hpos : forall j at_, position_of s q j at_ -> position_of s p j at_).
  { intros j at_. unfold position_of, sites_ok in *. destruct (sp_cls s); auto.
    - intros (l & x & E & E2). destruct Hsites as (l0 & E0 & _). destruct (Hdisc _ E0) as (w & Ew & Vw).
      cbn in Vw. apply view_Arr in Vw. subst w. rewrite E in Ew. injection Ew as <-. eauto.
    - intros (l & x & E & E2). destruct Hsites as (l0 & E0 & _). destruct (Hdisc _ E0) as (w & Ew & Vw).
      cbn in Vw. apply view_ArrN in Vw. subst w. rewrite E in Ew. injection Ew as <-. eauto. }
  apply wf_build; auto.
  - unfold dims_ok in *. congruence.
  - unfold sites_ok in *. destruct (sp_cls s); auto.
    + destruct Hsites as (l0 & E0 & HS). destruct (Hdisc _ E0) as (w & Ew & Vw).
      cbn in Vw. apply view_Arr in Vw. subst w. eauto.
    + destruct Hsites as (l0 & E0 & HS). destruct (Hdisc _ E0) as (w & Ew & Vw).
      cbn in Vw. apply view_ArrN in Vw. subst w. eauto.
  - congruence.
  - intros Hd. destruct (Hdl Hd) as (v & Ev & Lv). destruct (Hdisc _ Ev) as (w & Ew & Vw).
    exists w. split; auto. rewrite <- view_value_len, Vw, view_value_len. congruence.
  - intros k par Hin. destruct (Hf _ _ Hin) as (v & Ev & Hfit).
    destruct (H k) as [(w & Ew & pr & a & x & Hin' & Ea & Hi & -> & Hsup)|Hsame].
    + assert (par = PPrior pr).
      { apply (dget_in_nodup _ _ _ Hnd) in Hin. apply (dget_in_nodup _ _ _ Hnd) in Hin'. congruence. }
      subst par. cbn in Hfit. destruct Hfit as (a' & -> & La & Hs). rewrite Ea in Ev. injection Ev as <-.
      exists (Arr (set_nth a i x)). split; auto. exists (set_nth a i x). split; auto.
      split; [rewrite set_nth_length by auto; congruence|].
      intros j y at_ Hy Hat. apply Hpos in Hat. rewrite nth_set_nth in Hy by auto.
      destruct (Nat.eqb_spec j i) as [->|]; [injection Hy as <-; auto|eauto].
    + destruct (Hsame _ Ev) as (w & Ew & Vw). exists w. split; auto. rewrite Hn.
      destruct par as [pr|s']; cbn in Hfit.
      * destruct Hfit as (a & -> & La & Hs). cbn in Vw. apply view_Arr in Vw. subst w.
        exists a. split; auto. split; auto. intros j y at_ Hy Hat. eauto.
      * destruct Hfit as (l & Hl & Ll & HF).
        assert (HW : exists l', (w = Lst l' \/ w = AObj l') /\ map view l' = map view l).
        { destruct Hl as [-> | ->]; cbn in Vw; destruct w; cbn in Vw; try discriminate;
            injection Vw as Vw; eauto. }
        destruct HW as (l' & Hw & Vl). exists l'. split; auto. split.
        -- rewrite <- (map_length view l'), Vl, map_length. auto.
        -- apply Forall_forall. intros y Hy. apply (in_map view) in Hy. rewrite Vl in Hy.
           apply in_map_iff in Hy. destruct Hy as (z & Ez & Hz). rewrite Forall_forall in HF.
           eapply wf_view; eauto.
Qed.

(** * An elementary move on one state *)
Definition elem_of (s : space) (e : elem) : Prop :=
  match e with
  | EBirth s' | EDeath s' => s' = s
  | EParam _ l => Forall (of_space s) l
  end.
Definition values_moved (s : space) (i : nat) (l : list param) (p q : psstate) : Prop :=
  (i < ps_n p)%nat /\ ps_n q = ps_n p /\ dkeys (ps_vals q) = dkeys (ps_vals p) /\
  forall k v, ps_get k p = Some v -> exists w, ps_get k q = Some w /\
    if existsb (fun par => match par with PPrior pr => String.eqb k (p_name pr) | _ => false end) l
    then exists a x, v = Arr a /\ w = Arr (set_nth a i x)
    else view_value w = view_value v.
Lemma param_perturb_spec s l p tr q r tr' : valid s -> wf s p -> Forall (of_space s) l ->
  param_perturb l p tr = Ret (q, r) tr' ->
  exists i tr1, tr = DInt i :: tr1 /\ (i < ps_n p)%nat /\
   ((In (PSpace s) l /\ is_disc s = true /\ exists tr0, perturb_value s p i tr0 = Ret (q, r) tr') \/
    (values_moved s i l p q /\ (live r -> wf s q))).
Proof.
  intros Hv Hwf Hl H. unfold param_perturb in H. mb H as i Ei.
  apply randint_below_inv in Ei. destruct Ei as [Hi ->].
  eexists i, _. split; [reflexivity|]. split; [exact Hi|].
  pose proof H as H0.
  apply (perturb_params_spec s p i Hv Hwf) in H; auto; [|constructor|discriminate].
  destruct H as [H|(c & new' & Ec & En & Ea & _ & Evs & Hnd' & Hch & Hkeys)]; [left; exact H|right].
  pose proof (valid_here _ Hv) as Hok. pose proof Hok as (Hmm & _ & _ & Hnd & Hdk & _).
  destruct (ps_copy_ok _ _ (wf_sane s Hv p Hwf) Ec) as (V & _ & Nc & _ & _ & Kc).
  destruct (wf_inv _ _ Hnd Hwf) as (Hdim & Hsites & Hkp & Hdl & Hf).
  assert (Hqk : dkeys (ps_vals q) = dkeys (ps_vals p)).
  { rewrite Evs, dkeys_dupdate; auto. intros k Hk. rewrite Kc.
    destruct (dget k new') as [v|] eqn:E; [|apply dget_none_keys in E; contradiction].
    destruct (Hch _ _ E) as (pr & a & x & Hin & Hg & _). eapply dget_in_keys; exact Hg. }
  assert (Hall : forall k,
    (exists v, ps_get k q = Some v /\ changed s p i r k v /\ In k (dkeys new')) \/
    (~ In k (dkeys new') /\
     forall v, ps_get k p = Some v -> exists w, ps_get k q = Some w /\ view_value w = view_value v)).
  { intros k. unfold ps_get at 1 3. rewrite Evs, dget_dupdate by auto.
    destruct (dget k new') as [v|] eqn:E.
    - left. exists v. split; auto. split; auto. eapply dget_in_keys; eauto.
    - right. split; [now apply dget_none_keys|]. intros v Hg.
      destruct (same_get c p k v V Hg) as (w & Ew & Vw). eauto. }
  split.
  - split; auto. split; [congruence|]. split; [exact Hqk|]. intros k v Hg.
    assert (HX : existsb (fun par => match par with PPrior pr => String.eqb k (p_name pr) | _ => false end) l
                 = true <-> In k (dkeys new')).
    { rewrite existsb_exists, Hkeys. split.
      - intros ([pr|] & Hin & E); [|discriminate]. apply String.eqb_eq in E. right. eauto.
      - intros [[]|(pr & Hin & ->)]. exists (PPrior pr). split; auto. apply String.eqb_refl. }
    destruct (Hall k) as [(w & Ew & (pr & a & x & _ & Ha & _ & -> & _) & Hin)|(Hni & Hsame)].
    + exists (Arr (set_nth a i x)). split; auto. apply HX in Hin. rewrite Hin.
      exists a, x. split; auto. congruence.
    + destruct (existsb _ l); [exfalso; apply Hni; apply HX; auto|]. auto.
  - intros Hlive. eapply changed_wf; [exact Hv|exact Hwf| |exact Hqk|exact Hlive|].
    + congruence.
    + intros k. destruct (Hall k) as [(v & A & B & _)|(_ & B)]; [left; eauto|right; auto].
Qed.
Theorem elem_wf s e p tr q r tr' : valid s -> wf s p -> elem_of s e ->
  elem_perturb e p tr = Ret (q, r) tr' -> live r -> wf s q.
Proof.
  intros Hv Hwf He H Hlive. destruct e as [s'|s'|n l]; cbn in He, H.
  - subst s'. eapply birth_wf; eauto.
  - subst s'. eapply death_wf; eauto.
  - destruct (param_perturb_spec s l p tr q r tr' Hv Hwf He H) as (i & tr1 & -> & Hi & [(_ & Hd & tr0 & Hp)|(_ & HW)]); auto.
    eapply perturb_value_wf; eauto.
Qed.
(** The functions that a space creates for itself act on its own states. *)
Lemma own_elems_of s e w : valid s -> In (e, w) (own_elems s) -> elem_of s e.
Proof.
  intros Hv Hin. pose proof (valid_here _ Hv) as (_ & _ & _ & Hnd & _ & Hp & _).
  unfold own_elems in Hin. apply in_app_or in Hin. destruct Hin as [Hin|Hin].
  { destruct (sp_transd s); [|destruct Hin]. destruct Hin as [[= <- <-]|[[= <- <-]|[]]]; reflexivity. }
  apply in_app_or in Hin. destruct Hin as [Hin|Hin].
  - destruct (priors_of (sp_params s)) as [|a l] eqn:E; [destruct Hin|].
    destruct Hin as [[= <- <-]|[]]. cbn. rewrite <- E. unfold priors_of. apply Forall_forall.
    intros par Hpar. apply filter_In in Hpar. destruct Hpar as [Hpar Hb].
    destruct par as [pr|]; [|discriminate]. apply in_map_iff in Hpar.
    destruct Hpar as ([k par'] & Ek & Hk). cbn in Ek. subst par'. cbn.
    destruct (Hp _ _ Hk) as [-> _]. exact Hk.
  - destruct (is_disc s); [|destruct Hin]. destruct Hin as [[= <- <-]|[]]. cbn. repeat constructor.
Qed.
