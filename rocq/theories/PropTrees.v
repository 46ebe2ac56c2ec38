(** Properties of the cached kd-trees: C60. *)
From Verif Require Import Base ModelPrior ModelState ModelSpace ModelPerturb ModelChain ModelSampler
  ModelLikelihood SpecUtils1D SpecPrior SpecState SpecSpace SpecPerturb SpecChain SpecRun SpecTrees
  ProofUtils1D ProofChain ProofChainB ProofInversion ProofSampler
  ProofState ProofSpace ProofSpaceB ProofSpaceC ProofSpaceE ProofNested ProofPerturb ProofTree ProofRun ProofRunB ProofRunC
  PropRun ProofTrees ExampleRun.
Local Open Scope R_scope.
Local Open Scope string_scope.

(** * The traversal *)
Definition fits (s : state) : Prop := forall k p, In (k, EPS p) (st_vals s) -> fit p.
Lemma fits_get s k p : fits s -> st_get k s = Some (EPS p) -> fit p.
Proof. intros H E. apply (H k). now apply dget_some_in. Qed.
Lemma fits_set s k p : fits s -> fit p -> fits (st_set k (EPS p) s).
Proof. intros H Hp k' p' Hin. cbn in Hin. apply in_dset in Hin. destruct Hin as [Hin|[_ [= ->]]]; eauto. Qed.
Lemma set_in_ps_fit w k v : k <> disc_key -> (forall c, In c (states_in v) -> fit c) ->
  forall p p', fit p -> set_in_ps w k v p = Ok p' -> fit p' /\ ps_cache p' = ps_cache p.
Proof.
  intros Hk Hv. induction w as [|[k1 i] w IH]; intros p p' Hf H; cbn [set_in_ps] in H.
  - eapply fit_set; eauto.
  - destruct (ps_get k1 p) as [[| | |l]|] eqn:Eg; try discriminate.
    apply rbind_ok in H. destruct H as (c & Ec & H). apply rbind_ok in H. destruct H as (c' & Ec' & H).
    apply idx_ok in Ec. assert (Fc : fit c) by (eapply fit_get; [exact Hf|exact Eg|eapply nth_error_In; exact Ec]).
    destruct (IH _ _ Fc Ec') as [Fc' _]. eapply fit_set; [exact Hf| | |exact H].
    + intros ->. eapply fit_no_list; [exact Hf|]. apply dget_some_in. exact Eg.
    + intros x Hx. cbn in Hx. apply set_nth_in in Hx. destruct Hx as [->|Hx]; auto. eapply fit_get; [exact Hf|exact Eg|exact Hx].
Qed.
Section Walk.
Variable sq : space.
Hypothesis Hsq : valid sq.
Let q := fst (own_psp sq).
(** [s'] has trees where [s] has them, except perhaps under the name of a space without. *)
Definition keeps (s s' : state) : Prop := forall n p, (n = sp_name sq -> wants_tree sq) ->
  st_get n s = Some (EPS p) -> has_tree p -> exists p', st_get n s' = Some (EPS p') /\ has_tree p'.
Lemma keeps_refl s : keeps s s.
Proof. intros n p _ E H. eauto. Qed.
Lemma keeps_trans a b c : keeps a b -> keeps b c -> keeps a c.
Proof. intros H1 H2 n p Hn E Ht. destruct (H1 n p Hn E Ht) as (p1 & E1 & T1). eauto. Qed.
Definition child_ok (k : string) (c : child) : Prop :=
  match c with
  | COne p => fit p /\ (k = sp_name sq -> wants_tree sq -> has_tree p)
  | CMany l => k <> disc_key /\ forall p, In p l -> fit p
  | CNone => True
  end.
Definition kids_ok (l : dict child) : Prop := forall k c, In (k, c) l -> child_ok k c.
Definition walk_ok (s : walk) : Prop := fits (w_new s) /\ forall w l, In (w, l) (w_queue s) -> kids_ok l.
Lemma ps_kids p : fit p -> kids_ok (ps_children p).
Proof.
  intros Hf k c Hin. unfold ps_children in Hin. apply in_map_iff in Hin. destruct Hin as ([k' v] & [= <- <-] & Hin).
  cbn [fst snd] in *. destruct v; cbn [value_child child_ok]; auto. split.
  - intros ->. eapply fit_no_list; eauto.
  - intros p' Hp. eapply fit_child; eauto.
Qed.
Lemma psp_ps_fit p tr p' r ty tr' : fit p -> psp_perturb_ps q p tr = Ret (p', r, ty) tr' ->
  fit p' /\ (wants_tree sq -> has_tree p -> has_tree p').
Proof.
  intros Hf H. unfold psp_perturb_ps in H. mb H as i Ei. mb H as [e w] Ee. mb H as [p1 r1] E1. mr H. injection H as -> _ _.
  apply idx_ok in Ee. apply nth_error_In in Ee. eapply elem_fit; eauto.
Qed.
Lemma walk_list_fit target vs : (forall p, In p vs -> fit p) -> forall i ratio st tr vs' i' r' st' tr',
  walk_list q target vs i ratio st tr = Ret (vs', i', r', st') tr' -> forall p, In p vs' -> fit p.
Proof.
  intros Hf. induction vs as [|v t IH]; intros i ratio st tr vs' i' r' st' tr' H; cbn [walk_list] in H.
  - mr H. injection H as <- _ _ _. intros p [].
  - destruct (_ =? _)%nat.
    + mb H as [[v' r] ty] Ev. mb H as [[[t' i1] r1] s1] Et. mr H. injection H as <- _ _ _.
      apply psp_ps_fit in Ev; [|apply Hf; now left]. intros p [<-|Hp]; [tauto|].
      eapply IH; [|exact Et|exact Hp]. intros; apply Hf; now right.
    + mb H as v' Ev. mb H as [[[t' i1] r1] s1] Et. mr H. injection H as <- _ _ _.
      apply fit_copy in Ev; [|apply Hf; now left]. intros p [<-|Hp]; [tauto|].
      eapply IH; [|exact Et|exact Hp]. intros; apply Hf; now right.
Qed.
Lemma set_in_state_fit w k v s s' : k <> disc_key -> (forall c, In c (states_in v) -> fit c) -> fits s ->
  set_in_state w k v s = Ok s' -> fits s' /\ keeps s s'.
Proof.
  intros Hk Hv Hf H. unfold set_in_state in H. destruct w as [|[k0 i] w]; [discriminate|].
  destruct (st_get k0 s) as [[p|]|] eqn:Eg; try discriminate. apply rbind_ok in H. destruct H as (p' & Ep & [= <-]).
  apply set_in_ps_fit in Ep; auto; [|eapply fits_get; eauto]. destruct Ep as [F C]. split; [now apply fits_set|].
  intros n p0 _ E0 T0. rewrite st_get_set. destruct (String.eqb_spec n k0) as [->|Hn]; eauto.
  rewrite Eg in E0. injection E0 as <-. exists p'. split; auto. destruct T0 as [t T0]. exists t. now rewrite C.
Qed.
Lemma walk_node_fit target w l : forall s tr s' tr', walk_ok s -> kids_ok l ->
  walk_node q target w l s tr = Ret s' tr' -> walk_ok s' /\ keeps (w_new s) (w_new s').
Proof.
  induction l as [|[k c] l IH]; intros s tr s' tr' [Hf Hq] Hl H; cbn [walk_node] in H.
  - mr H. split; [split; auto|apply keeps_refl].
  - pose proof (Hl k c (or_introl eq_refl)) as Hc.
    assert (Hl' : kids_ok l) by (intros k' c' Hin; apply Hl; now right).
    destruct c as [p|ps|]; cbn [child_ok] in Hc.
    + destruct Hc as [Fp Tp]. destruct (String.eqb_spec k (psp_space q)) as [->|Hk].
      * destruct (_ =? _)%nat; [|apply IH in H; auto; split; [exact Hf|exact Hq]].
        mb H as [[p' r] ty] Ep. apply psp_ps_fit in Ep; auto. destruct Ep as [F T].
        apply IH in H; auto; [|split; cbn [w_new w_queue]; [now apply fits_set|exact Hq]]. destruct H as [W K]. split; auto.
        eapply keeps_trans; [|exact K]. cbn [w_new]. intros n p0 Hn E0 T0. rewrite st_get_set.
        change (psp_space q) with (sp_name sq) in *.
        destruct (String.eqb_spec n (sp_name sq)) as [->|Hne]; [exists p'; split; auto|eauto].
      * apply IH in H; auto. split; cbn [w_new w_queue]; auto. intros w0 l0 Hin. apply in_app_or in Hin.
        destruct Hin as [Hin|[[= <- <-]|[]]]; eauto using ps_kids.
    + destruct Hc as [Hk Fp]. destruct (String.eqb k (psp_space q)).
      * mb H as [[[ps' i'] r'] st'] Ep. mb H as new' En. pose proof (walk_list_fit _ _ Fp _ _ _ _ _ _ _ _ _ Ep) as Fp'.
        apply set_in_state_fit in En; auto. destruct En as [F K]. apply IH in H; auto; [|split; auto].
        destruct H as [W K']. split; auto. eapply keeps_trans; [exact K|exact K'].
      * destruct ps as [|p0 ps]; [discriminate|]. apply IH in H; auto. split; cbn [w_new w_queue]; auto.
        intros w0 l0 Hin. apply in_app_or in Hin. destruct Hin as [Hin|Hin]; eauto.
        apply in_map_iff in Hin. destruct Hin as ([i p1] & [= <- <-] & Hin). apply ps_kids, Fp.
        eapply in_combine_r; exact Hin.
    + apply IH in H; auto. split; auto.
Qed.
Lemma walk_loop_fit fuel target : forall s tr s' tr', walk_ok s -> walk_loop fuel q target s tr = Ret s' tr' ->
  fits (w_new s') /\ keeps (w_new s) (w_new s').
Proof.
  induction fuel as [|fuel IH]; intros s tr s' tr' Hs H; cbn [walk_loop] in H; pose proof Hs as [Hf Hq];
    destruct (w_queue s) as [|[w l] rest]; try (mr H; split; [auto|apply keeps_refl]; fail);
    (destruct (w_i s <=? target)%nat; [|mr H; split; [auto|apply keeps_refl]]).
  - discriminate.
  - mb H as s1 E1. apply walk_node_fit in E1.
    + destruct E1 as [W K]. apply IH in H; auto. destruct H as [F K']. split; auto. eapply keeps_trans; [exact K|exact K'].
    + split; cbn; auto. intros; eapply Hq; right; eauto.
    + eapply Hq. now left.
Qed.
End Walk.

(** * States *)
(** Spaces that want trees have them. *)
Definition rooted (spaces : list space) (s : state) : Prop :=
  forall sp, In sp spaces -> wants_tree sp -> exists p, st_get (sp_name sp) s = Some (EPS p) /\ has_tree p.
Definition trees (spaces : list space) (s : state) : Prop := fits s /\ rooted spaces s.
Lemma trees_values spaces s s' : st_vals s' = st_vals s -> trees spaces s -> trees spaces s'.
Proof. intros E [H1 H2]. unfold trees, fits, rooted, st_get in *. rewrite E. auto. Qed.
Lemma copy_fits b s s' : NoDup (dkeys (st_vals s)) -> fits s -> st_copy b s = Ok s' ->
  dkeys (st_vals s') = dkeys (st_vals s) /\ fits s' /\
  forall n p, st_get n s = Some (EPS p) -> exists p', st_get n s' = Some (EPS p') /\ ps_cache p' = ps_cache p.
Proof.
  intros Hn Hf H. unfold st_copy in H. apply rbind_ok in H. destruct H as (vals & Hv & [= <-]). apply rmap_ok in Hv.
  assert (K : dkeys vals = dkeys (st_vals s)).
  { clear - Hv. induction Hv as [|a b0 l l' H1 H2 IH]; auto. apply rbind_ok in H1. destruct H1 as (v & _ & [= <-]).
    unfold dkeys in *. cbn. now rewrite IH. }
  rewrite mk_state_spec by (now rewrite K). cbn [st_vals]. split; auto. split.
  - intros k p Hin. cbn [st_vals] in Hin. unfold fits in Hf. clear - Hv Hf Hin. revert k p Hin.
    induction Hv as [|a b0 l l' H1 H2 IH]; intros k p [].
    + subst b0. apply rbind_ok in H1. destruct H1 as (e & E & [= E1 E2]). subst e. destruct a as [k0 [p0|d]]; cbn in E; [|discriminate].
      apply rbind_ok in E. destruct E as (p1 & E & [= ->]). eapply fit_copy; [|exact E]. eapply Hf. now left.
    + eapply IH; [|exact H]. intros; eapply Hf; right; eauto.
  - intros n p E. unfold st_get in *. cbn [st_vals]. clear K Hn.
    assert (Hf' : forall k p, In (k, EPS p) (st_vals s) -> fit p) by exact Hf. clear Hf.
    induction Hv as [|[k0 e0] b0 l l' H1 H2 IH]; [discriminate|].
    apply rbind_ok in H1. destruct H1 as (e & E1 & [= <-]). cbn [fst snd] in *. cbn [dget] in *. destruct (String.eqb n k0).
    + injection E as ->. cbn in E1. apply rbind_ok in E1. destruct E1 as (p1 & E1 & [= <-]). exists p1. split; auto.
      eapply fit_copy; [|exact E1]. eapply Hf'. now left.
    + apply IH; auto. intros; eapply Hf'; right; eauto.
Qed.
Section States.
Variables (spaces : list space) (ts : list target).
Hypothesis Hset : setup_ok spaces ts.
Lemma psp_trees s0 w s tr s' r tr' : state_ok spaces ts s -> trees spaces s ->
  In (s0, w) (all_funcs spaces) -> psp_perturb s0 s tr = Ret (s', r) tr' -> trees spaces s'.
Proof.
  intros Hok [Hf Hr] Hin H. pose proof (so_nodup _ _ _ Hok) as Hn. destruct (all_funcs_in _ _ _ Hin) as (top & sq & Htop & Hsub & E).
  assert (Eq : s0 = fst (own_psp sq)) by (now rewrite <- E). subst s0. clear E.
  assert (Hv : valid sq). { intros x Hx. apply (se_valid _ _ Hset top Htop). clear - Hsub Hx. induction Hsub; auto. econstructor; eauto. }
  unfold psp_perturb in H. mb H as c Ec. mb H as n En. mb H as t Et. mb H as w1 Ew. mr H. injection H as <- _.
  destruct (copy_fits _ _ _ Hn Hf Ec) as (_ & Fc & Tc).
  assert (Same : forall sp, In sp spaces -> sp_name sp = sp_name sq -> sp = sq).
  { intros sp Hsp E. eapply (se_nested _ _ Hset sp top); eauto using sub_here. }
  apply (walk_loop_fit sq Hv) in Ew.
  - destruct Ew as [F K]. apply (trees_values _ (w_new w1)); [reflexivity|]. split; auto.
    intros sp Hsp Hw. destruct (Hr sp Hsp Hw) as (p & E & T). destruct (Tc _ _ E) as (p' & E' & C').
    eapply K; [|exact E'|].
    + intros En'. now rewrite <- (Same sp Hsp En').
    + destruct T as [v T]. exists v. now rewrite C'.
  - split; auto. cbn [w_queue]. intros w0 l0 [[= <- <-]|[]]. intros k ch Hk. unfold st_children in Hk.
    apply in_map_iff in Hk. destruct Hk as ([k1 e] & [= <- <-] & Hk). cbn [fst snd]. destruct e as [p|d]; cbn; auto.
    split; [eapply Hf; eauto|]. intros -> Hw.
    pose proof (dget_in_nodup _ _ _ Hn Hk) as Eg. 
    pose proof (in_dkeys _ _ _ Hk) as Hd. apply (so_keys _ _ _ Hok) in Hd. destruct Hd as [(sp & Hsp & Esp)|(tg & Htg & Hu & Etg)].
    + symmetry in Esp. pose proof (Same sp Hsp Esp) as ->.
      destruct (Hr sq Hsp Hw) as (p' & E' & T'). unfold st_get in E'. congruence.
    + destruct (so_noise _ _ _ Hok tg Htg Hu) as (d & Ed & _). unfold st_get in Ed. rewrite <- Etg in Ed. congruence.
Qed.
Lemma noise_trees s tr s' r tr' : state_ok spaces ts s -> trees spaces s ->
  noise_perturb (hier_of ts) s tr = Ret (s', r) tr' -> trees spaces s'.
Proof.
  intros Hok [Hf Hr] H. unfold noise_perturb in H. mb H as new En. mb H as c Ec. mr H. injection H as <- _.
  destruct (copy_fits _ _ _ (so_nodup _ _ _ Hok) Hf Ec) as (_ & Fc & Tc).
  assert (N : forall k e, In (k, e) new -> (exists d, e = ENoise d) /\ exists t, In t (hier_of ts) /\ k = t_name t).
  { assert (G : forall l new0 tr new1 tr1, perturb_targets l s new0 tr = Ret new1 tr1 -> forall k e, In (k, e) new1 ->
      In (k, e) new0 \/ (exists d, e = ENoise d) /\ exists t, In t l /\ k = t_name t).
    { induction l as [|t l IH]; intros new0 ta new1 tb H k e Hin; cbn [perturb_targets] in H.
      - mr H. auto.
      - mb H as d Ed. mb H as d' Ed'. destruct (IH _ _ _ _ H _ _ Hin) as [Hi|(A & x & B & C)].
        + apply in_dset in Hi. destruct Hi as [Hi|[-> ->]]; auto. right. split; eauto. exists t. split; [now left|auto].
        + right. split; auto. exists x. split; [now right|auto]. }
    intros k e Hin. destruct (G _ _ _ _ _ En k e Hin) as [[]|X]. exact X. }
  assert (U : forall l d k p, In (k, EPS p) (dupdate d l) -> In (k, EPS p) d \/ In (k, EPS p) l).
  { induction l as [|[k1 e1] l IH]; intros d k p Hin; cbn in Hin; auto.
    apply IH in Hin. destruct Hin as [Hin|Hin]; [|right; now right]. apply in_dset in Hin.
    destruct Hin as [Hin|[-> <-]]; auto. right. now left. }
  split.
  - intros k p Hin. cbn in Hin. apply U in Hin. destruct Hin as [Hin|Hin]; [eapply Fc; exact Hin|].
    destruct (N _ _ Hin) as [(d & E) _]. discriminate.
  - intros sp Hsp Hw. destruct (Hr sp Hsp Hw) as (p & E & T). destruct (Tc _ _ E) as (p' & E' & C').
    exists p'. split; [|destruct T as [v T]; exists v; now rewrite C'].
    unfold st_get in *. cbn [st_update_vals st_vals]. rewrite <- E'.
    assert (Hnot : forall e, ~ In (sp_name sp, e) new).
    { intros e Hin. destruct (N _ _ Hin) as (_ & tg & Htg & En'). apply hier_in in Htg. destruct Htg as [Htg _].
      eapply names_apart; eauto. }
    clear - Hnot. generalize (st_vals c). induction new as [|[k1 e1] l IH]; intros d; cbn; auto.
    change (dget (sp_name sp) (dupdate (dset k1 e1 d) l) = dget (sp_name sp) d).
    rewrite IH by (intros e Hin; eapply Hnot; right; exact Hin). apply dget_dset_other.
    intros E. apply (Hnot e1). left. now rewrite E.
Qed.
End States.
Definition wooded spaces ts (s : state) : Prop := good spaces ts s /\ trees spaces s.
Lemma pfunc_trees spaces ll save ty f s tr new lpr tr' : setup_ok spaces (ll_targets ll) ->
  ll_hier ll = hier_of (ll_targets ll) -> In (ty, f) (e_funcs (inversion_env spaces ll save)) ->
  state_ok spaces (ll_targets ll) s -> trees spaces s -> f s tr = Ret (new, lpr) tr' -> trees spaces new.
Proof.
  intros Hset Hh Hin Hok Ht H. cbn [inversion_env chain_env e_funcs] in Hin.
  apply in_map_iff in Hin. destruct Hin as ([pf w] & E & Hin). cbn [fst] in E. injection E as <- <-.
  unfold inv_pfuncs in Hin. apply in_app_or in Hin. destruct Hin as [Hin|Hin].
  - apply in_map_iff in Hin. destruct Hin as ([q w'] & E & Hin). cbn in E. injection E as <- <-.
    cbn [pfunc_perturb] in H. eapply psp_trees; eauto.
  - unfold ll_pfuncs in Hin. rewrite Hh in Hin.
    assert (Hin' : (pf, w) = (FNoise (hier_of (ll_targets ll)), 1)).
    { destruct (hier_of (ll_targets ll)); [destruct Hin|]. destruct Hin as [<-|[]]. reflexivity. }
    injection Hin' as -> ->. cbn [pfunc_perturb] in H. eapply noise_trees; eauto.
Qed.
Lemma wooded_preserving spaces ll save : setup_ok spaces (ll_targets ll) -> ll_hier ll = hier_of (ll_targets ll) ->
  preserving (inversion_env spaces ll save) (wooded spaces (ll_targets ll)).
Proof.
  intros Hset Hh. pose proof (inversion_preserving spaces ll save Hset Hh) as [P1 P2 P3]. split.
  - intros ty f s tr new lpr tr' Hin [Hg Ht] H Hl. split; [eapply P1; eauto|].
    eapply pfunc_trees; eauto. apply Hg.
  - intros old new T tr old' new' r tr' H. pose proof (P2 _ _ _ _ _ _ _ _ H) as [G1 G2].
    cbn in H. apply like_values in H. destruct H as [[V1 _] [V2 _]].
    split; intros [Hg Ht]; (split; [auto|eapply trees_values; eauto]).
  - intros t s [Hg Ht]. split; [now apply P3|]. eapply trees_values; [|exact Ht]. reflexivity.
Qed.
Lemma initialize_fit s : valid s -> forall tr p tr', ModelSpace.initialize s tr = Ret p tr' -> fit p /\ (wants_tree s -> has_tree p).
Proof.
  induction s as [s IH] using space_ind'. intros Hv tr p tr' H. pose proof (initialize_wf _ Hv _ _ _ H) as Hwf.
  apply initialize_made in H. destruct H as (Hm & p0 & C0 & V & N & Htree).
  assert (Hn : NoDup (dkeys (ps_vals p))) by (apply sane_nodup; eapply wf_sane; eauto).
  assert (F0 : fit p0).
  { apply fit_fresh; auto; [now rewrite <- V|]. rewrite <- V. eapply fit_made; [exact Hv| |exact Hm].
    intros k s' Hin t q t' E. eapply IH; [exact Hin|eapply ProofSpace.valid_in; eauto|exact E]. }
  unfold wants_tree. destruct (sp_cls s) as [| |d lo hi sd poly [|] fp]; try (subst p; split; [auto|intros []]; fail).
  destruct Htree as (v & Ev & Ec). split; [|intros _; exists v; rewrite Ec; apply dget_dset_same].
  inversion F0 as [? N0 A B C]; subst. constructor; auto.
  - intros t Ht. rewrite Ec, dget_dset_same in Ht. injection Ht as <-. exact Ev.
  - rewrite V. exact B.
  - rewrite V. exact C.
Qed.
Lemma starting_trees spaces ll tr s tr' : setup_ok spaces (ll_targets ll) ->
  starting_state spaces ll tr = Ret s tr' -> trees spaces s.
Proof.
  intros Hset H. destruct (setup_parts _ _ Hset) as [N1 N2]. unfold starting_state in H. mb H as s0 E0.
  assert (T0 : trees spaces s0 /\ NoDup (dkeys (st_vals s0))).
  { pose proof (initialize_all_ok _ (se_valid _ _ Hset) N1 _ _ _ E0) as (K0 & _). 
    unfold initialize_all in E0. mb E0 as vals Ev. mr E0.
    assert (G : (forall k p, In (k, EPS p) vals -> fit p) /\ dkeys vals = map sp_name spaces /\
      forall sp, In sp spaces -> wants_tree sp -> exists p, In (sp_name sp, EPS p) vals /\ has_tree p).
    { clear - Ev Hset. assert (Hv : forall sp, In sp spaces -> valid sp) by apply (se_valid _ _ Hset). clear Hset.
      match type of Ev with _ = Ret _ ?t => generalize dependent t end. revert tr vals.
      induction spaces as [|sp l IH]; intros tr vals t Ev; cbn [mapM] in Ev.
      - mr Ev. subst. split; [intros k p []|]. split; auto. intros sp [].
      - mb Ev as y Ey. mb Ey as p Ep. mr Ey. mb Ev as ys Eys. mr Ev.
        apply IH in Eys; [|intros; apply Hv; now right]. destruct Eys as (A & B & C).
        apply initialize_fit in Ep; [|apply Hv; now left]. destruct Ep as [F T]. split; [|split].
        + intros k q [[= <- <-]|Hin]; eauto.
        + unfold dkeys in *. cbn. now rewrite B.
        + intros sp0 [<-|Hin] Hw; [exists p; split; [now left|auto]|].
          destruct (C _ Hin Hw) as (q & Hq & Tq). exists q. split; auto. now right. }
    destruct G as (A & B & C). rewrite mk_state_spec by (now rewrite B). cbn [st_vals]. rewrite B. split; [split; auto|auto].
    intros sp Hsp Hw. destruct (C sp Hsp Hw) as (p & Hp & T). exists p. split; auto.
    apply dget_in_nodup; auto. cbn [st_vals]. now rewrite B. }
  destruct T0 as [[F0 R0] Hn]. unfold ll_initialize in H. revert s0 F0 R0 Hn H E0. intros s0 F0 R0 Hn H _.
  assert (Hdiff : forall sp t, In sp spaces -> In t (ll_targets ll) -> sp_name sp <> t_name t) by (intros; eapply names_apart; eauto).
  match type of H with targets_initialize _ _ ?t = _ => revert H; generalize t end.
  revert s0 F0 R0 Hn Hdiff. generalize (ll_targets ll). induction l as [|tg l IH]; intros s0 F0 R0 Hn Hdiff tz H; cbn [targets_initialize] in H.
  - mr H. split; auto.
  - mb H as s1 E1. eapply IH; [| | | |exact H].
    + unfold target_initialize in E1. destruct (is_hier tg); [|mr E1; auto].
      mb E1 as std Es. mb E1 as cor Ecor. mr E1. intros k p Hin. cbn in Hin. apply in_dset in Hin.
      destruct Hin as [Hin|[_ E]]; [eauto|discriminate].
    + unfold target_initialize in E1. destruct (is_hier tg); [|mr E1; auto].
      mb E1 as std Es. mb E1 as cor Ecor. mr E1. intros sp Hsp Hw. destruct (R0 sp Hsp Hw) as (p & E & T).
      exists p. split; auto. rewrite st_get_set. destruct (String.eqb_spec (sp_name sp) (t_name tg)) as [En|]; auto.
      exfalso. eapply Hdiff; [exact Hsp|now left|exact En].
    + unfold target_initialize in E1. destruct (is_hier tg); [|mr E1; auto].
      mb E1 as std Es. mb E1 as cor Ecor. mr E1. cbn. now apply dset_nodup.
    + intros sp tq Hsp Hin. apply Hdiff; auto. now right.
Qed.
Lemma chain_wooded spaces ts fs ratio func ll save c : loglike_init ts fs ratio func = Ok ll ->
  setup_ok spaces (ll_targets ll) -> chain_of spaces ll save c ->
  chain_ok (inversion_env spaces ll save) (wooded spaces (ll_targets ll)) c.
Proof.
  intros Hll Hset (n & tr & cs0 & tr' & cs & H0 & Hr & Hc). pose proof (init_hier _ _ _ _ _ Hll) as Hh.
  assert (HF : Forall (chain_ok (inversion_env spaces ll save) (wooded spaces (ll_targets ll))) cs).
  { eapply many_runs_ok; [apply wooded_preserving; auto|exact Hr|]. clear - H0 Hset. unfold inversion_chains in H0. revert tr cs0 tr' H0.
    induction n as [|n IH]; intros tr cs0 tr' H; cbn [repeatM] in H.
    - mr H. constructor.
    - mb H as c0 Ec. mb Ec as s Es. mr Ec. mb H as cs' Ecs. mr H. constructor; eauto.
      apply new_chain_ok. split; [eapply starting_ok; eauto|eapply starting_trees; eauto]. }
  rewrite Forall_forall in HF. apply HF. exact Hc.
Qed.

(** * C60: the tree belongs to the sites *)
(** For a chain after any number of runs with any of the samplers: the current state, every saved
    state (state-saving mode) and every proposed state. *)
Definition held (c : chain state ovalue) (s : state) : Prop :=
  s = c_cur c \/ exists l, c_saved c = SList l /\ In s l.
Definition proposed spaces ll save (c : chain state ovalue) (s : state) : Prop :=
  exists ty f tr r tr', In (ty, f) (e_funcs (inversion_env spaces ll save)) /\ f (c_cur c) tr = Ret (s, r) tr'.
Lemma seen_trees spaces ts fs ratio func ll save c s : loglike_init ts fs ratio func = Ok ll ->
  setup_ok spaces (ll_targets ll) -> chain_of spaces ll save c -> held c s \/ proposed spaces ll save c s ->
  trees spaces s.
Proof.
  intros Hll Hset Hc Hs. pose proof (chain_wooded _ _ _ _ _ _ _ _ Hll Hset Hc) as [[Hg Ht] Hsv].
  destruct Hs as [[->|(l & E & Hin)]|(ty & f & tr & r & tr' & Hin & H)]; auto.
  - rewrite E in Hsv. cbn in Hsv. rewrite Forall_forall in Hsv. apply (Hsv s Hin).
  - eapply pfunc_trees; [exact Hset|eapply init_hier; eauto|exact Hin|apply Hg|exact Ht|exact H].
Qed.
(** Spaces of the parameterization itself: there is a tree, of exactly these sites. *)
Theorem C60_top_level spaces ts fs ratio func ll save c s sp : loglike_init ts fs ratio func = Ok ll ->
  setup_ok spaces (ll_targets ll) -> chain_of spaces ll save c -> held c s \/ proposed spaces ll save c s ->
  In sp spaces -> wants_tree sp ->
  exists p sites, st_get (sp_name sp) s = Some (EPS p) /\ ps_get "discretization" p = Some sites /\
    dget "kdtree" (ps_cache p) = Some sites.
Proof.
  intros Hll Hset Hc Hs Hsp Hw. destruct (seen_trees _ _ _ _ _ _ _ _ _ Hll Hset Hc Hs) as [F R].
  destruct (R sp Hsp Hw) as (p & E & v & Hv). exists p, v. split; auto. split; auto.
  eapply (fit_inside p p); [eapply fits_get; eauto|constructor|exact Hv].
Qed.
(** Nested states, at any depth: a tree that is there belongs to the sites.  (Missing: that there is
    one.  This fails, see C60_refuted.) *)
Theorem C60_nested_partial spaces ts fs ratio func ll save c s k p q sites : loglike_init ts fs ratio func = Ok ll ->
  setup_ok spaces (ll_targets ll) -> chain_of spaces ll save c -> held c s \/ proposed spaces ll save c s ->
  st_get k s = Some (EPS p) -> inside p q ->
  dget "kdtree" (ps_cache q) = Some sites -> ps_get "discretization" q = Some sites.
Proof.
  intros Hll Hset Hc Hs Hk Hi Hv. destruct (seen_trees _ _ _ _ _ _ _ _ _ Hll Hset Hc Hs) as [F R].
  eapply (fit_inside p q); eauto. eapply fits_get; eauto.
Qed.
Example C60_case : exists c, loglike_init None None None (Some (fun _ => ret (Fin 0))) = Ok ex_2d_ll /\
  setup_ok [ex_2d] (ll_targets ex_2d_ll) /\ chain_of [ex_2d] ex_2d_ll true c /\ wants_tree ex_2d /\
  st_get "map" (c_cur c) = Some (EPS ex_2d_state) /\
  dget "kdtree" (ps_cache ex_2d_state) = Some (ArrN [[1/4; 1/2]]).
Proof.
  destruct ex_2d_chain as (c & H & H1). exists c. split; [reflexivity|]. split; [apply ex_2d_setup|].
  split; [exact H|]. split; [exact I|]. split; [exact H1|]. reflexivity.
Qed.

(** ** Nested states born later have no tree
    _parameter_space.py [birth] and _discretization.py [_initialize_params_from_prior] call
    [sample], which is not overridden by Voronoi2D, so nothing is put in the cache.  Here a plain
    space holds tessellations with compute_kdtree=True; the first one, made by [initialize], has its
    tree; the second one, proposed by a birth, has none. *)
Definition nt_in : space := Space "in" (Some 1%nat) 1 1 0 (VorN 2 [0; 0] [1; 1] [1; 1] None true true) [].
Definition nt_top : space := Space "top" None 1 4 1 Plain [("in", PSpace nt_in)].
Lemma nt_sub s : sub_space nt_top s -> s = nt_top \/ s = nt_in.
Proof.
  intros H. inversion H as [|? ? s1 ? Hin H1]; subst; auto. cbn in Hin. destruct Hin as [E|[]]. injection E as <- <-.
  inversion H1 as [|? ? s2 ? Hin2]; subst; auto. destruct Hin2.
Qed.
Lemma nt_setup : setup_ok [nt_top] [].
Proof.
  split.
  - intros s [<-|[]] s' H. apply nt_sub in H. destruct H as [->| ->].
    + split; [cbn; lia|]. split; [cbn; lra|]. split; [exact I|]. split; [|split; [|split]].
      * cbn. repeat constructor; cbn; intuition discriminate.
      * cbn. intuition discriminate.
      * cbn. intros k p [E|[]]. discriminate E.
      * cbn. intros k p [E|[]]. injection E as <- <-. reflexivity.
    + split; [cbn; lia|]. split; [cbn; lra|]. split; [|split; [|split; [|split]]].
      * cbn. split; [reflexivity|]. split; [reflexivity|]. split; [|exact I].
        intros [|[|i]] a b; cbn; try (intros [= <-] [= <-]; lra); destruct i; discriminate.
      * constructor.
      * intros [].
      * intros k p [].
      * intros k p [].
  - cbn. repeat constructor; cbn; intuition discriminate.
  - intros a b s s' [<-|[]] [<-|[]] H1 H2 E. apply nt_sub in H1. apply nt_sub in H2.
    destruct H1 as [->| ->]; destruct H2 as [->| ->]; auto; discriminate E.
  - intros t [].
Qed.
Local Opaque Rleb Rltb Reqb py_int.
Definition nt_cell (l : list R) (cache : dict value) : psstate :=
  PS 1 [("discretization", ArrN [l])] [("discretization", ArrN [l])] cache.
Definition nt_state (l : list psstate) : psstate := PS (length l) [("in", Lst l)] [("in", Lst l)] [].
Definition nt_first : psstate := nt_cell [1/4; 1/2] [("kdtree", ArrN [[1/4; 1/2]])].
Lemma nt_starting : starting_state [nt_top] ex_2d_ll [DInt 1; DU (1/4); DU (1/2)] =
  Ret (mkState [("top", EPS (nt_state [nt_first]))] [("top", EPS (nt_state [nt_first]))] 1 [] []) [].
Proof. run. same. Qed.
Lemma nt_ps tr : psp_perturb_ps (fst (own_psp nt_top)) (nt_state [nt_first]) (DU 0 :: DInt 1 :: DU (3/4) :: DU (3/4) :: tr) =
  Ret (nt_state [nt_first; nt_cell [3/4; 3/4] []], Fin 0, "BirthPerturbation(top)") tr.
Proof. run. same. Qed.

Definition nt_start : state := mkState [("top", EPS (nt_state [nt_first]))] [("top", EPS (nt_state [nt_first]))] 1 [] [].
Definition nt_new : psstate := nt_state [nt_first; nt_cell [3/4; 3/4] []].
Definition nt_next : state := mkState [("top", EPS nt_new)] [("top", EPS nt_new)] 1
  [("perturb_stats", CStats [("BirthPerturbation(top)", 1)])] [].
Lemma nt_birth tr : psp_perturb (fst (own_psp nt_top)) nt_start (DInt 0 :: DU 0 :: DInt 1 :: DU (3/4) :: DU (3/4) :: tr) =
  Ret (nt_next, Fin 0) tr.
Proof.
  unfold psp_perturb.
  change (st_copy false nt_start) with (Ok nt_start). unfold lift at 1, bind at 1, ret at 1.
  change (count_loop (st_size nt_start) (psp_space (fst (own_psp nt_top))) [st_children nt_start] 0) with (Ok 1%nat).
  unfold lift at 1, bind at 1, ret at 1. unfold bind at 1.
  match goal with |- match randint_below 1 (DInt 0 :: ?t) with _ => _ end = _ => change (randint_below 1 (DInt 0 :: t)) with (Ret 0%nat t) end.
  cbn iota beta. change (st_size nt_start) with 3%nat. unfold bind at 1.
  match goal with |- match walk_loop 3 ?q 0 ?w ?t with _ => _ end = _ =>
    assert (HN : walk_loop 3 q 0 w t = Ret (mkWalk (mkState [("top", EPS nt_new)] [("top", EPS nt_new)] 1 [] []) 1
      (eadd (Fin 0) (Fin 0)) [("BirthPerturbation(top)", 1%nat)] []) tr) end.
  { cbn [walk_loop w_queue w_i]. change (0 <=? 0)%nat with true. cbn iota.
    unfold bind at 1.
    match goal with |- match walk_node ?q 0 ?w ?l ?k ?t with _ => _ end = _ =>
      assert (HM : walk_node q 0 w l k t = Ret (mkWalk (mkState [("top", EPS nt_new)] [("top", EPS nt_new)] 1 [] []) 1
        (eadd (Fin 0) (Fin 0)) [("BirthPerturbation(top)", 1%nat)] []) tr) end.
    { change (st_children nt_start) with [("top", COne (nt_state [nt_first]))].
      cbn [walk_node]. change (String.eqb "top" (psp_space (fst (own_psp nt_top)))) with true. cbn iota.
      change (w_i _ =? 0)%nat with true. cbn iota. rewrite (bind_ret _ _ _ _ _ (nt_ps tr)). reflexivity. }
    rewrite HM. reflexivity. }
  rewrite HN. unfold nt_next. cbn [w_stats w_new w_ratio map snd fst nsum]. unfold ret. f_equal. f_equal.
  - cbn -[Rdiv]. replace (1 / 1) with 1 by field. reflexivity.
  - cbn. f_equal. lra.
Qed.

Definition nt_env : env state ovalue := inversion_env [nt_top] ex_2d_ll true.
Definition nt_chain0 : chain state ovalue := new_chain nt_env nt_start.
Definition nt_sched : sched := {| sc_burnin := 1; sc_every := 1; sc_verbose := false; sc_print_every := 0 |}.
Lemma nt_iteration c tr : c_cur c = nt_start -> c_temp c = 1 ->
  next_iteration nt_env c (DU (3/4) :: DInt 0 :: DU 0 :: DInt 1 :: DU (3/4) :: DU (3/4) :: DU (1/2) :: tr) =
  Ret (let '(c', x) := finish nt_env (psp_name (fst (own_psp nt_top))) true nt_next (set_cur nt_start c) in
    (c', match x with Done => None | Stop e => Some e | Retry => Some ERuntime end)) tr.
Proof.
  intros H1 H2.
  eapply (one_accepted nt_env c _ 1%nat _ (psp_perturb (fst (own_psp nt_top))) _ nt_next 0 _ nt_start nt_next 0).
  - change (length (e_funcs nt_env)) with 2%nat.
    assert (Hw : e_weights nt_env = [1; 2]).
    { cbn -[Rplus]. same. }
    rewrite Hw. run. reflexivity.
  - reflexivity.
  - rewrite H1. apply nt_birth.
  - rewrite H1, H2. run. same.
  - lra.
  - rewrite Rplus_0_l. rewrite <- ln_1. apply ln_increasing; lra.
Qed.
Lemma nt_finish c : c_flag c = Some false -> exists c',
  finish nt_env (psp_name (fst (own_psp nt_top))) true nt_next c = (c', Done) /\ c_cur c' = nt_next.
Proof.
  intros H1. unfold finish.
  assert (Hs : exists st, save_statistics nt_env (psp_name (fst (own_psp nt_top))) true nt_next (set_cur nt_next c)
    = inl (put_stats st true (set_cur nt_next c))).
  { eexists. reflexivity. }
  destruct Hs as (st & ->). cbn [put_stats set_stats c_flag c_temp set_cur]. rewrite H1. cbn [andb].
  eexists. split; reflexivity.
Qed.
Lemma nt_run : exists c o tr',
  inversion_run (vanilla [] [] [] []) (vanilla_run nt_env (vanilla [] [] [] []) (Some 1%Z) 1 nt_sched) false [nt_chain0]
    [DU (3/4); DInt 0; DU 0; DInt 1; DU (3/4); DU (3/4); DU (1/2)] = Ret ([c], o) tr' /\
  c_cur c = nt_next.
Proof.
  destruct (nt_finish (set_cur nt_start (set_flag false nt_chain0))) as (c & Hf & H1); try reflexivity.
  exists c. eexists _, _. split; [|exact H1].
  unfold inversion_run. unfold bind at 1.
  change (initialize (vanilla [] [] [] []) [nt_chain0]) with (fun t : trace => Ret ([nt_chain0], @None exn) t).
  cbn iota beta. unfold vanilla_run, advance_chain. cbn [each_chain advance].
  unfold bind at 1 2 3 4, advance_one. change (c_nprop_tot nt_chain0) with 0%nat.
  change (save_flag nt_sched 1) with (@Ok bool false). cbn iota.
  unfold bind at 1. unfold call_hook at 1, begin_iteration at 1. cbn [call_all vanilla sm_on_begin sm_x_begin].
  unfold bind at 1, nothing at 1, ret at 1 2.
  unfold bind at 1, ret at 1. cbn iota beta. rewrite nt_iteration by reflexivity. rewrite Hf.
  reflexivity.
Qed.
Theorem C60_refuted : exists spaces ll c p l q sp top,
  loglike_init None None None (ll_func ll) = Ok ll /\ setup_ok spaces (ll_targets ll) /\ chain_of spaces ll true c /\
  (* [sp] is nested in [top] and has compute_kdtree=True *)
  In top spaces /\ In ("in", PSpace sp) (sp_params top) /\ wants_tree sp /\
  (* [q] is one of its states, in the current state of the chain *)
  st_get (sp_name top) (c_cur c) = Some (EPS p) /\ ps_get "in" p = Some (Lst l) /\ In q l /\
  dget "kdtree" (ps_cache q) = None.
Proof.
  destruct nt_run as (c & o & tr' & H & Hc).
  exists [nt_top], ex_2d_ll, c, nt_new, [nt_first; nt_cell [3/4; 3/4] []], (nt_cell [3/4; 3/4] []), nt_in, nt_top.
  split; [reflexivity|]. split; [apply nt_setup|]. split.
  { exists 1%nat. eexists. exists [nt_chain0], [], [c]. split; [|split; [|now left]].
    - apply repeatM_one. unfold bind. rewrite nt_starting. reflexivity.
    - eapply runs_more; [apply runs_none|]. eapply run_vanilla; [|exact H]. split; constructor. }
  split; [now left|]. split; [now left|]. split; [exact I|]. rewrite Hc. split; [reflexivity|]. split; [reflexivity|].
  split; [right; now left|]. reflexivity.
Qed.
(** The nested state made by [initialize] keeps its tree, which belongs to its sites. *)
Example C60_nested_case : exists c, setup_ok [nt_top] [] /\ chain_of [nt_top] ex_2d_ll true c /\
  st_get "top" (c_cur c) = Some (EPS nt_new) /\ inside nt_new nt_first /\
  dget "kdtree" (ps_cache nt_first) = Some (ArrN [[1/4; 1/2]]).
Proof.
  destruct nt_run as (c & o & tr' & H & Hc). exists c. split; [apply nt_setup|]. split.
  { exists 1%nat. eexists. exists [nt_chain0], [], [c]. split; [|split; [|now left]].
    - apply repeatM_one. unfold bind. rewrite nt_starting. reflexivity.
    - eapply runs_more; [apply runs_none|]. eapply run_vanilla; [|exact H]. split; constructor. }
  rewrite Hc. split; [reflexivity|]. split; [|reflexivity].
  eapply inside_in; [now left| |apply inside_here]. now left.
Qed.
