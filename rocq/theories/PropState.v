(** Properties of attributes, copies and items of states: C18, C59. *)
From Verif Require Import Base ModelPrior ModelState ModelSpace ModelPerturb ModelChain ModelSampler
  ModelLikelihood SpecUtils1D SpecPrior SpecState SpecSpace SpecPerturb SpecChain SpecRun SpecTrees
  ProofUtils1D ProofChain ProofChainB ProofInversion ProofSampler
  ProofState ProofSpace ProofSpaceB ProofSpaceC ProofSpaceE ProofNested ProofPerturb ProofTree ProofRun ProofRunB ProofRunC
  PropRun ProofTrees ProofStep ExampleRun PropTrees PropPredictions.
Local Open Scope R_scope.
Local Open Scope string_scope.

(** * The traversal *)
(** state.name is state["name"], for the entries that are parameter spaces. *)
Definition spaces_shown (s : state) : Prop := forall k p, st_get k s = Some (EPS p) -> st_attr k s = Some (EPS p).
Definition noise_shown (s : state) : Prop := forall k d, st_get k s = Some (ENoise d) -> st_attr k s = Some (ENoise d).
Definition each_space (P : psstate -> Prop) (s : state) : Prop := forall k p, In (k, EPS p) (st_vals s) -> P p.
(** Everything that can be read by attributes is what is read by items. *)
Definition agrees (s : state) : Prop := spaces_shown s /\ noise_shown s /\ each_space in_step s.
Lemma shown_st_set k e s : spaces_shown s -> noise_shown s -> spaces_shown (st_set k e s) /\ noise_shown (st_set k e s).
Proof.
  unfold spaces_shown, noise_shown, st_get, st_attr, st_set. cbn. intros H1 H2. split; intros k' x.
  - destruct (String.eqb_spec k' k) as [->|Hn]; [rewrite !dget_dset_same; auto|rewrite !dget_dset_other by auto; auto].
  - destruct (String.eqb_spec k' k) as [->|Hn]; [rewrite !dget_dset_same; auto|rewrite !dget_dset_other by auto; auto].
Qed.
Lemma each_set P k p s : each_space P s -> P p -> each_space P (st_set k (EPS p) s).
Proof. intros H Hp k' p' Hin. cbn in Hin. apply in_dset in Hin. destruct Hin as [Hin|[_ [= ->]]]; eauto. Qed.
Section Walk.
Variable q : psp.
Variables P L T : psstate -> Prop.
Variable clean : ext -> dict nat -> Prop.
Hypothesis clean_less : forall a r ty st, clean (eadd a r) (bump_type ty st) -> clean a st.
Hypothesis perturb_ok : forall p tr p' r ty tr' a st, L p \/ T p -> psp_perturb_ps q p tr = Ret (p', r, ty) tr' ->
  clean (eadd a r) (bump_type ty st) -> P p'.
Hypothesis copy_ok : forall p p', L p -> ps_copy p = Ok p' -> P p'.
Hypothesis set_ok : forall k l p p', P p -> (forall c, In c l -> P c) -> ps_set k (Lst l) p = Ok p' -> P p'.
Hypothesis get_ok : forall k l p c, P p -> ps_get k p = Some (Lst l) -> In c l -> P c.
Hypothesis kids_L : forall p k l c, L p \/ T p -> In (k, Lst l) (ps_vals p) -> In c l -> L c.
Definition child_good (c : child) : Prop :=
  match c with COne p => T p | CMany l => forall p, In p l -> L p | CNone => True end.
Definition kids_good (l : dict child) : Prop := forall k c, In (k, c) l -> child_good c.
Definition new_good (s : state) : Prop := spaces_shown s /\ noise_shown s /\ each_space P s.
Definition walk_good (s : walk) : Prop :=
  (clean (w_ratio s) (w_stats s) -> new_good (w_new s)) /\ forall w l, In (w, l) (w_queue s) -> kids_good l.
Lemma kids_of p : L p \/ T p -> kids_good (ps_children p).
Proof.
  intros Hf k c Hin. unfold ps_children in Hin. apply in_map_iff in Hin. destruct Hin as ([k' v] & [= <- <-] & Hin).
  cbn [fst snd] in *. destruct v; cbn [value_child child_good]; auto. intros p' Hp. eapply kids_L; eauto.
Qed.
Lemma walk_list_good target vs : (forall p, In p vs -> L p) -> forall i ratio st tr vs' i' r' st' tr',
  walk_list q target vs i ratio st tr = Ret (vs', i', r', st') tr' ->
  (clean r' st' -> clean ratio st) /\ (clean r' st' -> forall p, In p vs' -> P p).
Proof.
  intros Hf. induction vs as [|v t IH]; intros i ratio st tr vs' i' r' st' tr' H; cbn [walk_list] in H.
  - mr H. injection H as <- _ <- <-. split; [auto|intros _ p []].
  - assert (Ht : forall p, In p t -> L p) by (intros; apply Hf; now right). pose proof (Hf v (or_introl eq_refl)) as Hv.
    destruct (_ =? _)%nat.
    + mb H as [[v' r] ty] Ev. mb H as [[[t' i1] r1] s1] Et. mr H. injection H as <- _ <- <-.
      destruct (IH Ht _ _ _ _ _ _ _ _ _ Et) as [C1 C2]. split; [intros C; eapply clean_less; eauto|].
      intros C p [<-|Hp]; [|eapply C2; eauto]. eapply perturb_ok; eauto.
    + mb H as v' Ev. mb H as [[[t' i1] r1] s1] Et. mr H. injection H as <- _ <- <-.
      destruct (IH Ht _ _ _ _ _ _ _ _ _ Et) as [C1 C2]. split; auto.
      intros C p [<-|Hp]; [|eapply C2; eauto]. eapply copy_ok; eauto.
Qed.
Lemma set_in_ps_good w k l : (forall c, In c l -> P c) -> forall p p', P p -> set_in_ps w k (Lst l) p = Ok p' -> P p'.
Proof.
  intros Hl. induction w as [|[k1 i] w IH]; intros p p' Hf H; cbn [set_in_ps] in H.
  - eapply set_ok; eauto.
  - destruct (ps_get k1 p) as [[| | |l1]|] eqn:Eg; try discriminate.
    apply rbind_ok in H. destruct H as (c & Ec & H). apply rbind_ok in H. destruct H as (c' & Ec' & H).
    apply idx_ok in Ec. assert (Fc : P c) by (eapply get_ok; [exact Hf|exact Eg|eapply nth_error_In; exact Ec]).
    apply IH in Ec'; auto. eapply set_ok; [exact Hf| |exact H].
    intros x Hx. apply set_nth_in in Hx. destruct Hx as [->|Hx]; auto. eapply get_ok; [exact Hf|exact Eg|exact Hx].
Qed.
Lemma set_in_state_good w k l s s' : (forall c, In c l -> P c) -> new_good s -> set_in_state w k (Lst l) s = Ok s' -> new_good s'.
Proof.
  intros Hl (S1 & S2 & S3) H. unfold set_in_state in H. destruct w as [|[k0 i] w]; [discriminate|].
  destruct (st_get k0 s) as [[p|]|] eqn:Eg; try discriminate. apply rbind_ok in H. destruct H as (p' & Ep & [= <-]).
  destruct (shown_st_set k0 (EPS p') s S1 S2) as [S1' S2']. split; [exact S1'|]. split; [exact S2'|].
  apply each_set; auto. eapply set_in_ps_good; [exact Hl| |exact Ep]. eapply S3. apply dget_some_in. exact Eg.
Qed.
Lemma walk_node_good target w l : forall s tr s' tr', walk_good s -> kids_good l ->
  walk_node q target w l s tr = Ret s' tr' -> walk_good s'.
Proof.
  induction l as [|[k c] l IH]; intros s tr s' tr' [Hf Hq] Hl H; cbn [walk_node] in H.
  - mr H. split; auto.
  - pose proof (Hl k c (or_introl eq_refl)) as Hc.
    assert (Hl' : kids_good l) by (intros k' c' Hin; eapply Hl; right; exact Hin).
    destruct c as [p|ps|]; cbn [child_good] in Hc.
    + destruct (String.eqb k (psp_space q)).
      * destruct (_ =? _)%nat; [|eapply IH; [|exact Hl'|exact H]; split; [exact Hf|exact Hq]].
        mb H as [[p' r] ty] Ep. eapply IH; [|exact Hl'|exact H]. split; cbn [w_new w_queue w_ratio w_stats]; [|exact Hq].
        intros C. destruct (Hf (clean_less _ _ _ _ C)) as (S1 & S2 & S3).
        destruct (shown_st_set k (EPS p') _ S1 S2) as [S1' S2']. split; [exact S1'|]. split; [exact S2'|].
        apply each_set; auto. eapply perturb_ok; eauto.
      * eapply IH; [|exact Hl'|exact H]. split; cbn [w_new w_queue w_ratio w_stats]; auto. intros w0 l0 Hin. apply in_app_or in Hin.
        destruct Hin as [Hin|[[= <- <-]|[]]]; eauto using kids_of.
    + destruct (String.eqb k (psp_space q)).
      * mb H as [[[ps' i'] r'] st'] Ep. mb H as new' En. destruct (walk_list_good _ _ Hc _ _ _ _ _ _ _ _ _ Ep) as [C1 C2].
        eapply IH; [|exact Hl'|exact H]. split; cbn [w_new w_queue w_ratio w_stats]; [|exact Hq].
        intros C. eapply set_in_state_good; [exact (C2 C)|exact (Hf (C1 C))|exact En].
      * destruct ps as [|p0 ps]; [discriminate|]. eapply IH; [|exact Hl'|exact H]. split; cbn [w_new w_queue w_ratio w_stats]; auto.
        intros w0 l0 Hin. apply in_app_or in Hin. destruct Hin as [Hin|Hin]; eauto.
        apply in_map_iff in Hin. destruct Hin as ([i p1] & [= <- <-] & Hin). apply kids_of. left. apply Hc.
        eapply in_combine_r; exact Hin.
    + eapply IH; [|exact Hl'|exact H]. split; auto.
Qed.
Lemma walk_loop_good fuel target : forall s tr s' tr', walk_good s -> walk_loop fuel q target s tr = Ret s' tr' -> walk_good s'.
Proof.
  induction fuel as [|fuel IH]; intros s tr s' tr' Hs H; cbn [walk_loop] in H; pose proof Hs as [Hf Hq];
    destruct (w_queue s) as [|[w l] rest] eqn:Eq; try (mr H; exact Hs);
    (destruct (w_i s <=? target)%nat; [|mr H; exact Hs]).
  - discriminate.
  - mb H as s1 E1. eapply IH; [|exact H]. eapply walk_node_good; [| |exact E1].
    + split; cbn [w_new w_queue w_ratio w_stats]; [exact Hf|]. intros; eapply Hq; right; eauto.
    + eapply Hq. now left.
Qed.
Lemma psp_good s tr s' r tr' c : st_copy false s = Ok c -> new_good c -> each_space T s ->
  psp_perturb q s tr = Ret (s', r) tr' ->
  exists w, s' = st_save_cache "perturb_stats"
      (CStats (map (fun kn => (fst kn, INR (snd kn) / INR (nsum (map snd (w_stats w))))) (w_stats w))) (w_new w) /\
    r = w_ratio w /\ (clean (w_ratio w) (w_stats w) -> new_good (w_new w)).
Proof.
  intros Ec Hc Ht H. unfold psp_perturb in H. mb H as c' Ec'. mb H as n En. mb H as t Et. mb H as w1 Ew. mr H. injection H as <- <-.
  exists w1. split; [reflexivity|]. split; [reflexivity|]. apply walk_loop_good in Ew; [apply Ew|].
  split; cbn [w_new w_queue w_ratio w_stats]; [intros _; congruence|].
  intros w0 l0 [[= <- <-]|[]]. intros k ch Hk. unfold st_children in Hk.
  apply in_map_iff in Hk. destruct Hk as ([k1 e] & [= <- <-] & Hk). cbn [fst snd]. destruct e as [p|d]; cbn; auto. eapply Ht; eauto.
Qed.
End Walk.

(** * Copies *)
Lemma copy_agrees b s s' : NoDup (dkeys (st_vals s)) -> each_space calm s -> st_copy b s = Ok s' ->
  agrees s' /\ dkeys (st_vals s') = dkeys (st_vals s) /\ forall k d, st_get k s = Some (ENoise d) -> st_get k s' = Some (ENoise d).
Proof.
  intros Hn Hf H. unfold st_copy in H. apply rbind_ok in H. destruct H as (vals & Hv & [= <-]). apply rmap_ok in Hv.
  assert (K : dkeys vals = dkeys (st_vals s)).
  { clear - Hv. induction Hv as [|a b0 l l' H1 H2 IH]; auto. apply rbind_ok in H1. destruct H1 as (v & _ & [= <-]).
    unfold dkeys in *. cbn. now rewrite IH. }
  rewrite mk_state_spec by (now rewrite K). split; [|split; [auto|]].
  - split; [|split]; [intros k p E; exact E|intros k p E; exact E|].
    intros k p Hin. cbn [st_vals] in Hin. unfold each_space in Hf. clear - Hv Hf Hin. revert k p Hin.
    induction Hv as [|a b0 l l' H1 H2 IH]; intros k p [].
    + subst b0. apply rbind_ok in H1. destruct H1 as (e & E & [= E1 E2]). subst e. destruct a as [k0 [p0|d]]; cbn in E; [|discriminate].
      apply rbind_ok in E. destruct E as (p1 & E & [= ->]). eapply step_copy; [|exact E]. eapply Hf. now left.
    + eapply IH; [|exact H]. intros; eapply Hf; right; eauto.
  - intros k d. unfold st_get. cbn [st_vals]. clear - Hv. induction Hv as [|[k0 e0] b0 l l' H1 H2 IH]; [discriminate|].
    apply rbind_ok in H1. destruct H1 as (e & E1 & [= <-]). cbn [fst snd] in *. cbn [dget] in *. destruct (String.eqb k k0); auto.
    intros [= ->]. cbn in E1. injection E1 as <-. reflexivity.
Qed.

(** * Moves *)
Lemma bump_keys ty st k : In k (dkeys st) -> In k (dkeys (bump_type ty st)).
Proof.
  intros H. unfold bump_type. destruct (dget ty st) eqn:E.
  - apply in_map_iff in H. destruct H as ([k' v] & <- & H). cbn.
    destruct (String.eqb_spec k' ty) as [->|Hn].
    + eapply dget_in_keys. apply dget_dset_same.
    + destruct (dget k' (dset ty (S n) st)) eqn:E'; [eapply dget_in_keys; eauto|].
      rewrite dget_dset_other in E' by auto. exfalso. eapply dget_none_keys; eauto. eapply in_dkeys; eauto.
  - apply in_map_iff in H. destruct H as ([k' v] & <- & H). cbn.
    destruct (String.eqb_spec k' ty) as [->|Hn].
    + eapply dget_in_keys. apply dget_dset_same.
    + destruct (dget k' (dset ty 1%nat st)) eqn:E'; [eapply dget_in_keys; eauto|].
      rewrite dget_dset_other in E' by auto. exfalso. eapply dget_none_keys; eauto. eapply in_dkeys; eauto.
Qed.
Lemma bump_self ty st : In ty (dkeys (bump_type ty st)).
Proof. eapply dget_in_keys. apply dget_dset_same. Qed.
(** The elementary perturbation that moves the values of the parameters of a space. *)
Definition param_move (sq : space) : string := elem_name (EParam (sp_name sq) (priors_of (sp_params sq))).
Definition no_move (sq : space) (r : ext) (st : dict nat) : Prop := (exists x, r = Fin x) /\ ~ In (param_move sq) (dkeys st).
Lemma no_move_less sq a r ty st : no_move sq (eadd a r) (bump_type ty st) -> no_move sq a st.
Proof.
  intros [(x & E) H]. split.
  - destruct a, r; try discriminate; eauto.
  - intros H1. apply H. now apply bump_keys.
Qed.
Lemma psp_calm sq s tr s' r tr' : NoDup (dkeys (st_vals s)) -> each_space calm s ->
  psp_perturb (fst (own_psp sq)) s tr = Ret (s', r) tr' -> spaces_shown s' /\ noise_shown s' /\ each_space calm s'.
Proof.
  intros Hn Hc H.
  assert (Ec : exists c, st_copy false s = Ok c).
  { unfold psp_perturb in H. mb H as c Ec. eauto. }
  destruct Ec as (c & Ec). destruct (copy_agrees _ _ _ Hn Hc Ec) as [(S1 & S2 & S3) _].
  eapply (psp_good (fst (own_psp sq)) calm calm calm (fun _ _ => True)) in H; [|auto| | | | | |exact Ec| |exact Hc].
  - destruct H as (w & -> & _ & G). destruct (G I) as (G1 & G2 & G3). split; [exact G1|]. split; [exact G2|exact G3].
  - intros p t p' r' ty t' _ _ [Hp|Hp] E _; unfold psp_perturb_ps in E; mb E as i Ei; mb E as [e w] Ee; mb E as [p1 r1] E1; mr E; injection E as -> _ _;
      apply idx_ok in Ee; apply nth_error_In in Ee; exact (elem_calm _ _ _ _ _ _ _ _ Ee Hp E1).
  - intros p p' Hp E. apply step_calm. eapply step_copy; eauto.
  - intros k l p p' Hp Hl E. apply ps_set_ok in E. destruct E as [-> _]. apply okvals_calm. cbn [ps_vals].
    apply okvals_set; [now apply okvals_calm|exact Hl].
  - intros k l p c' Hp E Hi. inversion Hp as [? A B]; subst. eapply B; eauto. apply dget_some_in. exact E.
  - intros p k l c' [Hp|Hp] E Hi; inversion Hp as [? A B]; subst; eapply B; eauto.
  - split; [exact S1|]. split; [exact S2|]. intros k p Hin. apply step_calm. eapply S3; eauto.
Qed.
Lemma psp_step sq s tr s' x tr' stats : NoDup (dkeys (st_vals s)) -> each_space (fun p => step_vals (ps_vals p)) s ->
  psp_perturb (fst (own_psp sq)) s tr = Ret (s', Fin x) tr' ->
  dget "perturb_stats" (st_cache s') = Some (CStats stats) -> ~ In (param_move sq) (map fst stats) -> agrees s'.
Proof.
  intros Hn Hc H Hst Hno.
  assert (Ec : exists c, st_copy false s = Ok c).
  { unfold psp_perturb in H. mb H as c Ec. eauto. }
  destruct Ec as (c & Ec). destruct (copy_agrees _ _ _ Hn (fun k p Hin => step_vals_calm p (Hc k p Hin)) Ec) as [(S1 & S2 & S3) _].
  eapply (psp_good (fst (own_psp sq)) in_step in_step (fun p => step_vals (ps_vals p)) (no_move sq)) in H;
    [|intros; eapply no_move_less; eauto| | | | | |exact Ec| |exact Hc].
  - destruct H as (w & -> & Er & G). cbn in Hst. rewrite dget_dset_same in Hst. injection Hst as <-.
    destruct G as (G1 & G2 & G3).
    { split; [eauto|]. intros Hi. apply Hno. rewrite map_map. cbn. exact Hi. }
    split; [exact G1|]. split; [exact G2|exact G3].
  - intros p t p' r' ty t' a st Hp E [(y & Ey) Hm]. unfold psp_perturb_ps in E. mb E as i Ei. mb E as [e w] Ee. mb E as [p1 r1] E1. mr E. injection E as -> -> <-.
    apply idx_ok in Ee. apply nth_error_In in Ee. eapply elem_step; [exact Ee| | |exact E1|].
    + intros E. apply Hm. unfold param_move. rewrite <- E. apply bump_self.
    + destruct Hp as [Hp|Hp]; [now apply step_vals_of|exact Hp].
    + intros E. subst r'. destruct a; discriminate.
  - intros p p' Hp E. eapply step_copy; [|exact E]. now apply step_calm.
  - intros k l p p' Hp Hl E. eapply (step_set k (Lst l)); [exact Hp|exact Hl|exact E].
  - intros k l p c' Hp E Hi. eapply step_get; eauto.
  - intros p k l c' [Hp|Hp] E Hi; [|eapply Hp; eauto]. eapply step_child; eauto.
  - split; [exact S1|]. split; [exact S2|]. exact S3.
Qed.

Lemma noise_form spaces ts s tr s' r tr' : setup_ok spaces ts -> state_ok spaces ts s -> each_space calm s ->
  noise_perturb (hier_of ts) s tr = Ret (s', r) tr' ->
  spaces_shown s' /\ each_space in_step s' /\ (forall k d, st_get k s = Some (ENoise d) -> st_attr k s' = Some (ENoise d)).
Proof.
  intros Hset Hok Hc H. unfold noise_perturb in H. mb H as new En. mb H as c Ec. mr H. injection H as <- _.
  destruct (copy_agrees _ _ _ (so_nodup _ _ _ Hok) Hc Ec) as ((S1 & S2 & S3) & _ & S4).
  assert (N : forall k e, In (k, e) new -> exists d, e = ENoise d).
  { assert (G : forall l new0 tr new1 tr1, perturb_targets l s new0 tr = Ret new1 tr1 -> forall k e, In (k, e) new1 ->
      In (k, e) new0 \/ (exists d, e = ENoise d)).
    { induction l as [|t l IH]; intros new0 ta new1 tb H k e Hin; cbn [perturb_targets] in H.
      - mr H. auto.
      - mb H as d Ed. mb H as d' Ed'. destruct (IH _ _ _ _ H _ _ Hin) as [Hi|Hi]; auto.
        apply in_dset in Hi. destruct Hi as [Hi|[-> ->]]; eauto. }
    intros k e Hin. destruct (G _ _ _ _ _ En k e Hin) as [[]|X]. exact X. }
  assert (G : forall k p d, dget k (dupdate d new) = Some (EPS p) -> dget k d = Some (EPS p)).
  { clear - N. induction new as [|[k1 e1] l IH]; intros k p d E; auto.
    change (dget k (dupdate (dset k1 e1 d) l) = Some (EPS p)) in E. apply IH in E; [|intros; eapply N; right; eauto].
    destruct (String.eqb_spec k k1) as [->|Hk]; [|rewrite dget_dset_other in E; auto].
    rewrite dget_dset_same in E. destruct (N k1 e1 (or_introl eq_refl)) as (d' & ->). discriminate. }
  split; [|split].
  - intros k p E. unfold st_get in E. cbn in E. apply G in E. exact (S1 _ _ E).
  - intros k p Hin. cbn in Hin. apply in_dupdate in Hin. destruct Hin as [Hin|Hin]; eauto.
    destruct (N _ _ Hin) as (d & E). discriminate.
  - intros k d E. apply S4 in E. cbn. exact (S2 _ _ E).
Qed.

(** * States of chains *)
Definition settled spaces ts (s : state) : Prop := good spaces ts s /\ spaces_shown s /\ each_space calm s.
Lemma pfunc_settled spaces ll save ty f s tr new lpr tr' : setup_ok spaces (ll_targets ll) ->
  ll_hier ll = hier_of (ll_targets ll) -> In (ty, f) (e_funcs (inversion_env spaces ll save)) ->
  state_ok spaces (ll_targets ll) s -> each_space calm s -> f s tr = Ret (new, lpr) tr' -> spaces_shown new /\ each_space calm new.
Proof.
  intros Hset Hh Hin Hok Ht H. cbn [inversion_env chain_env e_funcs] in Hin.
  apply in_map_iff in Hin. destruct Hin as ([pf w] & E & Hin). cbn [fst] in E. injection E as <- <-.
  unfold inv_pfuncs in Hin. apply in_app_or in Hin. destruct Hin as [Hin|Hin].
  - apply in_map_iff in Hin. destruct Hin as ([q w'] & E & Hin). cbn in E. injection E as <- <-.
    cbn [pfunc_perturb] in H. destruct (all_funcs_in _ _ _ Hin) as (top & sq & Htop & Hsub & E).
    assert (Eq : q = fst (own_psp sq)) by (now rewrite <- E). subst q.
    apply psp_calm in H; [tauto|apply (so_nodup _ _ _ Hok)|exact Ht].
  - unfold ll_pfuncs in Hin. rewrite Hh in Hin.
    assert (Hin' : (pf, w) = (FNoise (hier_of (ll_targets ll)), 1)).
    { destruct (hier_of (ll_targets ll)); [destruct Hin|]. destruct Hin as [<-|[]]. reflexivity. }
    injection Hin' as -> ->. cbn [pfunc_perturb] in H.
    destruct (noise_form _ _ _ _ _ _ _ Hset Hok Ht H) as (A & B & _). split; [exact A|].
    intros k p Hi. apply step_calm. eapply B; eauto.
Qed.
Lemma settled_values s s' : same_values s s' -> spaces_shown s -> each_space calm s -> spaces_shown s' /\ each_space calm s'.
Proof.
  intros (E1 & E2 & _) H1 H2. unfold spaces_shown, each_space, st_get, st_attr in *. rewrite E1, E2. auto.
Qed.
Lemma settled_preserving spaces ll save : setup_ok spaces (ll_targets ll) -> ll_hier ll = hier_of (ll_targets ll) ->
  preserving (inversion_env spaces ll save) (settled spaces (ll_targets ll)).
Proof.
  intros Hset Hh. pose proof (inversion_preserving spaces ll save Hset Hh) as [P1 P2 P3]. split.
  - intros ty f s tr new lpr tr' Hin (Hg & _ & Ht) H Hl. split; [eapply P1; eauto|].
    eapply pfunc_settled; eauto. apply Hg.
  - intros old new T tr old' new' r tr' H. pose proof (P2 _ _ _ _ _ _ _ _ H) as [G1 G2].
    cbn in H. apply like_values in H. destruct H as [V1 V2].
    split; intros (Hg & Hs & Ht); (split; [auto|eapply settled_values; eauto]).
  - intros t s (Hg & Hs & Ht). split; [now apply P3|]. split; [exact Hs|exact Ht].
Qed.
Lemma starting_agrees spaces ll tr s tr' : setup_ok spaces (ll_targets ll) ->
  starting_state spaces ll tr = Ret s tr' -> agrees s.
Proof.
  intros Hset H. destruct (setup_parts _ _ Hset) as [N1 N2]. unfold starting_state in H. mb H as s0 E0.
  assert (T0 : agrees s0).
  { unfold initialize_all in E0. mb E0 as vals Ev. mr E0.
    assert (G : (forall k p, In (k, EPS p) vals -> in_step p) /\ dkeys vals = map sp_name spaces).
    { clear - Ev. match type of Ev with _ = Ret _ ?t => generalize dependent t end. revert tr vals.
      induction spaces as [|sp l IH]; intros tr vals t Ev; cbn [mapM] in Ev.
      - mr Ev. subst. split; [intros k p []|auto].
      - mb Ev as y Ey. mb Ey as p Ep. mr Ey. mb Ev as ys Eys. mr Ev.
        apply IH in Eys. destruct Eys as (A & B).
        apply step_initialize in Ep. split.
        + intros k q [[= <- <-]|Hin]; eauto.
        + unfold dkeys in *. cbn. now rewrite B. }
    destruct G as (A & B). rewrite mk_state_spec by (now rewrite B).
    split; [|split]; [intros k p E; exact E|intros k p E; exact E|exact A]. }
  unfold ll_initialize in H. clear E0.
  match type of H with targets_initialize _ _ ?t = _ => revert H; generalize t end.
  revert s0 T0. generalize (ll_targets ll). induction l as [|tg l IH]; intros s0 T0 tz H; cbn [targets_initialize] in H.
  - mr H. auto.
  - mb H as s1 E1. eapply IH; [|exact H].
    unfold target_initialize in E1. destruct (is_hier tg); [|mr E1; auto].
    mb E1 as std Es. mb E1 as cor Ecor. mr E1. destruct T0 as (S1 & S2 & S3).
    destruct (shown_st_set (t_name tg) (ENoise (mkNoise std cor)) s0 S1 S2) as [S1' S2']. split; [exact S1'|]. split; [exact S2'|].
    intros k p Hin. cbn in Hin. apply in_dset in Hin. destruct Hin as [Hin|[_ E]]; [eauto|discriminate].
Qed.
Lemma chain_settled spaces ts fs ratio func ll save c : loglike_init ts fs ratio func = Ok ll ->
  setup_ok spaces (ll_targets ll) -> chain_of spaces ll save c ->
  chain_ok (inversion_env spaces ll save) (settled spaces (ll_targets ll)) c.
Proof.
  intros Hll Hset (n & tr & cs0 & tr' & cs & H0 & Hr & Hc). pose proof (init_hier _ _ _ _ _ Hll) as Hh.
  assert (HF : Forall (chain_ok (inversion_env spaces ll save) (settled spaces (ll_targets ll))) cs).
  { eapply many_runs_ok; [apply settled_preserving; auto|exact Hr|]. clear - H0 Hset. unfold inversion_chains in H0. revert tr cs0 tr' H0.
    induction n as [|n IH]; intros tr cs0 tr' H; cbn [repeatM] in H.
    - mr H. constructor.
    - mb H as c0 Ec. mb Ec as s Es. mr Ec. mb H as cs' Ecs. mr H. constructor; eauto.
      apply new_chain_ok. split; [eapply starting_ok; eauto|]. destruct (starting_agrees _ _ _ _ _ Hset Es) as (A & B & C).
      split; [exact A|]. intros k p Hin. apply step_calm. eapply C; eauto. }
  rewrite Forall_forall in HF. apply HF. exact Hc.
Qed.

(** * C18: attributes and items
    What a chain hands to the likelihood: its current state and the states proposed from it. *)
Lemma seen_settled spaces ts fs ratio func ll save c s : loglike_init ts fs ratio func = Ok ll ->
  setup_ok spaces (ll_targets ll) -> chain_of spaces ll save c -> held c s \/ proposed spaces ll save c s ->
  spaces_shown s /\ each_space calm s.
Proof.
  intros Hll Hset Hc Hs. pose proof (chain_settled _ _ _ _ _ _ _ _ Hll Hset Hc) as [(Hg & Ht) Hsv].
  destruct Hs as [[->|(l & E & Hin)]|(ty & f & tr & r & tr' & Hin & H)]; auto.
  - rewrite E in Hsv. cbn in Hsv. rewrite Forall_forall in Hsv. apply (Hsv s Hin).
  - eapply pfunc_settled; [exact Hset|eapply init_hier; eauto|exact Hin|apply Hg|apply Ht|exact H].
Qed.
(** state.space is state["space"], for all states of all chains. *)
Theorem C18_spaces_partial spaces ts fs ratio func ll save c s : loglike_init ts fs ratio func = Ok ll ->
  setup_ok spaces (ll_targets ll) -> chain_of spaces ll save c -> held c s \/ proposed spaces ll save c s ->
  forall k p, st_get k s = Some (EPS p) -> st_attr k s = Some (EPS p).
Proof. intros Hll Hset Hc Hs. exact (proj1 (seen_settled _ _ _ _ _ _ _ _ _ Hll Hset Hc Hs)). Qed.
(** A copy of any of them agrees completely, and so does the state that a chain starts with. *)
Theorem C18_copies_partial spaces ts fs ratio func ll save c s b s' : loglike_init ts fs ratio func = Ok ll ->
  setup_ok spaces (ll_targets ll) -> chain_of spaces ll save c -> held c s -> st_copy b s = Ok s' -> agrees s'.
Proof.
  intros Hll Hset Hc Hs H. destruct (seen_settled _ _ _ _ _ _ _ _ _ Hll Hset Hc (or_introl Hs)) as [_ Hcalm].
  eapply copy_agrees; [|exact Hcalm|exact H].
  pose proof (chain_settled _ _ _ _ _ _ _ _ Hll Hset Hc) as [((Hok & _) & _) Hsv].
  destruct Hs as [->|(l & E & Hin)]; [apply (so_nodup _ _ _ Hok)|].
  rewrite E in Hsv. cbn in Hsv. rewrite Forall_forall in Hsv. destruct (Hsv s Hin) as ((Hok' & _) & _). apply (so_nodup _ _ _ Hok').
Qed.
Theorem C18_start_partial spaces ll tr s tr' : setup_ok spaces (ll_targets ll) ->
  starting_state spaces ll tr = Ret s tr' -> agrees s.
Proof. apply starting_agrees. Qed.
(** Births, deaths and moves of sites with a finite ratio, from a state whose nested states are in
    step.  (Missing: moves of parameter values and of noise, and moves from states in which a
    parameter of a nested space was moved before.  There it fails.) *)
Theorem C18_structure_partial sq s tr s' x tr' stats : NoDup (dkeys (st_vals s)) ->
  (forall k p k' v c, In (k, EPS p) (st_vals s) -> In (k', v) (ps_vals p) -> In c (states_in v) -> in_step c) ->
  psp_perturb (fst (own_psp sq)) s tr = Ret (s', Fin x) tr' ->
  dget "perturb_stats" (st_cache s') = Some (CStats stats) -> ~ In (param_move sq) (map fst stats) -> agrees s'.
Proof.
  intros Hn Hc. apply psp_step; auto. intros k p Hin k' v c H1 H2. eapply Hc; eauto.
Qed.
(** For parameterizations without nested spaces this covers every such move of every chain. *)
Definition flat (spaces : list space) : Prop := forall sp k s', In sp spaces -> ~ In (k, PSpace s') (sp_params sp).
Theorem C18_flat_partial spaces ts fs ratio func ll save c sq w tr s' x tr' stats : loglike_init ts fs ratio func = Ok ll ->
  setup_ok spaces (ll_targets ll) -> flat spaces -> chain_of spaces ll save c ->
  In (fst (own_psp sq), w) (all_funcs spaces) ->
  psp_perturb (fst (own_psp sq)) (c_cur c) tr = Ret (s', Fin x) tr' ->
  dget "perturb_stats" (st_cache s') = Some (CStats stats) -> ~ In (param_move sq) (map fst stats) -> agrees s'.
Proof.
  intros Hll Hset Hfl Hc Hin. pose proof (chain_settled _ _ _ _ _ _ _ _ Hll Hset Hc) as [((Hok & _) & _) _].
  apply C18_structure_partial; [apply (so_nodup _ _ _ Hok)|].
  intros k p k' v c' H1 H2 H3. exfalso.
  pose proof (dget_in_nodup _ _ _ (so_nodup _ _ _ Hok) H1) as Eg.
  pose proof (in_dkeys _ _ _ H1) as Hd. apply (so_keys _ _ _ Hok) in Hd. destruct Hd as [(sp & Hsp & Esp)|(tg & Htg & Hu & Etg)].
  - destruct (so_spaces _ _ _ Hok sp Hsp) as (p' & E' & W). unfold st_get in E'. rewrite <- Esp in E'. rewrite Eg in E'. injection E' as <-.
    assert (L : local_ok sp p) by (apply W; constructor). destruct L as (_ & (Hk & _ & Hp & _) & Hsi & _).
    assert (Np : NoDup (dkeys (ps_vals p))).
    { apply sane_nodup. eapply wf_sane; [apply (se_valid _ _ Hset sp Hsp)|exact W]. }
    pose proof (dget_in_nodup _ _ _ Np H2) as Ev. pose proof (in_dkeys _ _ _ H2) as Hk'. rewrite Hk in Hk'.
    unfold names in Hk'. apply in_app_or in Hk'. destruct Hk' as [Hk'|Hk'].
    + unfold is_disc in Hk'. unfold sites_ok in Hsi. destruct (sp_cls sp); [destruct Hk'| |]; destruct Hk' as [<-|[]];
        destruct Hsi as (l & El & _); unfold ps_get in El; rewrite El in Ev; injection Ev as <-; destruct H3.
    + apply in_map_iff in Hk'. destruct Hk' as ([k2 [pr|s2]] & E2 & Hin2); cbn in E2; subst k2; [|eapply Hfl; eauto].
      destruct (Hp _ _ Hin2) as (l & El). unfold ps_get in El. rewrite El in Ev. injection Ev as <-. destruct H3.
  - destruct (so_noise _ _ _ Hok tg Htg Hu) as (d & Ed & _). unfold st_get in Ed. rewrite <- Etg in Ed. congruence.
Qed.
(** The hypotheses are met: a birth in the example chain, and a chain without nested spaces. *)
Example C18_structure_case : exists tr tr' stats,
  NoDup (dkeys (st_vals ex_start)) /\
  (forall k p k' v c, In (k, EPS p) (st_vals ex_start) -> In (k', v) (ps_vals p) -> In c (states_in v) -> in_step c) /\
  psp_perturb (fst (own_psp ex_vor)) ex_start tr = Ret (ex_next, Fin 0) tr' /\
  dget "perturb_stats" (st_cache ex_next) = Some (CStats stats) /\ ~ In (param_move ex_vor) (map fst stats).
Proof.
  eexists _, [], _. split; [|split; [|split; [|split]]].
  - cbn. repeat constructor; cbn; intuition discriminate.
  - cbn. intros k p k' v c [[= <- <-]|[[=]|[]]] Hv Hc.
    destruct Hv as [[= <- <-]|[[= <- <-]|[[= <- <-]|[]]]]; cbn in Hc; try tauto.
    destruct Hc as [<-|[]]. constructor; [intros k v E; exact E|]. intros k v q [[= <- <-]|[]] [].
  - apply ex_birth.
  - reflexivity.
  - cbn. intros [E|[]]. discriminate E.
Qed.
Example C18_flat_case : exists c, flat [ex_2d] /\ chain_of [ex_2d] ex_2d_ll true c.
Proof.
  destruct ex_2d_chain as (c & H & _). exists c. split; auto.
  intros sp k s' [<-|[]]. cbn. intros [E|[]]. discriminate E.
Qed.

(** ** Moves of parameter values
    ParamPerturbation calls [new_ps_state.param_values.update(...)]: whatever is drawn, the attributes
    of the new state show the values of the current one. *)
Theorem C18_old_values_shown l p tr p' r tr' k a : (forall q, In q l -> exists pr, q = PPrior pr) -> sane p ->
  param_perturb l p tr = Ret (p', r) tr' -> ps_get k p = Some (Arr a) -> ps_attr k p' = Some (Arr a).
Proof.
  intros Hl Hs H E. unfold param_perturb in H. mb H as i Ei. apply perturb_priors_form in H; auto.
  destruct H as (c & new & Ec & -> & _). unfold ps_attr, ps_get in *. cbn [ps_attrs].
  inversion Hs as [n vals attrs cache N V _]; subst. rewrite ps_copy_eq in Ec.
  apply rbind_ok in Ec. destruct Ec as (vals' & Hv & Ec). apply rbind_ok in Ec. destruct Ec as (q & Hq & Ec). injection Ec as <-.
  apply rmap_ok in Hv. pose proof (copy_keys _ _ Hv) as Hk. apply mk_ps_ok in Hq; [|now rewrite Hk]. destruct Hq as [-> _].
  cbn [ps_attrs ps_vals] in *. clear - Hv E.
  induction Hv as [|[k0 v0] b l l' H1 H2 IH]; [discriminate|].
  apply rbind_ok in H1. destruct H1 as (v1 & E1 & E'). injection E' as <-. cbn [fst snd] in *. cbn [dget] in *.
  destruct (String.eqb k k0); auto. injection E as ->. cbn in E1. now injection E1 as <-.
Qed.
Definition ex_p3 : psstate :=
  PS 2 [("discretization", Arr [5; 8]); ("v", Arr [21/10; 5/2]); ("in", Lst [ex_inner (1/2); ex_inner 1])]
       [("discretization", Arr [5; 8]); ("v", Arr [2; 5/2]); ("in", Lst [ex_inner (1/2); ex_inner 1])] [].
Local Opaque Rleb Rltb Reqb py_int.
Lemma ex_moved tr : param_perturb (priors_of (sp_params ex_vor)) ex_p1 (DInt 0 :: DZ 1 :: tr) = Ret (ex_p3, Fin 0) tr.
Proof. run. same. Qed.
Example C18_old_values_case : sane ex_p1 /\ ps_get "v" ex_p1 = Some (Arr [2; 5/2]) /\
  param_perturb (priors_of (sp_params ex_vor)) ex_p1 [DInt 0; DZ 1] = Ret (ex_p3, Fin 0) [] /\
  ps_attr "v" ex_p3 = Some (Arr [2; 5/2]) /\ ps_get "v" ex_p3 = Some (Arr [21/10; 5/2]).
Proof.
  split; [|split; [reflexivity|split; [apply ex_moved|split; reflexivity]]].
  assert (In1 : forall w, sane (ex_inner w)).
  { intros w. constructor; [repeat constructor; cbn; tauto| |].
    - intros k v [[= <- <-]|[]]. split; [reflexivity|discriminate].
    - intros k v q [[= <- <-]|[]] []. }
  constructor.
  - cbn. repeat constructor; cbn; intuition discriminate.
  - intros k v [[= <- <-]|[[= <- <-]|[[= <- <-]|[]]]]; split; try reflexivity; discriminate.
  - intros k v q [[= <- <-]|[[= <- <-]|[[= <- <-]|[]]]] Hq; cbn in Hq; try tauto.
    destruct Hq as [<-|[<-|[]]]; apply In1.
Qed.
Definition ex_after : state :=
  mkState [("vor", EPS ex_p3); ("d", ENoise (mkNoise 1 (Some 0)))]
          [("vor", EPS ex_p3); ("d", ENoise (mkNoise 1 (Some 0)))] 1
          [("perturb_stats", CStats [("ParamPerturbation(vor.v)", 1)])] [].
Lemma ex_moved_ps tr :
  psp_perturb_ps ex_own ex_p1 (DU (1/2) :: DInt 0 :: DZ 1 :: tr) = Ret (ex_p3, Fin 0, "ParamPerturbation(vor.v)") tr.
Proof.
  assert (Hc : forall tr, choices 4 [1; 1; 3; 1] (DU (1/2) :: tr) = Ret 2%nat tr). { intros. run. same. }
  unfold psp_perturb_ps. unfold ex_own at 1 2, bind at 1. change (length (psp_funcs _)) with 4%nat.
  change (map snd _) with [1; 1; 3; 1]. rewrite Hc.
  unfold bind at 1. cbn [psp_funcs ex_own].
  change (idx (own_elems ex_vor) 2) with (Ok (EParam "vor" (priors_of (sp_params ex_vor)), 3)).
  cbn [lift]. unfold ret at 1. cbn iota beta. cbn [fst elem_perturb]. unfold bind at 1. rewrite ex_moved. reflexivity.
Qed.
Lemma ex_moved_state tr :
  psp_perturb ex_own (with_pred ex_next) (DInt 0 :: DU (1/2) :: DInt 0 :: DZ 1 :: tr) = Ret (ex_after, Fin 0) tr.
Proof.
  unfold psp_perturb.
  assert (H1 : exists c, st_copy false (with_pred ex_next) = Ok c /\ c = mkState (st_vals ex_next) (st_attrs ex_next) 1 [] []).
  { eexists. split; [evalR; reflexivity|reflexivity]. }
  destruct H1 as (? & H1 & ->). rewrite H1. unfold lift at 1, bind at 1, ret at 1.
  assert (H2 : count_loop (st_size (with_pred ex_next)) (psp_space ex_own) [st_children (with_pred ex_next)] 0 = Ok 1%nat) by reflexivity.
  rewrite H2. unfold lift at 1, bind at 1, ret at 1. unfold bind at 1.
  change (randint_below 1 (DInt 0 :: DU (1/2) :: DInt 0 :: DZ 1 :: tr)) with (Ret 0%nat (DU (1/2) :: DInt 0 :: DZ 1 :: tr)).
  cbn iota beta.
  change (st_children (with_pred ex_next)) with [("vor", COne ex_p1); ("d", CNone)].
  assert (H3 : exists n, st_size (with_pred ex_next) = S n). { eexists. reflexivity. }
  destruct H3 as (n & ->).
  cbn [walk_loop w_queue Nat.leb w_i fst snd walk_node].
  change (String.eqb "vor" (psp_space ex_own)) with true. cbn iota. cbn [w_i Nat.eqb].
  unfold bind at 1 2 3. rewrite ex_moved_ps. cbn iota beta. unfold ret at 1.
  cbn [w_queue w_new w_i w_ratio w_stats]. destruct n; evalR; same.
Qed.
(** A state that a chain hands to the forward function, with two different answers for the
    same parameter: the item is the proposed value, the attribute the old one. *)
Theorem C18_refuted : exists spaces ll c s p new old,
  loglike_init (Some [ATarget ex_t]) (Some [AFwd (mkFwd ex_fwd true)]) None None = Ok ll /\
  setup_ok spaces (ll_targets ll) /\ chain_of spaces ll true c /\
  (exists ty f tr, In (ty, f) (e_funcs (inversion_env spaces ll true)) /\ f (c_cur c) tr = Ret (s, Fin 0) []) /\
  st_get "vor" s = Some (EPS p) /\ ps_get "v" p = Some (Arr new) /\ ps_attr "v" p = Some (Arr old) /\ new <> old.
Proof.
  destruct ex_chain as (c & Hc & H1 & H2).
  exists [ex_vor], ex_ll, c, ex_after, ex_p3, [21/10; 5/2], [2; 5/2].
  split; [apply ex_init|]. split; [apply ex_setup|]. split; [exact Hc|]. split.
  - exists (psp_name ex_own), (psp_perturb ex_own), [DInt 0; DU (1/2); DInt 0; DZ 1]. split; [|rewrite H1; apply ex_moved_state].
    cbn. right. left. reflexivity.
  - split; [reflexivity|]. split; [reflexivity|]. split; [reflexivity|]. intros E. injection E as E. lra.
Qed.

(** ** Moves of the noise
    NoisePerturbation does the same one level higher. *)
Theorem C18_noise_partial spaces ts fs ratio func ll save c tr s' r tr' : loglike_init ts fs ratio func = Ok ll ->
  setup_ok spaces (ll_targets ll) -> chain_of spaces ll save c ->
  noise_perturb (hier_of (ll_targets ll)) (c_cur c) tr = Ret (s', r) tr' ->
  (* parameter spaces agree at all levels *)
  (forall k p, st_get k s' = Some (EPS p) -> st_attr k s' = Some (EPS p) /\ in_step p) /\
  (* the attribute of a target is the current noise, not the proposed one *)
  (forall k d, st_get k (c_cur c) = Some (ENoise d) -> st_attr k s' = Some (ENoise d)).
Proof.
  intros Hll Hset Hc H. pose proof (chain_settled _ _ _ _ _ _ _ _ Hll Hset Hc) as [((Hok & _) & _ & Hcalm) _].
  destruct (noise_form _ _ _ _ _ _ _ Hset Hok Hcalm H) as (A & B & C). split; auto.
  intros k p E. split; auto. eapply B. apply dget_some_in. exact E.
Qed.
Theorem C18_noise_refuted : exists spaces ll c s new old,
  loglike_init (Some [ATarget ex_t]) (Some [AFwd (mkFwd ex_fwd true)]) None None = Ok ll /\
  setup_ok spaces (ll_targets ll) /\ chain_of spaces ll true c /\
  (exists ty f tr, In (ty, f) (e_funcs (inversion_env spaces ll true)) /\ f (c_cur c) tr = Ret (s, Fin 0) []) /\
  st_get "d" s = Some (ENoise new) /\ st_attr "d" s = Some (ENoise old) /\ dn_std new <> dn_std old.
Proof.
  destruct ex_chain as (c & Hc & H1 & H2).
  assert (T : perturb_target ex_t (mkNoise 1 (Some 0)) [DZ 1; DZ 1] = Ret (mkNoise (11/10) (Some (1/10))) []).
  { run. same. }
  assert (C : exists s, st_copy true (with_pred ex_next) = Ok s /\ st_vals s = st_vals ex_next /\ st_attrs s = st_attrs ex_next).
  { eexists. split; [evalR; reflexivity|split; reflexivity]. }
  destruct C as (s0 & C & C1 & C2).
  exists [ex_vor], ex_ll, c, (st_update_vals [("d", ENoise (mkNoise (11/10) (Some (1/10))))] s0),
    (mkNoise (11/10) (Some (1/10))), (mkNoise 1 (Some 0)).
  split; [apply ex_init|]. split; [apply ex_setup|]. split; [exact Hc|]. split.
  - exists (noise_name [ex_t]), (noise_perturb [ex_t]), [DZ 1; DZ 1]. split.
    + cbn. right. right. left. reflexivity.
    + rewrite H1. unfold noise_perturb. cbn [perturb_targets].
      change (noise_of ex_t (with_pred ex_next)) with (Ok (mkNoise 1 (Some 0))).
      cbn [lift]. unfold bind at 1 2, ret at 1. rewrite (bind_ret _ _ _ _ _ T). unfold ret at 1.
      unfold bind at 1. rewrite C. reflexivity.
  - unfold st_get, st_attr, st_update_vals. cbn [st_vals st_attrs]. rewrite C1, C2.
    split; [reflexivity|]. split; [reflexivity|]. cbn. lra.
Qed.

(** * C59: copies and items *)
(** Copies: never fail, show the same values at all levels, same number of dimensions and cache. *)
Theorem C59_space_copy p : sane p -> exists q, ps_copy p = Ok q /\ view q = view p /\ ps_cache q = ps_cache p /\
  ps_attrs q = ps_vals q.
Proof.
  intros Hs. destruct (ps_copy_spec p Hs) as (q & H1 & H2 & H3 & _ & H4 & _). exists q. auto.
Qed.
Theorem C59_state_copy b s : sane_state s -> exists s', st_copy b s = Ok s' /\ view_state s' = view_state s /\
  st_temp s' = st_temp s /\ st_extra s' = [] /\ st_attrs s' = st_vals s' /\
  (b = false -> st_cache s' = []) /\ (forall k e, In (k, e) (st_cache s') -> k = "dpred" /\ In (k, e) (st_cache s)).
Proof.
  intros Hs. destruct (st_copy_any b s Hs) as (vals & c & H & Hsame & Hb). eexists. split; [exact H|].
  split; [exact Hsame|]. do 3 (split; [reflexivity|]). split; [exact Hb|].
  intros k e Hin. cbn in Hin. unfold st_copy in H. apply rbind_ok in H. destruct H as (v & Ev & H). injection H as H.
  assert (Hc : forall vals0 t c0, st_cache (mk_state vals0 t c0) = c0).
  { intros. unfold mk_state. assert (G : forall l s0, st_cache (fold_left (fun s1 ke => st_set (fst ke) (snd ke) s1) l s0) = st_cache s0).
    { induction l as [|x l IH]; intros s0; cbn [fold_left]; [reflexivity|]. now rewrite IH. }
    apply G. }
  apply (f_equal st_cache) in H. rewrite Hc in H. cbn [st_cache] in H. subst c. destruct b; [|destruct Hin].
  apply filter_In in Hin. destruct Hin as [Hin E]. cbn in E. apply String.eqb_eq in E. auto.
Qed.
Example C59_copy_case : sane_state ex_next /\ view_state ex_next <> [].
Proof.
  split; [|discriminate]. split; [cbn; repeat constructor; cbn; intuition discriminate|].
  intros k p [[= <- <-]|[[=]|[]]]. apply C18_old_values_case.
Qed.

(** What a dictionary of results lists for a state: its dimensions, then every parameter once, in
    order, under "<space>.<parameter>"; nested states as lists of dictionaries of the same kind. *)
Inductive listed : string -> psstate -> dict ovalue -> Prop :=
| listed_intro name p os :
    Forall2 (fun kv o => listed_value (name ++ "." ++ fst kv) (snd kv) o) (ps_vals p) os ->
    listed name p ((name ++ ".n_dimensions", OInt (ps_n p)) ::
                   combine (map (fun kv => name ++ "." ++ fst kv) (ps_vals p)) os)
with listed_value : string -> value -> ovalue -> Prop :=
| listed_array key v : (forall l, v <> Lst l) -> listed_value key v (OArr v)
| listed_states key l ds : Forall2 (listed key) l ds -> listed_value key (Lst l) (OList ds).
(** No parameter is called "n_dimensions", at any level. *)
Inductive plain_names : psstate -> Prop :=
| plain_names_intro p : ~ In "n_dimensions" (dkeys (ps_vals p)) ->
    (forall k l c, In (k, Lst l) (ps_vals p) -> In c l -> plain_names c) -> plain_names p.
Lemma append_inj (a b c : string) : a ++ b = a ++ c -> b = c.
Proof. induction a; cbn; intros H; auto. injection H as H. auto. Qed.
Lemma fold_fresh {A B} (key : A -> string) (f : A -> B) l : forall acc, NoDup (dkeys acc ++ map key l)%list ->
  fold_left (fun d a => dset (key a) (f a) d) l acc = (acc ++ map (fun a => (key a, f a)) l)%list.
Proof.
  induction l as [|a l IH]; intros acc Hn; cbn [fold_left map]; [now rewrite app_nil_r|].
  cbn [map] in Hn. rewrite dset_fresh.
  - rewrite IH; [now rewrite <- app_assoc|]. unfold dkeys in *. rewrite map_app. cbn [map fst]. rewrite <- app_assoc. exact Hn.
  - apply NoDup_remove_2 in Hn. intros Hin. apply Hn. apply in_or_app. auto.
Qed.
Lemma todict_flat name p : NoDup (dkeys (ps_vals p)) -> ~ In "n_dimensions" (dkeys (ps_vals p)) ->
  ps_todict name p = (name ++ ".n_dimensions", OInt (ps_n p)) ::
    map (fun kv => (name ++ "." ++ fst kv, show_value (name ++ "." ++ fst kv) (snd kv))) (ps_vals p) /\
  NoDup (dkeys (ps_todict name p)).
Proof.
  intros Hn Hd. destruct p as [n vals attrs cache]. cbn [ps_vals ps_n] in *. rewrite todict_eq.
  assert (K : NoDup (dkeys [((name ++ ".n_dimensions")%string, OInt n)] ++ map (fun kv : string * value => (name ++ "." ++ fst kv)%string) vals)%list).
  { cbn. constructor.
    - intros Hin. apply in_map_iff in Hin. destruct Hin as ([k v] & E & Hin). cbn in E.
      apply append_inj in E. injection E as E. apply Hd. rewrite <- E. eapply in_dkeys; eauto.
    - clear - Hn. induction vals as [|[k v] t IH]; cbn; constructor.
      + intros Hin. apply in_map_iff in Hin. destruct Hin as ([k' v'] & E & Hin). cbn in E. apply append_inj in E. injection E as ->.
        inversion Hn as [|? ? H1 H2]; subst. apply H1. eapply in_dkeys; eauto.
      + apply IH. now inversion Hn. }
  rewrite (fold_fresh (fun kv : string * value => name ++ "." ++ fst kv) (fun kv => show_value (name ++ "." ++ fst kv) (snd kv))) by exact K.
  split; [reflexivity|]. unfold dkeys in *. rewrite map_app, map_map. exact K.
Qed.
Theorem C59_todict p : sane p -> plain_names p -> forall name, listed name p (ps_todict name p) /\ NoDup (dkeys (ps_todict name p)).
Proof.
  induction p as [n vals attrs cache IH] using psstate_ind'. intros Hs Hp name.
  inversion Hs as [? ? ? ? N _ C]; subst. inversion Hp as [? D E]; subst. cbn [ps_vals] in *.
  destruct (todict_flat name (PS n vals attrs cache) N D) as [F G]. split; [|exact G]. rewrite F.
  cbn [ps_vals ps_n].
  replace (map (fun kv => (name ++ "." ++ fst kv, show_value (name ++ "." ++ fst kv) (snd kv))) vals) with
    (combine (map (fun kv => name ++ "." ++ fst kv) vals) (map (fun kv : string * value => show_value (name ++ "." ++ fst kv) (snd kv)) vals))
    by (clear; induction vals as [|[k v] t IHt]; [reflexivity|]; cbn [map combine fst snd]; now rewrite IHt).
  apply (listed_intro name (PS n vals attrs cache)). cbn [ps_vals]. clear F G D N Hs Hp.
  assert (IH' : forall k v, In (k, v) vals -> listed_value (name ++ "." ++ k) v (show_value (name ++ "." ++ k) v)).
  { intros k v Hin. destruct v as [l|l|l|l]; cbn [show_value]; try (constructor; discriminate). constructor.
    assert (Q : forall q, In q l -> listed (name ++ "." ++ k) q (ps_todict (name ++ "." ++ k) q)).
    { intros q Hq. eapply (IH k (Lst l) q); [exact Hin|exact Hq|eapply C; [exact Hin|exact Hq]|eapply E; [exact Hin|exact Hq]]. }
    clear - Q. induction l as [|q l IHl]; cbn [map]; constructor; [apply Q; now left|apply IHl; intros; apply Q; now right]. }
  clear - IH'. induction vals as [|[k v] t IHv]; cbn [map fst snd]; constructor.
  - apply IH'. now left.
  - apply IHv. intros; apply IH'; now right.
Qed.
(** A name without a dot. *)
Definition dotless (s : string) : Prop := forall a b, s <> a ++ "." ++ b.
Lemma dotless_key a : dotless a -> forall b k k', dotless b -> a ++ "." ++ k = b ++ "." ++ k' -> a = b /\ k = k'.
Proof.
  induction a as [|c a IH]; intros Ha [|c' b] k k' Hb E; cbn in E.
  - injection E as ->. auto.
  - injection E as <- E. exfalso. apply (Hb "" b). reflexivity.
  - injection E as -> E. exfalso. apply (Ha "" a). reflexivity.
  - injection E as -> E. destruct (IH (fun x y Hx => Ha (String c' x) y (f_equal (String c') Hx)) b k k') as [-> ->]; auto.
    intros x y Hx. apply (Hb (String c' x) y). cbn. now f_equal.
Qed.
Definition entry_items (ke : string * ModelState.entry) : dict ovalue :=
  match snd ke with
  | EPS p => ps_todict (fst ke) p
  | ENoise d => ((fst ke ++ ".std", ONum (dn_std d)) ::
                 match dn_corr d with Some r => [(fst ke ++ ".correlation", ONum r)] | None => [] end)
  end.
(** items(): the lists of all entries, one after the other, and no key twice. *)
Theorem C59_items s : sane_state s -> st_extra s = [] -> (forall k, In k (dkeys (st_vals s)) -> dotless k) ->
  (forall k p, In (k, EPS p) (st_vals s) -> plain_names p) ->
  st_items s = flat_map entry_items (st_vals s) /\ NoDup (dkeys (st_items s)).
Proof.
  intros [Hn Hs] Hx Hd Hp. unfold st_items. rewrite Hx. unfold dupdate at 1 3. cbn [fold_left].
  assert (KE : forall ke, In ke (st_vals s) -> NoDup (dkeys (entry_items ke)) /\
    forall k, In k (dkeys (entry_items ke)) -> exists x, k = fst ke ++ "." ++ x).
  { intros [name [p|d]] Hin; unfold entry_items; cbn [fst snd].
    - pose proof (Hs _ _ Hin) as Sp. pose proof (Hp _ _ Hin) as Pp.
      destruct (C59_todict p Sp Pp name) as [_ G]. split; auto.
      inversion Sp as [? ? ? ? N _ C]; subst. inversion Pp as [? D E]; subst.
      destruct (todict_flat name (PS n vals attrs cache) N D) as [-> _]. unfold dkeys. cbn [map fst]. rewrite map_map. cbn [fst].
      intros k [<-|Hk]; [now exists "n_dimensions"|]. apply in_map_iff in Hk. destruct Hk as ([k' v] & <- & _). eauto.
    - split.
      + destruct (dn_corr d); cbn; repeat constructor; cbn; try tauto. intros [E|[]]. apply append_inj in E. discriminate.
      + intros k Hk. cbn in Hk. destruct Hk as [<-|Hk]; [now exists "std"|].
        destruct (dn_corr d); [|destruct Hk]. destruct Hk as [<-|[]]. now exists "correlation". }
  assert (G : forall l acc, (forall ke, In ke l -> In ke (st_vals s)) -> NoDup (dkeys l) ->
    NoDup (dkeys acc) -> (forall k ke x, In k (dkeys acc) -> In ke l -> k <> fst ke ++ "." ++ x) ->
    fold_left (fun acc ke => dupdate acc match snd ke with EPS p => ps_todict (fst ke) p | ENoise d => noise_todict (fst ke) d end) l acc
      = (acc ++ flat_map entry_items l)%list /\ NoDup (dkeys (acc ++ flat_map entry_items l)%list)).
  { induction l as [|ke l IH]; intros acc Hsub Hl Ha Hk; cbn [fold_left flat_map]; [rewrite app_nil_r; auto|].
    destruct (KE ke (Hsub _ (or_introl eq_refl))) as [K1 K2].
    assert (E : dupdate acc match snd ke with EPS p => ps_todict (fst ke) p | ENoise d => noise_todict (fst ke) d end
       = (acc ++ entry_items ke)%list /\ NoDup (dkeys (acc ++ entry_items ke)%list)).
    { change (match snd ke with EPS p => ps_todict (fst ke) p | ENoise d => noise_todict (fst ke) d end) with (entry_items ke).
      assert (Nd : NoDup (dkeys acc ++ map fst (entry_items ke))%list).
      { unfold dkeys in *. clear - Ha K1 K2 Hk. induction acc as [|a acc IHa]; cbn; auto. inversion Ha as [|? ? A B]; subst. constructor.
        - intros Hin. apply in_app_or in Hin. destruct Hin as [Hin|Hin]; auto.
          destruct (K2 _ Hin) as (x & Ex). eapply Hk; [left; reflexivity|left; reflexivity|exact Ex].
        - apply IHa; auto. intros k ke' x Hin. eapply Hk. now right. }
      unfold dupdate. split.
      - change (fold_left (fun m kv => dset (fst kv) (snd kv) m) (entry_items ke) acc = (acc ++ entry_items ke)%list).
        rewrite (fold_fresh fst snd) by exact Nd. f_equal. rewrite <- (map_id (entry_items ke)) at 2. apply map_ext. now intros [].
      - unfold dkeys in *. now rewrite map_app. }
    destruct E as [E1 E2]. rewrite E1.
    assert (Hl' : NoDup (dkeys l)) by (now inversion Hl).
    destruct (IH (acc ++ entry_items ke)%list) as [R1 R2]; auto; [intros; apply Hsub; now right| |].
    - intros k ke' x Hin Hke E. unfold dkeys in Hin. rewrite map_app in Hin. apply in_app_or in Hin. destruct Hin as [Hin|Hin].
      + eapply Hk; [exact Hin|right; exact Hke|exact E].
      + destruct (K2 _ Hin) as (y & Ey). rewrite E in Ey. apply dotless_key in Ey.
        * destruct Ey as [Ey _]. inversion Hl as [|? ? A B]; subst. apply A. rewrite <- Ey. now apply in_map.
        * apply Hd. apply in_map_iff. exists ke'. split; auto. apply Hsub. now right.
        * apply Hd. apply in_map_iff. exists ke. split; auto. apply Hsub. now left.
    - rewrite R1. rewrite <- app_assoc in *. auto. }
  destruct (G (st_vals s) [] (fun _ H => H) Hn (NoDup_nil _) ltac:(intros k ke x [])) as [G1 G2].
  rewrite G1. auto.
Qed.
(** Names with dots: the parameter "b.c" of the space "a" and the parameter "c" of the space "a.b"
    are listed under the same key, so one of them is lost. *)
Definition dot_ps (k : string) (x : R) : psstate := PS 1 [(k, Arr [x])] [(k, Arr [x])] [].
Lemma dot_sane k x : sane (dot_ps k x).
Proof.
  constructor.
  - cbn. constructor; [intros []|constructor].
  - intros k' v [[= <- <-]|[]]. split; [reflexivity|discriminate].
  - intros k' v q [[= <- <-]|[]] [].
Qed.
Theorem C59_items_refuted : exists s, sane_state s /\ st_extra s = [] /\
  (exists p q, st_get "a" s = Some (EPS p) /\ st_get "a.b" s = Some (EPS q) /\
     ps_get "b.c" p = Some (Arr [1]) /\ ps_get "c" q = Some (Arr [2])) /\
  (forall k, ~ In (k, OArr (Arr [1])) (st_items s)).
Proof.
  exists (mkState [("a", EPS (dot_ps "b.c" 1)); ("a.b", EPS (dot_ps "c" 2))] [] 1 [] []).
  split; [|split; [reflexivity|split]].
  - split; [cbn; repeat constructor; cbn; intuition discriminate|].
    intros k p [[= <- <-]|[[= <- <-]|[]]]; apply dot_sane.
  - eexists _, _. repeat split; reflexivity.
  - intros k. cbn. intros [E|[E|[E|[]]]]; try discriminate E. injection E as _ E. lra.
Qed.
(** A parameter called "n_dimensions" takes the place of the number of dimensions. *)
Theorem C59_dimensions_refuted : exists p, sane p /\ ps_n p = 1%nat /\
  forall name k n, ~ In (k, OInt n) (ps_todict name p).
Proof.
  exists (dot_ps "n_dimensions" 5). split; [|split; [reflexivity|]].
  - apply dot_sane.
  - intros name k n. unfold dot_ps. rewrite todict_eq. cbn [fold_left fst snd]. unfold dset. cbn [dget].
    change (name ++ "." ++ "n_dimensions") with (name ++ ".n_dimensions"). rewrite String.eqb_refl.
    cbn. intros [E|[]]. discriminate E.
Qed.
Example C59_items_case : sane_state ex_next /\ st_extra ex_next = [] /\
  (forall k, In k (dkeys (st_vals ex_next)) -> dotless k) /\ (forall k p, In (k, EPS p) (st_vals ex_next) -> plain_names p).
Proof.
  split; [apply C59_copy_case|]. split; [reflexivity|]. split.
  - assert (V : forall s, (forall n, String.get n s <> Some "."%char) -> dotless s).
    { intros s H a b ->. apply (H (String.length a)). induction a; cbn; auto. apply IHa. intros n. apply (H (S n)). }
    cbn. intros k [<-|[<-|[]]]; apply V; intros [|[|[|n]]]; cbn; try discriminate; destruct n; discriminate.
  - intros k p [[= <- <-]|[[=]|[]]]. constructor; [cbn; intuition discriminate|].
    intros k l c Hin Hc. cbn in Hin. destruct Hin as [[=]|[[=]|[[= <- <-]|[]]]].
    destruct Hc as [<-|[<-|[]]]; (constructor; [cbn; intuition discriminate|intros k l c [[=]|[]]]).
Qed.
