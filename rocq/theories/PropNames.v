(** C63: which names of parameters, parameter spaces and targets leave a state intact.

    The property (any distinct names can be used) is false: fields, methods and parameters
    share one namespace.  Proved here: exactly which names are harmless. *)
From Verif Require Import Base ModelState ModelNames SpecState ProofUtils1D ProofChain ProofChainC ProofInversion ProofState ProofRunC ProofNames.
Local Open Scope R_scope.
Local Open Scope string_scope.

(** * Parameter spaces *)

(** What a user of a ParameterSpaceState relies on: fields hold what the documentation says,
    methods can be called, and every parameter is an attribute. *)
Definition space_intact (n : nat) (vals : dict pval) (o : pyobj) : Prop :=
  dget "n_dimensions" (odict o) = Some (SInt n) /\
  dget "param_values" (odict o) = Some (SMap vals) /\
  dget "cache" (odict o) = Some (SMap []) /\
  (forall m, In m ps_methods -> dget m (odict o) = None) /\
  (forall k v, In (k, v) vals -> dget k (odict o) = Some (SVal v)).

(** Values that the constructor takes: one per dimension, distinct names. *)
Definition good_values (n : nat) (vals : dict pval) : Prop :=
  NoDup (dkeys vals) /\ (forall k v, In (k, v) vals -> pval_len v = n /\ v <> VLst []).

Definition fresh_obj (n : nat) (vals attrs : dict pval) : pyobj :=
  Obj (("n_dimensions", SInt n) :: ("param_values", SMap vals) :: ("cache", SMap []) :: dmap SVal attrs).
Lemma fresh_method n vals attrs m : (forall k, In k (dkeys attrs) -> free k) -> In m ps_methods ->
  dget m (odict (fresh_obj n vals attrs)) = None.
Proof.
  intros H Hm. assert (HA : dget m (dmap SVal attrs) = None).
  { apply dget_none_keys. rewrite dkeys_dmap. intros Hk. apply (H _ Hk).
    unfold ps_reserved. rewrite !in_app_iff. auto. }
  cbn in Hm. repeat (destruct Hm as [<-|Hm]; [exact HA|]). destruct Hm.
Qed.
Lemma fresh_set n vals attrs k v : free k -> (forall k, In k (dkeys attrs) -> free k) -> v <> VLst [] ->
  o_set k v (fresh_obj n vals attrs) = Ok (fresh_obj n (dset k v vals) (dset k v attrs)).
Proof.
  intros Hk Ha Hv. unfold o_set, o_call. rewrite fresh_method; [|exact Ha|meth].
  assert (HB : o_set_body k v (fresh_obj n vals attrs) =
    o_setattr k v (Obj (dset "param_values" (SMap (dset k v vals)) (odict (fresh_obj n vals attrs))))).
  { unfold o_set_body. cbn. destruct v as [| | |[|]]; auto. congruence. }
  rewrite HB. unfold o_setattr. rewrite free_refuses by exact Hk. f_equal.
  unfold fresh_obj. cbn [odict]. f_equal. cbn [dset String.eqb Ascii.eqb Bool.eqb].
  destruct (String.eqb_spec k "n_dimensions"); [exfalso; subst; apply Hk; res|].
  destruct (String.eqb_spec k "param_values"); [exfalso; subst; apply Hk; res|].
  destruct (String.eqb_spec k "cache"); [exfalso; subst; apply Hk; res|].
  rewrite dset_dmap. reflexivity.
Qed.
Lemma fresh_post n vals todo : forall pre, vals = (pre ++ todo)%list -> good_values n vals ->
  (forall k, In k (dkeys vals) -> free k) ->
  o_post_init todo (fresh_obj n vals pre) = Ok (fresh_obj n vals vals).
Proof.
  induction todo as [|[k v] t IH]; intros pre E [Hn Hl] Hk.
  - rewrite app_nil_r in E. now subst.
  - assert (Hin : In (k, v) vals) by (subst; apply in_or_app; right; now left).
    destruct (Hl k v Hin) as [L1 L2]. cbn [o_post_init].
    change (o_attr "n_dimensions" _) with (Ok (A := slot) (SInt n)). cbn [rbind ne_len].
    rewrite L1, Nat.eqb_refl. cbn [negb].
    rewrite fresh_set; [|apply Hk; eapply in_dkeys; exact Hin| |exact L2].
    2:{ intros k' H'. apply Hk. subst. unfold dkeys in *. rewrite map_app. apply in_or_app. auto. }
    cbn [rbind]. rewrite dset_same by auto. rewrite dset_fresh.
    + apply IH; [rewrite <- app_assoc; exact E|split; auto|exact Hk].
    + subst. unfold dkeys in *. rewrite map_app in Hn. cbn in Hn. apply NoDup_remove_2 in Hn.
      intros H. apply Hn. apply in_or_app. auto.
Qed.
Lemma post_refused todo : forall o o', o_post_init todo o = Ok o' -> forall k, In k (dkeys todo) -> ~ In k refused.
Proof.
  induction todo as [|[k v] t IH]; intros o o' H k' Hk'; [destruct Hk'|].
  cbn [o_post_init] in H. apply rbind_ok in H. destruct H as (s & _ & H).
  apply rbind_ok in H. destruct H as (b & _ & H). destruct b; [discriminate|].
  apply rbind_ok in H. destruct H as (o1 & HS & H).
  destruct Hk' as [E|Hk']; [cbn in E; subst k'|exact (IH _ _ H _ Hk')].
  unfold o_set, o_call in HS. destruct (dget "set_param_values" (odict o)); [discriminate|].
  unfold o_set_body in HS. apply refuses_spec.
  destruct (py_refuses k) as [e|] eqn:E; auto. exfalso.
  assert (HF : (s <-? o_attr "param_values" o ;;
      match s with
      | SMap d => o_setattr k v (Obj (dset "param_values" (SMap (dset k v d)) (odict o)))
      | SVal (VLst _) => Raise EType
      | SVal _ => Raise EIndex
      | SInt _ => Raise EType
      end) = Ok o1).
  { destruct v as [| | |[|]]; auto. discriminate. }
  apply rbind_ok in HF. destruct HF as (s1 & _ & HF).
  destruct s1 as [m|m|[| | |]]; try discriminate. unfold o_setattr in HF. rewrite E in HF. discriminate.
Qed.

(** C63 for parameters: the state is intact if and only if no parameter has one of 13 names. *)
Theorem C63_space_partial n vals : good_values n vals ->
  ((exists o, o_new (SInt n) vals = Ok o /\ space_intact n vals o) <->
   (forall k, In k (dkeys vals) -> ~ In k ps_reserved)).
Proof.
  intros Hg. split.
  - intros (o & Ho & H1 & H2 & H3 & H4 & H5) k Hk Hr. cbn [o_new] in Ho.
    pose proof (post_refused _ _ _ Ho k Hk) as HR.
    destruct (dget_keys _ _ Hk) as [v Hv]. apply dget_some_in in Hv. specialize (H5 k v Hv).
    unfold ps_reserved in Hr. rewrite !in_app_iff in Hr. destruct Hr as [Hr|[Hr|Hr]]; [|rewrite H4 in H5 by exact Hr; discriminate|tauto].
    cbn in Hr. destruct Hr as [<-|[<-|[<-|[]]]]; congruence.
  - intros Hk. exists (fresh_obj n vals vals). split; [exact (fresh_post n vals vals [] eq_refl Hg Hk)|].
    repeat split; try reflexivity.
    + intros m Hm. now apply fresh_method.
    + intros k v Hin. destruct Hg as [Hn _].
      assert (Fk : free k) by (apply Hk; eapply in_dkeys; exact Hin).
      unfold fresh_obj. cbn [odict dget].
      destruct (String.eqb_spec k "n_dimensions"); [exfalso; subst; apply Fk; res|].
      destruct (String.eqb_spec k "param_values"); [exfalso; subst; apply Fk; res|].
      destruct (String.eqb_spec k "cache"); [exfalso; subst; apply Fk; res|].
      rewrite dget_dmap, (dget_in_nodup k v vals Hn Hin). reflexivity.
Qed.
Example C63_space_case : good_values 2 [("vs", VArr [1; 2]); ("temperature", VArr [3; 4])] /\
  (forall k, In k (dkeys [("vs", VArr [1; 2]); ("temperature", VArr [3; 4])]) -> ~ In k ps_reserved).
Proof.
  split.
  - split; [repeat constructor; cbn; intuition discriminate|]. intros k v [[= <- <-]|[[= <- <-]|[]]]; split; (reflexivity || discriminate).
  - intros k [<-|[<-|[]]]; nin.
Qed.

(** The model of states used in the other files (ModelState.v) is the one with the namespace
    for all other names, at every level of nesting. *)
Theorem C63_space_model_partial p : free_ps p ->
  (forall k v, free k -> o_set k (upv v) (up p) = rok up (ps_set k v p)) /\
  (forall k, o_get k (up p) = Ok (option_map upv (ps_get k p))) /\
  (forall c v, o_save_cache c (upv v) (up p) = Ok (up (ps_save_cache c v p))) /\
  (forall c, o_saved_in_cache c (up p) = Ok (dmem c (ps_cache p))) /\
  (forall c, o_load_cache c (up p) = match dget c (ps_cache p) with Some v => Ok (upv v) | None => Raise EKey end) /\
  o_copy (up p) = rok up (ps_copy p) /\
  (forall name, o_todict name (up p) = Ok (dmap upo (ps_todict name p))).
Proof.
  intros Hp. inversion Hp as [p' Hv Ha Hq E]; subst p'.
  split; [intros; now apply up_set|]. split; [intros; now apply up_get|].
  split; [intros; now apply up_save|]. split; [intros; now apply up_saved|].
  split; [intros; now apply up_load|]. split; [now apply up_copy|]. intros; now apply up_todict.
Qed.
Definition nested_case : psstate :=
  PS 1 [("v", Arr [1]); ("in", Lst [PS 1 [("w", Arr [2])] [("w", Arr [2])] []])]
       [("v", Arr [1]); ("in", Lst [PS 1 [("w", Arr [2])] [("w", Arr [2])] []])] [("kdtree", Arr [5])].
Example C63_space_model_case : free_ps nested_case /\ exists p', ps_copy nested_case = Ok p'.
Proof.
  split; [|eexists; reflexivity].
  constructor; cbn [ps_vals ps_attrs nested_case].
  - intros k [<-|[<-|[]]]; nin.
  - intros k [<-|[<-|[]]]; nin.
  - intros k v q [[= <- <-]|[[= <- <-]|[]]] Hq; [destruct Hq|]. destruct Hq as [<-|[]].
    constructor; cbn [ps_vals ps_attrs].
    + intros k [<-|[]]; nin.
    + intros k [<-|[]]; nin.
    + intros k v q [[= <- <-]|[]] [].
Qed.

(** A use of every method of the class. *)
Definition exercise_space (k : string) (v : pval) (o : pyobj) : res (bool * pval * option pval * pyobj * dict pout) :=
  o1 <-? o_save_cache "kdtree" v o ;;
  b <-? o_saved_in_cache "kdtree" o1 ;;
  w <-? o_load_cache "kdtree" o1 ;;
  g <-? o_get k o1 ;;
  o2 <-? o_set k v o1 ;;
  o3 <-? o_copy o2 ;;
  d <-? o_todict "space" o3 ;;
  Ok (b, w, g, o3, d).

(** C63 is false: with any of these names for a parameter, the state cannot be made or one of
    its methods raises. *)
Theorem C63_space_refuted k x : In k ps_reserved ->
  ~ exists o r, o_new (SInt 1) [(k, VArr [x])] = Ok o /\ exercise_space k (VArr [x]) o = Ok r.
Proof.
  intros Hk (o & r & Ho & Hr).
  cbn in Hk. repeat (destruct Hk as [<-|Hk];
    [cbv in Ho; try discriminate Ho; injection Ho as <-; cbv in Hr; discriminate Hr|]).
  destruct Hk.
Qed.
(** The same use goes through with another name. *)
Example C63_space_other : exists o r,
  o_new (SInt 1) [("temperature", VArr [5])] = Ok o /\ exercise_space "temperature" (VArr [5]) o = Ok r.
Proof. eexists. eexists. split; [reflexivity|]. vm_compute. reflexivity. Qed.
(** A parameter called "n_dimensions": every copy, hence every proposal, is a TypeError. *)
Theorem C63_n_dimensions_refuted l : (l <> [])%list ->
  exists o, o_new (SInt (length l)) [("n_dimensions", VArr l)] = Ok o /\ o_copy o = Raise EType.
Proof.
  intros _. eexists. split.
  - cbn -[length]. cbn [ne_len pval_len]. rewrite Nat.eqb_refl. cbn. reflexivity.
  - reflexivity.
Qed.

(** * States *)
Definition state_intact (vals : dict sentry) (t : R) (cache : dict centry) (o : sobj) : Prop :=
  dget "param_values" o = Some (TEnts vals) /\
  dget "temperature" o = Some (TNum t) /\
  dget "cache" o = Some (TCache cache) /\
  dget "extra_storage" o = Some (TExtra []) /\
  (forall m, In m st_methods -> dget m o = None) /\
  (forall k e, In (k, e) vals -> dget k o = Some (TEnt e)).

Definition fresh_st (vals : dict sentry) (t : R) (cache : dict centry) (attrs : dict sentry) : sobj :=
  ("param_values", TEnts vals) :: ("temperature", TNum t) :: ("cache", TCache cache) ::
  ("extra_storage", TExtra []) :: dmap TEnt attrs.
Lemma fresh_st_method vals t c attrs m : (forall k, In k (dkeys attrs) -> sfree k) -> In m st_methods ->
  dget m (fresh_st vals t c attrs) = None.
Proof.
  intros H Hm. assert (HA : dget m (dmap TEnt attrs) = None).
  { apply dget_none_keys. rewrite dkeys_dmap. intros Hk. apply (H _ Hk).
    unfold st_reserved. rewrite !in_app_iff. auto. }
  cbn in Hm. repeat (destruct Hm as [<-|Hm]; [exact HA|]). destruct Hm.
Qed.
Ltac sres := cbn [In st_reserved st_fields st_methods refused app]; tauto.
Lemma fresh_st_set vals t c attrs k e : sfree k -> (forall k, In k (dkeys attrs) -> sfree k) ->
  t_set k e (fresh_st vals t c attrs) = Ok (fresh_st (dset k e vals) t c (dset k e attrs)).
Proof.
  intros Hk Ha. unfold t_set, t_call. rewrite fresh_st_method; [|exact Ha|smeth].
  change (t_attr "param_values" _) with (Ok (A := sslot) (TEnts vals)). cbn [rbind].
  unfold t_setattr. rewrite sfree_refuses by exact Hk. f_equal.
  unfold fresh_st. cbn [dset String.eqb Ascii.eqb Bool.eqb].
  destruct (String.eqb_spec k "param_values"); [exfalso; subst; apply Hk; sres|].
  destruct (String.eqb_spec k "temperature"); [exfalso; subst; apply Hk; sres|].
  destruct (String.eqb_spec k "cache"); [exfalso; subst; apply Hk; sres|].
  destruct (String.eqb_spec k "extra_storage"); [exfalso; subst; apply Hk; sres|].
  rewrite dset_dmap. reflexivity.
Qed.
Lemma fresh_st_post vals t c todo : forall pre, vals = (pre ++ todo)%list -> NoDup (dkeys vals) ->
  (forall k, In k (dkeys vals) -> sfree k) ->
  t_post_init todo (fresh_st vals t c pre) = Ok (fresh_st vals t c vals).
Proof.
  induction todo as [|[k e] todo IH]; intros pre E Hn Hk.
  - rewrite app_nil_r in E. now subst.
  - assert (Hin : In (k, e) vals) by (subst; apply in_or_app; right; now left).
    cbn [t_post_init]. rewrite fresh_st_set; [|apply Hk; eapply in_dkeys; exact Hin|].
    2:{ intros k' H'. apply Hk. subst. unfold dkeys in *. rewrite map_app. apply in_or_app. auto. }
    cbn [rbind]. rewrite dset_same by auto. rewrite dset_fresh.
    + apply IH; [rewrite <- app_assoc; exact E|auto|exact Hk].
    + subst. unfold dkeys in *. rewrite map_app in Hn. cbn in Hn. apply NoDup_remove_2 in Hn.
      intros H. apply Hn. apply in_or_app. auto.
Qed.
Lemma st_post_refused todo : forall o o', t_post_init todo o = Ok o' -> forall k, In k (dkeys todo) -> ~ In k refused.
Proof.
  induction todo as [|[k e] t IH]; intros o o' H k' Hk'; [destruct Hk'|].
  cbn [t_post_init] in H. apply rbind_ok in H. destruct H as (o1 & HS & H).
  destruct Hk' as [E|Hk']; [cbn in E; subst k'|exact (IH _ _ H _ Hk')].
  unfold t_set, t_call in HS. destruct (dget "set_param_values" o); [discriminate|].
  apply rbind_ok in HS. destruct HS as (s1 & _ & HS).
  destruct s1; try discriminate. unfold t_setattr in HS. apply refuses_spec.
  destruct (py_refuses k); [discriminate|reflexivity].
Qed.
(** C63 for parameter spaces and targets: 18 names. *)
Theorem C63_state_partial vals t cache : NoDup (dkeys vals) ->
  ((exists o, t_new vals (TNum t) cache = Ok o /\ state_intact vals t cache o) <->
   (forall k, In k (dkeys vals) -> ~ In k st_reserved)).
Proof.
  intros Hn. split.
  - intros (o & Ho & H1 & H2 & H3 & H4 & H5 & H6) k Hk Hr. cbn [t_new] in Ho.
    pose proof (st_post_refused _ _ _ Ho k Hk) as HR.
    destruct (dget_keys _ _ Hk) as [v Hv]. apply dget_some_in in Hv. specialize (H6 k v Hv).
    unfold st_reserved in Hr. rewrite !in_app_iff in Hr.
    destruct Hr as [Hr|[Hr|Hr]]; [|rewrite H5 in H6 by exact Hr; discriminate|tauto].
    cbn in Hr. destruct Hr as [<-|[<-|[<-|[<-|[]]]]]; congruence.
  - intros Hk. exists (fresh_st vals t cache vals). split; [exact (fresh_st_post vals t cache vals [] eq_refl Hn Hk)|].
    repeat split; try reflexivity.
    + intros m Hm. now apply fresh_st_method.
    + intros k e Hin. assert (Fk : sfree k) by (apply Hk; eapply in_dkeys; exact Hin).
      unfold fresh_st. cbn [dget].
      destruct (String.eqb_spec k "param_values"); [exfalso; subst; apply Fk; sres|].
      destruct (String.eqb_spec k "temperature"); [exfalso; subst; apply Fk; sres|].
      destruct (String.eqb_spec k "cache"); [exfalso; subst; apply Fk; sres|].
      destruct (String.eqb_spec k "extra_storage"); [exfalso; subst; apply Fk; sres|].
      rewrite dget_dmap, (dget_in_nodup k e vals Hn Hin). reflexivity.
Qed.
Example C63_state_case : NoDup (dkeys [("n_dimensions", NNoise (mkNoise 1 None)); ("vor", NObj (up nested_case))]) /\
  forall k, In k (dkeys [("n_dimensions", NNoise (mkNoise 1 None)); ("vor", NObj (up nested_case))]) -> ~ In k st_reserved.
Proof.
  split; [repeat constructor; cbn; intuition discriminate|]. intros k [<-|[<-|[]]]; nin.
Qed.
Theorem C63_state_model_partial s : free_state s ->
  (forall k e, sfree k -> t_set k (upe e) (ups s) = Ok (ups (st_set k e s))) /\
  (forall k, t_get k (ups s) = Ok (option_map upe (st_get k s))) /\
  (forall c v, t_save_cache c v (ups s) = Ok (ups (st_save_cache c v s))) /\
  (forall c, t_saved_in_cache c (ups s) = Ok (dmem c (st_cache s))) /\
  (forall c, t_load_cache c (ups s) = match dget c (st_cache s) with Some v => Ok v | None => Raise EKey end) /\
  (forall c v, t_save_extra c (upo v) (ups s) = Ok (ups (st_save_extra c v s))) /\
  (forall c, t_saved_in_extra c (ups s) = Ok (dmem c (st_extra s))) /\
  (forall c, t_load_extra c (ups s) = match dget c (st_extra s) with Some v => Ok (upo v) | None => Raise EKey end) /\
  (forall t, t_settemp t (ups s) = ups (st_settemp t s)) /\
  (forall b, t_copy b (ups s) = rok ups (st_copy b s)) /\
  t_items (ups s) = Ok (dmap upo (st_items s)).
Proof.
  intros Hs. destruct Hs as (Hk & Ha & Hp).
  split; [intros; now apply ups_set|].
  split; [intros; unfold t_get; rewrite ups_call by (auto; smeth); cbn; now rewrite dget_dmap|].
  split; [intros; unfold t_save_cache; rewrite ups_call by (auto; smeth); reflexivity|].
  split; [intros; unfold t_saved_in_cache; rewrite ups_call by (auto; smeth); reflexivity|].
  split; [intros; unfold t_load_cache; rewrite ups_call by (auto; smeth); reflexivity|].
  split.
  { intros c v. unfold t_save_extra. rewrite ups_call by (auto; smeth).
    change (t_attr "extra_storage" (ups s)) with (Ok (A := sslot) (TExtra (dmap upo (st_extra s)))). cbn [rbind].
    rewrite dset_dmap. reflexivity. }
  split.
  { intros c. unfold t_saved_in_extra. rewrite ups_call by (auto; smeth). cbn [rbind].
    change (t_attr "extra_storage" (ups s)) with (Ok (A := sslot) (TExtra (dmap upo (st_extra s)))).
    cbn [rbind t_in as_extra]. unfold dmem. rewrite dget_dmap. now destruct (dget c (st_extra s)). }
  split.
  { intros c. unfold t_load_extra. rewrite ups_call by (auto; smeth).
    change (t_attr "extra_storage" (ups s)) with (Ok (A := sslot) (TExtra (dmap upo (st_extra s)))).
    cbn [rbind]. unfold t_load. cbn [as_extra]. rewrite dget_dmap. now destruct (dget c (st_extra s)). }
  split; [reflexivity|].
  split; [intros; apply ups_copy; split; auto|]. apply ups_items. split; auto.
Qed.
Definition state_case : state :=
  mk_state [("vor", EPS nested_case); ("t", ENoise (mkNoise 1 (Some (1/2))))] 1 [("dpred", CPred [3])].
Example C63_state_model_case : free_state state_case /\ exists s', st_copy true state_case = Ok s'.
Proof.
  split; [|eexists; reflexivity].
  split; [intros k [<-|[<-|[]]]; nin|]. split; [intros k [<-|[<-|[]]]; nin|].
  intros k p [[= <- <-]|[[=]|[]]]. apply C63_space_model_case.
Qed.

Definition exercise_state (k : string) (e : sentry) (o : sobj) :
    res (bool * bool * centry * pout * option sentry * sobj * dict pout) :=
  o1 <-? t_save_cache "dpred" (CAny 0) o ;;
  b <-? t_saved_in_cache "dpred" o1 ;;
  c <-? t_load_cache "dpred" o1 ;;
  o2 <-? t_save_extra "extra" (PAny 0) o1 ;;
  b' <-? t_saved_in_extra "extra" o2 ;;
  x <-? t_load_extra "extra" o2 ;;
  g <-? t_get k o2 ;;
  o3 <-? t_set k e o2 ;;
  o4 <-? t_copy true o3 ;;
  d <-? t_items o4 ;;
  Ok (b, b', c, x, g, o4, d).
(** C63 is false: with any of these names for a target, the state cannot be made or one of
    its methods raises. *)
Theorem C63_state_refuted k d : In k st_reserved ->
  ~ exists o r, t_new [(k, NNoise d)] (TNum 1) [] = Ok o /\ exercise_state k (NNoise d) o = Ok r.
Proof.
  intros Hk (o & r & Ho & Hr).
  cbn in Hk. repeat (destruct Hk as [<-|Hk];
    [cbv in Ho; try discriminate Ho; injection Ho as <-; cbv in Hr; discriminate Hr|]).
  destruct Hk.
Qed.
Example C63_state_other : exists o r,
  t_new [("n_dimensions", NNoise (mkNoise 1 None))] (TNum 1) [] = Ok o /\
  exercise_state "n_dimensions" (NNoise (mkNoise 1 None)) o = Ok r.
Proof. eexists. eexists. split; [reflexivity|]. cbv. reflexivity. Qed.
