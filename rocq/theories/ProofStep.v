(** Attributes and items of states under copies and moves. *)
From Verif Require Import Base ModelPrior ModelState ModelSpace ModelPerturb ModelChain ModelLikelihood SpecState SpecSpace SpecPerturb
  SpecTrees ProofChain ProofInversion ProofState ProofSpace ProofSpaceB ProofSpaceC ProofSpaceE ProofNested ProofPerturb ProofTree ProofTrees.
Local Open Scope R_scope.
Local Open Scope string_scope.

Lemma step_get p k v c : in_step p -> ps_get k p = Some v -> In c (states_in v) -> in_step c.
Proof. intros H E. inversion H as [n vals attrs cache A B]; subst. eapply B. apply dget_some_in. exact E. Qed.
Lemma step_child p k v c : in_step p -> In (k, v) (ps_vals p) -> In c (states_in v) -> in_step c.
Proof. intros H Hin Hc. inversion H as [n vals attrs cache A B]; subst. eapply B; eauto. Qed.
Lemma step_set k v p q : in_step p -> (forall c, In c (states_in v) -> in_step c) -> ps_set k v p = Ok q -> in_step q.
Proof.
  intros H Hv E. apply ps_set_ok in E. destruct E as [-> _]. inversion H as [n vals attrs cache A B]; subst. cbn. constructor.
  - intros k' v' E. destruct (String.eqb_spec k' k) as [->|Hn].
    + rewrite dget_dset_same in *. exact E.
    + rewrite dget_dset_other in * by auto. auto.
  - intros k' v' c Hin Hc. apply in_dset in Hin. destruct Hin as [Hin|[-> ->]]; eauto.
Qed.
Definition step_vals (d : dict value) : Prop := forall k v c, In (k, v) d -> In c (states_in v) -> in_step c.
Lemma step_vals_of p : in_step p -> step_vals (ps_vals p).
Proof. intros H k v c. apply step_child. exact H. Qed.
Lemma step_vals_set k v d : step_vals d -> (forall c, In c (states_in v) -> in_step c) -> step_vals (dset k v d).
Proof. intros Hd Hv k' v' c Hin Hc. apply in_dset in Hin. destruct Hin as [Hin|[-> ->]]; eauto. Qed.
(** The constructor creates an attribute for every entry. *)
Lemma step_mk n vals q : step_vals vals -> mk_ps n vals = Ok q -> in_step q.
Proof.
  intros Hv H. pose proof (mk_ps_from _ _ _ H) as (_ & _ & Hin).
  assert (G : forall todo p q, post_init todo p = Ok q ->
    (forall k v, dget k (ps_vals p) = Some v -> ~ In k (dkeys todo) -> dget k (ps_attrs p) = Some v) ->
    forall k v, dget k (ps_vals q) = Some v -> dget k (ps_attrs q) = Some v).
  { induction todo as [|[k v] t IH]; intros p r E Hp k' v' E'; cbn in E.
    - injection E as <-. apply Hp; auto.
    - destruct (negb _); [discriminate|]. apply rbind_ok in E. destruct E as (p1 & E1 & E).
      apply ps_set_ok in E1. destruct E1 as [-> _]. eapply IH; [exact E| |exact E']. cbn [ps_vals ps_attrs].
      intros k0 v0 E0 Hn. destruct (String.eqb_spec k0 k) as [->|Hne].
      + rewrite dget_dset_same in *. exact E0.
      + rewrite dget_dset_other in * by auto. apply Hp; auto. intros [E2|E2]; [now apply Hne|auto]. }
  destruct q as [m vs ats ca]. constructor.
  - apply (G _ _ _ H). cbn. intros k v E Hn. exfalso. apply Hn. eapply dget_in_keys; eauto.
  - intros k v c Hi Hc. eapply Hv; [apply Hin; exact Hi|exact Hc].
Qed.
Lemma copied_in (vals vals' : dict value) :
  Forall2 (fun kv kv' => (v <-? value_copy (snd kv) ;; Ok (fst kv, v)) = Ok kv') vals vals' ->
  forall k v, In (k, v) vals' -> exists v0, In (k, v0) vals /\ value_copy v0 = Ok v.
Proof.
  intros H. induction H as [|[k0 v0] b l l' H1 H2 IH]; intros k v Hin; [destruct Hin|].
  destruct Hin as [->|Hin].
  - apply rbind_ok in H1. destruct H1 as (v1 & E & E'). cbn in E, E'. injection E' as -> ->. exists v0. split; [now left|auto].
  - destruct (IH _ _ Hin) as (w & A & B). exists w. split; [now right|auto].
Qed.
(** The attributes at this level only. *)
Definition shown (p : psstate) : Prop := forall k v, dget k (ps_vals p) = Some v -> dget k (ps_attrs p) = Some v.
Lemma step_of p : shown p -> step_vals (ps_vals p) -> in_step p.
Proof. intros A B. destruct p. constructor; auto. Qed.
Lemma step_shown p : in_step p -> shown p.
Proof. intros H. inversion H; subst. auto. Qed.
Lemma shown_set k v p q : shown p -> ps_set k v p = Ok q -> shown q.
Proof.
  intros H E. apply ps_set_ok in E. destruct E as [-> _]. intros k' v' E. cbn in *. destruct (String.eqb_spec k' k) as [->|Hn].
  - rewrite dget_dset_same in *. exact E.
  - rewrite dget_dset_other in * by auto. auto.
Qed.
Lemma shown_mk n vals q : mk_ps n vals = Ok q -> shown q.
Proof.
  assert (G : forall todo p q, post_init todo p = Ok q ->
    (forall k v, dget k (ps_vals p) = Some v -> ~ In k (dkeys todo) -> dget k (ps_attrs p) = Some v) -> shown q).
  { induction todo as [|[k v] t IH]; intros p r E Hp; cbn in E.
    - injection E as <-. intros k v E'. apply Hp; auto.
    - destruct (negb _); [discriminate|]. apply rbind_ok in E. destruct E as (p1 & E1 & E).
      apply ps_set_ok in E1. destruct E1 as [-> _]. eapply IH; [exact E|]. cbn [ps_vals ps_attrs].
      intros k0 v0 E0 Hn. destruct (String.eqb_spec k0 k) as [->|Hne].
      + rewrite dget_dset_same in *. exact E0.
      + rewrite dget_dset_other in * by auto. apply Hp; auto. intros [E2|E2]; [now apply Hne|auto]. }
  intros H. apply (G _ _ _ H). cbn. intros k v E Hn. exfalso. apply Hn. eapply dget_in_keys; eauto.
Qed.
Lemma shown_tree c p q : shown p -> add_kdtree c p = Ok q -> shown q.
Proof.
  intros H E. unfold add_kdtree in E. destruct c as [| |d lo hi sd poly [|] fp]; try (injection E as <-; auto; fail).
  destruct (ps_get disc_key p); [|discriminate]. injection E as <-. exact H.
Qed.
Lemma step_tree c p q : in_step p -> add_kdtree c p = Ok q -> in_step q.
Proof.
  intros H E. apply step_of; [eapply shown_tree; [apply step_shown; eauto|eauto]|].
  apply add_kdtree_treed in E. destruct E as (-> & _). now apply step_vals_of.
Qed.

(** The attributes of nested states that are in arrays of objects are in step: copies are then in
    step at all levels. *)
Inductive calm : psstate -> Prop :=
| calm_intro p : (forall k l c, In (k, AObj l) (ps_vals p) -> In c l -> in_step c) ->
    (forall k l c, In (k, Lst l) (ps_vals p) -> In c l -> calm c) -> calm p.
Lemma step_calm p : in_step p -> calm p.
Proof.
  induction p as [n vals attrs cache IH] using psstate_ind'. intros H. pose proof (step_vals_of _ H) as SV.
  constructor; cbn [ps_vals] in *; intros k l c Hin Hc.
  - eapply SV; eauto.
  - eapply IH; [exact Hin|exact Hc|]. eapply SV; [exact Hin|exact Hc].
Qed.
Lemma step_vals_calm p : step_vals (ps_vals p) -> calm p.
Proof. intros H. constructor; intros k l c Hin Hc; [|apply step_calm]; eapply H; eauto. Qed.
Lemma copied_each l l' (c : psstate) : Forall2 (fun a b => ps_copy a = Ok b) l l' -> In c l' ->
  exists c0, In c0 l /\ ps_copy c0 = Ok c.
Proof.
  intros E Hc. induction E as [|a b l l' H1 H2 IH]; [destruct Hc|]. destruct Hc as [<-|Hc].
  - exists a. split; [now left|auto].
  - destruct (IH Hc) as (c0 & A & B). exists c0. split; [now right|auto].
Qed.
Lemma step_copy p : forall q, calm p -> ps_copy p = Ok q -> in_step q.
Proof.
  induction p as [n vals attrs cache IH] using psstate_ind'. intros q Ho H. rewrite ps_copy_eq in H.
  apply rbind_ok in H. destruct H as (vals' & Hv & H). apply rbind_ok in H. destruct H as (p' & Hp & H). injection H as <-.
  apply rmap_ok in Hv. apply step_mk in Hp.
  - inversion Hp as [n0 v0 a0 c0 A B]; subst. cbn. constructor; auto.
  - intros k v c Hin Hc. destruct (copied_in _ _ Hv _ _ Hin) as (v0 & Hin0 & E).
    inversion Ho as [? O1 O2]; subst. cbn [ps_vals] in O1, O2.
    destruct v0 as [l|l|l|l]; cbn [value_copy] in E; try (injection E as <-; now destruct Hc).
    + injection E as <-. eapply O1; eauto.
    + apply rbind_ok in E. destruct E as (l' & E & [= <-]). apply rmap_ok in E. cbn [states_in] in Hc.
      destruct (copied_each _ _ _ E Hc) as (c0 & Hc0 & Ec).
      eapply (IH k (Lst l) c0); [exact Hin0|exact Hc0| |exact Ec]. eapply O2; eauto.
Qed.

(** * Newborn states *)
Lemma step_made obj f params vals :
  (forall k s', In (k, PSpace s') params -> forall tr q tr', f s' tr = Ret q tr' -> in_step q) ->
  madeP obj f params vals -> step_vals vals.
Proof.
  intros Hf Hm k v c Hin Hc. destruct (Hm k v Hin) as [(l & ->)|[(l & ->)|(l & s' & E & Hp & Hq)]]; [destruct Hc|destruct Hc|].
  assert (Hc' : In c l) by (subst v; destruct (obj s'); exact Hc). destruct (Hq c Hc') as (t & t' & E'). eauto.
Qed.
Lemma step_initialize s : forall tr p tr', ModelSpace.initialize s tr = Ret p tr' -> in_step p.
Proof.
  induction s as [s IH] using space_ind'. intros tr p tr' H. pose proof H as H0. apply initialize_made in H0. destruct H0 as [Hm _].
  apply step_of; [|eapply step_made; [|exact Hm]; intros; eapply IH; eauto].
  clear IH Hm. destruct s as [name fixed nmin nmax range cls params]. cbn [ModelSpace.initialize] in H. mb H as n En.
  destruct cls as [|lo hi sd fp|d lo hi sd poly kd fp].
  - mb H as vals Ev. mr H. eapply shown_mk; eauto.
  - mb H as sites Es. mb H as positions Ep. mb H as vals Ev. mb H as p0 E0. mr H. eapply shown_mk; eauto.
  - mb H as sites Es. mb H as positions Ep. mb H as vals Ev. mb H as p0 E0. mr H.
    eapply shown_tree; [eapply shown_mk; eauto|exact H].
Qed.
Lemma step_sample_disc s tr p tr' : sample_discretization s tr = Ret p tr' -> in_step p.
Proof.
  intros H. pose proof H as H0. apply sample_disc_made in H0. destruct H0 as [_ V]. unfold sample_discretization in H.
  mb H as n En. mb H as sites Es. mr H. apply step_of; [eapply shown_mk; eauto|].
  intros k v c Hin Hc. apply V in Hin. destruct Hin as (_ & [(l & ->)|(l & ->)]); destruct Hc.
Qed.
Lemma sample_disc_shown (f : space -> M psstate) params : forall q tr p tr',
  (fix go (l : list (string * param)) (q : psstate) : M psstate :=
     match l with
     | [] => ret q
     | (k, PPrior p) :: t =>
         positions <- lift (positions_of (ps_get disc_key q)) ;;
         a <- mapM (fun x => p_sample p (Some x)) positions ;;
         q' <- lift (ps_set k (Arr a) q) ;; go t q'
     | (k, PSpace s') :: t =>
         positions <- lift (positions_of (ps_get disc_key q)) ;;
         a <- repeatM (length positions) (f s') ;;
         q' <- lift (ps_set k (Lst a) q) ;; go t q'
     end) params q tr = Ret p tr' -> shown q -> shown p.
Proof.
  induction params as [|[k0 [pr|s0]] t IH]; intros q tr p tr' H Hq.
  - mr H. auto.
  - mb H as ps Ep. mb H as a Ea. mb H as q' Eq. apply IH in H; auto. eapply shown_set; eauto.
  - mb H as ps Ep. mb H as a Ea. mb H as q' Eq. apply IH in H; auto. eapply shown_set; eauto.
Qed.
Lemma step_sample s : forall tr p tr', sample s tr = Ret p tr' -> in_step p.
Proof.
  induction s as [s IH] using space_ind'. intros tr p tr' H. pose proof H as H0. apply sample_made in H0. destruct H0 as [Hm _].
  apply step_of; [|eapply step_made; [|exact Hm]; intros; eapply IH; eauto].
  clear IH Hm. destruct s as [name fixed nmin nmax range cls params]. cbn [sample] in H.
  destruct cls as [|lo hi sd fp|d lo hi sd poly kd fp].
  - mb H as n En. mb H as vals Ev. mr H. eapply shown_mk; eauto.
  - mb H as p0 E0. apply step_sample_disc, step_shown in E0. eapply (sample_disc_shown sample); eauto.
  - mb H as p0 E0. apply step_sample_disc, step_shown in E0. eapply (sample_disc_shown sample); eauto.
Qed.
Lemma step_fill params : forall q acc tr q' acc' tr', in_step q -> fill_params params q acc tr = Ret (q', acc') tr' -> in_step q'.
Proof.
  induction params as [|[k [pr|s']] t IH]; intros q acc tr q' acc' tr' Hf H; cbn [fill_params] in H.
  - mr H. injection H as <- _. auto.
  - mb H as g Eg. mb H as q1 E1. eapply IH; [|exact H]. eapply step_set; [exact Hf| |exact E1]. intros c [].
  - destruct (is_disc s').
    + mb H as a Ea. mb H as q1 E1. eapply IH; [|exact H]. eapply step_set; [exact Hf| |exact E1].
      intros c Hc. destruct (repeatM_from _ _ _ _ _ Ea c Hc) as (ta & tb & E). now apply step_sample_disc in E.
    + mb H as a Ea. mb H as q1 E1. eapply IH; [|exact H]. eapply step_set; [exact Hf| |exact E1].
      intros c Hc. destruct (repeatM_from _ _ _ _ _ Ea c Hc) as (ta & tb & E). now apply step_sample in E.
Qed.
Lemma step_each old i x j ps :
  (forall k s', In (k, PSpace s') ps -> forall old new tr q r tr', in_step new ->
    sample_from_neighbour s' old new tr = Ret (q, r) tr' -> in_step q) ->
  forall q acc tr q' acc' tr', in_step q ->
  nb_each sample_from_neighbour old i x j ps q acc tr = Ret (q', acc') tr' -> in_step q'.
Proof.
  induction ps as [|[k [pr|s']] t IHp]; intros IH q acc tr q' acc' tr' F0 E2; cbn [nb_each] in E2.
  - mr E2. injection E2 as <- _. auto.
  - mb E2 as nb E3. mb E2 as [nv rr] E4. mb E2 as v' E5. mb E2 as q1 E6. mb E2 as lp E7. mb E2 as sd E8. mb E2 as lq E9.
    apply set_num_plain in E5. eapply IHp; [intros; eapply IH; [right; eauto|eauto|eauto]| |exact E2].
    eapply step_set; [exact F0|rewrite E5; intros c []|exact E6].
  - destruct (is_disc s').
    + mb E2 as o E3. mb E2 as n E4. mb E2 as [n' l'] E5. mb E2 as v' E6. mb E2 as q1 E7.
      assert (Fn : in_step n).
      { unfold state_at in E4. destruct (ps_get k q) as [[]|] eqn:Eg; try discriminate;
          apply idx_ok in E4; apply nth_error_In in E4; (eapply step_get; [exact F0|exact Eg|exact E4]). }
      pose proof (IH _ _ (or_introl eq_refl) _ _ _ _ _ _ Fn E5) as Fn'.
      assert (Hst : forall c, In c (states_in v') -> in_step c).
      { unfold set_state in E6. destruct (ps_get k q) as [[]|] eqn:Eg; try discriminate;
        (destruct (_ <? _)%nat; [|discriminate]);
        injection E6 as <-; intros c Hc; cbn in Hc; apply set_nth_in in Hc;
        (destruct Hc as [->|Hc]; auto); (eapply step_get; [exact F0|exact Eg|exact Hc]). }
      eapply IHp; [intros; eapply IH; [right; eauto|eauto|eauto]| |exact E2]. eapply step_set; [exact F0|exact Hst|exact E7].
    + eapply IHp; [intros; eapply IH; [right; eauto|eauto|eauto]| |exact E2]. auto.
Qed.
Lemma step_sfn s : forall old new tr q r tr', in_step new -> sample_from_neighbour s old new tr = Ret (q, r) tr' -> in_step q.
Proof.
  induction s as [s IH] using space_ind'. intros old new tr q r tr' Hf H.
  destruct s as [nm fx mi ma rg cls params]. rewrite sfn_eq in H. mb H as [q0 acc0] E0. mb H as positions Ep.
  apply step_fill in E0; auto. clear Hf Ep.
  match type of H with nb_points _ _ _ ?l _ _ ?t = Ret _ ?t' => revert q0 acc0 E0 H; generalize l, t, t' end. intros l.
  induction l as [|[i x] l IHl]; intros ta tb q0 acc0 F0 H; cbn [nb_points] in H.
  - mr H. injection H as <- _. auto.
  - mb H as j Ej. mb H as [q2 acc2] E2. eapply IHl; [|exact H]. eapply step_each; [|exact F0|exact E2].
    intros k s' Hin o n t1 q1 r1 t2 Fn E. eapply IH; eauto.
Qed.

(** * Moves
    Two instances: everything below in step, or everything in lists calm. *)
Section Moves.
Variable A : psstate -> Prop.
Hypothesis stepA : forall p, in_step p -> A p.
Definition okv (v : value) : Prop :=
  match v with Lst l => forall c, In c l -> A c | AObj l => forall c, In c l -> in_step c | _ => True end.
Definition okvals (d : dict value) : Prop := forall k v, In (k, v) d -> okv v.
Lemma okvals_set k v d : okvals d -> okv v -> okvals (dset k v d).
Proof. intros Hd Hv k' v' Hin. apply in_dset in Hin. destruct Hin as [Hin|[-> ->]]; eauto. Qed.
Definition born_in_step (x : newborn) : Prop := match x with NState c => in_step c | NNum _ => True end.
Definition all_born (d : dict newborn) : Prop := forall k x, In (k, x) d -> born_in_step x.
Lemma insert_value_okv i x v v' : insert_value i x v = Ok v' -> born_in_step x -> okv v -> okv v'.
Proof.
  intros H Hx F. destruct v, x; cbn [insert_value] in H; try discriminate.
  - apply rbind_ok in H. destruct H as (l' & _ & [= <-]). exact I.
  - injection H as <-. intros c Hc. apply in_list_insert in Hc. destruct Hc as [->|Hc]; auto.
Qed.
Lemma append_value_okv x v v' : append_value x (Some v) = Ok v' -> born_in_step x -> okv v -> okv v'.
Proof.
  intros H Hx F. destruct v, x; cbn [append_value] in H; try discriminate; injection H as <-; [exact I|].
  intros c Hc. apply in_app_or in Hc. destruct Hc as [Hc|[<-|[]]]; auto.
Qed.
Lemma add_newborns_okv put old born : okvals (ps_vals old) -> all_born born ->
  (forall x v v', put x (Some v) = Ok v' -> born_in_step x -> okv v -> okv v') ->
  (forall x, put x None = Raise EType) ->
  forall acc vals, okvals acc -> add_newborns put old born acc = Ok vals -> okvals vals.
Proof.
  intros Hf Hb Hp Hn. induction born as [|[k x] t IH]; intros acc vals Ha H; cbn [add_newborns] in H.
  - now injection H as <-.
  - apply rbind_ok in H. destruct H as (v & Ev & H). pose proof (Hb k x (or_introl eq_refl)) as Hx.
    eapply IH; [intros k' x' Hin; eapply Hb; right; exact Hin| |exact H].
    destruct (ps_get k old) as [w|] eqn:Eg; [|rewrite Hn in Ev; discriminate].
    apply okvals_set; auto. eapply Hp; eauto. eapply Hf. apply dget_some_in. exact Eg.
Qed.
Lemma param_sample_step pr x tr y tr' : param_sample pr x tr = Ret y tr' -> born_in_step y.
Proof.
  intros H. destruct pr as [p|s']; cbn [param_sample] in H.
  - mb H as z Ez. mr H. exact I.
  - mb H as q Eq. mr H. cbn. eapply step_sample; eauto.
Qed.
Lemma newborn_params_step s x old tr born l tr' : newborn_params s x old tr = Ret (born, l) tr' -> all_born born.
Proof.
  unfold newborn_params.
  assert (P : forall ps tr r tr', newborn_from_prior ps x tr = Ret r tr' -> all_born r).
  { induction ps as [|[k pr] t IH]; intros ta r tb E; cbn [newborn_from_prior] in E.
    - mr E. intros k x0 [].
    - mb E as y Ey. mb E as r1 Er. mr E. intros k' x' [[= <- <-]|Hin].
      + eapply param_sample_step; eauto.
      + eapply IH; eauto. }
  assert (B : forall j ps acc tr r acc' tr', newborn_from_neighbour ps x j old acc tr = Ret (r, acc') tr' -> all_born r).
  { intros j. induction ps as [|[k [pr|s']] t IH]; intros acc ta r acc' tb E; cbn [newborn_from_neighbour] in E.
    - mr E. injection E as <- _. intros k x0 [].
    - mb E as nb E1. mb E as [nv rr] E2. mb E as sd E3. mb E as lp E4. mb E as lq E5. mb E as [r1 a1] E6. mr E. injection E as <- _.
      intros k' x' [[= <- <-]|Hin]; [exact I|eapply IH; eauto].
    - destruct (is_disc s'); [|mb E as q Eq; discriminate].
      mb E as o E1. mb E as n E2. mb E as [n' l'] E3. mb E as [r1 a1] E4. mr E. injection E as <- _.
      intros k' x' [[= <- <-]|Hin]; [|eapply IH; eauto].
      cbn. apply step_sample_disc in E2. eapply step_sfn; eauto. }
  intros H. destruct (sp_cls s) as [|lo hi sd [|]|d lo hi sd poly kd [|]]; try discriminate.
  - mb H as r Er. mr H. injection H as <- _. eauto.
  - mb H as j Ej. eauto.
  - mb H as r Er. mr H. injection H as <- _. eauto.
  - mb H as j Ej. eauto.
Qed.
Lemma okv_first k v : states_in v = [] -> okvals [(k, v)].
Proof. intros E k' v' [[= <- <-]|[]]. destruct v; cbn in *; auto; rewrite E; intros c []. Qed.
(** What a state made from scratch is like. *)
Definition fresh_ok (q : psstate) : Prop := shown q /\ okvals (ps_vals q).
Lemma mk_fresh n vals q : okvals vals -> mk_ps n vals = Ok q -> fresh_ok q.
Proof.
  intros Hv H. split; [eapply shown_mk; eauto|]. apply mk_ps_from in H. destruct H as (_ & _ & Hin). intros k v Hi. eauto.
Qed.
Lemma tree_fresh c p q : fresh_ok p -> add_kdtree c p = Ok q -> fresh_ok q.
Proof. intros [F1 F2] H. split; [eapply shown_tree; eauto|]. apply add_kdtree_treed in H. now destruct H as (-> & _). Qed.
Lemma tree_vals c p q : okvals (ps_vals p) -> add_kdtree c p = Ok q -> okvals (ps_vals q).
Proof. intros F2 H. apply add_kdtree_treed in H. now destruct H as (-> & _). Qed.
Lemma vor_birth_okv s p tr p' r tr' : okvals (ps_vals p) -> vor_birth s p tr = Ret (p', r) tr' ->
  okvals (ps_vals p') /\ (r <> MInf -> shown p').
Proof.
  intros Hf H. unfold vor_birth in H. mb H as [q l] Eq. mb H as q' Eq'. mr H. injection H as -> ->.
  assert (G : okvals (ps_vals q) /\ (r <> MInf -> fresh_ok q)).
  { clear Eq'. destruct (_ =? _)%nat; [mr Eq; injection Eq as <- <-; split; [auto|congruence]|].
    mb Eq as x Ex. mb Eq as [born l0] Eb. mb Eq as vals Ev. mb Eq as q0 E0. mr Eq. injection Eq as -> _.
    enough (F : fresh_ok q) by (split; [apply F|auto]).
    eapply mk_fresh; [|exact E0]. apply newborn_params_step in Eb.
    destruct x as [y|y]; destruct (ps_get disc_key p) as [[]|]; try discriminate.
    - apply rbind_ok in Ev. destruct Ev as (i & Ei & Ev). apply rbind_ok in Ev. destruct Ev as (st & Es & Ev).
      eapply add_newborns_okv; [exact Hf|exact Eb| | | |exact Ev].
      + intros ? ? ? HH. apply (insert_value_okv _ _ _ _ HH).
      + reflexivity.
      + now apply okv_first.
    - eapply add_newborns_okv; [exact Hf|exact Eb| | | |exact Ev].
      + intros ? ? ? HH. apply (append_value_okv _ _ _ HH).
      + reflexivity.
      + now apply okv_first. }
  destruct G as [G1 G2]. split; [eapply tree_vals; eauto|]. intros Hr. eapply tree_fresh; [apply G2; auto|exact Eq'].
Qed.
Lemma delete_value_okv i v v' : delete_value i v = Ok v' -> okv v -> okv v'.
Proof.
  intros H F. destruct v; cbn [delete_value] in H; try discriminate.
  - apply rbind_ok in H. destruct H as (l' & _ & [= <-]). exact I.
  - injection H as <-. intros c Hc. apply F. eapply in_list_delete; exact Hc.
Qed.
Lemma vor_delete_value_okv c0 i v v' : vor_delete_value c0 i v = Ok v' -> okv v -> okv v'.
Proof.
  intros H F. destruct c0; try (eapply delete_value_okv; eauto; fail).
  destruct v; cbn [vor_delete_value] in H; try (destruct (_ <? _)%nat; [|discriminate]); injection H as <-; cbn; auto;
    intros c Hc; apply F; eapply in_list_delete; exact Hc.
Qed.
Lemma rmap_okv (g : value -> res value) vals vals' : (forall v v', g v = Ok v' -> okv v -> okv v') ->
  rmap (fun kv => v <-? g (snd kv) ;; Ok (fst kv, v)) vals = Ok vals' -> okvals vals -> okvals vals'.
Proof.
  intros Hg H F. apply rmap_ok in H. induction H as [|a b l l' H1 H2 IH]; [intros k v []|].
  intros k v [E|Hin]; [|eapply IH; eauto; intros k' v' Hi; eapply F; right; eauto].
  apply rbind_ok in H1. destruct H1 as (v1 & E1 & E2). rewrite E in E2. injection E2 as <- <-.
  eapply Hg; [exact E1|]. apply (F (fst a)). left. now destruct a.
Qed.
Lemma vor_death_okv s p tr p' r tr' : okvals (ps_vals p) -> vor_death s p tr = Ret (p', r) tr' ->
  okvals (ps_vals p') /\ (r <> MInf -> shown p').
Proof.
  intros Hf H. unfold vor_death in H. mb H as [q l] Eq. mb H as q' Eq'. mr H. injection H as -> ->.
  assert (G : okvals (ps_vals q) /\ (r <> MInf -> fresh_ok q)).
  { clear Eq'. destruct (_ =? _)%nat; [mr Eq; injection Eq as <- <-; split; [auto|congruence]|].
    mb Eq as i Ei. mb Eq as vals Ev. mb Eq as q0 E0. mb Eq as l0 El. mr Eq. injection Eq as -> _.
    enough (F : fresh_ok q) by (split; [apply F|auto]).
    eapply mk_fresh; [|exact E0]. eapply rmap_okv; [|exact Ev|auto]. intros v v' HH. apply (vor_delete_value_okv _ _ _ _ HH). }
  destruct G as [G1 G2]. split; [eapply tree_vals; eauto|]. intros Hr. eapply tree_fresh; [apply G2; auto|exact Eq'].
Qed.
Lemma plain_death_okv s p tr p' r tr' : okvals (ps_vals p) -> plain_death s p tr = Ret (p', r) tr' ->
  okvals (ps_vals p') /\ (r <> MInf -> shown p').
Proof.
  intros Hf H. unfold plain_death in H. destruct (_ =? _)%nat; [mr H; injection H as <- <-; split; [auto|congruence]|].
  mb H as i Ei. mb H as vals Ev. mb H as q0 E0. mr H. injection H as -> _.
  enough (F : fresh_ok p') by (split; [apply F|intros; apply F]).
  eapply mk_fresh; [|exact E0]. eapply rmap_okv; [|exact Ev|auto]. intros v v' HH. apply (delete_value_okv _ _ _ HH).
Qed.
Lemma plain_birth_vals_okv params i l : forall tr vals tr', plain_birth_vals params i l tr = Ret vals tr' -> okvals l -> okvals vals.
Proof.
  induction l as [|[k v] t IH]; intros tr vals tr' H Hl; cbn [plain_birth_vals] in H.
  - mr H. auto.
  - destruct (dget k params) as [pr|] eqn:Eg; [|discriminate].
    mb H as x Ex. mb H as v' Ev. mb H as r Er. mr H.
    apply IH in Er; [|intros k' v0 Hi; eapply Hl; right; exact Hi]. intros k0 v0 [[= <- <-]|Hin]; eauto.
    eapply insert_value_okv; [exact Ev|eapply param_sample_step; eauto|eapply Hl; now left].
Qed.
Lemma plain_birth_okv s p tr p' r tr' : okvals (ps_vals p) -> plain_birth s p tr = Ret (p', r) tr' ->
  okvals (ps_vals p') /\ (r <> MInf -> shown p').
Proof.
  intros Hf H. unfold plain_birth in H. destruct (_ =? _)%nat; [mr H; injection H as <- <-; split; [auto|congruence]|].
  mb H as i Ei. mb H as vals Ev. mb H as q0 E0. mr H. injection H as -> _.
  enough (F : fresh_ok p') by (split; [apply F|intros; apply F]).
  eapply mk_fresh; [|exact E0]. eapply plain_birth_vals_okv; eauto.
Qed.
Lemma reorder_okv is v v' : reorder is v = Ok v' -> okv v -> okv v'.
Proof.
  intros H F. destruct v; cbn [reorder] in H; apply rbind_ok in H; destruct H as (l' & E & [= <-]); cbn; auto;
    intros c Hc; apply F; eapply pick_in; eauto.
Qed.
Lemma perturb_value_loop_okv old i x x' put : okvals (ps_vals old) ->
  (forall v v', put v = Ok v' -> okv v -> okv v') ->
  forall params vals acc vals' acc', okvals vals ->
  perturb_value_loop params old i x x' put vals acc = Ok (vals', acc') -> okvals vals'.
Proof.
  intros Hf Hp. induction params as [|[k pr] t IH]; intros vals acc vals' acc' Hv H; cbn [perturb_value_loop] in H.
  - injection H as <- _. auto.
  - apply rbind_ok in H. destruct H as (a1 & _ & H). apply rbind_ok in H. destruct H as (v & Ev & H).
    eapply IH; [|exact H].
    destruct (ps_get k old) as [w|] eqn:Eg; [|discriminate].
    apply okvals_set; [auto|]. eapply Hp; eauto. eapply Hf. apply dget_some_in. exact Eg.
Qed.
Lemma perturb_value_okv s p i tr p' r tr' : okvals (ps_vals p) -> perturb_value s p i tr = Ret (p', r) tr' -> fresh_ok p'.
Proof.
  intros Hf H. unfold perturb_value in H. mb H as x Ex. mb H as x' Ex'. mb H as [vals l] Ev. mb H as q Eq. mb H as q' Eq'.
  mr H. injection H as -> _. eapply tree_fresh; [|exact Eq']. eapply mk_fresh; [|exact Eq].
  destruct (ps_get disc_key p) as [[]|]; destruct x'; try discriminate.
  - apply rbind_ok in Ev. destruct Ev as (st & Es & Ev).
    eapply perturb_value_loop_okv; [exact Hf| | |exact Ev].
    + intros w w2 HH. apply (reorder_okv _ _ _ HH).
    + now apply okv_first.
  - eapply perturb_value_loop_okv; [exact Hf| | |exact Ev].
    + intros w w2 [= <-]. auto.
    + now apply okv_first.
Qed.
Lemma elem_okv s e w p tr p' r tr' : In (e, w) (own_elems s) -> e <> EParam (sp_name s) (priors_of (sp_params s)) ->
  okvals (ps_vals p) -> elem_perturb e p tr = Ret (p', r) tr' -> okvals (ps_vals p') /\ (r <> MInf -> shown p').
Proof.
  intros Hin Hne Hf H. unfold own_elems in Hin. apply in_app_or in Hin. destruct Hin as [Hin|Hin].
  - destruct (sp_transd s); [|destruct Hin]. destruct Hin as [[= <- <-]|[[= <- <-]|[]]]; cbn [elem_perturb] in H.
    + unfold birth in H. destruct (is_disc s); [eapply vor_birth_okv|eapply plain_birth_okv]; eauto.
    + unfold death in H. destruct (is_disc s); [eapply vor_death_okv|eapply plain_death_okv]; eauto.
  - apply in_app_or in Hin. destruct Hin as [Hin|Hin].
    + exfalso. apply Hne. destruct (priors_of (sp_params s)); [destruct Hin|]. destruct Hin as [[= <- <-]|[]]. reflexivity.
    + destruct (is_disc s) eqn:Ed; [|destruct Hin]. destruct Hin as [[= <- <-]|[]].
      cbn [elem_perturb] in H. unfold param_perturb in H. mb H as i Ei. cbn [perturb_params] in H. rewrite Ed in H.
      apply perturb_value_okv in H; auto. split; [apply H|intros; apply H].
Qed.
End Moves.
Lemma okv_step v : okv in_step v <-> forall c, In c (states_in v) -> in_step c.
Proof. destruct v; cbn; intuition. Qed.
Lemma okvals_step p : okvals in_step (ps_vals p) <-> step_vals (ps_vals p).
Proof.
  split; intros H k v.
  - intros c Hin Hc. apply (proj1 (okv_step v)); eauto.
  - intros Hin. apply okv_step. eauto.
Qed.
Lemma okvals_calm p : okvals calm (ps_vals p) <-> calm p.
Proof.
  split.
  - intros H. constructor; intros k l c Hin Hc; exact (H _ _ Hin c Hc).
  - intros H k v Hin. inversion H as [? A B]; subst. destruct v; cbn; eauto.
Qed.
(** Parameter moves: the copy is in step, then the values change without the attributes. *)
Lemma perturb_priors_form l p i : (forall q, In q l -> exists pr, q = PPrior pr) ->
  forall new acc tr p' r tr', perturb_params l p i new acc tr = Ret (p', r) tr' ->
  exists c new', ps_copy p = Ok c /\ p' = PS (ps_n c) (dupdate (ps_vals c) new') (ps_attrs c) (ps_cache c) /\
    ((forall k v, In (k, v) new -> exists a, v = Arr a) -> forall k v, In (k, v) new' -> exists a, v = Arr a).
Proof.
  intros Hl. induction l as [|q t IH]; intros new acc tr p' r tr' H.
  - cbn [perturb_params] in H. mb H as c Ec. mr H. injection H as <- _. exists c, new. auto.
  - destruct (Hl q (or_introl eq_refl)) as (pr & ->). cbn [perturb_params] in H.
    destruct (ps_get (p_name pr) p) as [v|] eqn:Eg; [|discriminate].
    mb H as old Eo. mb H as at_ Ea. mb H as [nv rr] En. mb H as v' Ev.
    apply IH in H; [|intros; apply Hl; now right]. destruct H as (c & new' & H1 & H2 & H3). exists c, new'. split; auto. split; auto.
    intros Hn. apply H3. intros k w Hin. apply in_dset in Hin. destruct Hin as [Hin|[-> ->]]; eauto.
    unfold set_num in Ev. destruct v; try discriminate. destruct (_ <? _)%nat; [|discriminate]. injection Ev as <-. eauto.
Qed.
Lemma priors_only l q : In q (priors_of l) -> exists pr, q = PPrior pr.
Proof. intros H. unfold priors_of in H. apply filter_In in H. destruct H as [_ H]. destruct q; [eauto|discriminate]. Qed.
Lemma in_dupdate {B} (l : dict B) : forall d k v, In (k, v) (dupdate d l) -> In (k, v) d \/ In (k, v) l.
Proof.
  induction l as [|[k1 e1] l IH]; intros d k p Hin; cbn in Hin; auto.
  apply IH in Hin. destruct Hin as [Hin|Hin]; [|right; now right]. apply in_dset in Hin.
  destruct Hin as [Hin|[-> ->]]; auto. right. now left.
Qed.
Lemma elem_calm s e w p tr p' r tr' : In (e, w) (own_elems s) -> calm p -> elem_perturb e p tr = Ret (p', r) tr' -> calm p'.
Proof.
  intros Hin Hc H.
  assert (D : e = EParam (sp_name s) (priors_of (sp_params s)) \/ e <> EParam (sp_name s) (priors_of (sp_params s))).
  { unfold own_elems in Hin. apply in_app_or in Hin. destruct Hin as [Hin|Hin].
    - right. destruct (sp_transd s); [|destruct Hin]. destruct Hin as [[= <- <-]|[[= <- <-]|[]]]; discriminate.
    - apply in_app_or in Hin. destruct Hin as [Hin|Hin].
      + left. destruct (priors_of (sp_params s)); [destruct Hin|]. destruct Hin as [[= <- <-]|[]]. reflexivity.
      + right. destruct (is_disc s) eqn:Ed; [|destruct Hin]. destruct Hin as [[= <- <-]|[]]. intros [= E].
        assert (In (PSpace s) (priors_of (sp_params s))) by (rewrite <- E; now left).
        destruct (priors_only _ _ H0) as (pr & E'). discriminate. }
  destruct D as [->|Hne].
  - cbn [elem_perturb] in H. unfold param_perturb in H. mb H as i Ei.
    apply perturb_priors_form in H; [|apply priors_only]. destruct H as (c & new & Ec & -> & Hn).
    specialize (Hn ltac:(intros k v [])). apply step_copy, step_calm in Ec; auto.
    apply okvals_calm in Ec. apply okvals_calm. cbn [ps_vals]. intros k v Hi. apply in_dupdate in Hi. destruct Hi as [Hi|Hi]; eauto.
    destruct (Hn _ _ Hi) as (a & ->). exact I.
  - apply okvals_calm. eapply (elem_okv calm step_calm); eauto. now apply okvals_calm.
Qed.
Lemma elem_step s e w p tr p' r tr' : In (e, w) (own_elems s) -> e <> EParam (sp_name s) (priors_of (sp_params s)) ->
  step_vals (ps_vals p) -> elem_perturb e p tr = Ret (p', r) tr' -> r <> MInf -> in_step p'.
Proof.
  intros Hin Hne Hs H Hr. eapply (elem_okv in_step) in H; eauto; [|now apply okvals_step].
  destruct H as [H1 H2]. apply step_of; auto. now apply okvals_step.
Qed.
