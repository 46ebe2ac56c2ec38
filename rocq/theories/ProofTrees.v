(** Cached kd-trees under every operation on states. *)
From Verif Require Import Base ModelPrior ModelState ModelSpace ModelPerturb ModelChain SpecState SpecSpace SpecPerturb
  SpecTrees ProofChain ProofInversion ProofState ProofSpace ProofSpaceB ProofSpaceC ProofSpaceE ProofNested ProofPerturb ProofTree.
Local Open Scope R_scope.
Local Open Scope string_scope.

(** The invariant: trees fit, and nothing makes them unfit by accident. *)
Inductive fit : psstate -> Prop :=
| fit_intro p :
    NoDup (dkeys (ps_vals p)) ->
    (forall v, dget "kdtree" (ps_cache p) = Some v -> ps_get disc_key p = Some v) ->
    (forall l, ~ In (disc_key, Lst l) (ps_vals p)) ->
    (forall k v c, In (k, v) (ps_vals p) -> In c (states_in v) -> fit c) -> fit p.
Lemma fit_inside p q : fit p -> inside p q -> own_tree q.
Proof.
  intros Hf Hi. induction Hi as [p|p k v c q H1 H2 H3 IH].
  - inversion Hf as [? N A B C]; subst. exact A.
  - inversion Hf as [? N A B C]; subst. eauto.
Qed.
Lemma fit_child p k v c : fit p -> In (k, v) (ps_vals p) -> In c (states_in v) -> fit c.
Proof. intros H. inversion H; subst; eauto. Qed.
Lemma fit_get p k v c : fit p -> ps_get k p = Some v -> In c (states_in v) -> fit c.
Proof. intros H E. eapply fit_child; eauto. apply dget_some_in. exact E. Qed.
Lemma fit_nodup p : fit p -> NoDup (dkeys (ps_vals p)).
Proof. intros H. inversion H; auto. Qed.
Lemma fit_no_list p l : fit p -> ~ In (disc_key, Lst l) (ps_vals p).
Proof. intros H. inversion H; subst; auto. Qed.
(** Values that may be stored under a name. *)
Definition fit_value (k : string) (v : value) : Prop :=
  (k = disc_key -> forall l, v <> Lst l) /\ forall c, In c (states_in v) -> fit c.
Lemma fit_values p k v : fit p -> In (k, v) (ps_vals p) -> fit_value k v.
Proof.
  intros H Hin. split; [|intros; eapply fit_child; eauto]. intros -> l ->. eapply fit_no_list; eauto.
Qed.
Lemma fit_fresh p : NoDup (dkeys (ps_vals p)) -> ps_cache p = [] -> (forall k v, In (k, v) (ps_vals p) -> fit_value k v) -> fit p.
Proof.
  intros Hn Hc Hv. constructor; auto.
  - rewrite Hc. discriminate.
  - intros l Hin. destruct (Hv _ _ Hin) as [H _]. now apply (H eq_refl l).
  - intros k v c Hin Hc'. destruct (Hv _ _ Hin) as [_ H]. auto.
Qed.
Lemma fit_mk n vals q : NoDup (dkeys vals) -> mk_ps n vals = Ok q -> (forall k v, In (k, v) vals -> fit_value k v) -> fit q /\ ps_cache q = [].
Proof. intros Hn H Hv. apply mk_ps_ok in H; auto. destruct H as [-> _]. split; auto. apply fit_fresh; auto. Qed.
Lemma fit_set k v p q : fit p -> k <> disc_key -> (forall c, In c (states_in v) -> fit c) -> ps_set k v p = Ok q ->
  fit q /\ ps_cache q = ps_cache p.
Proof.
  intros Hf Hk Hv H. apply ps_set_ok in H. destruct H as [-> _]. cbn [ps_cache]. split; auto.
  inversion Hf as [? N A B C]; subst. constructor; cbn [ps_cache ps_vals].
  - now apply dset_nodup.
  - intros t Ht. unfold ps_get. cbn [ps_vals]. rewrite dget_dset_other by auto. exact (A t Ht).
  - intros l Hin. apply in_dset in Hin. destruct Hin as [Hin|[E _]]; [eapply B; eauto|now apply Hk].
  - intros k' v' c Hin Hc. apply in_dset in Hin. destruct Hin as [Hin|[-> ->]]; eauto.
Qed.
Lemma fit_update new : forall p, fit p ->
  (forall k v, In (k, v) new -> k <> disc_key /\ forall c, In c (states_in v) -> fit c) ->
  fit (PS (ps_n p) (dupdate (ps_vals p) new) (ps_attrs p) (ps_cache p)).
Proof.
  induction new as [|[k v] t IH]; intros p Hf Hn.
  - destruct p. exact Hf.
  - destruct (Hn k v (or_introl eq_refl)) as [Hk Hv].
    specialize (IH (PS (ps_n p) (dset k v (ps_vals p)) (ps_attrs p) (ps_cache p))). cbn in IH. apply IH.
    + inversion Hf as [? N A B C]; subst. constructor; cbn [ps_cache ps_vals].
      * now apply dset_nodup.
      * intros t0 Ht. unfold ps_get. cbn [ps_vals]. rewrite dget_dset_other by auto. exact (A t0 Ht).
      * intros l Hin. apply in_dset in Hin. destruct Hin as [Hin|[E _]]; [eapply B; eauto|now apply Hk].
      * intros k' v' c Hin Hc. apply in_dset in Hin. destruct Hin as [Hin|[-> ->]]; eauto.
    + intros. apply Hn. now right.
Qed.
Lemma fit_tree c p q : fit p -> add_kdtree c p = Ok q -> fit q.
Proof.
  intros Hf H. unfold add_kdtree in H. destruct c as [| |d lo hi sd poly [|] fp]; try (injection H as <-; auto; fail).
  destruct (ps_get disc_key p) as [v|] eqn:E; [|discriminate]. injection H as <-.
  inversion Hf as [? N A B C]; subst. constructor; cbn [ps_save_cache ps_cache ps_vals]; auto.
  intros t Ht. rewrite dget_dset_same in Ht. injection Ht as <-. auto.
Qed.
Lemma fit_copy p : forall q, fit p -> ps_copy p = Ok q -> fit q /\ ps_cache q = ps_cache p.
Proof.
  induction p as [n vals attrs cache IH] using psstate_ind'. intros q Hf H. rewrite ps_copy_eq in H.
  apply rbind_ok in H. destruct H as (vals' & Hv & H). apply rbind_ok in H. destruct H as (p' & Hp & H). injection H as <-.
  apply rmap_ok in Hv. pose proof (copy_keys _ _ Hv) as Hk.
  assert (Hfv : forall k v, In (k, v) vals' -> fit_value k v).
  { intros k v Hin. apply In_nth_error in Hin. destruct Hin as (i & Hi).
    assert (G : exists kv, In kv vals /\ (v0 <-? value_copy (snd kv) ;; Ok (fst kv, v0)) = Ok (k, v)).
    { clear - Hv Hi. revert i Hi. induction Hv as [|a b l l' H1 H2 IH]; intros [|i] Hi; try discriminate.
      - cbn in Hi. injection Hi as ->. exists a. split; [now left|auto].
      - destruct (IH _ Hi) as (kv & A & B). exists kv. split; [now right|auto]. }
    destruct G as ([k0 v0] & Hin & E). cbn [fst snd] in E. apply rbind_ok in E. destruct E as (v1 & E & E').
    injection E' as -> ->. pose proof (fit_values _ _ _ Hf Hin) as [F1 F2].
    destruct v0 as [l|l|l|l]; cbn [value_copy] in E; try (injection E as <-; split; auto; fail).
    apply rbind_ok in E. destruct E as (l' & E & E'). injection E' as <-. apply rmap_ok in E. split.
    - intros -> l0 E0. exact (F1 eq_refl l eq_refl).
    - intros c Hc. cbn [states_in] in Hc. clear - IH E Hc Hin F2.
      assert (G : exists c0, In c0 l /\ ps_copy c0 = Ok c).
      { clear - E Hc. induction E as [|a b l l' H1 H2 IH]; [destruct Hc|]. destruct Hc as [<-|Hc].
        - exists a. split; [now left|auto].
        - destruct (IH Hc) as (c0 & A & B). exists c0. split; [now right|auto]. }
      destruct G as (c0 & Hc0 & Ec). eapply (IH k (Lst l) c0); eauto. }
  pose proof (fit_nodup _ Hf) as N. cbn [ps_vals] in N. rewrite <- Hk in N.
  destruct (fit_mk _ _ _ N Hp Hfv) as [Hfp Hcp]. cbn [ps_cache]. split; auto.
  inversion Hfp as [? N0 A B C]; subst. inversion Hf as [? N' A' B' C']; subst. constructor; cbn [ps_cache ps_vals]; auto.
  intros v Hcv. pose proof (A' v Hcv) as D. cbn [ps_vals] in D.
  apply mk_ps_ok in Hp; auto. destruct Hp as [-> _]. cbn [ps_vals].
  unfold ps_get in *. cbn [ps_vals] in *.
  assert (Hnl : forall l, v <> Lst l). { intros l ->. apply (B' l). now apply dget_some_in. }
  clear - Hv D Hnl. induction Hv as [|[k0 v0] b l l' H1 H2 IH]; [discriminate|].
  apply rbind_ok in H1. destruct H1 as (v1 & E & E'). injection E' as <-. cbn [fst snd] in *. cbn [dget] in *.
  destruct (String.eqb disc_key k0); auto. injection D as ->. destruct v; cbn [value_copy] in E; try (now injection E as <-).
  exfalso. eapply Hnl; reflexivity.
Qed.

(** * Newborn states *)
Lemma not_disc s k par : valid s -> In (k, par) (sp_params s) -> k <> disc_key.
Proof.
  intros Hv Hin ->. pose proof (valid_here _ Hv) as (_ & _ & _ & _ & H & _). apply H.
  apply in_map with (f := fst) in Hin. exact Hin.
Qed.
Lemma fit_made obj f s vals : valid s ->
  (forall k s', In (k, PSpace s') (sp_params s) -> forall tr q tr', f s' tr = Ret q tr' -> fit q) ->
  madeP obj f (sp_params s) vals -> forall k v, In (k, v) vals -> fit_value k v.
Proof.
  intros Hv Hf Hm k v Hin. destruct (Hm k v Hin) as [(l & ->)|[(l & ->)|(l & s' & E & Hp & Hq)]].
  - split; [discriminate|intros c []].
  - split; [discriminate|intros c []].
  - assert (Hk : k <> disc_key) by (eapply not_disc; eauto). split; [intros E'; contradiction|].
    intros c Hc. assert (Hc' : In c l) by (subst v; destruct (obj s'); exact Hc).
    destruct (Hq c Hc') as (t & t' & E'). eauto.
Qed.
Lemma fit_sample s : valid s -> forall tr p tr', sample s tr = Ret p tr' -> fit p /\ ps_cache p = [].
Proof.
  induction s as [s IH] using space_ind'. intros Hv tr p tr' H. pose proof (sample_wf _ Hv _ _ _ H) as Hwf.
  apply sample_made in H. destruct H as [Hm Hc]. split; auto.
  apply fit_fresh; auto; [apply sane_nodup; eapply wf_sane; eauto|]. eapply fit_made; [exact Hv| |exact Hm].
  intros k s' Hin t q t' E. eapply IH; eauto. eapply valid_in; eauto.
Qed.
Lemma fit_sample_disc s tr p tr' : sample_discretization s tr = Ret p tr' -> fit p /\ ps_cache p = [].
Proof.
  unfold sample_discretization. intros H. mb H as n En. mb H as sites Es. mr H. eapply fit_mk; [|exact H|]; [repeat constructor; auto|].
  intros k v [[= <- <-]|[]]. destruct (sp_cls s); cbn [sites_value]; (split; [discriminate|intros c []]).
Qed.
Lemma fit_fill params : (forall k par, In (k, par) params -> k <> disc_key) ->
  (forall k s', In (k, PSpace s') params -> valid s') ->
  forall q acc tr q' acc' tr', fit q -> fill_params params q acc tr = Ret (q', acc') tr' -> fit q' /\ ps_cache q' = ps_cache q.
Proof.
  intros Hk Hs. induction params as [|[k [pr|s']] t IH]; intros q acc tr q' acc' tr' Hf H; cbn [fill_params] in H.
  - mr H. injection H as <- _. auto.
  - mb H as g Eg. mb H as q1 E1. apply fit_set in E1; auto; [|eapply Hk; now left|intros c []]. destruct E1 as [F1 C1].
    apply IH in H; auto; [rewrite C1 in H; auto|intros; eapply Hk; right; eauto|intros; eapply Hs; right; eauto].
  - destruct (is_disc s').
    + mb H as a Ea. mb H as q1 E1.
      assert (Fa : forall c, In c a -> fit c).
      { intros c Hc. destruct (repeatM_from _ _ _ _ _ Ea c Hc) as (ta & tb & E). now apply fit_sample_disc in E. }
      destruct (fit_set k (Lst a) _ _ Hf (Hk _ _ (or_introl eq_refl)) Fa E1) as [F1 C1].
      apply IH in H; auto; [rewrite C1 in H; auto|intros; eapply Hk; right; eauto|intros; eapply Hs; right; eauto].
    + mb H as a Ea. mb H as q1 E1.
      assert (Fa : forall c, In c a -> fit c).
      { intros c Hc. destruct (repeatM_from _ _ _ _ _ Ea c Hc) as (ta & tb & E). eapply fit_sample; [|exact E]. eapply Hs. now left. }
      destruct (fit_set k (Lst a) _ _ Hf (Hk _ _ (or_introl eq_refl)) Fa E1) as [F1 C1].
      apply IH in H; auto; [rewrite C1 in H; auto|intros; eapply Hk; right; eauto|intros; eapply Hs; right; eauto].
Qed.
Lemma in_skipn {A} i (l : list A) c : In c (skipn i l) -> In c l.
Proof. intros H. rewrite <- (firstn_skipn i l). apply in_or_app. auto. Qed.
Lemma in_firstn {A} i (l : list A) c : In c (firstn i l) -> In c l.
Proof. intros H. rewrite <- (firstn_skipn i l). apply in_or_app. auto. Qed.
Lemma set_nth_in {A} (l : list A) i x c : In c (set_nth l i x) -> c = x \/ In c l.
Proof. unfold set_nth. intros H. apply in_app_or in H. destruct H as [H|[<-|H]]; eauto using in_skipn, in_firstn. Qed.
Lemma set_num_plain v i x v' : set_num v i x = Ok v' -> states_in v' = [].
Proof. unfold set_num. intros H. destruct v as [[]|]; try discriminate. destruct (_ <? _)%nat; [|discriminate]. now injection H as <-. Qed.
Lemma fit_each s old i x j : valid s ->
  (forall k s', In (k, PSpace s') (sp_params s) -> forall old new tr q r tr', fit new ->
    sample_from_neighbour s' old new tr = Ret (q, r) tr' -> fit q /\ ps_cache q = ps_cache new) ->
  forall ps, (forall kp, In kp ps -> In kp (sp_params s)) -> forall q acc tr q' acc' tr', fit q ->
  nb_each sample_from_neighbour old i x j ps q acc tr = Ret (q', acc') tr' -> fit q' /\ ps_cache q' = ps_cache q.
Proof.
  intros Hv IH. induction ps as [|[k [pr|s']] t IHp]; intros Hsub q acc tr q' acc' tr' F0 E2; cbn [nb_each] in E2.
  - mr E2. injection E2 as <- _. auto.
  - mb E2 as nb E3. mb E2 as [nv rr] E4. mb E2 as v' E5. mb E2 as q1 E6. mb E2 as lp E7. mb E2 as sd E8. mb E2 as lq E9.
    apply set_num_plain in E5. apply fit_set in E6; auto; [|eapply not_disc; [exact Hv|apply Hsub; now left]|rewrite E5; intros c []].
    destruct E6 as [F1 C1]. apply IHp in E2; auto; [rewrite C1 in E2; auto|intros; apply Hsub; now right].
  - destruct (is_disc s').
    + mb E2 as o E3. mb E2 as n E4. mb E2 as [n' l'] E5. mb E2 as v' E6. mb E2 as q1 E7.
      assert (Fn : fit n).
      { unfold state_at in E4. destruct (ps_get k q) as [[]|] eqn:Eg; try discriminate;
          apply idx_ok in E4; apply nth_error_In in E4; (eapply fit_get; [exact F0|exact Eg|exact E4]). }
      pose proof (Hsub _ (or_introl eq_refl)) as Hin.
      destruct (IH _ _ Hin _ _ _ _ _ _ Fn E5) as [Fn' _].
      assert (Hst : forall c, In c (states_in v') -> fit c).
      { unfold set_state in E6. destruct (ps_get k q) as [[]|] eqn:Eg; try discriminate;
        (destruct (_ <? _)%nat; [|discriminate]);
        injection E6 as <-; intros c Hc; cbn in Hc; apply set_nth_in in Hc;
        (destruct Hc as [->|Hc]; auto); (eapply fit_get; [exact F0|exact Eg|exact Hc]). }
      apply fit_set in E7; auto; [|eapply not_disc; eauto]. destruct E7 as [F1 C1].
      apply IHp in E2; auto; [rewrite C1 in E2; auto|intros; apply Hsub; now right].
    + apply IHp in E2; auto. intros; apply Hsub; now right.
Qed.
Lemma fit_sfn s : valid s -> forall old new tr q r tr', fit new ->
  sample_from_neighbour s old new tr = Ret (q, r) tr' -> fit q /\ ps_cache q = ps_cache new.
Proof.
  induction s as [s IH] using space_ind'. intros Hv old new tr q r tr' Hf H.
  destruct s as [nm fx mi ma rg cls params]. rewrite sfn_eq in H. mb H as [q0 acc0] E0. mb H as positions Ep.
  apply fit_fill in E0; auto;
    [|intros k par Hin; exact (not_disc _ _ _ Hv Hin)|intros k s' Hin; exact (valid_in _ _ _ Hv Hin)].
  destruct E0 as [F0 C0]. rewrite <- C0. clear Hf C0 Ep.
  match type of H with nb_points _ _ _ ?l _ _ ?t = Ret _ ?t' => revert q0 acc0 F0 H; generalize l, t, t' end. intros l.
  induction l as [|[i x] l IHl]; intros ta tb q0 acc0 F0 H; cbn [nb_points] in H.
  - mr H. injection H as <- _. auto.
  - mb H as j Ej. mb H as [q2 acc2] E2.
    assert (G : fit q2 /\ ps_cache q2 = ps_cache q0).
    { eapply (fit_each (Space nm fx mi ma rg cls params)); [exact Hv| | |exact F0|exact E2]; auto.
      intros k s' Hin o n t1 q1 r1 t2 Fn E. eapply IH; eauto. eapply valid_in; eauto. }
    destruct G as [F2 C2]. apply IHl in H; auto. rewrite C2 in H. auto.
Qed.

(** * Moves *)
Definition fit_vals (d : dict value) : Prop := NoDup (dkeys d) /\ forall k v, In (k, v) d -> fit_value k v.
Lemma fit_vals_set k v d : fit_vals d -> k <> disc_key -> (forall c, In c (states_in v) -> fit c) -> fit_vals (dset k v d).
Proof.
  intros [N H] Hk Hv. split; [now apply dset_nodup|]. intros k' v' Hin. apply in_dset in Hin.
  destruct Hin as [Hin|[-> ->]]; [auto|]. split; [intros E; exfalso; auto|auto].
Qed.
Lemma fit_get_value p k v : fit p -> ps_get k p = Some v -> fit_value k v.
Proof. intros Hf E. eapply fit_values; eauto. apply dget_some_in. exact E. Qed.
Definition born_fit (x : newborn) : Prop := match x with NState c => fit c | NNum _ => True end.
Definition born_ok (d : dict newborn) : Prop := forall k x, In (k, x) d -> k <> disc_key /\ born_fit x.
Lemma in_list_insert {A} i (x : A) l c : In c (list_insert i x l) -> c = x \/ In c l.
Proof. unfold list_insert. intros H. apply in_app_or in H. destruct H as [H|[<-|H]]; eauto using in_skipn, in_firstn. Qed.
Lemma in_list_delete {A} i (l : list A) c : In c (list_delete i l) -> In c l.
Proof. unfold list_delete. intros H. apply in_app_or in H. destruct H as [H|H]; eauto using in_skipn, in_firstn. Qed.
Lemma insert_value_fit i x v v' k : insert_value i x v = Ok v' -> born_fit x -> fit_value k v -> fit_value k v'.
Proof.
  intros H Hx [F1 F2]. destruct v, x; cbn [insert_value] in H; try discriminate.
  - apply rbind_ok in H. destruct H as (l' & _ & [= <-]). split; [discriminate|intros c []].
  - injection H as <-. split.
    + intros E l0 E0. apply (F1 E l eq_refl).
    + intros c Hc. apply in_list_insert in Hc. destruct Hc as [->|Hc]; auto.
Qed.
Lemma append_value_fit x v v' k : append_value x (Some v) = Ok v' -> born_fit x -> fit_value k v -> fit_value k v'.
Proof.
  intros H Hx [F1 F2]. destruct v, x; cbn [append_value] in H; try discriminate; injection H as <-.
  - split; [discriminate|intros c []].
  - split.
    + intros E l0 E0. apply (F1 E l eq_refl).
    + intros c Hc. apply in_app_or in Hc. destruct Hc as [Hc|[<-|[]]]; auto.
Qed.
Lemma add_newborns_fit put old born : fit old -> born_ok born ->
  (forall x v v' k, put x (Some v) = Ok v' -> born_fit x -> fit_value k v -> fit_value k v') ->
  (forall x, put x None = Raise EType) ->
  forall acc vals, fit_vals acc -> add_newborns put old born acc = Ok vals -> fit_vals vals.
Proof.
  intros Hf Hb Hp Hn. induction born as [|[k x] t IH]; intros acc vals Ha H; cbn [add_newborns] in H.
  - now injection H as <-.
  - apply rbind_ok in H. destruct H as (v & Ev & H). destruct (Hb k x (or_introl eq_refl)) as [Hk Hx].
    eapply IH; [intros k' x' Hin; apply Hb; now right| |exact H].
    destruct (ps_get k old) as [w|] eqn:Eg; [|rewrite Hn in Ev; discriminate].
    apply fit_vals_set; auto. apply (Hp _ _ _ k Ev Hx). eapply fit_get_value; eauto.
Qed.
Lemma param_sample_fit s k pr x tr y tr' : valid s -> In (k, pr) (sp_params s) ->
  param_sample pr x tr = Ret y tr' -> born_fit y.
Proof.
  intros Hv Hin H. destruct pr as [p|s']; cbn [param_sample] in H.
  - mb H as z Ez. mr H. exact I.
  - mb H as q Eq. mr H. cbn. eapply fit_sample; [|exact Eq]. eapply valid_in; eauto.
Qed.
Lemma newborn_params_fit s x old tr born l tr' : valid s -> newborn_params s x old tr = Ret (born, l) tr' -> born_ok born.
Proof.
  intros Hv. unfold newborn_params.
  assert (A : forall ps, (forall kp, In kp ps -> In kp (sp_params s)) -> forall tr r tr',
            newborn_from_prior ps x tr = Ret r tr' -> born_ok r).
  { induction ps as [|[k pr] t IH]; intros Hs ta r tb E; cbn [newborn_from_prior] in E.
    - mr E. intros k x0 [].
    - mb E as y Ey. mb E as r1 Er. mr E. intros k' x' [[= <- <-]|Hin].
      + split; [eapply not_disc; [exact Hv|apply Hs; now left]|eapply param_sample_fit; eauto; apply Hs; now left].
      + eapply IH; [|exact Er|exact Hin]. intros; apply Hs; now right. }
  assert (B : forall j ps, (forall kp, In kp ps -> In kp (sp_params s)) -> forall acc tr r acc' tr',
            newborn_from_neighbour ps x j old acc tr = Ret (r, acc') tr' -> born_ok r).
  { intros j. induction ps as [|[k [pr|s']] t IH]; intros Hs acc ta r acc' tb E; cbn [newborn_from_neighbour] in E.
    - mr E. injection E as <- _. intros k x0 [].
    - mb E as nb E1. mb E as [nv rr] E2. mb E as sd E3. mb E as lp E4. mb E as lq E5. mb E as [r1 a1] E6. mr E. injection E as <- _.
      intros k' x' [[= <- <-]|Hin].
      + split; [eapply not_disc; [exact Hv|apply Hs; now left]|exact I].
      + eapply IH; [|exact E6|exact Hin]. intros; apply Hs; now right.
    - destruct (is_disc s'); [|mb E as q Eq; discriminate].
      mb E as o E1. mb E as n E2. mb E as [n' l'] E3. mb E as [r1 a1] E4. mr E. injection E as <- _.
      intros k' x' [[= <- <-]|Hin].
      + pose proof (Hs _ (or_introl eq_refl)) as Hin. split; [eapply not_disc; [exact Hv|exact Hin]|].
        cbn. apply fit_sample_disc in E2. eapply fit_sfn; [eapply valid_in; eauto| |exact E3]. tauto.
      + eapply IH; [|exact E4|exact Hin]. intros; apply Hs; now right. }
  intros H. destruct (sp_cls s) as [|lo hi sd [|]|d lo hi sd poly kd [|]]; try discriminate.
  - mb H as r Er. mr H. injection H as <- _. eapply A; [|exact Er]. auto.
  - mb H as j Ej. eapply B; [|exact H]. auto.
  - mb H as r Er. mr H. injection H as <- _. eapply A; [|exact Er]. auto.
  - mb H as j Ej. eapply B; [|exact H]. auto.
Qed.
Lemma first_fit v : states_in v = [] -> (forall l, v <> Lst l) -> fit_vals [(disc_key, v)].
Proof.
  intros Hv Hl. split; [repeat constructor; auto|]. intros k w [[= <- <-]|[]]. split; auto. rewrite Hv. intros c [].
Qed.
Lemma vals_fit n vals q : fit_vals vals -> mk_ps n vals = Ok q -> fit q.
Proof. intros [N F] H. eapply fit_mk; eauto. Qed.
Lemma tree_there c p q : add_kdtree c p = Ok q -> match c with VorN _ _ _ _ _ true _ => True | _ => False end -> has_tree q.
Proof.
  intros H Hw. apply add_kdtree_treed in H. destruct c as [| |d lo hi sd poly [|] fp]; try contradiction.
  destruct H as (_ & _ & v & _ & E). exists v. rewrite E. apply dget_dset_same.
Qed.
Lemma vor_birth_fit s p tr p' r tr' : valid s -> fit p -> vor_birth s p tr = Ret (p', r) tr' ->
  fit p' /\ (wants_tree s -> has_tree p').
Proof.
  intros Hv Hf H. unfold vor_birth in H. mb H as [q l] Eq. mb H as q' Eq'. mr H. injection H as -> _.
  split; [|intros Hw; eapply tree_there; eauto]. eapply fit_tree; [|exact Eq'].
  destruct (_ =? _)%nat; [mr Eq; injection Eq as <- _; auto|].
  mb Eq as x Ex. mb Eq as [born l0] Eb. mb Eq as vals Ev. mb Eq as q0 E0. mr Eq. injection Eq as -> _.
  eapply vals_fit; [|exact E0]. apply newborn_params_fit in Eb; auto.
  destruct x as [y|y]; destruct (ps_get disc_key p) as [[]|]; try discriminate.
  - apply rbind_ok in Ev. destruct Ev as (i & Ei & Ev). apply rbind_ok in Ev. destruct Ev as (st & Es & Ev).
    eapply add_newborns_fit; [exact Hf|exact Eb| | | |exact Ev].
    + intros ? ? ? ? HH. apply (insert_value_fit _ _ _ _ _ HH).
    + reflexivity.
    + apply first_fit; [reflexivity|discriminate].
  - eapply add_newborns_fit; [exact Hf|exact Eb| | | |exact Ev].
    + intros ? ? ? ? HH. apply (append_value_fit _ _ _ _ HH).
    + reflexivity.
    + apply first_fit; [reflexivity|discriminate].
Qed.
Lemma delete_value_fit i v v' k : delete_value i v = Ok v' -> fit_value k v -> fit_value k v'.
Proof.
  intros H [F1 F2]. destruct v; cbn [delete_value] in H; try discriminate.
  - apply rbind_ok in H. destruct H as (l' & _ & [= <-]). split; [discriminate|intros c []].
  - injection H as <-. split; [intros E l0 E0; apply (F1 E l eq_refl)|]. intros c Hc. apply F2. eapply in_list_delete; exact Hc.
Qed.
Lemma vor_delete_value_fit c0 i v v' k : vor_delete_value c0 i v = Ok v' -> fit_value k v -> fit_value k v'.
Proof.
  intros H Hf. destruct c0; try (eapply delete_value_fit; eauto; fail). destruct Hf as [F1 F2].
  destruct v; cbn [vor_delete_value] in H; try (destruct (_ <? _)%nat; [|discriminate]); injection H as <-;
    (split; [try discriminate|cbn [states_in]; try (intros c [])]).
  - intros c Hc. apply F2. eapply in_list_delete; exact Hc.
  - intros E l0 E0. apply (F1 E l eq_refl).
  - intros c Hc. apply F2. eapply in_list_delete; exact Hc.
Qed.
Lemma rmap_fit (g : value -> res value) vals vals' : (forall k v v', g v = Ok v' -> fit_value k v -> fit_value k v') ->
  rmap (fun kv => v <-? g (snd kv) ;; Ok (fst kv, v)) vals = Ok vals' -> fit_vals vals -> fit_vals vals'.
Proof.
  intros Hg H [N F]. apply rmap_ok in H.
  assert (K : dkeys vals' = dkeys vals).
  { clear - H. induction H as [|a b l l' H1 H2 IH]; auto. apply rbind_ok in H1. destruct H1 as (v & _ & [= <-]).
    unfold dkeys in *. cbn. now rewrite IH. }
  split; [now rewrite K|]. clear K N. induction H as [|a b l l' H1 H2 IH]; [intros k v []|].
  intros k v [E|Hin]; [|apply IH; auto; intros; apply F; now right].
  apply rbind_ok in H1. destruct H1 as (v1 & E1 & E2). rewrite E in E2. injection E2 as <- <-.
  eapply Hg; [exact E1|]. apply F. left. now destruct a.
Qed.
Lemma fit_fit_vals p : fit p -> fit_vals (ps_vals p).
Proof. intros H. split; [now apply fit_nodup|]. intros. eapply fit_values; eauto. Qed.
Lemma vor_death_fit s p tr p' r tr' : fit p -> vor_death s p tr = Ret (p', r) tr' ->
  fit p' /\ (wants_tree s -> has_tree p').
Proof.
  intros Hf H. unfold vor_death in H. mb H as [q l] Eq. mb H as q' Eq'. mr H. injection H as -> _.
  split; [|intros Hw; eapply tree_there; eauto]. eapply fit_tree; [|exact Eq'].
  destruct (_ =? _)%nat; [mr Eq; injection Eq as <- _; auto|].
  mb Eq as i Ei. mb Eq as vals Ev. mb Eq as q0 E0. mb Eq as l0 El. mr Eq. injection Eq as -> _.
  eapply vals_fit; [|exact E0]. eapply rmap_fit; [|exact Ev|now apply fit_fit_vals].
  intros k v v' HH. apply (vor_delete_value_fit _ _ _ _ _ HH).
Qed.
Lemma plain_death_fit s p tr p' r tr' : fit p -> plain_death s p tr = Ret (p', r) tr' -> fit p'.
Proof.
  intros Hf H. unfold plain_death in H. destruct (_ =? _)%nat; [mr H; injection H as <- _; auto|].
  mb H as i Ei. mb H as vals Ev. mb H as q0 E0. mr H. injection H as -> _.
  eapply vals_fit; [|exact E0]. eapply rmap_fit; [|exact Ev|now apply fit_fit_vals].
  intros k v v' HH. apply (delete_value_fit _ _ _ _ HH).
Qed.
Lemma plain_birth_vals_fit s i l : valid s -> forall tr vals tr', plain_birth_vals (sp_params s) i l tr = Ret vals tr' ->
  fit_vals l -> fit_vals vals /\ dkeys vals = dkeys l.
Proof.
  intros Hv. induction l as [|[k v] t IH]; intros tr vals tr' H Hl; cbn [plain_birth_vals] in H.
  - mr H. auto.
  - destruct (dget k (sp_params s)) as [pr|] eqn:Eg; [|discriminate].
    mb H as x Ex. mb H as v' Ev. mb H as r Er. mr H. destruct Hl as [N F].
    apply IH in Er. 2:{ split; [now inversion N|]. intros; apply F; now right. }
    destruct Er as [[N' F'] K]. split.
    + split; [unfold dkeys in *; cbn; rewrite K; exact N|]. intros k0 v0 [[= <- <-]|Hin]; auto.
      eapply insert_value_fit; [exact Ev| |apply F; now left]. eapply param_sample_fit; [exact Hv| |exact Ex].
      exact (dget_some_in _ _ _ Eg).
    + unfold dkeys in *. cbn. now rewrite K.
Qed.
Lemma plain_birth_fit s p tr p' r tr' : valid s -> fit p -> plain_birth s p tr = Ret (p', r) tr' -> fit p'.
Proof.
  intros Hv Hf H. unfold plain_birth in H. destruct (_ =? _)%nat; [mr H; injection H as <- _; auto|].
  mb H as i Ei. mb H as vals Ev. mb H as q0 E0. mr H. injection H as -> _.
  eapply vals_fit; [|exact E0]. eapply plain_birth_vals_fit in Ev; [|auto|now apply fit_fit_vals]. tauto.
Qed.
Lemma pick_in {A} (l : list A) is l' c : pick l is = Ok l' -> In c l' -> In c l.
Proof.
  intros H Hc. eapply pick_Forall with (P := fun x => In x l) in H; [|apply Forall_forall; auto].
  rewrite Forall_forall in H. auto.
Qed.
Lemma reorder_fit is v v' k : reorder is v = Ok v' -> fit_value k v -> fit_value k v'.
Proof.
  intros H [F1 F2]. destruct v; cbn [reorder] in H; apply rbind_ok in H; destruct H as (l' & E & [= <-]);
    (split; [try discriminate|cbn [states_in]; try (intros c [])]).
  - intros c Hc. apply F2. eapply pick_in; eauto.
  - intros E1 l0 E0. apply (F1 E1 l eq_refl).
  - intros c Hc. apply F2. eapply pick_in; eauto.
Qed.
Lemma perturb_value_loop_fit old i x x' put : fit old ->
  (forall k v v', put v = Ok v' -> fit_value k v -> fit_value k v') ->
  forall params, (forall k par, In (k, par) params -> k <> disc_key) ->
  forall vals acc vals' acc', fit_vals vals ->
  perturb_value_loop params old i x x' put vals acc = Ok (vals', acc') -> fit_vals vals'.
Proof.
  intros Hf Hp. induction params as [|[k pr] t IH]; intros Hk vals acc vals' acc' Hv H; cbn [perturb_value_loop] in H.
  - injection H as <- _. auto.
  - apply rbind_ok in H. destruct H as (a1 & _ & H). apply rbind_ok in H. destruct H as (v & Ev & H).
    eapply IH; [intros; eapply Hk; right; eauto| |exact H].
    destruct (ps_get k old) as [w|] eqn:Eg; [|discriminate].
    apply fit_vals_set; [auto|eapply Hk; now left|]. apply (Hp k _ _ Ev). eapply fit_get_value; eauto.
Qed.
Lemma perturb_value_fit s p i tr p' r tr' : valid s -> fit p -> perturb_value s p i tr = Ret (p', r) tr' ->
  fit p' /\ (wants_tree s -> has_tree p').
Proof.
  intros Hv Hf H. unfold perturb_value in H. mb H as x Ex. mb H as x' Ex'. mb H as [vals l] Ev. mb H as q Eq. mb H as q' Eq'.
  mr H. injection H as -> _. split; [|intros Hw; eapply tree_there; eauto]. eapply fit_tree; [|exact Eq'].
  eapply vals_fit; [|exact Eq].
  assert (Hk : forall k par, In (k, par) (sp_params s) -> k <> disc_key) by (intros; eapply not_disc; eauto).
  destruct (ps_get disc_key p) as [[]|]; destruct x'; try discriminate.
  - apply rbind_ok in Ev. destruct Ev as (st & Es & Ev).
    eapply perturb_value_loop_fit; [exact Hf| |exact Hk| |exact Ev].
    + intros kk w w2 HH. apply (reorder_fit _ _ _ _ HH).
    + apply first_fit; [reflexivity|discriminate].
  - eapply perturb_value_loop_fit; [exact Hf| |exact Hk| |exact Ev].
    + intros kk w w2 [= <-]. auto.
    + apply first_fit; [reflexivity|discriminate].
Qed.
Lemma perturb_priors_fit l p i : (forall q, In q l -> exists pr, q = PPrior pr /\ p_name pr <> disc_key) -> fit p ->
  forall new acc tr p' r tr', (forall k v, In (k, v) new -> k <> disc_key /\ forall c, In c (states_in v) -> fit c) ->
  perturb_params l p i new acc tr = Ret (p', r) tr' -> fit p' /\ ps_cache p' = ps_cache p.
Proof.
  intros Hl Hf. induction l as [|q t IH]; intros new acc tr p' r tr' Hn H.
  - cbn [perturb_params] in H. mb H as c Ec. mr H. injection H as <- _. apply fit_copy in Ec; auto.
    destruct Ec as [Fc Cc]. cbn [ps_cache]. split; auto. now apply fit_update.
  - destruct (Hl q (or_introl eq_refl)) as (pr & -> & Hk). cbn [perturb_params] in H.
    destruct (ps_get (p_name pr) p) as [v|] eqn:Eg; [|discriminate].
    mb H as old Eo. mb H as at_ Ea. mb H as [nv rr] En. mb H as v' Ev.
    eapply IH; [intros; apply Hl; now right| |exact H].
    intros k w Hin. apply in_dset in Hin. destruct Hin as [Hin|[-> ->]]; auto.
    split; auto. apply set_num_plain in Ev. rewrite Ev. intros c [].
Qed.
Lemma elem_fit s e w p tr p' r tr' : valid s -> In (e, w) (own_elems s) -> fit p ->
  elem_perturb e p tr = Ret (p', r) tr' -> fit p' /\ (wants_tree s -> has_tree p -> has_tree p').
Proof.
  intros Hv Hin Hf H. unfold own_elems in Hin. apply in_app_or in Hin. destruct Hin as [Hin|Hin].
  - destruct (sp_transd s); [|destruct Hin]. destruct Hin as [[= <- <-]|[[= <- <-]|[]]]; cbn [elem_perturb] in H.
    + unfold birth in H. destruct (is_disc s) eqn:Ed.
      * apply vor_birth_fit in H; auto. tauto.
      * apply plain_birth_fit in H; auto. split; auto. unfold is_disc, wants_tree in *. destruct (sp_cls s); [intros []|discriminate|discriminate].
    + unfold death in H. destruct (is_disc s) eqn:Ed.
      * apply vor_death_fit in H; auto. tauto.
      * apply plain_death_fit in H; auto. split; auto. unfold is_disc, wants_tree in *. destruct (sp_cls s); [intros []|discriminate|discriminate].
  - apply in_app_or in Hin. destruct Hin as [Hin|Hin].
    + assert (G : e = EParam (sp_name s) (priors_of (sp_params s))).
      { destruct (priors_of (sp_params s)); [destruct Hin|]. destruct Hin as [[= <- <-]|[]]. reflexivity. }
      subst e. cbn [elem_perturb] in H. unfold param_perturb in H. mb H as i Ei.
      apply perturb_priors_fit in H; auto.
      * destruct H as [F C]. split; auto. intros _ [v Ht]. exists v. now rewrite C.
      * intros q Hq. unfold priors_of in Hq. apply filter_In in Hq. destruct Hq as [Hq Hb].
        apply in_map_iff in Hq. destruct Hq as ([k q'] & <- & Hq). cbn [snd] in *. destruct q' as [pr|]; [|discriminate].
        exists pr. split; auto. pose proof (valid_here _ Hv) as (_ & _ & _ & _ & _ & Hp & _).
        destruct (Hp _ _ Hq) as [<- _]. eapply not_disc; eauto.
      * intros k v [].
    + destruct (is_disc s) eqn:Ed; [|destruct Hin]. destruct Hin as [[= <- <-]|[]].
      cbn [elem_perturb] in H. unfold param_perturb in H. mb H as i Ei. cbn [perturb_params] in H. rewrite Ed in H.
      apply perturb_value_fit in H; auto. tauto.
Qed.
