(** What initialize and sample leave in a state, one level at a time. *)
From Verif Require Import Base ModelPrior ModelState ModelSpace SpecState SpecSpace
  ProofChain ProofState ProofSpace.
Local Open Scope R_scope.
Local Open Scope string_scope.

Lemma in_dset {A} k (v : A) d k' v' : In (k', v') (dset k v d) -> In (k', v') d \/ k' = k /\ v' = v.
Proof.
  induction d as [|[k0 v0] d IH]; cbn.
  - intros [E|[]]. injection E as <- <-. auto.
  - destruct (String.eqb_spec k k0) as [E|E]; cbn; intros [H|H]; auto.
    + injection H as <- <-. auto.
    + destruct (IH H); auto.
Qed.
Lemma post_init_from todo : forall p q, post_init todo p = Ok q ->
  ps_cache q = ps_cache p /\ ps_n q = ps_n p /\
  forall k v, In (k, v) (ps_vals q) -> In (k, v) (ps_vals p) \/ In (k, v) todo.
Proof.
  induction todo as [|[k v] t IH]; intros p q H; cbn in H.
  - injection H as <-. auto.
  - destruct (negb _); [discriminate|]. apply rbind_ok in H. destruct H as (p' & E & H).
    apply IH in H. destruct H as (H1 & H2 & H3). apply ps_set_ok in E. destruct E as (E & _). subst p'. cbn in *.
    split; auto. split; auto. intros k' v' Hin. destruct (H3 _ _ Hin) as [Hd|Hd]; auto.
    apply in_dset in Hd. destruct Hd as [Hd|[-> ->]]; auto.
Qed.
Lemma mk_ps_from n vals p : mk_ps n vals = Ok p ->
  ps_cache p = [] /\ ps_n p = n /\ forall k v, In (k, v) (ps_vals p) -> In (k, v) vals.
Proof.
  intros H. apply post_init_from in H. cbn in H. destruct H as (H1 & H2 & H3). split; auto. split; auto.
  intros k v Hin. destruct (H3 _ _ Hin); auto.
Qed.

(** A value whose states all come from [f s'] for the nested space [s'] stored under that name;
    [obj] allows arrays of objects. *)
Definition made (obj : space -> bool) (f : space -> M psstate) (params : list (string * param)) (k : string) (v : value) : Prop :=
  (exists l, v = Arr l) \/ (exists l, v = ArrN l) \/
  (exists l s', v = (if obj s' then AObj l else Lst l) /\ In (k, PSpace s') params /\
     forall q, In q l -> exists t t', f s' t = Ret q t').
Lemma made_more obj f l l' k v : (forall x, In x l -> In x l') -> made obj f l k v -> made obj f l' k v.
Proof. intros Hl [H|[H|(a & s' & H1 & H2 & H3)]]; [left|right; left|right; right]; auto. exists a, s'. auto. Qed.
Definition madeP (obj : space -> bool) f params (vals : dict value) : Prop :=
  forall k v, In (k, v) vals -> made obj f params k v.
Lemma repeatM_from {A} n (m : M A) tr l tr' : repeatM n m tr = Ret l tr' ->
  forall q, In q l -> exists t t', m t = Ret q t'.
Proof.
  intros H q Hq. apply (repeatM_inv (fun q => exists t t', m t = Ret q t')) in H; [|eauto].
  destruct H as [_ H]. rewrite Forall_forall in H. now apply H.
Qed.
Lemma sites_made obj f params c ps : made obj f params disc_key (sites_value c ps).
Proof. destruct c; cbn; [left|left|right; left]; eauto. Qed.

(** What is in the cache after [_add_kdtree_to_ps_state]. *)
Definition treed (c : sclass) (p q : psstate) : Prop :=
  ps_vals q = ps_vals p /\ ps_n q = ps_n p /\
  match c with
  | VorN _ _ _ _ _ true _ => exists v, ps_get disc_key q = Some v /\ ps_cache q = dset "kdtree" v (ps_cache p)
  | _ => q = p
  end.
Lemma add_kdtree_treed c p q : add_kdtree c p = Ok q -> treed c p q.
Proof.
  unfold treed. destruct c as [| |d lo hi sd poly [|] fp]; cbn; try (intros [= <-]; auto; fail).
  destruct (ps_get disc_key p) as [v|] eqn:E; [|discriminate]. intros [= <-]. split; auto. split; auto.
  exists v. split; auto.
Qed.

Lemma init_disc_from (f : space -> M psstate) positions params : forall acc tr vals tr',
  (fix go (l : list (string * param)) (acc : dict value) : M (dict value) :=
     match l with
     | [] => ret acc
     | (k, PPrior p) :: t =>
         a <- p_initialize p positions ;; go t (dset k (Arr a) acc)
     | (k, PSpace s') :: t =>
         a <- repeatM (length positions) (f s') ;; go t (dset k (Lst a) acc)
     end) params acc tr = Ret vals tr' ->
  forall k v, In (k, v) vals -> In (k, v) acc \/ made (fun _ => false) f params k v.
Proof.
  induction params as [|[k0 [pr|s0]] t IH]; intros acc tr vals tr' H k v Hin.
  - mr H. auto.
  - mb H as a Ea. destruct (IH _ _ _ _ H _ _ Hin) as [Hd|Hd].
    + apply in_dset in Hd. destruct Hd as [Hd|[-> ->]]; auto. right. left. eauto.
    + right. eapply made_more; [|exact Hd]. intros; now right.
  - mb H as a Ea. destruct (IH _ _ _ _ H _ _ Hin) as [Hd|Hd].
    + apply in_dset in Hd. destruct Hd as [Hd|[-> ->]]; auto. right. right. right.
      exists a, s0. split; auto. split; [now left|]. eapply repeatM_from; eauto.
    + right. eapply made_more; [|exact Hd]. intros; now right.
Qed.
Lemma initialize_made s tr p tr' : initialize s tr = Ret p tr' ->
  madeP (fun _ => false) initialize (sp_params s) (ps_vals p) /\
  exists p0, ps_cache p0 = [] /\ treed (sp_cls s) p0 p.
Proof.
  destruct s as [name fixed nmin nmax range cls params]. cbn [initialize sp_cls sp_params]. intros H. mb H as n En.
  destruct cls as [|lo hi sd fp|d lo hi sd poly kd fp].
  - mb H as vals Ev. mr H.
    apply mk_ps_from in H. destruct H as (H1 & H2 & H3).
    split; [|exists p; split; auto; split; auto].
    intros k v Hin. apply H3 in Hin. clear - Ev Hin.
    match type of Ev with _ ?t = Ret _ ?t' => revert t t' vals Ev k v Hin end.
    induction params as [|[k0 [pr|s0]] t IH]; intros ta tb vals Ev k v Hin.
    + mr Ev. destruct Hin.
    + mb Ev as g Eg. mb Ev as a Ea. mb Ev as r Er. mr Ev.
      destruct Hin as [E|Hin]; [injection E as <- <-; left; eauto|].
      eapply made_more; [|eapply IH; eauto]. intros; now right.
    + mb Ev as a Ea. mb Ev as r Er. mr Ev.
      destruct Hin as [E|Hin].
      * injection E as <- <-. right. right. exists a, s0. split; auto. split; [now left|].
        eapply repeatM_from; eauto.
      * eapply made_more; [|eapply IH; eauto]. intros; now right.
  - mb H as sites Es. mb H as positions Ep. mb H as vals Ev. mb H as p0 E0. mr H.
    apply mk_ps_from in E0. destruct E0 as (H1 & H2 & H3).
    split; [|exists p; split; auto; split; auto].
    intros k v Hin. apply H3 in Hin.
    destruct (init_disc_from initialize _ _ _ _ _ _ Ev _ _ Hin) as [[E|[]]|Hm]; auto.
    injection E as <- <-. left. eauto.
  - mb H as sites Es. mb H as positions Ep. mb H as vals Ev. mb H as p0 E0. mr H.
    apply mk_ps_from in E0. destruct E0 as (H1 & H2 & H3).
    apply (add_kdtree_treed (VorN d lo hi sd poly kd fp)) in H.
    split; [|exists p0; auto]. destruct H as (Hvals & _).
    rewrite Hvals. intros k v Hin. apply H3 in Hin.
    destruct (init_disc_from initialize _ _ _ _ _ _ Ev _ _ Hin) as [[E|[]]|Hm]; auto.
    injection E as <- <-. right. left. eauto.
Qed.

Lemma sample_disc_from (f : space -> M psstate) params : forall q tr p tr',
  (fix go (l : list (string * param)) (q : psstate) : M psstate :=
     match l with
     | [] => ret q
     | (k, PPrior p) :: t =>
         positions <- lift (positions_of (ps_get disc_key q)) ;;
         a <- mapM (fun x => p_sample p (Some x)) positions ;;
         q' <- lift (ps_set k (Arr a) q) ;; go t q'
     | (k, PSpace s') :: t =>
         positions <- lift (positions_of (ps_get disc_key q)) ;;
         a <- repeatM (length positions) (f s') ;;
         q' <- lift (ps_set k (Lst a) q) ;; go t q'
     end) params q tr = Ret p tr' ->
  ps_cache p = ps_cache q /\
  forall k v, In (k, v) (ps_vals p) -> In (k, v) (ps_vals q) \/ made (fun _ => false) f params k v.
Proof.
  induction params as [|[k0 [pr|s0]] t IH]; intros q tr p tr' H.
  - mr H. auto.
  - mb H as ps Ep. mb H as a Ea. mb H as q' Eq. apply ps_set_ok in Eq. destruct Eq as (Eq & _). subst q'.
    apply IH in H. cbn in H. destruct H as [H1 H2]. split; auto. intros k v Hin.
    destruct (H2 _ _ Hin) as [Hd|Hd].
    + apply in_dset in Hd. destruct Hd as [Hd|[-> ->]]; auto. right. left. eauto.
    + right. eapply made_more; [|exact Hd]. intros; now right.
  - mb H as ps Ep. mb H as a Ea. mb H as q' Eq. apply ps_set_ok in Eq. destruct Eq as (Eq & _). subst q'.
    apply IH in H. cbn in H. destruct H as [H1 H2]. split; auto. intros k v Hin.
    destruct (H2 _ _ Hin) as [Hd|Hd].
    + apply in_dset in Hd. destruct Hd as [Hd|[-> ->]]; auto. right. right. right.
      exists a, s0. split; auto. split; [now left|]. eapply repeatM_from; eauto.
    + right. eapply made_more; [|exact Hd]. intros; now right.
Qed.
Lemma sample_disc_made s tr q tr' : sample_discretization s tr = Ret q tr' ->
  ps_cache q = [] /\ forall k v, In (k, v) (ps_vals q) -> k = disc_key /\ ((exists l, v = Arr l) \/ exists l, v = ArrN l).
Proof.
  unfold sample_discretization. intros H. mb H as n En. mb H as sites Es. mr H.
  apply mk_ps_from in H. destruct H as (H1 & _ & H3). split; auto.
  intros k v Hin. apply H3 in Hin. destruct Hin as [E|[]]. injection E as <- <-. split; auto.
  destruct (sp_cls s); cbn; eauto.
Qed.
Lemma sample_made s tr p tr' : sample s tr = Ret p tr' ->
  madeP (fun s' => negb (is_disc s) && is_disc s')%bool sample (sp_params s) (ps_vals p) /\ ps_cache p = [].
Proof.
  destruct s as [name fixed nmin nmax range cls params]. cbn [sample sp_params]. intros H.
  destruct cls as [|lo hi sd fp|d lo hi sd poly kd fp].
  - mb H as n En. mb H as vals Ev. mr H.
    apply mk_ps_from in H. destruct H as (H1 & H2 & H3). split; auto.
    intros k v Hin. apply H3 in Hin. clear - Ev Hin.
    change (made is_disc sample params k v).
    match type of Ev with _ ?t = Ret _ ?t' => revert t t' vals Ev k v Hin end.
    induction params as [|[k0 [pr|s0]] t IH]; intros ta tb vals Ev k v Hin.
    + mr Ev. destruct Hin.
    + mb Ev as a Ea. mb Ev as r Er. mr Ev.
      destruct Hin as [E|Hin]; [injection E as <- <-; left; eauto|].
      eapply made_more; [|eapply IH; eauto]. intros; now right.
    + mb Ev as a Ea. mb Ev as r Er. mr Ev.
      destruct Hin as [E|Hin].
      * injection E as <- <-. right. right. exists a, s0. split; auto. split; [now left|].
        eapply repeatM_from; eauto.
      * eapply made_more; [|eapply IH; eauto]. intros; now right.
  - mb H as p0 E0. apply sample_disc_made in E0. destruct E0 as [C0 V0].
    apply (sample_disc_from sample) in H. destruct H as [H1 H2]. split; [|congruence].
    intros k v Hin. destruct (H2 _ _ Hin) as [Hd|Hd]; [|exact Hd].
    apply V0 in Hd. destruct Hd as (_ & [Hd|Hd]); [left|right; left]; auto.
  - mb H as p0 E0. apply sample_disc_made in E0. destruct E0 as [C0 V0].
    apply (sample_disc_from sample) in H. destruct H as [H1 H2]. split; [|congruence].
    intros k v Hin. destruct (H2 _ _ Hin) as [Hd|Hd]; [|exact Hd].
    apply V0 in Hd. destruct Hd as (_ & [Hd|Hd]); [left|right; left]; auto.
Qed.
