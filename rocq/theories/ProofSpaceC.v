(** Proofs about the model of parameter spaces: values of a newborn dimension taken from its
    neighbour, and the reverse probability computed by a death. *)
From Verif Require Import Base ModelUtils1D ModelPrior ModelState ModelSpace SpecUtils1D SpecPrior
  SpecState SpecSpace ProofUtils1D ProofUtils1DB ProofChain ProofChainC ProofInversion ProofState
  PropPrior ProofSpace ProofSpaceB.
Local Open Scope R_scope.

(** * Extended numbers *)
Lemma eadd_comm a b : eadd a b = eadd b a.
Proof. destruct a, b; cbn; auto. f_equal. ring. Qed.
Lemma eadd_assoc a b c : eadd (eadd a b) c = eadd a (eadd b c).
Proof. destruct a, b, c; cbn; auto. f_equal. ring. Qed.
Lemma eadd_0_r a : eadd a (Fin 0) = a.
Proof. destruct a; cbn; auto. f_equal. ring. Qed.
Lemma eadd_0_l a : eadd (Fin 0) a = a.
Proof. destruct a; cbn; auto. f_equal. ring. Qed.
Lemma eneg_eadd a b : eneg (eadd a b) = eadd (eneg a) (eneg b).
Proof. destruct a, b; cbn; auto. f_equal. ring. Qed.
Lemma eneg_0 : eneg (Fin 0) = Fin 0.
Proof. cbn. f_equal. ring. Qed.
Lemma esub_0_r a : esub a (Fin 0) = a.
Proof. unfold esub. rewrite eneg_0. apply eadd_0_r. Qed.
Lemma eneg_eneg a : eneg (eneg a) = a.
Proof. destruct a; cbn; auto. f_equal. ring. Qed.
Lemma live_eadd a b : live (eadd a b) -> live a /\ live b.
Proof. destruct a, b; cbn; tauto. Qed.
Lemma esum_acc acc l : esum acc l = eadd acc (esum (Fin 0) l).
Proof.
  revert acc. induction l as [|x l IH]; intros acc; cbn [esum]; [now rewrite eadd_0_r|].
  rewrite IH, (IH (eadd (Fin 0) x)), eadd_0_l, eadd_assoc. reflexivity.
Qed.
Lemma live_esum acc l : live (esum acc l) -> live acc /\ Forall live l.
Proof.
  revert acc. induction l as [|x l IH]; intros acc; cbn; [auto|].
  intros H. apply IH in H. destruct H as [H1 H2]. apply live_eadd in H1. intuition.
Qed.
Lemma esum_zeros {A} acc (l : list A) : esum acc (map (fun _ => Fin 0) l) = acc.
Proof. revert acc. induction l; intros acc; cbn; auto. now rewrite eadd_0_r. Qed.

Lemma Forall2_impl_in {A B} (P Q : A -> B -> Prop) l l' :
  (forall a b, In a l -> P a b -> Q a b) -> Forall2 P l l' -> Forall2 Q l l'.
Proof.
  intros H HF. induction HF; constructor.
  - apply H; cbn; auto.
  - apply IHHF. intros; apply H; cbn; auto.
Qed.

(** * The loops by name *)
Section Named.
Variable f : space -> psstate -> psstate -> M (psstate * ext).
Variable params : list (string * param).
Variable old : psstate.
Section Point.
Variables (i : nat) (x : pos) (j : nat).
Fixpoint nb_each (l : list (string * param)) (q : psstate) (acc : ext) : M (psstate * ext) :=
  match l with
  | [] => ret (q, acc)
  | (k, PPrior p) :: t =>
      nb <- lift (num_at (ps_get k old) j) ;;
      '(nv, _) <- p_perturb p nb (Some x) true ;;
      v' <- lift (set_num (ps_get k q) i nv) ;;
      q' <- lift (ps_set k v' q) ;;
      lp <- lift (p_log_prior p nv (Some x)) ;;
      sd <- lift (perturb_std_of p true (Some x)) ;;
      lq <- lift (log_proposal sd nv nb) ;;
      nb_each t q' (eadd acc (eadd lp (Fin lq)))
  | (k, PSpace s') :: t =>
      if is_disc s' then
        o <- lift (state_at (ps_get k old) j) ;;
        n <- lift (state_at (ps_get k q) i) ;;
        '(n', l') <- f s' o n ;;
        v' <- lift (set_state (ps_get k q) i n') ;;
        q' <- lift (ps_set k v' q) ;;
        nb_each t q' (eadd acc l')
      else nb_each t q acc
  end.
End Point.
Fixpoint nb_points (is : list (nat * pos)) (q : psstate) (acc : ext) : M (psstate * ext) :=
  match is with
  | [] => ret (q, acc)
  | (i, x) :: more =>
      j <- lift (nearest_neighbour (ps_get disc_key old) x) ;;
      '(q2, acc2) <- nb_each i x j params q acc ;;
      nb_points more q2 acc2
  end.

(** One parameter at one point. *)
Definition nb_step (i : nat) (x : pos) (j : nat) (kp : string * param) (v v' : option value) (b : ext)
    : Prop :=
  let '(k, par) := kp in
  match par with
  | PPrior p => exists l nb nv r t t' lp sd lq,
      v = Some (Arr l) /\ (i < length l)%nat /\ v' = Some (Arr (set_nth l i nv)) /\
      num_at (ps_get k old) j = Ok nb /\ p_perturb p nb (Some x) true t = Ret (nv, r) t' /\
      p_log_prior p nv (Some x) = Ok lp /\ perturb_std_of p true (Some x) = Ok sd /\
      log_proposal sd nv nb = Ok lq /\ b = eadd lp (Fin lq)
  | PSpace s' =>
      if is_disc s' then exists l o n n' t t',
        v = Some (Lst l) /\ nth_error l i = Some n /\ v' = Some (Lst (set_nth l i n')) /\
        state_at (ps_get k old) j = Ok o /\ f s' o n t = Ret (n', b) t'
      else v' = v /\ b = Fin 0
  end.
Lemma nb_each_spec i x j l : NoDup (dkeys l) -> forall q acc tr q2 acc2 tr',
  nb_each i x j l q acc tr = Ret (q2, acc2) tr' ->
  (exists bs, Forall2 (fun kp b => nb_step i x j kp (ps_get (fst kp) q) (ps_get (fst kp) q2) b) l bs /\
     acc2 = esum acc bs) /\
  (forall k, ~ In k (dkeys l) -> ps_get k q2 = ps_get k q) /\
  dkeys (ps_vals q2) = dkeys (ps_vals q) /\ ps_n q2 = ps_n q /\ ps_cache q2 = ps_cache q.
Proof.
  induction l as [|[k par] t IH]; intros Hnd q acc tr q2 acc2 tr' H.
  - cbn [nb_each] in H. mr H. injection H as -> ->. split; [exists []; split; [constructor|auto]|auto].
  - inversion Hnd as [|? ? Hnk Hnd']; subst. specialize (IH Hnd'). cbn [nb_each] in H.
    assert (Hmain : forall v w b q1 tr1, ps_get k q = Some v ->
       ps_vals q1 = dset k w (ps_vals q) -> ps_n q1 = ps_n q -> ps_cache q1 = ps_cache q ->
       nb_step i x j (k, par) (Some v) (Some w) b ->
       nb_each i x j t q1 (eadd acc b) tr1 = Ret (q2, acc2) tr' ->
       (exists bs, Forall2 (fun kp b => nb_step i x j kp (ps_get (fst kp) q) (ps_get (fst kp) q2) b)
          ((k, par) :: t) bs /\ acc2 = esum acc bs) /\
       (forall k', ~ In k' (dkeys ((k, par) :: t)) -> ps_get k' q2 = ps_get k' q) /\
       dkeys (ps_vals q2) = dkeys (ps_vals q) /\ ps_n q2 = ps_n q /\ ps_cache q2 = ps_cache q).
    { intros v w b q1 tr1 Hv Hq1 Hn1 Hc1 Hstep Hrest.
      destruct (IH _ _ _ _ _ _ Hrest) as ((bs & Hbs & ->) & Hfr & Hkeys & Hn & Hc).
      assert (Hother : forall k', k' <> k -> ps_get k' q1 = ps_get k' q).
      { intros k' Hk'. unfold ps_get. rewrite Hq1. apply dget_dset_other. congruence. }
      split; [|split; [|split; [|split]]].
      - exists (b :: bs). split; [|reflexivity]. constructor.
        + cbn [fst]. rewrite (Hfr k Hnk). rewrite Hv.
          assert (E : ps_get k q1 = Some w) by (unfold ps_get; rewrite Hq1; apply dget_dset_same).
          rewrite E. exact Hstep.
        + eapply Forall2_impl_in; [|exact Hbs]. intros [k1 p1] c Hin. cbn [fst].
          assert (Hk1 : k1 <> k) by (intros ->; apply Hnk; eapply in_dkeys; eauto).
          now rewrite (Hother _ Hk1).
      - intros k' Hk'. cbn in Hk'. rewrite Hfr by tauto. apply Hother. intros ->. tauto.
      - rewrite Hkeys, Hq1. apply dkeys_dset_in. eapply in_dkeys. apply dget_some_in. exact Hv.
      - congruence.
      - congruence. }
    destruct par as [p|s'].
    + mb H as nb Enb. mb H as [nv r] Ep. mb H as v' Ev. mb H as q1 Eq. mb H as lp Elp.
      mb H as sd Esd. mb H as lq Elq. apply ps_set_ok in Eq. destruct Eq as [-> _].
      unfold set_num in Ev. destruct (ps_get k q) as [[lv| | |]|] eqn:Ek; try discriminate.
      destruct (Nat.ltb_spec i (length lv)); [|discriminate]. injection Ev as <-.
      eapply Hmain; [reflexivity| | | | |exact H]; [reflexivity..|].
      cbn. exists lv, nb, nv, r. eexists _, _, lp, sd, lq. repeat (split; [eauto|]). auto.
    + destruct (is_disc s') eqn:Ed.
      * mb H as o Eo. mb H as n En. mb H as [n' l'] Er. mb H as v' Ev. mb H as q1 Eq.
        apply ps_set_ok in Eq. destruct Eq as [-> _].
        unfold set_state in Ev. destruct (ps_get k q) as [[| | |lv]|] eqn:Ek; try discriminate.
        destruct (Nat.ltb_spec i (length lv)); [|discriminate]. injection Ev as <-.
        eapply Hmain; [reflexivity| | | | |exact H]; [reflexivity..|].
        cbn. rewrite Ed. exists lv, o, n, n'. eexists _, _.
        cbn in En. apply idx_ok in En. repeat (split; [eauto|]). eauto.
      * destruct (IH _ _ _ _ _ _ H) as ((bs & Hbs & ->) & Hfr & Hkeys & Hn & Hc).
        split; [|split; [|auto]].
        -- exists (Fin 0 :: bs). split; [|cbn; now rewrite eadd_0_r]. constructor; [|exact Hbs].
           cbn. rewrite Ed. split; auto.
        -- intros k' Hk'. cbn in Hk'. apply Hfr. tauto.
Qed.

(** Entries that keep their values except at some indices. *)
Definition same_off (I : nat -> Prop) (v v' : option value) : Prop :=
  match v, v' with
  | Some (Arr l), Some (Arr l') => length l = length l' /\
      forall i, ~ I i -> nth_error l i = nth_error l' i
  | Some (Lst l), Some (Lst l') => length l = length l' /\
      forall i, ~ I i -> nth_error l i = nth_error l' i
  | _, _ => v = v'
  end.
Lemma same_off_refl I v : same_off I v v.
Proof. destruct v as [[| | |]|]; cbn; auto. Qed.
Lemma same_off_trans (I J K : nat -> Prop) u v w : (forall i, I i -> K i) -> (forall i, J i -> K i) ->
  same_off I u v -> same_off J v w -> same_off K u w.
Proof.
  intros HI HJ.
  destruct u as [[| | |]|], v as [[| | |]|], w as [[| | |]|]; cbn; try congruence;
    try (intros [= ->]; discriminate); try (intros ? [= ->]; discriminate);
    intros [L1 E1] [L2 E2]; (split; [congruence|]); intros i Hi; rewrite E1, E2; auto.
Qed.
Lemma nb_step_off i x j kp v v' b : nb_step i x j kp v v' b -> same_off (eq i) v v'.
Proof.
  destruct kp as [k [p|s']]; cbn.
  - intros (l & nb & nv & r & t & t' & lp & sd & lq & -> & Hi & -> & _). cbn.
    rewrite set_nth_length by auto. split; auto. intros i' Hn.
    rewrite nth_set_nth by auto. destruct (Nat.eqb_spec i' i); congruence.
  - destruct (is_disc s').
    + intros (l & o & n & n' & t & t' & -> & Hi & -> & _). cbn.
      pose proof (nth_error_some_lt _ _ _ Hi) as Hl.
      rewrite set_nth_length by auto. split; auto. intros i' Hn.
      rewrite nth_set_nth by auto. destruct (Nat.eqb_spec i' i); congruence.
    + intros [-> _]. apply same_off_refl.
Qed.

(** One parameter at one point, seen from the finished state [vf]; [v0]: before. *)
Definition nb_fin (i : nat) (x : pos) (j : nat) (kp : string * param) (v0 vf : option value) (b : ext)
    : Prop :=
  let '(k, par) := kp in
  match par with
  | PPrior p => exists l nb nv r t t' lp sd lq,
      vf = Some (Arr l) /\ nth_error l i = Some nv /\
      num_at (ps_get k old) j = Ok nb /\ p_perturb p nb (Some x) true t = Ret (nv, r) t' /\
      p_log_prior p nv (Some x) = Ok lp /\ perturb_std_of p true (Some x) = Ok sd /\
      log_proposal sd nv nb = Ok lq /\ b = eadd lp (Fin lq)
  | PSpace s' =>
      if is_disc s' then exists l0 l o n n' t t',
        v0 = Some (Lst l0) /\ nth_error l0 i = Some n /\
        vf = Some (Lst l) /\ nth_error l i = Some n' /\
        state_at (ps_get k old) j = Ok o /\ f s' o n t = Ret (n', b) t'
      else b = Fin 0
  end.
Lemma step_fin i x j kp v w u b I : ~ I i -> nb_step i x j kp v w b -> same_off I w u ->
  nb_fin i x j kp v u b.
Proof.
  intros HI. destruct kp as [k [p|s']]; cbn.
  - intros (l & nb & nv & r & t & t' & lp & sd & lq & -> & Hi & -> & H). cbn.
    destruct u as [[l'| | |]|]; try discriminate. intros [_ E]. specialize (E i HI).
    rewrite nth_set_nth, Nat.eqb_refl in E by auto.
    exists l', nb, nv, r, t, t', lp, sd, lq. split; auto.
  - destruct (is_disc s').
    + intros (l & o & n & n' & t & t' & -> & Hi & -> & H). cbn.
      pose proof (nth_error_some_lt _ _ _ Hi) as Hl.
      destruct u as [[| | |l']|]; try discriminate. intros [_ E]. specialize (E i HI).
      rewrite nth_set_nth, Nat.eqb_refl in E by auto.
      exists l, l', o, n, n', t, t'. split; auto.
    + intros [_ H] _. exact H.
Qed.
Lemma off_fin i i' x j kp v w u b : i <> i' -> same_off (eq i) v w ->
  nb_fin i' x j kp w u b -> nb_fin i' x j kp v u b.
Proof.
  intros Hne. destruct kp as [k [p|s']]; cbn; auto.
  destruct (is_disc s'); auto.
  intros Hoff (l0 & l & o & n & n' & t & t' & -> & Hn & H).
  destruct v as [[| | |lv]|]; cbn in Hoff; try discriminate. destruct Hoff as [_ E].
  rewrite <- (E i' Hne) in Hn. exists lv, l, o, n, n', t, t'. auto.
Qed.
Definition nb_point (q q2 : psstate) (ix : nat * pos) (b : ext) : Prop :=
  exists j cs, nearest_neighbour (ps_get disc_key old) (snd ix) = Ok j /\
    Forall2 (fun kp c => nb_fin (fst ix) (snd ix) j kp (ps_get (fst kp) q) (ps_get (fst kp) q2) c)
      params cs /\
    b = esum (Fin 0) cs.
Lemma Forall2_in_l {A B} (P : A -> B -> Prop) l l' a : Forall2 P l l' -> In a l -> exists b, In b l' /\ P a b.
Proof.
  induction 1 as [|x y l l' H1 H2 IH]; cbn; [tauto|].
  intros [<-|Hin]; [eauto|]. destruct (IH Hin) as (b & Hb & HP). eauto.
Qed.
Lemma nb_points_spec is : NoDup (map fst is) -> NoDup (dkeys params) -> forall q acc tr q2 acc2 tr',
  nb_points is q acc tr = Ret (q2, acc2) tr' ->
  (exists bs, Forall2 (nb_point q q2) is bs /\ acc2 = esum acc bs) /\
  (forall k, same_off (fun i => In i (map fst is)) (ps_get k q) (ps_get k q2)) /\
  (forall k, ~ In k (dkeys params) -> ps_get k q2 = ps_get k q) /\
  (forall k s', In (k, PSpace s') params -> is_disc s' = false -> ps_get k q2 = ps_get k q) /\
  dkeys (ps_vals q2) = dkeys (ps_vals q) /\ ps_n q2 = ps_n q /\ ps_cache q2 = ps_cache q.
Proof.
  intros Hni Hnd. induction is as [|[i x] more IH]; intros q acc tr q2 acc2 tr' H; cbn [nb_points] in H.
  - mr H. injection H as -> ->. split; [exists []; split; [constructor|auto]|].
    split; [intros; apply same_off_refl|auto].
  - mb H as j Ej. mb H as [q1 acc1] Eeach. cbn [map fst] in Hni.
    inversion Hni as [|? ? Hi Hni']; subst.
    destruct (nb_each_spec _ _ _ _ Hnd _ _ _ _ _ _ Eeach) as ((cs & Hcs & ->) & Hfr1 & Hk1 & Hn1 & Hc1).
    destruct (IH Hni' _ _ _ _ _ _ H) as ((bs & Hbs & ->) & Hoff & Hfr & Hpl & Hk & Hn & Hc).
    assert (Hoff1 : forall k, same_off (eq i) (ps_get k q) (ps_get k q1)).
    { intros k. destruct (in_dec string_dec k (dkeys params)) as [Hin|Hin].
      - apply dget_keys in Hin. destruct Hin as (par & Hpar). apply dget_some_in in Hpar.
        destruct (Forall2_in_l _ _ _ _ Hcs Hpar) as (c & _ & Hst). cbn [fst] in Hst.
        eapply nb_step_off; eauto.
      - rewrite (Hfr1 _ Hin). apply same_off_refl. }
    split; [|split; [|split; [|split; [|split; [congruence|split; congruence]]]]].
    + exists (esum (Fin 0) cs :: bs). split.
      * constructor.
        -- exists j, cs. split; [exact Ej|]. split; [|reflexivity].
           eapply Forall2_impl; [|exact Hcs]. intros kp c Hst. cbn [fst snd].
           eapply step_fin; [|exact Hst|exact (Hoff (fst kp))]. exact Hi.
        -- eapply Forall2_impl_in; [|exact Hbs]. intros [i' x'] b Hin (j' & cs' & E1 & E2 & E3).
           exists j', cs'. split; [exact E1|]. split; [|exact E3].
           eapply Forall2_impl; [|exact E2]. intros kp c Hf. cbn [fst snd] in *.
           eapply off_fin; [|exact (Hoff1 (fst kp))|exact Hf].
           intros ->. apply Hi. apply in_map_iff. exists (i', x'). auto.
      * cbn [esum]. now rewrite (esum_acc acc cs).
    + intros k. eapply same_off_trans; [| |exact (Hoff1 k)|exact (Hoff k)]; cbn; auto.
    + intros k Hk'. rewrite (Hfr _ Hk'). auto.
    + intros k s' Hin Hd. rewrite (Hpl _ _ Hin Hd).
      destruct (Forall2_in_l _ _ _ _ Hcs Hin) as (c & _ & Hst). cbn in Hst. rewrite Hd in Hst. tauto.
Qed.
End Named.
Lemma sfn_eq nm fx mi ma rg cls params old new :
  sample_from_neighbour (Space nm fx mi ma rg cls params) old new =
  ('(q0, acc0) <- fill_params params new (Fin 0) ;;
   positions <- lift (positions_of (ps_get disc_key q0)) ;;
   nb_points sample_from_neighbour params old (combine (seq 0 (length positions)) positions) q0 acc0).
Proof. reflexivity. Qed.

(** * The initial filling *)
Definition filled (n : nat) (par : param) (v : value) : Prop :=
  match par with
  | PPrior _ => exists l, v = Arr l /\ length l = n
  | PSpace s' => exists l, v = Lst l /\ length l = n /\
      Forall (if is_disc s' then raw s' else wf s') l
  end.
Lemma fill_spec params :
  (forall k s', In (k, PSpace s') params -> valid s') ->
  forall q acc tr q' acc' tr', NoDup (dkeys (ps_vals q) ++ dkeys params) ->
  fill_params params q acc tr = Ret (q', acc') tr' ->
  acc' = acc /\ ps_n q' = ps_n q /\ ps_cache q' = ps_cache q /\
  exists new, ps_vals q' = ps_vals q ++ new /\ keyed (filled (ps_n q)) params new.
Proof.
  intros Hs. induction params as [|[k par] t IH]; intros q acc tr q' acc' tr' Hnd H.
  - cbn in H. injection H as <- <- <-. repeat (split; [reflexivity|]). exists [].
    rewrite app_nil_r. split; auto. constructor.
  - assert (Hk : ~ In k (dkeys (ps_vals q))).
    { intros Hin. apply NoDup_remove_2 in Hnd. apply Hnd. apply in_or_app. auto. }
    assert (Hs' : forall k s', In (k, PSpace s') t -> valid s') by (intros; eapply Hs; right; eauto).
    specialize (IH Hs').
    assert (Hmain : forall v q1 tr1 , ps_set k v q = Ok q1 -> filled (ps_n q) par v ->
      fill_params t q1 acc tr1 = Ret (q', acc') tr' ->
      acc' = acc /\ ps_n q' = ps_n q /\ ps_cache q' = ps_cache q /\
      exists new, ps_vals q' = ps_vals q ++ new /\ keyed (filled (ps_n q)) ((k, par) :: t) new).
    { intros v q1 tr1 Hq1 Hfv Hrest. apply ps_set_ok in Hq1. destruct Hq1 as [-> _].
      apply IH in Hrest.
      - cbn [ps_n ps_vals ps_cache] in Hrest. destruct Hrest as (-> & -> & -> & new & Hv & Hnew).
        repeat (split; [reflexivity|]). rewrite dset_fresh, <- app_assoc in Hv by auto.
        exists ([(k, v)] ++ new). split; auto. constructor; auto.
      - cbn [ps_vals]. rewrite dset_fresh by auto. unfold dkeys in *. rewrite map_app, <- app_assoc.
        exact Hnd. }
    cbn [fill_params] in H. destruct par as [p|s'].
    + mb H as g Eg. mb H as q1 Eq1. eapply Hmain; [exact Eq1| |exact H].
      exists g. split; auto. now apply (repeatM_inv (fun _ => True)) in Eg.
    + assert (Hv' : valid s') by (eapply Hs; left; reflexivity).
      destruct (is_disc s') eqn:Ed.
      * mb H as a Ea. mb H as q1 Eq1. unfold log_init_disc in H. rewrite esum_zeros, eadd_0_r in H.
        eapply Hmain; [exact Eq1| |exact H]. exists a. split; auto. rewrite Ed.
        apply (repeatM_inv (raw s')) in Ea; [exact Ea|].
        intros ta r tb Er. apply sample_disc_raw in Er; [tauto|now apply valid_here|exact Ed].
      * mb H as a Ea. mb H as q1 Eq1.
        eapply Hmain; [exact Eq1| |exact H]. exists a. split; auto. rewrite Ed.
        apply (repeatM_inv (wf s')) in Ea; [exact Ea|].
        intros ta r tb Er. eapply sample_wf; eauto.
Qed.

(** * One level of [sample_from_neighbour] *)
Lemma map_fst_combine_seq {A} (l : list A) : map fst (combine (seq 0 (length l)) l) = seq 0 (length l).
Proof.
  generalize 0%nat. induction l as [|x l IH]; intros m; cbn; auto. now rewrite IH.
Qed.
Lemma in_combine_seq {A} (l : list A) i x :
  nth_error l i = Some x -> nth_error (combine (seq 0 (length l)) l) i = Some (i, x).
Proof.
  intros H. apply combine_nth; auto. apply nth_error_some_lt in H.
  rewrite (nth_error_nth' (seq 0 (length l)) 0%nat) by now rewrite seq_length.
  now rewrite seq_nth.
Qed.
Lemma sfn_spec s : valid s -> is_disc s = true -> forall old new tr q l tr',
  raw s new -> sample_from_neighbour s old new tr = Ret (q, l) tr' ->
  exists q0 ps bs,
    ps_n q = ps_n new /\ ps_cache q = ps_cache new /\
    ps_get disc_key q = ps_get disc_key new /\ dkeys (ps_vals q) = names s /\
    positions_of (ps_get disc_key new) = Ok ps /\ length ps = ps_n new /\
    (forall i at_, position_of s q i at_ <-> pos_in ps i at_) /\
    (forall k par, In (k, par) (sp_params s) ->
       exists v0 v, ps_get k q0 = Some v0 /\ filled (ps_n new) par v0 /\ ps_get k q = Some v /\
         same_off (fun i => (i < length ps)%nat) (Some v0) (Some v) /\
         match par with PSpace s' => if is_disc s' then True else v = v0 | _ => True end) /\
    Forall2 (nb_point sample_from_neighbour (sp_params s) old q0 q)
      (combine (seq 0 (length ps)) ps) bs /\
    l = esum (Fin 0) bs.
Proof.
  intros Hv Hd old new tr q l tr' Hraw H.
  destruct (raw_positions s new Hd Hraw) as (sv & ps & Hvals & Hps & Hlen & Hl & Hpos & Hsk).
  pose proof (valid_here _ Hv) as (_ & _ & _ & Hnd & Hdk & _).
  assert (Hnest : forall k s', In (k, PSpace s') (sp_params s) -> valid s')
    by (intros k s' Hin; eapply valid_in; eauto).
  assert (Hnames : names s = disc_key :: dkeys (sp_params s)) by (unfold names; now rewrite Hd).
  destruct s as [nm fx mi ma rg cls params]. rewrite sfn_eq in H. cbn [sp_params] in *.
  mb H as [q0 acc0] Efill.
  apply fill_spec in Efill; auto; [|rewrite Hvals; apply (disc_first (Space nm fx mi ma rg cls params)); auto].
  destruct Efill as (-> & Hn0 & Hc0 & news & Hv0 & Hnew).
  mb H as ps' Eps.
  assert (Eg : ps_get disc_key q0 = ps_get disc_key new).
  { unfold ps_get. rewrite Hv0, Hvals. reflexivity. }
  rewrite Eg, Hps in Eps. injection Eps as <-.
  apply nb_points_spec in H; auto; [|rewrite map_fst_combine_seq; apply seq_NoDup].
  destruct H as ((bs & Hbs & ->) & Hoff & Hfr & Hpl & Hk & Hn & Hc).
  assert (Egq : ps_get disc_key q = ps_get disc_key new) by (rewrite Hfr, Eg; auto).
  exists q0, ps, bs.
  split; [congruence|]. split; [congruence|]. split; [exact Egq|].
  split. { rewrite Hk, Hv0, Hvals, Hnames, <- (keyed_keys _ _ _ Hnew). reflexivity. }
  split; [exact Hps|]. split; [exact Hlen|].
  split. { intros i at_. unfold pos_in. rewrite <- (Hpos i at_).
           split; apply position_disc; rewrite Egq; unfold ps_get; rewrite Hvals; reflexivity. }
  split; [|split; [exact Hbs|reflexivity]].
  intros k par Hin. destruct (keyed_get _ _ _ _ _ Hnd Hnew Hin) as (v0 & Hgv & Hf).
  assert (Hkd : k <> disc_key) by (intros ->; apply Hdk; eapply in_dkeys; eauto).
  assert (Ev0 : ps_get k q0 = Some v0).
  { unfold ps_get. rewrite Hv0, Hvals. cbn [app dget]. destruct (String.eqb_spec k disc_key); congruence. }
  specialize (Hoff k). rewrite Ev0, map_fst_combine_seq in Hoff.
  assert (Hoff' : same_off (fun i => (i < length ps)%nat) (Some v0) (ps_get k q)).
  { eapply same_off_trans; [| |exact Hoff|apply (same_off_refl (fun _ => False))]; cbn; try tauto.
    intros i Hi. apply in_seq in Hi. lia. }
  assert (Eq : exists v, ps_get k q = Some v).
  { destruct (ps_get k q) eqn:E; [eauto|]. exfalso. destruct v0; cbn in Hoff'; discriminate. }
  destruct Eq as (v & Ev). exists v0, v. rewrite Ev in Hoff'.
  repeat (split; [auto|]). destruct par as [p|s']; auto. destruct (is_disc s') eqn:Ed; auto.
  specialize (Hpl _ _ Hin Ed). congruence.
Qed.

(** * Well-formed newborns *)
Lemma nb_entry f params old q0 q ps bs : Forall2 (nb_point f params old q0 q)
    (combine (seq 0 (length ps)) ps) bs ->
  forall i x kp, nth_error ps i = Some x -> In kp params ->
  exists j c b, nearest_neighbour (ps_get disc_key old) x = Ok j /\
    nb_fin f old i x j kp (ps_get (fst kp) q0) (ps_get (fst kp) q) c /\
    In b bs /\ (live b -> live c).
Proof.
  intros HF i x kp Hx Hin.
  assert (Hix : In (i, x) (combine (seq 0 (length ps)) ps))
    by (eapply nth_error_In; eapply in_combine_seq; eauto).
  destruct (Forall2_in_l _ _ _ _ HF Hix) as (b & Hb & j & cs & Hj & Hcs & ->). cbn [fst snd] in *.
  destruct (Forall2_in_l _ _ _ _ Hcs Hin) as (c & Hc & Hfin).
  exists j, c, (esum (Fin 0) cs). repeat (split; [auto|]).
  intros Hlive. apply live_esum in Hlive. destruct Hlive as [_ Hl].
  rewrite Forall_forall in Hl. auto.
Qed.
Theorem sfn_wf s : valid s -> is_disc s = true -> forall old new tr q l tr',
  raw s new -> sample_from_neighbour s old new tr = Ret (q, l) tr' -> live l -> wf s q.
Proof.
  induction s as [s IH] using space_ind'. intros Hv Hd old new tr q l tr' Hraw H Hlive.
  destruct (sfn_spec s Hv Hd old new tr q l tr' Hraw H)
    as (q0 & ps & bs & Hn & Hc & Hg & Hkeys & Hps & Hlen & Hpos & Hpar & Hbs & ->).
  pose proof (valid_here _ Hv) as Hok. pose proof Hok as (_ & _ & _ & Hnd & Hdk & _).
  apply live_esum in Hlive. destruct Hlive as [_ Hlive]. rewrite Forall_forall in Hlive.
  pose proof Hraw as (Hdim & Hsites & sv & Hsv & Hlsv).
  apply wf_build; auto.
  - unfold dims_ok. rewrite Hn. exact Hdim.
  - eapply sites_disc; [symmetry; exact Hg|exact Hsites].
  - intros _. exists sv. rewrite Hg, Hn. split; auto. unfold ps_get. now rewrite Hsv.
  - intros k par Hin.
    destruct (Hpar k par Hin) as (v0 & v & E0 & Hfill & Ev & Hoff & Hpl).
    exists v. split; [exact Ev|]. rewrite Hn. destruct par as [pr|s'].
    + destruct Hfill as (l0 & -> & L0). destruct v as [lv| | |]; cbn in Hoff; try discriminate.
      destruct Hoff as [L1 _]. exists lv. split; auto. split; [congruence|].
      intros i x at_ Hx Hat. apply Hpos in Hat. destruct Hat as (y & Hy & ->).
      destruct (nb_entry _ _ _ _ _ _ _ Hbs i y (k, PPrior pr) Hy Hin) as (j & c & b & Hj & Hfin & Hb & Hl).
      cbn in Hfin. destruct Hfin as (l' & nb & nv & r & t & t' & lp & sd & lq & E1 & E2 & E3 & E4 & E5 & _ & _ & ->).
      rewrite Ev in E1. injection E1 as <-. rewrite Hx in E2. injection E2 as <-.
      eapply p_log_prior_inv; [eapply prior_of; eauto|exact E5|].
      specialize (Hl (Hlive _ Hb)). now apply live_eadd in Hl.
    + destruct Hfill as (l0 & -> & L0 & HF). destruct (is_disc s') eqn:Ed.
      * destruct v as [| | |lv]; cbn in Hoff; try discriminate. destruct Hoff as [L1 _].
        exists lv. split; auto. split; [congruence|]. apply Forall_forall. intros n' Hn'.
        apply In_nth_error in Hn'. destruct Hn' as (i & Hi).
        destruct (nth_error_lt ps i) as (y & Hy).
        { pose proof (nth_error_some_lt _ _ _ Hi). lia. }
        destruct (nb_entry _ _ _ _ _ _ _ Hbs i y (k, PSpace s') Hy Hin) as (j & c & b & Hj & Hfin & Hb & Hl).
        cbn in Hfin. rewrite Ed in Hfin.
        destruct Hfin as (l1 & l2 & o & n & n2 & t & t' & E1 & E2 & E3 & E4 & E5 & E6).
        rewrite E0 in E1. injection E1 as <-. rewrite Ev in E3. injection E3 as <-.
        rewrite Hi in E4. injection E4 as <-.
        eapply (IH k s'); [exact Hin|eapply valid_in; eauto|exact Ed| |exact E6|exact (Hl (Hlive _ Hb))].
        rewrite Forall_forall in HF. apply HF. eapply nth_error_In; eauto.
      * subst v. exists l0. auto.
Qed.

(** * The probability of the reverse move *)
Section NamedDeath.
Variable f : space -> psstate -> psstate -> res ext.
Variable params : list (string * param).
Variable old new : psstate.
Section Point.
Variables (i : nat) (x : pos) (j : nat).
Fixpoint dp_each (l : list (string * param)) (acc : ext) : res ext :=
  match l with
  | [] => Ok acc
  | (k, PPrior p) :: t =>
      ov <-? num_at (ps_get k old) i ;;
      nv <-? num_at (ps_get k new) j ;;
      sd <-? perturb_std_of p true (Some x) ;;
      lp <-? p_log_prior p ov (Some x) ;;
      lq <-? log_proposal sd ov nv ;;
      dp_each t (esub (esub acc lp) (Fin lq))
  | (k, PSpace s') :: t =>
      if is_disc s' then
        o <-? state_at (ps_get k old) i ;;
        n <-? state_at (ps_get k new) j ;;
        l' <-? f s' o n ;;
        dp_each t (eadd (esub acc log_init_disc) l')
      else dp_each t acc
  end.
End Point.
Fixpoint dp_points (is : list (nat * pos)) (acc : ext) : res ext :=
  match is with
  | [] => Ok acc
  | (i, x) :: more =>
      j <-? nearest_neighbour (ps_get disc_key new) x ;;
      acc2 <-? dp_each i x j params acc ;;
      dp_points more acc2
  end.
End NamedDeath.
Lemma dp_eq nm fx mi ma rg cls params old new :
  log_prob_death_ps_state (Space nm fx mi ma rg cls params) old new =
  (positions <-? positions_of (ps_get disc_key old) ;;
   dp_points log_prob_death_ps_state params old new
     (combine (seq 0 (length positions)) positions) (Fin 0)).
Proof. reflexivity. Qed.
Lemma eadd_swap a b c : eadd (eadd a b) c = eadd a (eadd b c).
Proof. apply eadd_assoc. Qed.
(** [g] is what the nested newborns satisfy. *)
Lemma dp_each_rev (F : space -> psstate -> psstate -> M (psstate * ext)) g i x j old q0 q l cs :
  (forall k s' o n n' c t t' l0, In (k, PSpace s') l -> is_disc s' = true ->
     ps_get k q0 = Some (Lst l0) -> In n l0 -> F s' o n t = Ret (n', c) t' -> g s' n' o = Ok (eneg c)) ->
  Forall2 (fun kp c => nb_fin F old i x j kp (ps_get (fst kp) q0) (ps_get (fst kp) q) c) l cs ->
  forall acc, dp_each g q old i x j l acc = Ok (eadd acc (eneg (esum (Fin 0) cs))).
Proof.
  intros HF Hcs. induction Hcs as [|[k par] c l cs H1 H2 IH]; intros acc; cbn [dp_each esum].
  - now rewrite eneg_0, eadd_0_r.
  - rewrite (esum_acc (eadd (Fin 0) c)), eadd_0_l, eneg_eadd, <- eadd_assoc.
    assert (IH' : forall acc, dp_each g q old i x j l acc = Ok (eadd acc (eneg (esum (Fin 0) cs)))).
    { apply IH. intros. eapply HF; eauto. right; eauto. }
    clear IH. cbn [fst] in H1. destruct par as [p|s']; cbn in H1.
    + destruct H1 as (l' & nb & nv & r & t & t' & lp & sd & lq & E1 & E2 & E3 & E4 & E5 & E6 & E7 & ->).
      rewrite E1. cbn [num_at]. rewrite (proj2 (idx_ok _ _ _) E2). cbn [rbind].
      rewrite E3. cbn [rbind]. rewrite E6. cbn [rbind]. rewrite E5. cbn [rbind]. rewrite E7. cbn [rbind].
      rewrite IH'. unfold esub. rewrite eneg_eadd, !eadd_assoc. reflexivity.
    + destruct (is_disc s') eqn:Ed.
      * destruct H1 as (l1 & l2 & o & n & n2 & t & t' & E1 & E2 & E3 & E4 & E5 & E6).
        rewrite E3. cbn [state_at]. rewrite (proj2 (idx_ok _ _ _) E4). cbn [rbind].
        rewrite E5. cbn [rbind].
        rewrite (HF k s' o n n2 c t t' l1); auto; [|left; reflexivity|eapply nth_error_In; eauto].
        cbn [rbind]. rewrite IH'. unfold log_init_disc. rewrite esub_0_r. reflexivity.
      * subst c. rewrite IH', eneg_0, eadd_0_r. reflexivity.
Qed.
Lemma dp_points_rev (F : space -> psstate -> psstate -> M (psstate * ext)) g params old q0 q is bs :
  (forall k s' o n n' c t t' l0, In (k, PSpace s') params -> is_disc s' = true ->
     ps_get k q0 = Some (Lst l0) -> In n l0 -> F s' o n t = Ret (n', c) t' -> g s' n' o = Ok (eneg c)) ->
  Forall2 (nb_point F params old q0 q) is bs ->
  forall acc, dp_points g params q old is acc = Ok (eadd acc (eneg (esum (Fin 0) bs))).
Proof.
  intros HF Hbs. induction Hbs as [|[i x] b is bs H1 H2 IH]; intros acc; cbn [dp_points esum].
  - now rewrite eneg_0, eadd_0_r.
  - destruct H1 as (j & cs & Hj & Hcs & ->). cbn [fst snd] in *. rewrite Hj. cbn [rbind].
    rewrite (dp_each_rev F g i x j old q0 q params cs HF Hcs). cbn [rbind]. rewrite IH.
    rewrite (esum_acc (eadd (Fin 0) _)), eadd_0_l, eneg_eadd, <- eadd_assoc. reflexivity.
Qed.
(** The newborn taken from the neighbour [old] with log ratio [l]: its death has ratio [- l]. *)
Theorem sfn_death s : valid s -> is_disc s = true -> forall old new tr q l tr',
  raw s new -> sample_from_neighbour s old new tr = Ret (q, l) tr' ->
  log_prob_death_ps_state s q old = Ok (eneg l).
Proof.
  induction s as [s IH] using space_ind'. intros Hv Hd old new tr q l tr' Hraw H.
  destruct (sfn_spec s Hv Hd old new tr q l tr' Hraw H)
    as (q0 & ps & bs & Hn & Hc & Hg & Hkeys & Hps & Hlen & Hpos & Hpar & Hbs & ->).
  rewrite <- (eadd_0_l (eneg _)).
  assert (HE : log_prob_death_ps_state s q old =
    (positions <-? positions_of (ps_get disc_key q) ;;
     dp_points log_prob_death_ps_state (sp_params s) q old
       (combine (seq 0 (length positions)) positions) (Fin 0))) by (destruct s; reflexivity).
  rewrite HE, Hg, Hps. cbn [rbind].
  eapply dp_points_rev; [|exact Hbs].
  intros k s' o n n' c t t' l0 Hin Ed El0 Hn0 Hrun.
  eapply (IH k s'); [exact Hin|eapply valid_in; eauto|exact Ed| |exact Hrun].
  destruct (Hpar k _ Hin) as (v0 & v & E0 & Hfill & _). rewrite El0 in E0. injection E0 as <-.
  cbn in Hfill. rewrite Ed in Hfill. destruct Hfill as (l1 & [= <-] & _ & HF).
  rewrite Forall_forall in HF. auto.
Qed.
