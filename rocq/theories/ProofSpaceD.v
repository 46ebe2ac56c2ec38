(** Proofs about the model of parameter spaces: births and deaths. *)
From Verif Require Import Base ModelUtils1D ModelPrior ModelState ModelSpace SpecUtils1D SpecPrior
  SpecState SpecSpace ProofUtils1D ProofUtils1DB ProofChain ProofChainC ProofInversion ProofState
  PropPrior ProofSpace ProofSpaceB ProofSpaceC.
Local Open Scope R_scope.

(** * Newborn values *)
Definition born_ok (x : option pos) (par : param) (b : newborn) : Prop :=
  match par, b with
  | PPrior p, NNum v => in_support p x v
  | PSpace s', NState q => wf s' q
  | _, _ => False
  end.
Definition born_kind (par : param) (b : newborn) : Prop :=
  match par, b with
  | PPrior _, NNum _ | PSpace _, NState _ => True
  | _, _ => False
  end.
Lemma param_sample_ok par at_ tr b tr' :
  match par with PPrior p => prior_ok p | PSpace s' => valid s' end ->
  param_sample par at_ tr = Ret b tr' -> born_ok at_ par b.
Proof.
  destruct par as [p|s']; cbn [param_sample]; intros Hok H.
  - mb H as x Ex. mr H. cbn. eapply p_sample_inv; eauto.
  - mb H as x Ex. mr H. cbn. eapply sample_wf; eauto.
Qed.
Lemma born_ok_kind x par b : born_ok x par b -> born_kind par b.
Proof. destruct par, b; cbn; auto. Qed.
Definition params_ok (params : dict param) : Prop :=
  forall k par, In (k, par) params ->
    match par with PPrior p => prior_ok p | PSpace s' => valid s' /\ k = sp_name s' end.
Lemma params_valid s : valid s -> params_ok (sp_params s).
Proof.
  intros H k [p|s'] Hin.
  - eapply prior_of; eauto. now apply valid_here.
  - split; [eapply valid_in; eauto|]. destruct (valid_here _ H) as (_ & _ & _ & _ & _ & _ & HN).
    eauto.
Qed.
Lemma newborn_prior_ok params x : params_ok params -> forall tr born tr',
  newborn_from_prior params x tr = Ret born tr' -> keyed (born_ok (Some x)) params born.
Proof.
  intros Hok. induction params as [|[k par] t IH]; intros tr born tr' H; cbn [newborn_from_prior] in H.
  - mr H. constructor.
  - mb H as v Ev. mb H as r Er. mr H. constructor.
    + split; auto. cbn [snd]. eapply param_sample_ok; [|exact Ev].
      specialize (Hok k par (or_introl eq_refl)). destruct par; tauto.
    + eapply IH; eauto. intros k' par' Hin. apply (Hok k'). right; auto.
Qed.

(** One newborn value taken from the neighbour [j]. *)
Definition nb_born (old : psstate) (x : pos) (j : nat) (k : string) (par : param) (b : newborn)
    (c : ext) : Prop :=
  match par with
  | PPrior p => exists nb nv r t t' lp sd lq, b = NNum nv /\
      num_at (ps_get k old) j = Ok nb /\ p_perturb p nb (Some x) true t = Ret (nv, r) t' /\
      p_log_prior p nv (Some x) = Ok lp /\ perturb_std_of p true (Some x) = Ok sd /\
      log_proposal sd nv nb = Ok lq /\ c = eadd lp (Fin lq)
  | PSpace s' => is_disc s' = true /\ exists o n n' t t', b = NState n' /\
      state_at (ps_get k old) j = Ok o /\ raw s' n /\
      sample_from_neighbour s' o n t = Ret (n', c) t'
  end.
Lemma newborn_nb_spec params x j old : params_ok params -> forall acc tr born l tr',
  newborn_from_neighbour params x j old acc tr = Ret (born, l) tr' ->
  exists cs, l = esum acc cs /\
    Forall2 (fun kp bc => fst kp = fst (fst bc) /\
               nb_born old x j (fst kp) (snd kp) (snd (fst bc)) (snd bc)) params (combine born cs) /\
    length born = length cs /\ length born = length params.
Proof.
  intros Hok. induction params as [|[k par] t IH]; intros acc tr born l tr' H;
    cbn [newborn_from_neighbour] in H.
  - mr H. injection H as <- <-. exists []. cbn. auto.
  - assert (Hok' : params_ok t) by (intros k' par' Hin; apply (Hok k'); right; auto).
    pose proof (Hok k par (or_introl eq_refl)) as Hpar. specialize (IH Hok').
    destruct par as [p|s'].
    + mb H as nb Enb. mb H as [nv r] Ep. mb H as sd Esd. mb H as lp Elp. mb H as lq Elq.
      mb H as [rest acc'] Er. mr H. injection H as <- <-.
      destruct (IH _ _ _ _ _ Er) as (cs & -> & HF & L1 & L2).
      exists (eadd lp (Fin lq) :: cs). split; [reflexivity|]. split; [|cbn; auto].
      cbn [combine]. constructor; [|exact HF]. cbn. split; auto.
      exists nb, nv, r. eexists _, _, lp, sd, lq. repeat (split; [eauto|]). auto.
    + destruct (is_disc s') eqn:Ed; [|mb H as z Ez; discriminate].
      mb H as o Eo. mb H as n En. mb H as [n' l'] Es. mb H as [rest acc'] Er. mr H.
      injection H as <- <-. destruct Hpar as [Hv Hk].
      destruct (IH _ _ _ _ _ Er) as (cs & -> & HF & L1 & L2).
      exists (l' :: cs). split; [reflexivity|]. split; [|cbn; auto].
      cbn [combine]. constructor; [|exact HF]. cbn. split; auto. split; auto.
      exists o, n, n'. eexists _, _. rewrite Hk. split; auto. split; auto.
      apply sample_disc_raw in En; [|now apply valid_here|exact Ed]. split; [tauto|eauto].
Qed.
Lemma newborn_ok s x old tr born l tr' : valid s ->
  newborn_params s x old tr = Ret (born, l) tr' ->
  keyed born_kind (sp_params s) born /\
  (live l -> keyed (born_ok (Some x)) (sp_params s) born).
Proof.
  intros Hv H. pose proof (params_valid s Hv) as Hok.
  assert (Hprior : forall tr born tr', newborn_from_prior (sp_params s) x tr = Ret born tr' ->
    keyed born_kind (sp_params s) born /\ (live l -> keyed (born_ok (Some x)) (sp_params s) born)).
  { intros tr0 b0 t0 E. apply newborn_prior_ok in E; auto. split; auto.
    eapply keyed_impl; [|exact E]. intros; eapply born_ok_kind; eauto. }
  assert (Hnb : forall j tr born tr',
    newborn_from_neighbour (sp_params s) x j old (Fin 0) tr = Ret (born, l) tr' ->
    keyed born_kind (sp_params s) born /\ (live l -> keyed (born_ok (Some x)) (sp_params s) born)).
  { intros j tr0 b0 t0 E. apply newborn_nb_spec in E; auto.
    destruct E as (cs & -> & HF & L1 & L2). clear Hprior H Hv.
    revert cs b0 L1 L2 HF. generalize (Fin 0). induction (sp_params s) as [|[k par] t IH];
      intros acc cs b0 L1 L2 HF.
    - destruct b0; [|discriminate]. split; [constructor|intros; constructor].
    - destruct b0 as [|[k' b] b0]; [discriminate|]. destruct cs as [|c cs]; [discriminate|].
      cbn [combine] in HF. inversion HF as [|? ? ? ? [E1 E2] HF']; subst. cbn in E1, E2. subst k'.
      assert (Hok' : params_ok t) by (intros k' par' Hin; apply (Hok k'); right; auto).
      pose proof (Hok k par (or_introl eq_refl)) as Hpar.
      cbn in L1, L2. injection L1 as L1. injection L2 as L2.
      destruct (IH Hok' (eadd acc c) cs b0 L1 L2 HF') as [K1 K2]. split.
      + constructor; [|exact K1]. split; auto. cbn [snd]. destruct par as [p|s']; cbn in E2.
        * destruct E2 as (nb & nv & r & t1 & t2 & lp & sd & lq & -> & _). exact I.
        * destruct E2 as (_ & o & n & n' & t1 & t2 & -> & _). exact I.
      + cbn [esum]. intros Hl. constructor; [|exact (K2 Hl)]. split; auto. cbn [snd].
        apply live_esum in Hl. destruct Hl as [Hl _]. apply live_eadd in Hl. destruct Hl as [_ Hl].
        destruct par as [p|s']; cbn in E2.
        * destruct E2 as (nb & nv & r & t1 & t2 & lp & sd & lq & -> & _ & _ & E5 & _ & _ & ->).
          apply live_eadd in Hl. cbn. eapply p_log_prior_inv; [exact Hpar|exact E5|tauto].
        * destruct E2 as (Ed & o & n & n' & t1 & t2 & -> & _ & Hraw & E). cbn.
          eapply sfn_wf; [apply Hpar|exact Ed|exact Hraw|exact E|exact Hl]. }
  unfold newborn_params in H. destruct (sp_cls s) as [|lo hi sd [|]|d lo hi sd poly kd [|]].
  - discriminate.
  - mb H as r Er. mr H. injection H as -> <-. eauto.
  - mb H as j Ej. eauto.
  - mb H as r Er. mr H. injection H as -> <-. eauto.
  - mb H as j Ej. eauto.
Qed.
(** * Insertion *)
(** The value [v'] is [v] with [b] inserted at [i]. *)
Definition put_at (i : nat) (b : newborn) (v v' : value) : Prop :=
  (i <= value_len v)%nat /\
  match b, v with
  | NNum r, Arr l => v' = Arr (insert_at i r l)
  | NState p, Lst l => v' = Lst (insert_at i p l)
  | _, _ => False
  end.
Lemma insert_value_ok i b v v' : (i <= value_len v)%nat -> insert_value i b v = Ok v' -> put_at i b v v'.
Proof.
  intros Hi. unfold insert_value, put_at. destruct v as [l| | |l], b as [r|p]; try discriminate.
  - cbn in Hi. rewrite insert_1d_spec by auto. cbn. intros [= <-]. auto.
  - intros [= <-]. auto.
Qed.
Lemma insert_at_end {A} (a : A) l : insert_at (length l) a l = l ++ [a].
Proof. unfold insert_at. now rewrite firstn_all, skipn_all. Qed.
Lemma append_value_ok b v v' : append_value b (Some v) = Ok v' -> put_at (value_len v) b v v'.
Proof.
  unfold append_value, put_at. destruct v as [l| | |l], b as [r|p]; try discriminate;
    intros [= <-]; (split; [auto|]); cbn [value_len]; now rewrite insert_at_end.
Qed.
Lemma add_newborns_spec put old born : forall acc vals,
  NoDup (dkeys acc ++ dkeys born) -> add_newborns put old born acc = Ok vals ->
  exists new, vals = acc ++ new /\
    Forall2 (fun kb kv => fst kb = fst kv /\ put (snd kb) (ps_get (fst kb) old) = Ok (snd kv)) born new.
Proof.
  induction born as [|[k b] t IH]; intros acc vals Hnd H; cbn [add_newborns] in H.
  - injection H as <-. exists []. rewrite app_nil_r. split; auto.
  - apply rbind_ok in H. destruct H as (v & Ev & H).
    assert (Hk : ~ In k (dkeys acc)).
    { intros Hin. apply NoDup_remove_2 in Hnd. apply Hnd. apply in_or_app. auto. }
    rewrite dset_fresh in H by auto. apply IH in H.
    + destruct H as (new & -> & HF). exists ((k, v) :: new). rewrite <- app_assoc. split; auto.
    + unfold dkeys in *. rewrite map_app, <- app_assoc. exact Hnd.
Qed.
Lemma bisect_left_spec a x : sortedR a -> forall fuel lo hi,
  (lo <= hi)%nat -> (hi - lo <= fuel)%nat -> (hi <= length a)%nat ->
  exists k, bisect_left_loop fuel a x lo hi = Ok k /\ (lo <= k <= hi)%nat /\
    (forall j v, (lo <= j < k)%nat -> nth_error a j = Some v -> v < x) /\
    (forall j v, (k <= j < hi)%nat -> nth_error a j = Some v -> x <= v).
Proof.
  intros Hs. induction fuel as [|fuel IH]; intros lo hi H1 H2 H3; cbn [bisect_left_loop].
  - rewrite (proj2 (Nat.ltb_ge lo hi)) by lia. exists lo. repeat split; auto; lia.
  - destruct (lo <? hi)%nat eqn:E.
    + apply Nat.ltb_lt in E.
      set (mid := ((lo + hi) / 2)%nat).
      assert (Hmid : (lo <= mid < hi)%nat).
      { unfold mid. split; [apply Nat.div_le_lower_bound|apply Nat.div_lt_upper_bound]; lia. }
      destruct (nth_error_lt a mid) as [am Ham]; [lia|].
      unfold idx. rewrite Ham. cbn [rbind].
      destruct (Rltb am x) eqn:E2; [apply Rltb_true in E2|apply Rltb_false in E2].
      * destruct (IH (S mid) hi) as (k & Hk & Hb & Hlo & Hup); try lia.
        exists k. split; auto. split; [lia|]. split; auto.
        intros j v Hj Hv. destruct (Nat.lt_ge_cases mid j); [apply (Hlo j); auto; lia|].
        assert (v <= am) by (eapply (Hs j mid); eauto). lra.
      * destruct (IH lo mid) as (k & Hk & Hb & Hlo & Hup); try lia.
        exists k. split; auto. split; [lia|]. split; auto.
        intros j v Hj Hv. destruct (Nat.lt_ge_cases j mid); [apply (Hup j); auto; lia|].
        assert (am <= v) by (eapply (Hs mid j); eauto). lra.
    + apply Nat.ltb_ge in E. exists lo. repeat split; auto; lia.
Qed.
Lemma bisect_left_ok a x i : sortedR a -> bisect_left a x = Ok i ->
  (i <= length a)%nat /\
  (forall j v, (j < i)%nat -> nth_error a j = Some v -> v < x) /\
  (forall j v, (i <= j)%nat -> nth_error a j = Some v -> x <= v).
Proof.
  intros Hs H. unfold bisect_left in H.
  destruct (bisect_left_spec a x Hs (length a) 0 (length a)) as (k & E & Hb & H1 & H2); try lia.
  rewrite E in H. injection H as <-. split; [lia|]. split.
  - intros j v Hj. apply H1. lia.
  - intros j v Hj Hv. apply (H2 j v); auto. split; auto. eapply nth_error_some_lt; eauto.
Qed.
Lemma bisect_left_total a x : sortedR a -> exists i, bisect_left a x = Ok i.
Proof.
  intros Hs. unfold bisect_left.
  destruct (bisect_left_spec a x Hs (length a) 0 (length a)) as (k & E & _); try lia. eauto.
Qed.
Lemma sorted_insert a x i : sortedR a -> (i <= length a)%nat ->
  (forall j v, (j < i)%nat -> nth_error a j = Some v -> v < x) ->
  (forall j v, (i <= j)%nat -> nth_error a j = Some v -> x <= v) ->
  sortedR (insert_at i x a).
Proof.
  intros Hs Hi Hlo Hup m m' u v Hm Hu Hv. rewrite nth_error_insert_at in Hu, Hv by auto.
  destruct (Nat.ltb_spec m i), (Nat.ltb_spec m' i); try lia.
  - eapply (Hs m m'); eauto.
  - destruct (Nat.eqb_spec m' i).
    + injection Hv as <-. left. eauto.
    + eapply (Hs m (m' - 1)%nat); eauto. lia.
  - destruct (Nat.eqb_spec m i), (Nat.eqb_spec m' i); try lia.
    + injection Hu as <-. injection Hv as <-. lra.
    + injection Hu as <-. apply (Hup (m' - 1)%nat); auto. lia.
    + eapply (Hs (m - 1)%nat (m' - 1)%nat); eauto. lia.
Qed.
Lemma Forall_firstn {A} (P : A -> Prop) i l : Forall P l -> Forall P (firstn i l).
Proof.
  rewrite !Forall_forall. intros H x Hx. apply H. rewrite <- (firstn_skipn i l). apply in_or_app. auto.
Qed.
Lemma Forall_skipn {A} (P : A -> Prop) i l : Forall P l -> Forall P (skipn i l).
Proof.
  rewrite !Forall_forall. intros H x Hx. apply H. rewrite <- (firstn_skipn i l). apply in_or_app. auto.
Qed.
Lemma Forall_insert {A} (P : A -> Prop) i x l : Forall P l -> P x -> Forall P (insert_at i x l).
Proof.
  intros H Hx. unfold insert_at. apply Forall_app. split.
  - now apply Forall_firstn.
  - constructor; auto. now apply Forall_skipn.
Qed.
Lemma Forall_delete {A} (P : A -> Prop) i l : Forall P l -> Forall P (delete_at i l).
Proof.
  intros H. unfold delete_at. apply Forall_app. split; [now apply Forall_firstn|now apply Forall_skipn].
Qed.

(** * Birth in a tessellation *)
(** The sites before and after: [x] inserted at [i], and [i] is where the code puts it. *)
Definition site_put (x : pos) (i n : nat) (v v' : option value) : Prop :=
  match x with
  | P1 y => exists l, v = Some (Arr l) /\ v' = Some (Arr (insert_at i y l)) /\ bisect_left l y = Ok i
  | PN y => exists l, v = Some (ArrN l) /\ v' = Some (ArrN (insert_at i y l)) /\ i = n
  end.
Lemma vor_birth_spec s old tr q r tr' : valid s -> is_disc s = true -> wf s old ->
  vor_birth s old tr = Ret (q, r) tr' ->
  (ps_n old = sp_max s /\ r = MInf /\ ps_n q = ps_n old /\ ps_vals q = ps_vals old /\
   ps_attrs q = ps_attrs old /\ tr' = tr) \/
  ((ps_n old < sp_max s)%nat /\ exists x i born,
     good_site (sp_cls s) x /\ (i <= ps_n old)%nat /\
     ps_n q = S (ps_n old) /\ dkeys (ps_vals q) = dkeys (ps_vals old) /\ ps_attrs q = ps_vals q /\
     site_put x i (ps_n old) (ps_get disc_key old) (ps_get disc_key q) /\
     (exists t t', newborn_params s x old t = Ret (born, r) t') /\
     (forall k par, In (k, par) (sp_params s) -> exists v b v', ps_get k old = Some v /\
        dget k born = Some b /\ ps_get k q = Some v' /\ put_at i b v v')).
Proof.
  intros Hv Hd Hwf H. pose proof (valid_here _ Hv) as Hok.
  pose proof Hok as (Hmm & _ & Hc & Hnd & Hdk & _).
  destruct (wf_inv _ _ Hnd Hwf) as (Hdim & Hsites & Hkeys & Hdl & Hf).
  unfold vor_birth in H. mb H as [q1 l1] Eb. mb H as q2 Ekd. mr H. injection H as -> ->.
  apply add_kdtree_ok in Ekd. destruct Ekd as (K1 & K2 & K3).
  destruct (Nat.eqb_spec (ps_n old) (sp_max s)) as [Emax|Emax].
  - left. mr Eb. injection Eb as <- <-. auto 10.
  - right. split; [unfold dims_ok in Hdim; lia|].
    mb Eb as x Ex. mb Eb as [born l] Enb. mb Eb as vals Ev. mb Eb as q0 Eq0. mr Eb.
    injection Eb as <- <-.
    apply sample_site_inv in Ex; auto.
    pose proof (newborn_ok _ _ _ _ _ _ _ Hv Enb) as [Hkind _].
    pose proof (keyed_keys _ _ _ Hkind) as Hbk.
    destruct (Hdl Hd) as (dv & Edv & Ldv).
    (* the two ways to add *)
    assert (Hmain : forall i sv put,
      (i <= ps_n old)%nat ->
      (forall b v v', value_len v = ps_n old -> put b (Some v) = Ok v' -> put_at i b v v') ->
      site_put x i (ps_n old) (ps_get disc_key old) (Some sv) ->
      add_newborns put old born [(disc_key, sv)] = Ok vals ->
      exists x i born, good_site (sp_cls s) x /\ (i <= ps_n old)%nat /\
       ps_n q = S (ps_n old) /\ dkeys (ps_vals q) = dkeys (ps_vals old) /\ ps_attrs q = ps_vals q /\
       site_put x i (ps_n old) (ps_get disc_key old) (ps_get disc_key q) /\
       (exists t t', newborn_params s x old t = Ret (born, l) t') /\
       (forall k par, In (k, par) (sp_params s) -> exists v b v', ps_get k old = Some v /\
          dget k born = Some b /\ ps_get k q = Some v' /\ put_at i b v v')).
    { intros i sv put Hi Hput Hsite Hadd.
      apply add_newborns_spec in Hadd; [|rewrite Hbk; apply disc_first; auto].
      destruct Hadd as (new & -> & HF).
      assert (Hnk : dkeys new = dkeys (sp_params s)).
      { rewrite <- Hbk. unfold dkeys. symmetry. eapply Forall2_map_eq; [exact HF|].
        intros a b _ [E _]. exact E. }
      assert (Hndv : NoDup (dkeys ([(disc_key, sv)] ++ new))).
      { cbn [app dkeys map fst]. change (map fst new) with (dkeys new). rewrite Hnk. constructor; auto. }
      destruct (mk_ps_ok _ _ _ Hndv Eq0) as [-> _]. cbn [ps_n ps_vals ps_attrs] in *.
      assert (Hgd : ps_get disc_key q = Some sv) by (unfold ps_get; rewrite K2; reflexivity).
      exists x, i, born. split; [exact Ex|]. split; [exact Hi|]. split; [exact K1|].
      split. { rewrite K2, Hkeys. unfold names. rewrite Hd. cbn [app]. rewrite <- Hnk. reflexivity. }
      split; [congruence|]. split; [rewrite Hgd; exact Hsite|]. split; [eauto|].
      intros k par Hin. destruct (keyed_get _ _ _ _ _ Hnd Hkind Hin) as (b & Hb & _).
      destruct (Hf _ _ Hin) as (v & Ev0 & Hfv).
      assert (Hlv : value_len v = ps_n old).
      { destruct par; cbn in Hfv.
        - destruct Hfv as (lv & -> & L & _). exact L.
        - destruct Hfv as (lv & [-> | ->] & L & _); exact L. }
      assert (Hb2 := Hb). apply dget_some_in in Hb2.
      destruct (Forall2_in_l _ _ _ _ HF Hb2) as ([k' v'] & Hin' & E1 & E2). cbn in E1, E2. subst k'.
      rewrite Ev0 in E2. exists v, b, v'. split; auto. split; auto. split; [|eapply Hput; eauto].
      unfold ps_get. rewrite K2. apply dget_in_nodup; auto. right. exact Hin'. }
    destruct x as [y|y].
    + rewrite Edv in Ev. destruct dv as [sites| | |]; try discriminate.
      apply rbind_ok in Ev. destruct Ev as (i & Ei & Ev).
      apply rbind_ok in Ev. destruct Ev as (sites' & Es & Ev).
      assert (Hsort : sortedR sites).
      { unfold sites_ok in Hsites. destruct (sp_cls s) as [|? ? ? ?|? ? ? ? ? ? ?]; try (cbn in Ex; tauto).
        destruct Hsites as (l' & E' & Hso & _). rewrite Edv in E'. injection E' as <-. exact Hso. }
      destruct (bisect_left_ok _ _ _ Hsort Ei) as (Hi & _). cbn in Ldv.
      rewrite insert_1d_spec in Es by auto. injection Es as <-.
      eapply (Hmain i); [lia| | |exact Ev].
      * intros b v v' Lv Hp. cbn in Hp. apply insert_value_ok; auto. lia.
      * exists sites. rewrite Edv. auto.
    + rewrite Edv in Ev. destruct dv as [|sites| |]; try discriminate. cbn in Ldv.
      eapply (Hmain (ps_n old)); [lia| | |exact Ev].
      * intros b v v' Lv Hp. rewrite <- Lv. now apply append_value_ok.
      * exists sites. rewrite Edv. split; auto. split; auto. now rewrite <- Ldv, insert_at_end.
Qed.
Definition shifted (i : nat) (x : option pos) (P P' : nat -> option pos -> Prop) : Prop :=
  forall j at_, P' j at_ ->
    if (j <? i)%nat then P j at_ else if (j =? i)%nat then at_ = x else P (j - 1)%nat at_.
Lemma put_fits n P P' par i x b v v' : fits n P par v -> born_ok x par b -> put_at i b v v' ->
  shifted i x P P' -> fits (S n) P' par v'.
Proof.
  intros Hf Hb [Hi Hput] Hsh. destruct par as [p|s'], b as [r|q]; try (cbn in Hb; tauto); cbn in Hf, Hb.
  - destruct Hf as (l & -> & L & Hs). cbn in Hi. subst v'. exists (insert_at i r l). split; auto.
    split; [rewrite insert_at_length by auto; congruence|].
    intros j y at_ Hy Hat. apply Hsh in Hat. rewrite nth_error_insert_at in Hy by auto.
    destruct (Nat.ltb_spec j i); [eauto|]. destruct (Nat.eqb_spec j i); [|eauto].
    injection Hy as <-. subst. exact Hb.
  - destruct Hf as (l & [-> | ->] & L & HF); [|tauto]. cbn in Hi. subst v'.
    exists (insert_at i q l). split; auto.
    split; [rewrite insert_at_length by auto; congruence|]. now apply Forall_insert.
Qed.
Lemma put_len i b v v' : put_at i b v v' -> value_len v' = S (value_len v).
Proof.
  intros [Hi H]. destruct b, v; try tauto; subst; cbn in *; now apply insert_at_length.
Qed.
Lemma site_put_ok s x i old q : is_disc s = true -> sites_ok s old -> good_site (sp_cls s) x ->
  (i <= ps_n old)%nat -> disc_len s old ->
  site_put x i (ps_n old) (ps_get disc_key old) (ps_get disc_key q) ->
  sites_ok s q /\ shifted i (Some x) (position_of s old) (position_of s q) /\
  (exists v, ps_get disc_key q = Some v /\ value_len v = S (ps_n old)).
Proof.
  intros Hd Hs Hx Hi Hdl Hput. unfold sites_ok, shifted, position_of, is_disc in *.
  destruct (Hdl Hd) as (dv & Edv & Ldv).
  destruct (sp_cls s) as [|lo hi sd fp|d lo hi sd poly kd fp], x as [y|y]; try (cbn in Hx; tauto);
    cbn in Hput; destruct Hput as (l & El & Eq & Eb); rewrite El in Edv; injection Edv as <-;
    cbn in Ldv; destruct Hs as (l' & El' & Hs); rewrite El in El'; injection El' as <-.
  - destruct Hs as [Hso Hrg]. destruct (bisect_left_ok _ _ _ Hso Eb) as (Hil & Hlo & Hup).
    split; [|split].
    + exists (insert_at i y l). split; auto. split; [now apply sorted_insert|]. apply Forall_insert; auto.
    + intros j at_ (l1 & z & E1 & Hz & ->). rewrite Eq in E1. injection E1 as <-.
      rewrite nth_error_insert_at in Hz by auto.
      destruct (j <? i)%nat; [eauto|]. destruct (j =? i)%nat; [congruence|eauto].
    + eexists. split; [exact Eq|]. cbn. rewrite insert_at_length by auto. congruence.
  - subst i. split; [|split].
    + exists (insert_at (ps_n old) y l). split; auto. apply Forall_insert; auto.
    + intros j at_ (l1 & z & E1 & Hz & ->). rewrite Eq in E1. injection E1 as <-.
      rewrite nth_error_insert_at in Hz by lia.
      destruct (j <? ps_n old)%nat; [eauto|]. destruct (j =? ps_n old)%nat; [congruence|eauto].
    + eexists. split; [exact Eq|]. cbn. rewrite insert_at_length by lia. congruence.
Qed.
Lemma vor_birth_wf s old tr q r tr' : valid s -> is_disc s = true -> wf s old ->
  vor_birth s old tr = Ret (q, r) tr' -> live r -> wf s q.
Proof.
  intros Hv Hd Hwf H Hlive.
  destruct (vor_birth_spec s old tr q r tr' Hv Hd Hwf H)
    as [(_ & -> & _)|(Hlt & x & i & born & Hx & Hi & Hn & Hk & _ & Hsite & (t & t' & Enb) & Hpar)];
    [destruct Hlive|].
  pose proof (valid_here _ Hv) as (Hmm & _ & Hc & Hnd & Hdk & _).
  destruct (wf_inv _ _ Hnd Hwf) as (Hdim & Hsites & Hkeys & Hdl & Hf).
  destruct (site_put_ok s x i old q Hd Hsites Hx Hi Hdl Hsite) as (Hs' & Hsh & dv & Edv & Ldv).
  destruct (newborn_ok _ _ _ _ _ _ _ Hv Enb) as [_ Hborn]. specialize (Hborn Hlive).
  apply wf_build; auto.
  - unfold dims_ok in *. lia.
  - congruence.
  - intros _. exists dv. split; auto. congruence.
  - intros k par Hin. destruct (Hpar k par Hin) as (v & b & v' & Ev & Eb & Ev' & Hput).
    exists v'. split; auto. destruct (Hf _ _ Hin) as (w & Ew & Hfit).
    rewrite Ev in Ew. injection Ew as <-.
    destruct (keyed_get _ _ _ _ _ Hnd Hborn Hin) as (b' & Eb' & Hbok).
    rewrite Eb in Eb'. injection Eb' as <-.
    rewrite Hn. eapply put_fits; eauto.
Qed.

(** * Birth in a plain space *)
Lemma plain_birth_vals_spec params i vals : forall tr new tr',
  plain_birth_vals params i vals tr = Ret new tr' ->
  Forall2 (fun kv kv' => fst kv = fst kv' /\ exists par b t t', dget (fst kv) params = Some par /\
     param_sample par None t = Ret b t' /\ insert_value i b (snd kv) = Ok (snd kv')) vals new.
Proof.
  induction vals as [|[k v] t IH]; intros tr new tr' H; cbn [plain_birth_vals] in H.
  - mr H. constructor.
  - destruct (dget k params) as [par|] eqn:E; [|discriminate].
    mb H as x Ex. mb H as v' Ev. mb H as r Er. mr H. constructor; [|eauto].
    cbn. split; auto. exists par, x. eauto 10.
Qed.
Lemma plain_birth_spec s old tr q r tr' : valid s -> is_disc s = false -> wf s old ->
  plain_birth s old tr = Ret (q, r) tr' ->
  (ps_n old = sp_max s /\ r = MInf /\ q = old /\ tr' = tr) \/
  ((ps_n old < sp_max s)%nat /\ r = Fin 0 /\ exists i,
     (i <= ps_n old)%nat /\ ps_n q = S (ps_n old) /\ dkeys (ps_vals q) = dkeys (ps_vals old) /\
     ps_attrs q = ps_vals q /\ ps_cache q = [] /\
     (forall k par, In (k, par) (sp_params s) -> exists v b v', ps_get k old = Some v /\
        ps_get k q = Some v' /\ put_at i b v v' /\
        (exists t t', param_sample par None t = Ret b t'))).
Proof.
  intros Hv Hd Hwf H. pose proof (valid_here _ Hv) as Hok.
  pose proof Hok as (Hmm & _ & Hc & Hnd & Hdk & _).
  destruct (wf_inv _ _ Hnd Hwf) as (Hdim & Hsites & Hkeys & Hdl & Hf).
  unfold plain_birth in H. destruct (Nat.eqb_spec (ps_n old) (sp_max s)) as [Emax|Emax].
  - left. mr H. injection H as -> ->. auto.
  - right. split; [unfold dims_ok in Hdim; lia|].
    mb H as i Ei. mb H as vals Ev. mb H as q0 Eq. mr H. injection H as -> <-. split; auto.
    apply randint_inv in Ei. destruct Ei as [Hi _]. apply plain_birth_vals_spec in Ev.
    assert (Hk : dkeys vals = dkeys (ps_vals old)).
    { unfold dkeys. symmetry. eapply Forall2_map_eq; [exact Ev|]. intros a b _ [E _]. exact E. }
    assert (Hnames : names s = dkeys (sp_params s)) by (unfold names; now rewrite Hd).
    assert (Hndv : NoDup (dkeys vals)) by (rewrite Hk, Hkeys, Hnames; auto).
    destruct (mk_ps_ok _ _ _ Hndv Eq) as [-> _].
    exists i. split; [lia|]. cbn [ps_n ps_vals ps_attrs ps_cache]. repeat (split; [auto|]).
    intros k par Hin. destruct (Hf _ _ Hin) as (v & Ev0 & Hfv).
    assert (Hlv : value_len v = ps_n old).
    { destruct par; cbn in Hfv.
      - destruct Hfv as (lv & -> & L & _). exact L.
      - destruct Hfv as (lv & [-> | ->] & L & _); exact L. }
    pose proof (dget_some_in _ _ _ Ev0) as Hin0.
    destruct (Forall2_in_l _ _ _ _ Ev Hin0) as ([k' v'] & Hin' & E1 & par' & b & ta & tb & E2 & E3 & E4).
    cbn in E1, E2, E4. subst k'. rewrite (dget_in_nodup _ _ _ Hnd Hin) in E2. injection E2 as <-.
    exists v, b, v'. split; auto. split; [apply dget_in_nodup; auto|]. split; [|eauto].
    apply insert_value_ok; auto. lia.
Qed.
Lemma plain_birth_wf s old tr q r tr' : valid s -> is_disc s = false -> wf s old ->
  plain_birth s old tr = Ret (q, r) tr' -> wf s q.
Proof.
  intros Hv Hd Hwf H.
  destruct (plain_birth_spec s old tr q r tr' Hv Hd Hwf H)
    as [(_ & _ & -> & _)|(Hlt & -> & i & Hi & Hn & Hk & _ & _ & Hpar)]; auto.
  pose proof (valid_here _ Hv) as (Hmm & _ & Hc & Hnd & Hdk & _).
  destruct (wf_inv _ _ Hnd Hwf) as (Hdim & Hsites & Hkeys & Hdl & Hf).
  assert (Hcls : sp_cls s = Plain) by (unfold is_disc in Hd; destruct (sp_cls s); congruence).
  apply wf_build; auto.
  - unfold dims_ok in *. lia.
  - unfold sites_ok. now rewrite Hcls.
  - congruence.
  - intros E. congruence.
  - intros k par Hin. destruct (Hpar k par Hin) as (v & b & v' & Ev & Ev' & Hput & t & t' & Es).
    exists v'. split; auto. destruct (Hf _ _ Hin) as (w & Ew & Hfit).
    rewrite Ev in Ew. injection Ew as <-. rewrite Hn.
    eapply put_fits; [exact Hfit|eapply param_sample_ok; [|exact Es]|exact Hput|].
    + pose proof (params_valid s Hv k par Hin) as Hp. destruct par; tauto.
    + intros j at_. unfold position_of. rewrite Hcls. intros ->.
      destruct (j <? i)%nat; auto. destruct (j =? i)%nat; auto.
Qed.

(** * Deaths *)
Definition cut_at (i : nat) (v v' : value) : Prop :=
  (i < value_len v)%nat /\
  match v with
  | Arr l => v' = Arr (delete_at i l)
  | ArrN l => v' = ArrN (delete_at i l)
  | AObj l => v' = AObj (delete_at i l)
  | Lst l => v' = Lst (delete_at i l)
  end.
Lemma delete_value_ok i v v' : (i < value_len v)%nat -> delete_value i v = Ok v' -> cut_at i v v'.
Proof.
  intros Hi. unfold delete_value, cut_at. destruct v as [l| | |l]; try discriminate.
  - cbn in Hi. rewrite delete_1d_spec by auto. cbn. intros [= <-]. auto.
  - intros [= <-]. auto.
Qed.
Lemma vor_delete_value_ok c i v v' : (i < value_len v)%nat -> vor_delete_value c i v = Ok v' -> cut_at i v v'.
Proof.
  intros Hi. unfold vor_delete_value.
  destruct c as [| |? ? ? ? ? ? ?]; try (now apply delete_value_ok).
  unfold cut_at. destruct v as [l|l|l|l]; cbn in Hi; try (destruct (Nat.ltb_spec i (length l)); [|lia]);
    intros [= <-]; auto.
Qed.
Definition unshifted (i : nat) (P P' : nat -> option pos -> Prop) : Prop :=
  forall j at_, P' j at_ -> if (j <? i)%nat then P j at_ else P (S j) at_.
Lemma cut_fits n P P' par i v v' : fits n P par v -> cut_at i v v' -> unshifted i P P' ->
  fits (n - 1) P' par v'.
Proof.
  intros Hf [Hi Hcut] Hsh. destruct par as [p|s']; cbn in Hf.
  - destruct Hf as (l & -> & L & Hs). cbn in Hi. subst v'. exists (delete_at i l). split; auto.
    split; [rewrite delete_at_length by auto; congruence|].
    intros j y at_ Hy Hat. apply Hsh in Hat. rewrite nth_error_delete_at in Hy by auto.
    destruct (Nat.ltb_spec j i); eauto.
  - destruct Hf as (l & [-> | ->] & L & HF); cbn in Hi; subst v'; exists (delete_at i l);
      (split; [auto|]); (split; [rewrite delete_at_length by auto; congruence|]); now apply Forall_delete.
Qed.
Lemma cut_len i v v' : cut_at i v v' -> value_len v' = (value_len v - 1)%nat.
Proof.
  intros [Hi H]. destruct v; subst; cbn in *; now apply delete_at_length.
Qed.
Lemma sorted_delete a i : sortedR a -> (i < length a)%nat -> sortedR (delete_at i a).
Proof.
  intros Hs Hi m m' u v Hm Hu Hv. rewrite nth_error_delete_at in Hu, Hv by auto.
  destruct (Nat.ltb_spec m i), (Nat.ltb_spec m' i); try lia.
  - eapply (Hs m m'); eauto.
  - eapply (Hs m (S m')); eauto.
  - eapply (Hs (S m) (S m')); eauto. lia.
Qed.
Lemma site_cut_ok s i old q : is_disc s = true -> sites_ok s old ->
  (exists v v', ps_get disc_key old = Some v /\ ps_get disc_key q = Some v' /\ cut_at i v v') ->
  sites_ok s q /\ unshifted i (position_of s old) (position_of s q).
Proof.
  intros Hd Hs (v & v' & Ev & Ev' & Hi & Hcut). unfold sites_ok, unshifted, position_of, is_disc in *.
  destruct (sp_cls s) as [|lo hi sd fp|d lo hi sd poly kd fp]; try discriminate;
    destruct Hs as (l & El & Hs); rewrite El in Ev; injection Ev as <-; cbn in Hi; subst v'.
  - split.
    + exists (delete_at i l). split; auto. split; [now apply sorted_delete|now apply Forall_delete].
    + intros j at_ (l1 & z & E1 & Hz & ->). rewrite Ev' in E1. injection E1 as <-.
      rewrite nth_error_delete_at in Hz by auto. destruct (j <? i)%nat; eauto.
  - split.
    + exists (delete_at i l). split; auto. now apply Forall_delete.
    + intros j at_ (l1 & z & E1 & Hz & ->). rewrite Ev' in E1. injection E1 as <-.
      rewrite nth_error_delete_at in Hz by auto. destruct (j <? i)%nat; eauto.
Qed.
(** Both deaths remove the same index everywhere. *)
Definition cut_state (i : nat) (old q : psstate) : Prop :=
  (i < ps_n old)%nat /\ ps_n q = (ps_n old - 1)%nat /\ dkeys (ps_vals q) = dkeys (ps_vals old) /\
  ps_attrs q = ps_vals q /\
  forall k v, ps_get k old = Some v -> exists v', ps_get k q = Some v' /\ cut_at i v v'.
Lemma cut_vals s old i (del : value -> res value) vals q :
  NoDup (dkeys (sp_params s)) -> ~ In disc_key (dkeys (sp_params s)) -> wf s old ->
  (forall v v', value_len v = ps_n old -> del v = Ok v' -> cut_at i v v') -> (i < ps_n old)%nat ->
  rmap (fun kv => v <-? del (snd kv) ;; Ok (fst kv, v)) (ps_vals old) = Ok vals ->
  mk_ps (ps_n old - 1) vals = Ok q -> cut_state i old q /\ ps_cache q = [].
Proof.
  intros Hnd Hdk Hwf Hdel Hi Hr Hq.
  destruct (wf_local _ _ Hwf) as (_ & (Hkeys & Hlen & _) & _).
  apply rmap_ok in Hr.
  assert (Hk : dkeys vals = dkeys (ps_vals old)).
  { unfold dkeys. symmetry. eapply Forall2_map_eq; [exact Hr|]. intros a b _ E.
    apply rbind_ok in E. destruct E as (v & _ & [= <-]). reflexivity. }
  assert (Hnn : NoDup (names s)).
  { unfold names. destruct (is_disc s); cbn; auto. constructor; auto. }
  assert (Hndv : NoDup (dkeys vals)) by (rewrite Hk, Hkeys; auto).
  destruct (mk_ps_ok _ _ _ Hndv Hq) as [-> _]. split; [|reflexivity].
  split; auto. cbn [ps_n ps_vals ps_attrs]. repeat (split; [auto|]).
  intros k v Ev. pose proof (dget_some_in _ _ _ Ev) as Hin.
  destruct (Forall2_in_l _ _ _ _ Hr Hin) as ([k' v'] & Hin' & E). cbn in E.
  apply rbind_ok in E. destruct E as (w & Ew & [= <- <-]).
  exists w. split; [apply dget_in_nodup; auto|]. apply Hdel; auto. apply (Hlen _ _ Ev).
Qed.
Lemma cut_wf s i old q : valid s -> wf s old -> (ps_n old <> sp_min s) -> cut_state i old q -> wf s q.
Proof.
  intros Hv Hwf Hmin (Hi & Hn & Hk & _ & Hcut).
  pose proof (valid_here _ Hv) as (Hmm & _ & Hc & Hnd & Hdk & _).
  destruct (wf_inv _ _ Hnd Hwf) as (Hdim & Hsites & Hkeys & Hdl & Hf).
  assert (HS : sites_ok s q /\ unshifted i (position_of s old) (position_of s q)).
  { destruct (is_disc s) eqn:Hd.
    - apply site_cut_ok; auto. destruct (Hdl Hd) as (v & Ev & _).
      destruct (Hcut _ _ Ev) as (v' & Ev' & H). eauto.
    - assert (Hcls : sp_cls s = Plain) by (unfold is_disc in Hd; destruct (sp_cls s); congruence).
      unfold sites_ok, unshifted, position_of. rewrite Hcls. split; auto.
      intros j at_ ->. destruct (j <? i)%nat; auto. }
  destruct HS as [HS1 HS2].
  apply wf_build; auto.
  - unfold dims_ok in *. lia.
  - congruence.
  - intros Hd. destruct (Hdl Hd) as (v & Ev & Lv). destruct (Hcut _ _ Ev) as (v' & Ev' & H).
    exists v'. split; auto. rewrite (cut_len _ _ _ H). congruence.
  - intros k par Hin. destruct (Hf _ _ Hin) as (v & Ev & Hfit).
    destruct (Hcut _ _ Ev) as (v' & Ev' & H). exists v'. split; auto. rewrite Hn.
    eapply cut_fits; eauto.
Qed.
Lemma vor_death_spec s old tr q r tr' : valid s -> wf s old ->
  vor_death s old tr = Ret (q, r) tr' ->
  (ps_n old = sp_min s /\ r = MInf /\ ps_n q = ps_n old /\ ps_vals q = ps_vals old /\
   ps_attrs q = ps_attrs old /\ tr' = tr) \/
  ((sp_min s < ps_n old)%nat /\ exists i q0, tr = DInt i :: tr' /\ cut_state i old q /\
     log_prob_death_parameters s old q0 i = Ok r /\ ps_n q0 = ps_n q /\ ps_vals q0 = ps_vals q).
Proof.
  intros Hv Hwf H. pose proof (valid_here _ Hv) as (Hmm & _ & Hc & Hnd & Hdk & _).
  destruct (wf_inv _ _ Hnd Hwf) as (Hdim & _).
  unfold vor_death in H. mb H as [q1 l1] Eb. mb H as q2 Ekd. mr H. injection H as -> ->.
  apply add_kdtree_ok in Ekd. destruct Ekd as (K1 & K2 & K3).
  destruct (Nat.eqb_spec (ps_n old) (sp_min s)) as [Emin|Emin].
  - left. mr Eb. injection Eb as <- <-. auto 10.
  - right. split; [unfold dims_ok in Hdim; lia|].
    mb Eb as i Ei. mb Eb as vals Ev. mb Eb as q0 Eq0. mb Eb as l El. mr Eb. injection Eb as <- <-.
    apply randint_below_inv in Ei. destruct Ei as [Hi Etr].
    destruct (cut_vals s old i (vor_delete_value (sp_cls s) i) vals q0 Hnd Hdk Hwf) with (2 := Hi) (3 := Ev) (4 := Eq0)
      as [(_ & C1 & C2 & C3 & C4) _].
    { intros v v' L. apply vor_delete_value_ok. lia. }
    exists i, q0. split; auto. split; [|auto].
    split; [auto|]. split; [congruence|]. split; [congruence|]. split; [congruence|].
    intros k v Hk. destruct (C4 _ _ Hk) as (v' & E & HC). exists v'. split; auto.
    unfold ps_get in *. congruence.
Qed.
Lemma plain_death_spec s old tr q r tr' : valid s -> wf s old ->
  plain_death s old tr = Ret (q, r) tr' ->
  (ps_n old = sp_min s /\ r = MInf /\ q = old /\ tr' = tr) \/
  ((sp_min s < ps_n old)%nat /\ r = Fin 0 /\ exists i, tr = DInt i :: tr' /\ cut_state i old q /\
     ps_cache q = []).
Proof.
  intros Hv Hwf H. pose proof (valid_here _ Hv) as (Hmm & _ & Hc & Hnd & Hdk & _).
  destruct (wf_inv _ _ Hnd Hwf) as (Hdim & _).
  unfold plain_death in H. destruct (Nat.eqb_spec (ps_n old) (sp_min s)) as [Emin|Emin].
  - left. mr H. injection H as -> ->. auto.
  - right. split; [unfold dims_ok in Hdim; lia|].
    mb H as i Ei. mb H as vals Ev. mb H as q0 Eq0. mr H. injection H as -> <-. split; auto.
    apply randint_below_inv in Ei. destruct Ei as [Hi Etr].
    exists i. split; auto. eapply (cut_vals s old i (delete_value i)); eauto.
    intros v v' L. apply delete_value_ok. lia.
Qed.
Theorem birth_wf s old tr q r tr' : valid s -> wf s old ->
  birth s old tr = Ret (q, r) tr' -> live r -> wf s q.
Proof.
  intros Hv Hwf H Hl. unfold birth in H. destruct (is_disc s) eqn:Hd.
  - eapply vor_birth_wf; eauto.
  - eapply plain_birth_wf; eauto.
Qed.
Theorem death_wf s old tr q r tr' : valid s -> wf s old ->
  death s old tr = Ret (q, r) tr' -> wf s q.
Proof.
  intros Hv Hwf H. unfold death in H. destruct (is_disc s) eqn:Hd.
  - destruct (vor_death_spec s old tr q r tr' Hv Hwf H)
      as [(_ & _ & H1 & H2 & _)|(Hm & i & q0 & _ & Hcut & _)].
    + eapply wf_same; [symmetry; exact H1|symmetry; exact H2|exact Hwf].
    + eapply cut_wf; eauto. lia.
  - destruct (plain_death_spec s old tr q r tr' Hv Hwf H) as [(_ & _ & -> & _)|(Hm & _ & i & _ & Hcut & _)];
      auto. eapply cut_wf; eauto. lia.
Qed.
