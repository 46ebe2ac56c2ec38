(** Proofs about the model of parameter spaces: moves of a site. *)
From Verif Require Import Base ModelUtils1D ModelPrior ModelState ModelSpace SpecUtils1D SpecPrior
  SpecState SpecSpace ProofUtils1D ProofUtils1DB ProofChain ProofChainC ProofInversion ProofState
  PropPrior ProofSpace ProofSpaceB ProofSpaceC ProofSpaceD.
From Coq Require Import Sorting.Permutation.
Local Open Scope R_scope.

(** * argsort *)
Definition asort (l : list (R * nat)) : list (R * nat) := fold_right ainsert [] l.
Lemma ainsert_perm x l : Permutation (ainsert x l) (x :: l).
Proof.
  induction l as [|y l IH]; cbn; auto. destruct (Rleb (fst x) (fst y)); auto.
  rewrite IH. apply perm_swap.
Qed.
Lemma asort_perm l : Permutation (asort l) l.
Proof. induction l as [|x l IH]; cbn; auto. rewrite ainsert_perm. now constructor. Qed.
Lemma ainsert_ordered x l : ordered (map fst l) -> ordered (map fst (ainsert x l)).
Proof.
  induction l as [|y l IH]; cbn; intros H; [auto|]. destruct H as [H1 H2].
  destruct (Rleb (fst x) (fst y)) eqn:E.
  - apply Rleb_true in E. cbn. split; [|auto]. constructor; auto.
    eapply Forall_impl; [|exact H1]. intros; cbn in *; lra.
  - assert (Hyx : fst y < fst x) by (destruct (Rle_dec (fst x) (fst y)); [apply Rleb_true in r; congruence|lra]).
    cbn. split; [|auto]. rewrite ainsert_perm. cbn. constructor; auto. lra.
Qed.
Lemma asort_ordered l : ordered (map fst (asort l)).
Proof. induction l; cbn; auto using ainsert_ordered. Qed.
Lemma map_snd_combine_seq {A} (l : list A) m : map snd (combine l (seq m (length l))) = seq m (length l).
Proof. revert m. induction l as [|x l IH]; intros m; cbn; auto. now rewrite IH. Qed.
Lemma argsort_perm l : Permutation (argsort l) (seq 0 (length l)).
Proof.
  unfold argsort. fold (asort (combine l (seq 0 (length l)))). rewrite asort_perm.
  now rewrite map_snd_combine_seq.
Qed.
Lemma in_combine_nth {A} (l : list A) m a i : In (a, i) (combine l (seq m (length l))) ->
  nth_error l (i - m) = Some a /\ (m <= i)%nat.
Proof.
  revert m. induction l as [|x l IH]; intros m; cbn; [tauto|].
  intros [[= -> ->]|H].
  - rewrite Nat.sub_diag. auto.
  - destruct (IH _ H) as [H1 H2]. split; [|lia].
    replace (i - m)%nat with (S (i - S m)) by lia. exact H1.
Qed.
Lemma argsort_sorted l l' : pick l (argsort l) = Ok l' -> sortedR l'.
Proof.
  intros H. apply pick_ok in H. unfold argsort in H. fold (asort (combine l (seq 0 (length l)))) in H.
  assert (HF : Forall (fun ai => nth_error l (snd ai) = Some (fst ai)) (asort (combine l (seq 0 (length l))))).
  { rewrite asort_perm. apply Forall_forall. intros [a i] Hin. apply in_combine_nth in Hin.
    rewrite Nat.sub_0_r in Hin. cbn. tauto. }
  pose proof (asort_ordered (combine l (seq 0 (length l)))) as Ho.
  assert (E : l' = map fst (asort (combine l (seq 0 (length l))))).
  { clear Ho. revert l' H HF. generalize (asort (combine l (seq 0 (length l)))) as ps.
    induction ps as [|[a i] ps IH]; intros l' H HF; cbn in *.
    - now inversion H.
    - inversion H as [|? b ? lt E1 E2]; subst. inversion HF as [|? ? G1 G2]; subst. cbn in G1.
      f_equal; [congruence|]. apply IH; auto. }
  subst. now apply ordered_sorted.
Qed.

(** * Reordering *)
Lemma seq_nth_error m n i : (i < n)%nat -> nth_error (seq m n) i = Some (m + i)%nat.
Proof.
  intros H. rewrite (nth_error_nth' (seq m n) 0%nat) by now rewrite seq_length. now rewrite seq_nth.
Qed.
Lemma Forall2_of_nth {A B} (P : A -> B -> Prop) l l' : length l = length l' ->
  (forall i a b, nth_error l i = Some a -> nth_error l' i = Some b -> P a b) -> Forall2 P l l'.
Proof.
  revert l'. induction l as [|x l IH]; intros [|y l']; cbn; intros L H; try discriminate; constructor.
  - apply (H 0%nat); auto.
  - apply IH; [congruence|]. intros i a b Ha Hb. apply (H (S i)); auto.
Qed.
Lemma pick_seq {A} (l : list A) : pick l (seq 0 (length l)) = Ok l.
Proof.
  apply pick_ok. apply Forall2_of_nth; [now rewrite seq_length|].
  intros i j a Hj Ha. pose proof (nth_error_some_lt _ _ _ Ha) as Hi.
  rewrite seq_nth_error in Hj by auto. injection Hj as <-. exact Ha.
Qed.
Lemma reorder_seq v : reorder (seq 0 (value_len v)) v = Ok v.
Proof. destruct v as [l|l|l|l]; cbn [reorder value_len]; now rewrite pick_seq. Qed.
Lemma pick_nth {A} (l l' : list A) is m a : pick l is = Ok l' -> nth_error l' m = Some a ->
  exists o, nth_error is m = Some o /\ nth_error l o = Some a.
Proof.
  intros H Ha. apply pick_ok in H.
  destruct (nth_error_lt is m) as (o & Ho).
  { rewrite (Forall2_len _ _ _ H). eapply nth_error_some_lt; eauto. }
  exists o. split; auto. exact (Forall2_nth _ _ _ _ _ _ H Ho Ha).
Qed.
Lemma pick_len {A} (l l' : list A) is : pick l is = Ok l' -> length l' = length is.
Proof. intros H. apply pick_ok in H. symmetry. eapply Forall2_len; eauto. Qed.
Lemma pick_Forall {A} (P : A -> Prop) (l l' : list A) is : Forall P l -> pick l is = Ok l' -> Forall P l'.
Proof.
  intros HF H. apply Forall_forall. intros x Hx. apply In_nth_error in Hx. destruct Hx as (m & Hm).
  destruct (pick_nth _ _ _ _ _ H Hm) as (o & _ & Ho). rewrite Forall_forall in HF. apply HF.
  eapply nth_error_In; eauto.
Qed.
Lemma pick_total {A} (l : list A) is : (forall o, In o is -> (o < length l)%nat) -> exists l', pick l is = Ok l'.
Proof.
  unfold pick. induction is as [|o is IH]; intros H; cbn; [eauto|].
  destruct (nth_error_lt l o) as (a & Ha); [apply H; cbn; auto|]. unfold idx at 1. rewrite Ha. cbn.
  destruct IH as (l' & E); [intros; apply H; cbn; auto|]. rewrite E. cbn. eauto.
Qed.
Lemma reorder_len is v v' : reorder is v = Ok v' -> value_len v' = length is.
Proof.
  destruct v; cbn [reorder]; intros H; apply rbind_ok in H; destruct H as (l' & E & [= <-]); cbn;
    eapply pick_len; eauto.
Qed.
Lemma reorder_total is v : (forall o, In o is -> (o < value_len v)%nat) -> exists v', reorder is v = Ok v'.
Proof.
  intros H. destruct v as [l|l|l|l]; cbn [reorder value_len] in *; destruct (pick_total l is H) as (l' & E); rewrite E; cbn; eauto.
Qed.

(** * The loop over parameters *)
Definition move_term (old : psstate) (i : nat) (x x' : pos) (kp : string * param) (c : ext) : Prop :=
  match snd kp with
  | PPrior p =>
      if p_pos p then exists v lo ln_, num_at (ps_get (fst kp) old) i = Ok v /\
        p_log_prior p v (Some x) = Ok lo /\ p_log_prior p v (Some x') = Ok ln_ /\ c = esub ln_ lo
      else c = Fin 0
  | PSpace _ => c = Fin 0
  end.
Lemma perturb_loop_spec old i x x' put params : forall vals acc vals' l,
  NoDup (dkeys vals ++ dkeys params) ->
  perturb_value_loop params old i x x' put vals acc = Ok (vals', l) ->
  (exists cs, l = esum acc cs /\ Forall2 (move_term old i x x') params cs) /\
  exists new, vals' = vals ++ new /\
    Forall2 (fun kp kv => fst kp = fst kv /\
      exists w, ps_get (fst kp) old = Some w /\ put w = Ok (snd kv)) params new.
Proof.
  induction params as [|[k pr] t IH]; intros vals acc vals' l Hnd H; cbn [perturb_value_loop] in H.
  - injection H as <- <-. split; [exists []; auto|exists []; rewrite app_nil_r; auto].
  - apply rbind_ok in H. destruct H as (acc' & Ea & H). apply rbind_ok in H. destruct H as (v & Ev & H).
    assert (Hk : ~ In k (dkeys vals)).
    { intros Hin. apply NoDup_remove_2 in Hnd. apply Hnd. apply in_or_app. auto. }
    rewrite dset_fresh in H by auto. apply IH in H.
    2:{ unfold dkeys in *. rewrite map_app, <- app_assoc. exact Hnd. }
    destruct H as ((cs & -> & Hcs) & new & -> & Hnew). split.
    + assert (Hc : exists c, acc' = eadd acc c /\ move_term old i x x' (k, pr) c).
      { unfold move_term. cbn [fst snd]. destruct pr as [p|s'].
        - destruct (p_pos p).
          + apply rbind_ok in Ea. destruct Ea as (w & E1 & Ea). apply rbind_ok in Ea.
            destruct Ea as (lo & E2 & Ea). apply rbind_ok in Ea. destruct Ea as (ln_ & E3 & [= <-]).
            exists (esub ln_ lo). split; auto. eauto 10.
          + injection Ea as <-. exists (Fin 0). now rewrite eadd_0_r.
        - injection Ea as <-. exists (Fin 0). now rewrite eadd_0_r. }
      destruct Hc as (c & -> & Hc). exists (c :: cs). split; [reflexivity|]. constructor; auto.
    + exists ((k, v) :: new). rewrite <- app_assoc. split; [reflexivity|]. constructor; [|exact Hnew].
      cbn. split; auto. destruct (ps_get k old) as [w|] eqn:E; [|discriminate]. eauto.
Qed.

(** * The move *)
Definition site_moved (x x' : pos) (i n : nat) (is : list nat) (v v' : option value) : Prop :=
  match x' with
  | P1 y => exists l l' x0, v = Some (Arr l) /\ v' = Some (Arr l') /\ x = P1 x0 /\
      nth_error l i = Some x0 /\ pick (set_nth l i y) is = Ok l' /\ sortedR l'
  | PN y => exists l x0, v = Some (ArrN l) /\ v' = Some (ArrN (set_nth l i y)) /\ x = PN x0 /\
      nth_error l i = Some x0 /\ is = seq 0 n
  end.
Lemma perturb_value_spec s old i tr q r tr' : valid s -> is_disc s = true -> wf s old ->
  perturb_value s old i tr = Ret (q, r) tr' ->
  (i < ps_n old)%nat /\ ps_n q = ps_n old /\ dkeys (ps_vals q) = dkeys (ps_vals old) /\
  ps_attrs q = ps_vals q /\
  exists x x' is cs, good_site (sp_cls s) x' /\ position_of s old i (Some x) /\
    Permutation is (seq 0 (ps_n old)) /\
    site_moved x x' i (ps_n old) is (ps_get disc_key old) (ps_get disc_key q) /\
    (forall k par, In (k, par) (sp_params s) -> exists v v', ps_get k old = Some v /\
       ps_get k q = Some v' /\ reorder is v = Ok v') /\
    r = esum (Fin 0) cs /\ Forall2 (move_term old i x x') (sp_params s) cs.
Proof.
  intros Hv Hd Hwf H. pose proof (valid_here _ Hv) as Hok.
  pose proof Hok as (Hmm & _ & Hc & Hnd & Hdk & _).
  destruct (wf_inv _ _ Hnd Hwf) as (Hdim & Hsites & Hkeys & Hdl & Hf).
  destruct (Hdl Hd) as (dv & Edv & Ldv).
  unfold perturb_value in H. mb H as x Ex. mb H as x' Ex'. mb H as [vals l] Ev. mb H as q0 Eq0.
  mb H as q1 Ekd. mr H. injection H as -> ->.
  apply add_kdtree_ok in Ekd. destruct Ekd as (K1 & K2 & K3).
  destruct (positions_total s old Hd Hsites) as (ps & Hps).
  destruct (positions_spec s old ps Hd Hsites Hps) as [Hpos Hpl].
  unfold site_at in Ex. rewrite Hps in Ex. cbn in Ex. apply idx_ok in Ex.
  assert (Hxat : position_of s old i (Some x)) by (apply Hpos; eauto).
  assert (Hlen : length ps = ps_n old) by (rewrite <- (Hpl _ Edv); auto).
  assert (Hi : (i < ps_n old)%nat) by (rewrite <- Hlen; eapply nth_error_some_lt; eauto).
  assert (Hgx : good_site (sp_cls s) x).
  { unfold position_of, sites_ok, is_disc in *.
    destruct (sp_cls s) as [|lo hi sd fp|d lo hi sd poly kd fp]; try discriminate;
      destruct Hxat as (l1 & z & E1 & Hz & [= ->]); destruct Hsites as (l2 & E2 & Hs);
      rewrite E1 in E2; injection E2 as <-; cbn.
    - destruct Hs as [_ Hs]. rewrite Forall_forall in Hs. apply Hs. eapply nth_error_In; eauto.
    - rewrite Forall_forall in Hs. apply Hs. eapply nth_error_In; eauto. }
  apply perturb_site_inv in Ex'; auto.
  split; [exact Hi|].
  assert (Hmain : forall is sv put,
    Permutation is (seq 0 (ps_n old)) ->
    site_moved x x' i (ps_n old) is (ps_get disc_key old) (Some sv) ->
    (forall v v', value_len v = ps_n old -> put v = Ok v' -> reorder is v = Ok v') ->
    perturb_value_loop (sp_params s) old i x x' put [(disc_key, sv)] (Fin 0) = Ok (vals, r) ->
    ps_n q = ps_n old /\ dkeys (ps_vals q) = dkeys (ps_vals old) /\
    ps_attrs q = ps_vals q /\
    exists x x' is cs, good_site (sp_cls s) x' /\ position_of s old i (Some x) /\
      Permutation is (seq 0 (ps_n old)) /\
      site_moved x x' i (ps_n old) is (ps_get disc_key old) (ps_get disc_key q) /\
      (forall k par, In (k, par) (sp_params s) -> exists v v', ps_get k old = Some v /\
         ps_get k q = Some v' /\ reorder is v = Ok v') /\
      r = esum (Fin 0) cs /\ Forall2 (move_term old i x x') (sp_params s) cs).
  { intros is sv put Hperm Hsm Hput Hloop.
    apply perturb_loop_spec in Hloop; [|apply disc_first; auto].
    destruct Hloop as ((cs & -> & Hcs) & new & -> & Hnew).
    assert (Hnk : dkeys new = dkeys (sp_params s)).
    { unfold dkeys. symmetry. eapply Forall2_map_eq; [exact Hnew|]. intros a b _ [E _]. exact E. }
    assert (Hndv : NoDup (dkeys ([(disc_key, sv)] ++ new))).
    { cbn [app dkeys map fst]. change (map fst new) with (dkeys new). rewrite Hnk. constructor; auto. }
    destruct (mk_ps_ok _ _ _ Hndv Eq0) as [-> _]. cbn [ps_n ps_vals ps_attrs] in *.
    assert (Hgd : ps_get disc_key q = Some sv) by (unfold ps_get; rewrite K2; reflexivity).
    split; [exact K1|].
    split. { rewrite K2, Hkeys. unfold names. rewrite Hd. cbn [app]. rewrite <- Hnk. reflexivity. }
    split; [congruence|].
    exists x, x', is, cs. split; [exact Ex'|]. split; [exact Hxat|]. split; [exact Hperm|].
    split; [rewrite Hgd; exact Hsm|]. split; [|auto].
    intros k par Hin. destruct (Hf _ _ Hin) as (v & Ev0 & Hfv).
    assert (Hlv : value_len v = ps_n old).
    { destruct par; cbn in Hfv.
      - destruct Hfv as (lv & -> & L & _). exact L.
      - destruct Hfv as (lv & [-> | ->] & L & _); exact L. }
    destruct (Forall2_in_l _ _ _ _ Hnew Hin) as ([k' v'] & Hin' & E1 & w & E2 & E3). cbn in E1, E2, E3.
    subst k'. rewrite Ev0 in E2. injection E2 as <-.
    exists v, v'. split; auto. split; [|apply Hput; auto].
    unfold ps_get. rewrite K2. apply dget_in_nodup; auto. right. exact Hin'. }
  rewrite Edv in *. destruct x' as [y|y].
  - destruct dv as [sites| | |]; try discriminate. cbn in Ldv.
    apply rbind_ok in Ev. destruct Ev as (sites2 & E2 & Ev).
    cbn in Hps. injection Hps as <-. rewrite nth_error_map in Ex.
    destruct (nth_error sites i) as [x0|] eqn:Ex0; [|discriminate]. injection Ex as <-.
    assert (HL : length (set_nth sites i y) = length sites) by (apply set_nth_length; lia).
    eapply (Hmain (argsort (set_nth sites i y))); [| | |exact Ev].
    + rewrite argsort_perm, HL, Ldv. reflexivity.
    + exists sites, sites2, x0. repeat (split; [auto|]). eapply argsort_sorted; eauto.
    + auto.
  - destruct dv as [|sites| |]; try discriminate. cbn in Ldv.
    cbn in Hps. injection Hps as <-. rewrite nth_error_map in Ex.
    destruct (nth_error sites i) as [x0|] eqn:Ex0; [|discriminate]. injection Ex as <-.
    eapply (Hmain (seq 0 (ps_n old))); [reflexivity| | |exact Ev].
    + exists sites, x0. auto.
    + intros v v' L [= <-]. rewrite <- L. apply reorder_seq.
Qed.
Lemma perturb_value_wf s old i tr q r tr' : valid s -> is_disc s = true -> wf s old ->
  perturb_value s old i tr = Ret (q, r) tr' -> live r -> wf s q.
Proof.
  intros Hv Hd Hwf H Hlive.
  destruct (perturb_value_spec s old i tr q r tr' Hv Hd Hwf H)
    as (Hi & Hn & Hk & _ & x & x' & is & cs & Hgx' & Hxat & Hperm & Hsm & Hpar & -> & Hcs).
  pose proof (valid_here _ Hv) as Hok. pose proof Hok as (Hmm & _ & Hc & Hnd & Hdk & _).
  destruct (wf_inv _ _ Hnd Hwf) as (Hdim & Hsites & Hkeys & Hdl & Hf).
  apply live_esum in Hlive. destruct Hlive as [_ Hlive]. rewrite Forall_forall in Hlive.
  assert (Hlenis : length is = ps_n old) by (rewrite Hperm; apply seq_length).
  (* the new sites, and the position of a dimension before and after *)
  assert (HS : sites_ok s q /\ (exists v, ps_get disc_key q = Some v /\ value_len v = ps_n old) /\
    forall m at_, position_of s q m at_ -> exists o, nth_error is m = Some o /\
      ((o = i /\ at_ = Some x') \/ position_of s old o at_)).
  { destruct (Hdl Hd) as (dv & Edv & Ldv). unfold sites_ok, position_of, is_disc in *.
    destruct (sp_cls s) as [|lo hi sd fp|d lo hi sd poly kd fp], x' as [y|y];
      try discriminate; try (cbn in Hgx'; tauto); cbn in Hsm.
    - destruct Hsm as (l & l' & x0 & E1 & E2 & -> & Ex0 & Epick & Hsort).
      destruct Hsites as (l1 & E1' & Hso & Hrg). rewrite E1 in E1', Edv.
      injection E1' as <-. injection Edv as <-. cbn in Ldv.
      assert (HF : Forall (fun z => lo <= z <= hi) (set_nth l i y)).
      { apply Forall_forall. intros z Hz. apply In_nth_error in Hz. destruct Hz as (m & Hm).
        rewrite nth_set_nth in Hm by lia. destruct (m =? i)%nat.
        - injection Hm as <-. exact Hgx'.
        - rewrite Forall_forall in Hrg. apply Hrg. eapply nth_error_In; eauto. }
      split; [|split].
      + exists l'. split; auto. split; auto. eapply pick_Forall; eauto.
      + exists (Arr l'). split; auto. cbn. rewrite (pick_len _ _ _ Epick). auto.
      + intros m at_ (l2 & z & E3 & Hz & ->). rewrite E2 in E3. injection E3 as <-.
        destruct (pick_nth _ _ _ _ _ Epick Hz) as (o & Ho & Hoz). exists o. split; auto.
        rewrite nth_set_nth in Hoz by lia. destruct (Nat.eqb_spec o i).
        * left. split; congruence.
        * right. eauto.
    - destruct Hsm as (l & x0 & E1 & E2 & -> & Ex0 & Eis).
      destruct Hsites as (l1 & E1' & Hrg). rewrite E1 in E1', Edv.
      injection E1' as <-. injection Edv as <-. cbn in Ldv.
      split; [|split].
      + exists (set_nth l i y). split; auto.
        apply Forall_forall. intros z Hz. apply In_nth_error in Hz. destruct Hz as (m & Hm).
        rewrite nth_set_nth in Hm by lia. destruct (m =? i)%nat.
        * injection Hm as <-. exact Hgx'.
        * rewrite Forall_forall in Hrg. apply Hrg. eapply nth_error_In; eauto.
      + exists (ArrN (set_nth l i y)). split; auto. cbn. rewrite set_nth_length; lia.
      + intros m at_ (l2 & z & E3 & Hz & ->). rewrite E2 in E3. injection E3 as <-.
        pose proof (nth_error_some_lt _ _ _ Hz) as Hm. rewrite set_nth_length in Hm by lia.
        exists m. split; [rewrite Eis; apply seq_nth_error; lia|].
        rewrite nth_set_nth in Hz by lia. destruct (Nat.eqb_spec m i).
        * left. split; congruence.
        * right. eauto. }
  destruct HS as (HS1 & (dv & Edv & Ldv) & HS3).
  apply wf_build; auto.
  - unfold dims_ok in *. lia.
  - congruence.
  - intros _. exists dv. split; auto. congruence.
  - intros k par Hin. destruct (Hpar k par Hin) as (v & v' & Ev & Ev' & Hre).
    exists v'. split; auto. rewrite Hn. destruct (Hf _ _ Hin) as (w & Ew & Hfit).
    rewrite Ev in Ew. injection Ew as <-. destruct par as [p|s']; cbn in Hfit.
    + destruct Hfit as (l & -> & L & Hsup). cbn [reorder] in Hre. apply rbind_ok in Hre.
      destruct Hre as (l' & Epick & [= <-]). exists l'. split; auto.
      split; [rewrite (pick_len _ _ _ Epick); auto|].
      intros m z at_ Hz Hat. destruct (pick_nth _ _ _ _ _ Epick Hz) as (o & Ho & Hoz).
      destruct (HS3 m at_ Hat) as (o' & Ho' & Hcase). rewrite Ho in Ho'. injection Ho' as <-.
      destruct Hcase as [[-> ->]|Hold]; [|eapply Hsup; eauto].
      assert (Hprior : prior_ok p) by (eapply prior_of; eauto).
      destruct (Forall2_in_l _ _ _ _ Hcs Hin) as (c & Hcin & Hterm).
      unfold move_term in Hterm. cbn [fst snd] in Hterm. destruct (p_pos p) eqn:Epos.
      * destruct Hterm as (v0 & lo & ln_ & E1 & E2 & E3 & ->). rewrite Ev in E1. cbn in E1.
        apply idx_ok in E1. rewrite Hoz in E1. injection E1 as <-.
        eapply p_log_prior_inv; [exact Hprior|exact E3|].
        specialize (Hlive _ Hcin). unfold esub in Hlive. now apply live_eadd in Hlive.
      * eapply support_scalar; [exact Hprior|exact Epos|]. eapply Hsup; eauto.
    + destruct Hfit as (l & Hl & L & HF).
      assert (HE : exists l', (v' = Lst l' \/ v' = AObj l') /\ pick l is = Ok l').
      { destruct Hl as [-> | ->]; cbn [reorder] in Hre; apply rbind_ok in Hre;
          destruct Hre as (l' & Epick & [= <-]); eauto. }
      destruct HE as (l' & Hl' & Epick). exists l'. split; auto.
      split; [rewrite (pick_len _ _ _ Epick); auto|]. eapply pick_Forall; eauto.
Qed.
