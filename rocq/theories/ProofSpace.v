(** Proofs about the model of parameter spaces: draws, well-formed states, initialize and
    sample. *)
From Verif Require Import Base ModelUtils1D ModelPrior ModelState ModelSpace SpecUtils1D SpecPrior
  SpecState SpecSpace ProofUtils1D ProofUtils1DB ProofChain ProofChainC ProofState PropPrior.
Local Open Scope R_scope.

(** Step-by-step inversion of a run, with chosen names. *)
Tactic Notation "mb" hyp(H) "as" simple_intropattern(a) simple_intropattern(E) :=
  let t := fresh "t" in
  apply bind_ret_inv in H; destruct H as (a & t & E & H);
  try (apply lift_ret_inv in E; destruct E as [E ?]; subst t).
Tactic Notation "mr" hyp(H) :=
  first [apply ret_inv in H | apply lift_ret_inv in H];
  let E := fresh "E" in destruct H as [H E]; try subst.

(** * Induction on nested spaces *)
Fixpoint sp_size (s : space) : nat :=
  match s with
  | Space _ _ _ _ _ _ params =>
      S ((fix go (l : list (string * param)) : nat :=
            match l with
            | [] => O
            | (_, PSpace s') :: t => (sp_size s' + go t)%nat
            | (_, PPrior _) :: t => go t
            end) params)
  end.
Lemma sp_size_in s k s' : In (k, PSpace s') (sp_params s) -> (sp_size s' < sp_size s)%nat.
Proof.
  destruct s as [nm f a b r c l]. cbn [sp_params sp_size]. intros H. apply -> Nat.lt_succ_r.
  induction l as [|[k' p] t IH]; cbn in H; [tauto|].
  destruct H as [[= -> ->]|H]; [lia|]. specialize (IH H). destruct p; lia.
Qed.
Lemma space_ind' (P : space -> Prop) :
  (forall s, (forall k s', In (k, PSpace s') (sp_params s) -> P s') -> P s) -> forall s, P s.
Proof.
  intros H s. remember (sp_size s) as m eqn:E. revert s E.
  induction m as [m IH] using (well_founded_induction lt_wf). intros s E.
  apply H. intros k s' Hin. eapply IH; [|reflexivity]. subst. eapply sp_size_in; eauto.
Qed.
Lemma valid_here s : valid s -> space_ok s.
Proof. intros H. apply H. constructor. Qed.
Lemma valid_in s k s' : valid s -> In (k, PSpace s') (sp_params s) -> valid s'.
Proof. intros H Hin s1 Hs. apply H. econstructor; eauto. Qed.

(** * Draws *)
Lemma repeatM_inv {A} (Q : A -> Prop) n (m : M A) tr l tr' :
  (forall t a t', m t = Ret a t' -> Q a) ->
  repeatM n m tr = Ret l tr' -> length l = n /\ Forall Q l.
Proof.
  intros HQ. revert tr l. induction n as [|n IH]; intros tr l H; cbn in H.
  - minv. subst. auto.
  - minv. subst. destruct (IH _ _ H) as [H1 H2]. cbn. split; [congruence|].
    constructor; eauto.
Qed.
Lemma mapM_inv {A B} (f : A -> M B) l tr l' tr' :
  mapM f l tr = Ret l' tr' ->
  Forall2 (fun a b => exists t t', f a t = Ret b t') l l'.
Proof.
  revert tr l'. induction l as [|x l IH]; intros tr l' H; cbn in H.
  - minv. subst. constructor.
  - minv. subst. constructor; eauto.
Qed.
Lemma uniform_inv a b tr x tr' : a <= b -> uniform a b tr = Ret x tr' -> a <= x <= b.
Proof. unfold uniform. intros Hab H. minv. subst. nra. Qed.
Lemma randint_inv a b tr k tr' : randint a b tr = Ret k tr' -> (a <= k <= b)%nat /\ tr = DInt k :: tr'.
Proof.
  unfold randint. destruct (b <? a)%nat; [discriminate|].
  destruct tr as [|[|m| | | |] tr]; try discriminate.
  destruct (Nat.leb_spec a m), (Nat.leb_spec m b); cbn; try discriminate.
  intros [= -> ->]. auto.
Qed.
Lemma randint_ok a b k tr : (a <= k <= b)%nat -> randint a b (DInt k :: tr) = Ret k tr.
Proof.
  intros H. unfold randint. rewrite (proj2 (Nat.ltb_ge b a)) by lia.
  now rewrite (proj2 (Nat.leb_le a k)), (proj2 (Nat.leb_le k b)) by lia.
Qed.
Lemma randint_below_inv n tr k tr' : randint_below n tr = Ret k tr' -> (k < n)%nat /\ tr = DInt k :: tr'.
Proof.
  unfold randint_below. destruct n; [discriminate|]. intros H. apply randint_inv in H.
  split; [lia|tauto].
Qed.
Lemma randint_below_ok n k tr : (k < n)%nat -> randint_below n (DInt k :: tr) = Ret k tr.
Proof. intros H. unfold randint_below. destruct n; [lia|]. apply randint_ok. lia. Qed.
Lemma until_inv {A} (m : M A) ok tr a tr' :
  until m ok tr = Ret a tr' -> ok a = true /\ exists t t', m t = Ret a t'.
Proof.
  unfold until. generalize (S (length tr)) as fuel. intros fuel. revert tr.
  induction fuel as [|f IH]; intros tr H; cbn in H; [discriminate|].
  destruct (m tr) as [b t|e t| |] eqn:E; try discriminate.
  destruct (ok b) eqn:Eb; [|eauto]. injection H as <- <-. split; eauto.
Qed.

(** * Supports *)
Lemma hyper_fun h at_ r r' : hyper_ok h -> hyper_is h at_ r -> get_hyper h at_ = Ok r' -> r = r'.
Proof. intros Hok H E. apply (hyper_get _ _ _ Hok) in H. congruence. Qed.
Lemma uniform_support p a b at_ lo hi v : prior_ok p -> p_dist p = Uniform a b ->
  get_hyper a at_ = Ok lo -> get_hyper b at_ = Ok hi -> lo <= v <= hi -> in_support p at_ v.
Proof.
  intros (Hok & _ & _) Hd Ha Hb Hv. unfold in_support. rewrite Hd in *. cbn in Hok.
  intros lo' hi' H1 H2.
  rewrite (hyper_fun _ _ _ _ (proj1 Hok) H1 Ha), (hyper_fun _ _ _ _ (proj2 Hok) H2 Hb). exact Hv.
Qed.
Lemma bounds_ordered p a b at_ lo hi : prior_ok p -> p_dist p = Uniform a b ->
  get_hyper a at_ = Ok lo -> get_hyper b at_ = Ok hi -> lo <= hi.
Proof.
  intros (Hok & _ & Hle) Hd Ha Hb. rewrite Hd in *. cbn in Hok. destruct Hok as [Oa Ob].
  apply (Hle at_); now apply C12_hyper_parameters.
Qed.
Lemma support_none p x v : in_support p (Some x) v -> in_support p None v.
Proof.
  unfold in_support. destruct (p_dist p) as [a b|m s|m s|f g h]; auto.
  intros H lo hi Ha Hb. destruct a as [ra|xa ya|fa]; cbn in Ha.
  - destruct b as [rb|xb yb|fb]; cbn in Hb.
    + subst. apply H; reflexivity.
    + destruct Hb as (q & E & _). discriminate.
    + destruct Hb as (q & E & _). discriminate.
  - destruct Ha as (q & E & _). discriminate.
  - destruct Ha as (q & E & _). discriminate.
Qed.
Lemma support_scalar p at_ at' v : prior_ok p -> p_pos p = false ->
  in_support p at_ v -> in_support p at' v.
Proof.
  intros (_ & Hs & _) Hp. specialize (Hs Hp). unfold in_support, scalar_dist in *.
  destruct (p_dist p) as [a b|m s|m s|f g h]; auto.
  destruct Hs as [(ra & ->) (rb & ->)]. cbn. intros H lo hi -> ->. apply H; reflexivity.
Qed.
Lemma p_sample_inv p at_ tr v tr' : prior_ok p -> p_sample p at_ tr = Ret v tr' -> in_support p at_ v.
Proof.
  intros Hok. unfold p_sample. destruct (p_dist p) as [a b|m s|m s|f g h] eqn:Hd;
    [|unfold in_support; rewrite Hd; auto..].
  intros H. minv. subst.
  eapply uniform_support; eauto. eapply uniform_inv; eauto.
  eapply bounds_ordered; eauto.
Qed.
Lemma p_log_prior_inv p v at_ l : prior_ok p -> p_log_prior p v at_ = Ok l -> live l ->
  in_support p at_ v.
Proof.
  intros Hok. unfold p_log_prior. destruct (p_dist p) as [a b|m s|m s|f g h] eqn:Hd;
    [|unfold in_support; rewrite Hd; auto..].
  intros H Hl. apply rbind_ok in H. destruct H as (lo & Ha & H).
  apply rbind_ok in H. destruct H as (hi & Hb & H).
  destruct (Rleb lo v && Rleb v hi)%bool eqn:E.
  - apply andb_true_iff in E. destruct E as [E1 E2]. apply Rleb_true in E1. apply Rleb_true in E2.
    eapply uniform_support; eauto.
  - injection H as <-. destruct Hl.
Qed.
Lemma p_perturb_inv p v at_ b tr nv r tr' : prior_ok p -> p_perturb p v at_ b tr = Ret (nv, r) tr' ->
  live r -> in_support p at_ nv.
Proof.
  intros Hok. unfold p_perturb. destruct (p_dist p) as [lo hi|m s|m s|f g h] eqn:Hd;
    [|unfold in_support; rewrite Hd; auto..].
  intros H Hl. minv. subst.
  destruct (Rleb a0 (v + a2) && Rleb (v + a2) a1)%bool eqn:E; [|destruct Hl].
  apply andb_true_iff in E. destruct E as [E1 E2]. apply Rleb_true in E1. apply Rleb_true in E2.
  eapply uniform_support; eauto.
Qed.
Lemma Forall2_nth {A B} (P : A -> B -> Prop) l l' i a b :
  Forall2 P l l' -> nth_error l i = Some a -> nth_error l' i = Some b -> P a b.
Proof.
  intros H. revert i. induction H; intros [|i]; cbn; try discriminate; eauto.
  intros [= <-] [= <-]. auto.
Qed.
Lemma Forall2_len {A B} (P : A -> B -> Prop) l l' : Forall2 P l l' -> length l = length l'.
Proof. induction 1; cbn; congruence. Qed.
Lemma get_hyper_all_len h ps l : get_hyper_all h ps = Ok l -> length l = length ps.
Proof.
  destruct h; cbn.
  - intros [= <-]. apply repeat_length.
  - intros H. apply rmap_ok in H. symmetry. eapply Forall2_len; eauto.
  - destruct ps as [|x [|]]; try discriminate. intros H.
    assert (E : rmap (fun p => get_hyper (HN f) (Some p)) [x] = Ok l) by exact H.
    apply rmap_ok in E. symmetry. eapply Forall2_len; eauto.
Qed.
Lemma p_initialize_inv p ps tr l tr' : prior_ok p -> p_initialize p ps tr = Ret l tr' ->
  length l = length ps /\
  forall i x v, nth_error ps i = Some x -> nth_error l i = Some v -> in_support p (Some x) v.
Proof.
  intros Hok. unfold p_initialize. destruct (p_dist p) as [a b|m s|m s|f g h] eqn:Hd.
  - intros H. minv. subst. rename a0 into bs. apply rmap_ok in H.
    assert (HM : mapM (fun lh => uniform (fst lh) (snd lh)) bs t = Ret l tr').
    { destruct bs; [discriminate|exact H1]. }
    apply mapM_inv in HM. split.
    + rewrite (Forall2_len _ _ _ H). symmetry. eapply Forall2_len; eauto.
    + intros i x v Hx Hv. destruct (nth_error_lt bs i) as (lh & Hlh).
      { rewrite (Forall2_len _ _ _ HM). eapply nth_error_some_lt; eauto. }
      pose proof (Forall2_nth _ _ _ _ _ _ H Hx Hlh) as E1. cbn in E1.
      apply rbind_ok in E1. destruct E1 as (lo & Ha & E1).
      apply rbind_ok in E1. destruct E1 as (hi & Hb & E1). injection E1 as <-.
      destruct (Forall2_nth _ _ _ _ _ _ HM Hlh Hv) as (t1 & t2 & E2). cbn in E2.
      eapply uniform_support; eauto. eapply uniform_inv; eauto. eapply bounds_ordered; eauto.
  - intros H. apply bind_ret_inv in H. destruct H as (mus & t1 & K1 & H).
    apply bind_ret_inv in H. destruct H as (sds & t2 & K2 & H).
    apply lift_ret_inv in K1. apply lift_ret_inv in K2. destruct K1 as [K1 _], K2 as [K2 _].
    destruct (neg_any sds); [discriminate|].
    apply mapM_inv in H. split; [|intros; unfold in_support; now rewrite Hd].
    rewrite <- (Forall2_len _ _ _ H), combine_length.
    rewrite (get_hyper_all_len _ _ _ K1), (get_hyper_all_len _ _ _ K2). lia.
  - intros H. apply bind_ret_inv in H. destruct H as (mus & t1 & K1 & H).
    apply bind_ret_inv in H. destruct H as (sds & t2 & K2 & H).
    apply lift_ret_inv in K1. apply lift_ret_inv in K2. destruct K1 as [K1 _], K2 as [K2 _].
    destruct (neg_any sds); [discriminate|].
    apply mapM_inv in H. split; [|intros; unfold in_support; now rewrite Hd].
    rewrite <- (Forall2_len _ _ _ H), combine_length.
    rewrite (get_hyper_all_len _ _ _ K1), (get_hyper_all_len _ _ _ K2). lia.
  - intros H. apply mapM_inv in H. split; [|intros; unfold in_support; now rewrite Hd].
    symmetry. eapply Forall2_len; eauto.
Qed.

(** * Well-formed states, characterised level by level *)
Definition fits (n : nat) (P : nat -> option pos -> Prop) (par : param) (v : value) : Prop :=
  match par with
  | PPrior pr => exists l, v = Arr l /\ length l = n /\
      forall i x at_, nth_error l i = Some x -> P i at_ -> in_support pr at_ x
  | PSpace s' => exists l, (v = Lst l \/ v = AObj l) /\ length l = n /\ Forall (wf s') l
  end.
Definition disc_len (s : space) (p : psstate) : Prop :=
  is_disc s = true -> exists v, ps_get disc_key p = Some v /\ value_len v = ps_n p.
Lemma wf_local s p : wf s p -> local_ok s p.
Proof. intros H. apply H. constructor. Qed.
Lemma wf_build s p :
  ~ In disc_key (dkeys (sp_params s)) ->
  dims_ok s p -> sites_ok s p -> dkeys (ps_vals p) = names s -> disc_len s p ->
  (forall k par, In (k, par) (sp_params s) ->
     exists v, ps_get k p = Some v /\ fits (ps_n p) (position_of s p) par v) ->
  wf s p.
Proof.
  intros Hdk Hd Hs Hk Hdl Hf.
  assert (HL : local_ok s p).
  { split; [exact Hd|]. split; [|split; [exact Hs|]].
    - split; [exact Hk|]. split; [|split].
      + intros k v Hv.
        assert (Hin : In k (names s)).
        { rewrite <- Hk. apply in_dkeys with v. now apply dget_some_in. }
        unfold names in Hin. apply in_app_or in Hin. destruct Hin as [Hin|Hin].
        * destruct (is_disc s) eqn:E; [|destruct Hin]. destruct Hin as [<-|[]].
          destruct (Hdl E) as (v' & E1 & E2). congruence.
        * apply dget_keys in Hin. destruct Hin as (par & Hpar). apply dget_some_in in Hpar.
          destruct (Hf _ _ Hpar) as (v' & E1 & E2). rewrite Hv in E1. injection E1 as <-.
          destruct par; cbn in E2.
          -- destruct E2 as (l & -> & E2 & _). exact E2.
          -- destruct E2 as (l & [-> | ->] & E2 & _); exact E2.
      + intros k pr Hin. destruct (Hf _ _ Hin) as (v & E1 & l & -> & _). eauto.
      + intros k s' Hin. destruct (Hf _ _ Hin) as (v & E1 & l & [-> | ->] & _); eauto.
    - intros k pr l i v at_ Hin Hg Hv Hp. destruct (Hf _ _ Hin) as (w & E1 & l' & E2 & _ & E3).
      rewrite Hg in E1. injection E1 as <-. injection E2 as <-. eauto. }
  intros s' p' Hpart. inversion Hpart as [|s0 p0 k s1 v q s2 p2 H1 H2 H3 H4]; subst; auto.
  destruct (Hf _ _ H1) as (w & E1 & l & E2 & _ & E3). rewrite H2 in E1. injection E1 as <-.
  rewrite Forall_forall in E3. assert (Hq : In q l) by (destruct E2 as [-> | ->]; exact H3).
  exact (E3 q Hq s' p' H4).
Qed.
Lemma wf_inv s p : NoDup (dkeys (sp_params s)) -> wf s p ->
  dims_ok s p /\ sites_ok s p /\ dkeys (ps_vals p) = names s /\ disc_len s p /\
  (forall k par, In (k, par) (sp_params s) ->
     exists v, ps_get k p = Some v /\ fits (ps_n p) (position_of s p) par v).
Proof.
  intros Hnd H. pose proof (wf_local _ _ H) as (Hd & (Hk & Hlen & Hp & Hn) & Hs & Hsup).
  split; [exact Hd|]. split; [exact Hs|]. split; [exact Hk|]. split.
  - intros E. assert (Hin : In disc_key (dkeys (ps_vals p))).
    { rewrite Hk. unfold names. rewrite E. left. auto. }
    apply dget_keys in Hin. destruct Hin as (v & Hv). exists v. split; auto. eapply Hlen; eauto.
  - intros k [pr|s'] Hin.
    + destruct (Hp _ _ Hin) as (l & Hl). exists (Arr l). split; auto.
      exists l. split; auto. split; [exact (Hlen _ _ Hl)|]. intros i x at_ Hx Hat. eapply Hsup; eauto.
    + destruct (Hn _ _ Hin) as (l & Hl).
      assert (Hl' : exists v, ps_get k p = Some v /\ (v = Lst l \/ v = AObj l)).
      { destruct Hl; eauto. }
      destruct Hl' as (v & Hv & Hvl). exists v. split; auto. exists l. split; auto.
      split.
      * specialize (Hlen _ _ Hv). destruct Hvl as [-> | ->]; exact Hlen.
      * apply Forall_forall. intros q Hq s1 p1 Hpart. apply H.
        eapply part_in; eauto. destruct Hvl as [-> | ->]; exact Hq.
Qed.

(** * States with the same view *)
Lemma same_get p q k v : view p = view q -> ps_get k q = Some v ->
  exists w, ps_get k p = Some w /\ view_value w = view_value v.
Proof.
  intros E Hv. assert (H : ps_get k (view p) = ps_get k (view q)) by congruence.
  rewrite !view_get, Hv in H. destruct (ps_get k p); [|discriminate].
  injection H as H. eauto.
Qed.
Lemma same_n p q : view p = view q -> ps_n p = ps_n q.
Proof. intros E. rewrite <- (view_n p), <- (view_n q). congruence. Qed.
Lemma same_keys p q : view p = view q -> dkeys (ps_vals p) = dkeys (ps_vals q).
Proof.
  intros E. apply view_same in E. destruct E as [_ E].
  rewrite <- (view_keys (ps_vals p)), <- (view_keys (ps_vals q)). congruence.
Qed.
Lemma view_Arr w l : view_value w = Arr l -> w = Arr l.
Proof. destruct w; cbn; intros [= ->]; auto. Qed.
Lemma view_ArrN w l : view_value w = ArrN l -> w = ArrN l.
Proof. destruct w; cbn; intros [= ->]; auto. Qed.
Lemma same_position s p q i at_ : view p = view q -> position_of s p i at_ -> position_of s q i at_.
Proof.
  intros E. unfold position_of. destruct (sp_cls s) as [|? ? ? ?|? ? ? ? ? ? ?]; auto.
  - intros (l & x & Hg & H). destruct (same_get q p _ _ (eq_sym E) Hg) as (w & Hw & Ew).
    cbn in Ew. apply view_Arr in Ew. subst. eauto.
  - intros (l & x & Hg & H). destruct (same_get q p _ _ (eq_sym E) Hg) as (w & Hw & Ew).
    cbn in Ew. apply view_ArrN in Ew. subst. eauto.
Qed.
Lemma local_view s p q : view p = view q -> local_ok s p -> local_ok s q.
Proof.
  intros E ((Hd1 & Hd2) & (Hk & Hlen & Hp & Hn) & Hs & Hsup).
  pose proof (same_n _ _ E) as En.
  split; [|split; [|split]].
  - unfold dims_ok. rewrite <- En. auto.
  - split; [rewrite <- (same_keys _ _ E); exact Hk|]. split; [|split].
    + intros k v Hv. destruct (same_get p q k v E Hv) as (w & Hw & Ew).
      rewrite <- (view_value_len v), <- Ew, view_value_len, <- En. eauto.
    + intros k pr Hin. destruct (Hp _ _ Hin) as (l & Hl).
      destruct (same_get q p k _ (eq_sym E) Hl) as (w & Hw & Ew). cbn in Ew. apply view_Arr in Ew.
      subst. eauto.
    + intros k s' Hin. destruct (Hn _ _ Hin) as (l & [Hl|Hl]);
        destruct (same_get q p k _ (eq_sym E) Hl) as (w & Hw & Ew);
        destruct w as [|?|?|?]; cbn in Ew; try discriminate; eauto.
  - unfold sites_ok in *. destruct (sp_cls s) as [|? ? ? ?|? ? ? ? ? ? ?]; auto.
    + destruct Hs as (l & Hl & H). destruct (same_get q p _ _ (eq_sym E) Hl) as (w & Hw & Ew).
      cbn in Ew. apply view_Arr in Ew. subst. eauto.
    + destruct Hs as (l & Hl & H). destruct (same_get q p _ _ (eq_sym E) Hl) as (w & Hw & Ew).
      cbn in Ew. apply view_ArrN in Ew. subst. eauto.
  - intros k pr l i v at_ Hin Hl Hv Hat.
    destruct (same_get p q k _ E Hl) as (w & Hw & Ew). cbn in Ew. apply view_Arr in Ew. subst.
    eapply Hsup; eauto. eapply same_position; [symmetry; exact E|exact Hat].
Qed.
Lemma in_map_view (l l' : list psstate) q : map view l = map view l' -> In q l ->
  exists q', In q' l' /\ view q' = view q.
Proof.
  intros E Hin. assert (H : In (view q) (map view l')) by (rewrite <- E; now apply in_map).
  apply in_map_iff in H. destruct H as (q' & E' & H). eauto.
Qed.
Lemma same_states v w : view_value v = view_value w ->
  map view (states_in v) = map view (states_in w).
Proof. intros E. rewrite <- !view_states. congruence. Qed.
Lemma wf_view s p q : view p = view q -> wf s p -> wf s q.
Proof.
  intros E H s' q' Hpart. revert p E H.
  induction Hpart as [s q|s q k s1 v q1 s' q' H1 H2 H3 H4 IH]; intros p E H.
  - eapply local_view; eauto. now apply wf_local.
  - destruct (same_get p q k v E H2) as (w & Hw & Ew).
    destruct (in_map_view (states_in v) (states_in w) q1) as (p1 & Hin & E1); auto.
    { symmetry. now apply same_states. }
    apply (IH p1 E1). intros s2 p2 Hp. apply H. eapply part_in; eauto.
Qed.
