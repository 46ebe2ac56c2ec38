(** Births from neighbours: C56. *)
From Verif Require Import Base ModelUtils1D ModelPrior ModelState ModelSpace ModelPerturb
  SpecUtils1D SpecPrior SpecState SpecSpace
  ProofUtils1D ProofChain ProofInversion
  ProofState ProofSpace ProofSpaceB ProofSpaceC ProofSpaceD PropPrior ExampleRun ExampleSpace PropNested.
Local Open Scope R_scope.
Local Open Scope string_scope.

(** [safe m Q]: [m] raises no exception and reads nothing undefined, whatever the draws; its
    results satisfy [Q]. *)
Definition safe {A} (m : M A) (Q : A -> Prop) : Prop := forall tr,
  match m tr with Ret a _ => Q a | Starve => True | Err _ _ => False | UBeh => False end.
Lemma safe_bind {A B} (m : M A) (f : A -> M B) P Q : safe m P -> (forall a, P a -> safe (f a) Q) -> safe (bind m f) Q.
Proof.
  intros H1 H2 tr. unfold bind. specialize (H1 tr). destruct (m tr) as [a t|e t| |]; auto. apply (H2 a H1).
Qed.
Lemma safe_ret {A} (a : A) (Q : A -> Prop) : Q a -> safe (ret a) Q.
Proof. intros H tr. exact H. Qed.
Lemma safe_lift {A} (r : res A) a (Q : A -> Prop) : r = Ok a -> Q a -> safe (lift r) Q.
Proof. intros -> H tr. exact H. Qed.
Lemma safe_impl {A} (m : M A) (P Q : A -> Prop) : safe m P -> (forall a, P a -> Q a) -> safe m Q.
Proof. intros H1 H2 tr. specialize (H1 tr). destruct (m tr); auto. Qed.
Lemma safe_repeat {A} n (m : M A) P : safe m P -> safe (repeatM n m) (fun l => length l = n /\ Forall P l).
Proof.
  intros H. induction n as [|n IH]; cbn [repeatM].
  - apply safe_ret. auto.
  - eapply safe_bind; [exact H|]. intros a Ha. eapply safe_bind; [exact IH|]. intros l [Hl HF].
    apply safe_ret. cbn. auto.
Qed.
Lemma safe_mapM {A B} (f : A -> M B) l : (forall a, In a l -> safe (f a) (fun _ => True)) ->
  safe (mapM f l) (fun _ => True).
Proof.
  induction l as [|a l IH]; intros H; cbn [mapM].
  - now apply safe_ret.
  - eapply safe_bind; [apply H; now left|]. intros b _. eapply safe_bind; [apply IH; intros; apply H; now right|].
    intros. now apply safe_ret.
Qed.
Lemma safe_drawU (Q : R -> Prop) : (forall u, 0 <= u < 1 -> Q u) -> safe drawU Q.
Proof.
  intros H tr. unfold drawU. destruct tr as [|[u|k|z|z|i j|x] tr]; auto.
  destruct (Rleb 0 u) eqn:E1, (Rltb u 1) eqn:E2; cbn; auto. apply H.
  apply Rleb_true in E1. apply Rltb_true in E2. lra.
Qed.
Lemma safe_uniform a b : safe (uniform a b) (fun _ => True).
Proof. unfold uniform. eapply safe_bind; [apply (safe_drawU (fun _ => True)); auto|]. intros. now apply safe_ret. Qed.
Lemma safe_normal a b : safe (normal a b) (fun _ => True).
Proof.
  unfold normal. eapply (safe_bind _ _ (fun _ => True)).
  - intros tr. unfold drawZ. destruct tr as [|[u|k|z|z|i j|x] tr]; auto.
  - intros. now apply safe_ret.
Qed.
Lemma safe_drawVal : safe drawVal (fun _ => True).
Proof. intros tr. unfold drawVal. destruct tr as [|[u|k|z|z|i j|x] tr]; auto. Qed.
Lemma safe_until {A} (m : M A) ok : safe m (fun _ => True) -> safe (until m ok) (fun _ => True).
Proof.
  intros H tr. unfold until. generalize (S (length tr)). intros n. revert tr.
  induction n as [|n IH]; intros tr; cbn [until_loop]; auto. specialize (H tr).
  destruct (m tr) as [a t|e t| |]; auto. destruct (ok a); auto. apply IH.
Qed.
Lemma safe_results {A} (m : M A) (Q R : A -> Prop) : safe m Q -> (forall tr a tr', m tr = Ret a tr' -> R a) ->
  safe m (fun a => Q a /\ R a).
Proof.
  intros H1 H2 tr. specialize (H1 tr). specialize (H2 tr). destruct (m tr) as [a t|e t| |]; auto.
  split; auto. eapply H2; reflexivity.
Qed.
Lemma safe_site c : class_ok c -> c <> Plain -> safe (sample_site c) (good_site c).
Proof.
  intros Hc Hp. eapply safe_impl.
  - apply safe_results with (Q := fun _ => True) (R := good_site c).
    + destruct c as [|lo hi sd fp|d lo hi sd poly kd fp]; cbn [sample_site]; [congruence| |].
      * eapply safe_bind; [apply safe_uniform|]. intros. now apply safe_ret.
      * destruct Hc as (Hlo & Hhi & _).
        assert (Hu : safe (uniform_vec d lo hi) (fun _ => True)).
        { unfold uniform_vec. rewrite Hlo, Hhi, Nat.eqb_refl. cbn. apply safe_mapM. intros. apply safe_uniform. }
        destruct poly.
        -- eapply safe_bind; [apply safe_until; exact Hu|]. intros. now apply safe_ret.
        -- eapply safe_bind; [exact Hu|]. intros. now apply safe_ret.
    + intros tr a tr' H. eapply sample_site_inv; eauto.
  - intros a H. exact (proj2 H).
Qed.
Lemma safe_randint a b : (a <= b)%nat -> safe (randint a b) (fun k => (a <= k <= b)%nat).
Proof.
  intros H tr. unfold randint. destruct (Nat.ltb_spec b a); [lia|].
  destruct tr as [|[u|k|z|z|i j|x] tr]; auto.
  destruct (Nat.leb_spec a k), (Nat.leb_spec k b); cbn; auto.
Qed.
(** A state with the sites of a tessellation, whatever else is in it. *)
Definition sited (s : space) (q : psstate) : Prop :=
  sites_ok s q /\ (1 <= ps_n q)%nat /\ exists v, ps_get disc_key q = Some v /\ value_len v = ps_n q.
Lemma safe_sample_disc s : space_ok s -> is_disc s = true -> safe (sample_discretization s) (sited s).
Proof.
  intros Hok Hd. eapply safe_impl.
  - apply safe_results with (Q := fun _ => True) (R := fun q => raw s q /\ ps_attrs q = ps_vals q /\ ps_cache q = []).
    + unfold sample_discretization. eapply safe_bind with (P := fun n => (sp_min s <= n <= sp_max s)%nat).
      * destruct Hok as (Hn & _). unfold sample_n. destruct s as [nm [n|] mi ma rg cls params]; cbn in *.
        -- apply safe_ret. lia.
        -- apply safe_randint. lia.
      * intros n Hn. eapply safe_bind.
        -- apply safe_repeat. apply safe_site; [apply Hok|]. intros E. unfold is_disc in Hd. rewrite E in Hd. discriminate.
        -- intros ps [Hl HF]. assert (Hv : value_len (sites_value (sp_cls s) ps) = n).
           { eapply (sites_value_ok s n (PS n [(disc_key, sites_value (sp_cls s) ps)] [] []) ps); auto. apply Hok. }
           eapply safe_lift; [apply mk_ps_complete|exact I].
           ++ constructor; [intros []|constructor].
           ++ intros k v [E|[]]. injection E as <- <-. split; auto. destruct (sp_cls s); discriminate.
    + intros tr a tr' H. now apply sample_disc_raw in H.
  - intros q [_ [(Hdim & Hs & sv & Hv & Hl) _]]. split; auto. destruct Hok as (Hn & _).
    split; [unfold dims_ok in Hdim; lia|]. exists sv. split; auto. unfold ps_get. now rewrite Hv.
Qed.

(** * Priors with which a birth from a neighbour cannot fail *)
(** At every position of the tessellation: a density (not a user-defined one), and a positive
    width of the proposals at births. *)
Definition usable (c : sclass) (p : prior) : Prop :=
  hyper_ok (p_stdb p) /\ dist_ok (p_dist p) /\
  forall x, good_site c x ->
    (exists sd, hyper_is (p_stdb p) (Some x) sd /\ 0 < sd) /\
    match p_dist p with
    | Uniform a b => exists lo hi, hyper_is a (Some x) lo /\ hyper_is b (Some x) hi /\ lo < hi
    | Gauss m s => exists mu sd, hyper_is m (Some x) mu /\ hyper_is s (Some x) sd /\ 0 < sd
    | Laplace m b => exists mu sc, hyper_is m (Some x) mu /\ hyper_is b (Some x) sc /\ 0 < sc
    | Custom _ _ _ => False
    end.
Lemma log_prior_usable c p v x : usable c p -> good_site c x -> exists l, p_log_prior p v (Some x) = Ok l.
Proof.
  intros (_ & Hd & H) Hx. destruct (H x Hx) as (_ & Hp). unfold p_log_prior.
  destruct (p_dist p) as [a b|m s|m b|f g h]; cbn in Hd; try contradiction; destruct Hd as [Hd1 Hd2].
  - destruct Hp as (lo & hi & Ha & Hb & Hlt). rewrite (hyper_get _ _ _ Hd1 Ha), (hyper_get _ _ _ Hd2 Hb). cbn [rbind].
    destruct (_ && _)%bool; eauto. unfold py_log. rewrite Rltb_t by lra. cbn. eauto.
  - destruct Hp as (mu & sd & Ha & Hb & Hlt). rewrite (hyper_get _ _ _ Hd1 Ha), (hyper_get _ _ _ Hd2 Hb). cbn [rbind].
    unfold py_div. rewrite Reqb_f by lra. cbn. eauto.
  - destruct Hp as (mu & sd & Ha & Hb & Hlt). rewrite (hyper_get _ _ _ Hd1 Ha), (hyper_get _ _ _ Hd2 Hb). cbn [rbind].
    unfold py_log. rewrite !Rltb_t by lra. cbn [rbind]. unfold py_div. rewrite Reqb_f by lra. cbn. eauto.
Qed.
Lemma std_usable c p x : usable c p -> good_site c x -> exists sd, perturb_std_of p true (Some x) = Ok sd /\ 0 < sd.
Proof.
  intros (Hh & _ & H) Hx. destruct (H x Hx) as ((sd & Hs & Hp) & _). exists sd. split; auto.
  unfold perturb_std_of. now apply hyper_get.
Qed.
Lemma proposal_usable sd a b : 0 < sd -> exists l, log_proposal sd a b = Ok l.
Proof.
  intros H. unfold log_proposal, py_log. rewrite Rltb_t; [cbn; eauto|].
  apply Rmult_lt_0_compat; auto. apply sqrt_lt_R0. pose proof PI_RGT_0. lra.
Qed.
Lemma perturb_usable c p v x : usable c p -> good_site c x -> safe (p_perturb p v (Some x) true) (fun _ => True).
Proof.
  intros Hu Hx. destruct (std_usable _ _ _ Hu Hx) as (sd & Es & _). destruct Hu as (_ & Hd & H).
  destruct (H x Hx) as (_ & Hp). unfold p_perturb.
  destruct (p_dist p) as [a b|m s|m b|f g h] eqn:Ep; cbn in Hd; try contradiction; destruct Hd as [Hd1 Hd2].
  - destruct Hp as (lo & hi & Ha & Hb & Hlt). rewrite Es, (hyper_get _ _ _ Hd1 Ha), (hyper_get _ _ _ Hd2 Hb). cbn [lift].
    do 3 (eapply (safe_bind _ _ (fun _ => True)); [now apply safe_ret|intros ? _]).
    eapply safe_bind; [apply safe_normal|]. intros. now apply safe_ret.
  - destruct Hp as (mu & s0 & Ha & Hb & Hlt). rewrite Es, (hyper_get _ _ _ Hd1 Ha), (hyper_get _ _ _ Hd2 Hb). cbn [lift].
    eapply (safe_bind _ _ (fun _ => True)); [now apply safe_ret|intros ? _].
    eapply safe_bind; [apply safe_normal|]. intros d _.
    eapply (safe_bind _ _ (fun _ => True)); [now apply safe_ret|intros ? _].
    eapply (safe_bind _ _ (fun y => y = s0)); [now apply safe_ret|intros ? ->].
    unfold py_div. rewrite Reqb_f by nra. cbn [lift]. eapply (safe_bind _ _ (fun _ => True)); [now apply safe_ret|].
    intros. now apply safe_ret.
  - destruct Hp as (mu & s0 & Ha & Hb & Hlt). rewrite Es, (hyper_get _ _ _ Hd1 Ha), (hyper_get _ _ _ Hd2 Hb). cbn [lift].
    eapply (safe_bind _ _ (fun _ => True)); [now apply safe_ret|intros ? _].
    eapply safe_bind; [apply safe_normal|]. intros d _.
    eapply (safe_bind _ _ (fun _ => True)); [now apply safe_ret|intros ? _].
    eapply (safe_bind _ _ (fun y => y = s0)); [now apply safe_ret|intros ? ->].
    unfold py_div. rewrite Reqb_f by lra. cbn [lift]. eapply (safe_bind _ _ (fun _ => True)); [now apply safe_ret|].
    intros. now apply safe_ret.
Qed.

(** * The nearest neighbour *)
Lemma argmin_lt l i best m : (best < i)%nat -> (argmin_loop l i best m < i + length l)%nat.
Proof.
  revert i best m. induction l as [|x l IH]; intros i best m H; cbn; [lia|].
  destruct (Rltb x m); (eapply Nat.lt_le_trans; [apply IH; lia|lia]).
Qed.
Lemma nearest_safe s p x : is_disc s = true -> sited s p -> good_site (sp_cls s) x ->
  exists j, nearest_neighbour (ps_get disc_key p) x = Ok j /\ (j < ps_n p)%nat.
Proof.
  intros Hd (Hs & Hn & v & Ev & Hl) Hx. unfold is_disc in Hd. unfold sites_ok in Hs.
  destruct (sp_cls s) as [|lo hi sd fp|d lo hi sd poly kd fp]; [discriminate| |]; destruct x as [x|x]; cbn in Hx; try contradiction.
  - destruct Hs as (l & E & Hsort & _). rewrite E in Ev. injection Ev as <-. rewrite E. cbn [nearest_neighbour] in *. cbn in Hl.
    destruct (nearest_neighbour_1d_spec l x) as (k & Ek & c & Hc & _); auto.
    { intros ->. cbn in Hl. lia. }
    exists k. split; auto. rewrite <- Hl. apply nth_error_Some. congruence.
  - destruct Hs as (l & E & _). rewrite E in Ev. injection Ev as <-. rewrite E. cbn [nearest_neighbour] in *. cbn in Hl.
    unfold argmin. destruct l as [|a l]; [cbn in Hl; lia|]. cbn [map]. eexists. split; [reflexivity|].
    rewrite <- Hl. cbn. pose proof (argmin_lt (map (fun s0 => sqrt (dist2 s0 x)) l) 1 0 (sqrt (dist2 a x)) ltac:(lia)) as H.
    rewrite map_length in H. lia.
Qed.

(** * Parameters of a tessellation taken from a neighbour *)
Definition right_shape (n : nat) (par : param) (v : value) : Prop :=
  match par with
  | PPrior _ => exists l, v = Arr l /\ length l = n
  | PSpace s' => exists l, v = Lst l /\ length l = n /\ Forall (sited s') l
  end.
Definition ready (s : space) (q : psstate) : Prop :=
  sited s q /\ forall k par, In (k, par) (sp_params s) -> exists v, ps_get k q = Some v /\ right_shape (ps_n q) par v.
Definition all_disc (s : space) : Prop := forall s', sub_space s s' -> is_disc s' = true.
Definition all_usable (s : space) : Prop := forall s' k p, sub_space s s' -> In (k, PPrior p) (sp_params s') ->
  usable (sp_cls s') p.
Lemma right_nonempty n par v : (1 <= n)%nat -> right_shape n par v -> v <> Lst [].
Proof.
  intros Hn H ->. destruct par; destruct H as (l & E & H); [discriminate|]. injection E as <-. cbn in H. lia.
Qed.
Lemma sited_same s p q : ps_n p = ps_n q -> ps_get disc_key p = ps_get disc_key q -> sited s p -> sited s q.
Proof.
  intros E1 E2 (H1 & H2 & v & H3 & H4). split; [eapply sites_disc; eauto|]. split; [lia|]. exists v. split; congruence.
Qed.
Lemma fill_safe l : NoDup (dkeys l) -> (forall k s', In (k, PSpace s') l -> is_disc s' = true /\ space_ok s') ->
  forall q acc, (1 <= ps_n q)%nat -> safe (fill_params l q acc) (fun qa => ps_n (fst qa) = ps_n q /\
    (forall k, ~ In k (dkeys l) -> ps_get k (fst qa) = ps_get k q) /\
    (forall k par, In (k, par) l -> exists v, ps_get k (fst qa) = Some v /\ right_shape (ps_n q) par v)).
Proof.
  induction l as [|[k par] l IH]; intros Hnd Hs q acc Hn.
  - cbn [fill_params]. apply safe_ret. cbn. split; auto. split; [auto|intros ? ? []].
  - inversion Hnd as [|? ? Hk Hnd']; subst. change (map fst l) with (dkeys l) in Hk.
    assert (Hs' : forall k s', In (k, PSpace s') l -> is_disc s' = true /\ space_ok s') by (intros; eapply Hs; right; eauto).
    assert (Hmain : forall v acc', right_shape (ps_n q) par v ->
      safe (q' <- lift (ps_set k v q) ;; fill_params l q' acc') (fun qa => ps_n (fst qa) = ps_n q /\
        (forall k', ~ In k' (dkeys ((k, par) :: l)) -> ps_get k' (fst qa) = ps_get k' q) /\
        (forall k' par', In (k', par') ((k, par) :: l) -> exists v, ps_get k' (fst qa) = Some v /\ right_shape (ps_n q) par' v))).
    { intros v acc' Hv. eapply safe_bind.
      - eapply safe_lift; [apply ps_set_complete; eapply right_nonempty; eauto|].
        instantiate (1 := fun q' => q' = PS (ps_n q) (dset k v (ps_vals q)) (dset k v (ps_attrs q)) (ps_cache q)). reflexivity.
      - intros q' ->. eapply safe_impl; [apply IH; auto|]. cbn [ps_n]. intros [q2 a2] (E1 & E2 & E3). cbn [fst] in *.
        split; auto. split.
        + intros k' Hk'. cbn in Hk'. rewrite E2 by tauto. unfold ps_get. cbn [ps_vals]. apply dget_dset_other.
          intros E. apply Hk'. left. auto.
        + intros k' par' [E|Hin]; [|auto]. injection E as <- <-. exists v. split; auto.
          rewrite E2 by auto. unfold ps_get. cbn [ps_vals]. apply dget_dset_same. }
    cbn [fill_params]. destruct par as [p|s'].
    + eapply safe_bind; [apply safe_repeat, safe_drawVal|]. intros g [Hg _]. apply Hmain. exists g. auto.
    + destruct (Hs k s' (or_introl eq_refl)) as [Hd Hok]. rewrite Hd.
      eapply safe_bind; [apply safe_repeat, safe_sample_disc; auto|]. intros g [Hg HF]. apply Hmain. exists g. auto.
Qed.
Lemma ready_set s q k par v : space_ok s -> ready s q -> In (k, par) (sp_params s) -> right_shape (ps_n q) par v ->
  ready s (PS (ps_n q) (dset k v (ps_vals q)) (dset k v (ps_attrs q)) (ps_cache q)) /\
  ps_get disc_key (PS (ps_n q) (dset k v (ps_vals q)) (dset k v (ps_attrs q)) (ps_cache q)) = ps_get disc_key q.
Proof.
  intros (_ & _ & _ & Hnd & Hdk & _) [H1 H2] Hin Hv.
  assert (E : ps_get disc_key (PS (ps_n q) (dset k v (ps_vals q)) (dset k v (ps_attrs q)) (ps_cache q)) = ps_get disc_key q).
  { unfold ps_get. cbn [ps_vals]. apply dget_dset_other. intros E. apply Hdk. rewrite E. eapply in_dkeys; eauto. }
  split; auto. split; [eapply sited_same; [| |exact H1]; auto|]. intros k' par' Hin'. cbn [ps_n].
  destruct (string_dec k' k) as [->|Hne].
  - exists v. split; [unfold ps_get; cbn [ps_vals]; apply dget_dset_same|].
    assert (par' = par) as ->; auto. assert (A := dget_in_nodup _ _ _ Hnd Hin). assert (B := dget_in_nodup _ _ _ Hnd Hin').
    congruence.
  - destruct (H2 _ _ Hin') as (w & Ew & Hw). exists w. split; auto. rewrite <- Ew. unfold ps_get. cbn [ps_vals].
    now apply dget_dset_other.
Qed.
Lemma Forall_set_nth' {A} (P : A -> Prop) l i x : Forall P l -> P x -> Forall P (set_nth l i x).
Proof.
  intros H Hx. unfold set_nth. apply Forall_app. split; [now apply Forall_firstn|]. constructor; auto. now apply Forall_skipn.
Qed.
Section Each.
Variable s : space.
Hypothesis Hok : space_ok s.
Hypothesis Hd : is_disc s = true.
Hypothesis Hsub : forall k s1, In (k, PSpace s1) (sp_params s) -> is_disc s1 = true.
Hypothesis Hus : forall k p, In (k, PPrior p) (sp_params s) -> usable (sp_cls s) p.
Hypothesis IHs : forall k s1, In (k, PSpace s1) (sp_params s) -> forall old new, wf s1 old -> structured s1 old ->
  sited s1 new -> safe (sample_from_neighbour s1 old new) (fun ql => sited s1 (fst ql)).
Variable old : psstate.
Hypothesis Hw : wf s old.
Hypothesis Hst : structured s old.
Lemma old_num k p j : In (k, PPrior p) (sp_params s) -> (j < ps_n old)%nat -> exists r, num_at (ps_get k old) j = Ok r.
Proof.
  intros Hin Hj. destruct (Hst _ _ (part_here _ _)) as (_ & H & _). destruct (H _ _ Hin) as (l & -> & Hl). cbn.
  destruct (nth_error_lt l j) as [a Ea]; [lia|]. exists a. now apply idx_ok.
Qed.
Lemma old_state k s1 j : In (k, PSpace s1) (sp_params s) -> (j < ps_n old)%nat ->
  exists o, state_at (ps_get k old) j = Ok o /\ wf s1 o /\ structured s1 o.
Proof.
  intros Hin Hj. destruct (Hst _ _ (part_here _ _)) as (_ & _ & H). destruct (H _ _ Hin) as (l & E & Hl).
  destruct (nth_error_lt l j) as [a Ea]; [lia|]. exists a.
  assert (Ha : In a (states_in (Lst l))) by (eapply nth_error_In; exact Ea).
  split; [rewrite E; cbn; now apply idx_ok|]. split.
  - intros s' p' Hp. apply Hw. eapply part_in; eauto.
  - intros s' p' Hp. apply Hst. eapply part_in; eauto.
Qed.
Lemma each_safe i x j l : incl l (sp_params s) -> good_site (sp_cls s) x -> (j < ps_n old)%nat ->
  forall q acc, ready s q -> (i < ps_n q)%nat ->
  safe (nb_each sample_from_neighbour old i x j l q acc) (fun qa => ready s (fst qa) /\ ps_n (fst qa) = ps_n q /\
    ps_get disc_key (fst qa) = ps_get disc_key q).
Proof.
  intros Hl Hx Hj. induction l as [|[k par] l IH]; intros q acc Hq Hi.
  - cbn [nb_each]. apply safe_ret. auto.
  - assert (Hin : In (k, par) (sp_params s)) by (apply Hl; now left).
    assert (Hl' : incl l (sp_params s)) by (intros y Hy; apply Hl; now right). specialize (IH Hl').
    assert (Hn : (1 <= ps_n q)%nat) by (destruct Hq as [(_ & H & _) _]; exact H).
    destruct (proj2 Hq _ _ Hin) as (w & Ew & Hshape).
    assert (Hmain : forall v' acc', right_shape (ps_n q) par v' -> forall q', 
       q' = PS (ps_n q) (dset k v' (ps_vals q)) (dset k v' (ps_attrs q)) (ps_cache q) ->
      safe (nb_each sample_from_neighbour old i x j l q' acc')
      (fun qa => ready s (fst qa) /\ ps_n (fst qa) = ps_n q /\ ps_get disc_key (fst qa) = ps_get disc_key q)).
    { intros v' acc' Hv' q' ->. destruct (ready_set s q k par v' Hok Hq Hin Hv') as [A B].
      eapply safe_impl; [apply IH; auto|]. cbn [ps_n]. intros qa (C1 & C2 & C3). split; auto. split; auto. congruence. }
    cbn [nb_each]. destruct par as [p|s1].
    + destruct (old_num _ _ _ Hin Hj) as (nb & Enb). rewrite Enb. cbn [lift].
      pose proof (Hus _ _ Hin) as Hu. destruct Hshape as (lw & -> & Hlw).
      eapply (safe_bind _ _ (fun y => y = nb)); [now apply safe_ret|intros ? ->].
      eapply safe_bind; [now apply (perturb_usable (sp_cls s))|]. intros [nv r] _.
      rewrite Ew. unfold set_num. destruct (Nat.ltb_spec i (length lw)); [|lia]. cbn [lift].
      eapply (safe_bind _ _ (fun y => y = Arr (set_nth lw i nv))); [now apply safe_ret|intros ? ->].
      eapply safe_bind.
      { eapply safe_lift; [apply ps_set_complete; discriminate|].
        instantiate (1 := fun q' => q' = PS (ps_n q) (dset k (Arr (set_nth lw i nv)) (ps_vals q)) (dset k (Arr (set_nth lw i nv)) (ps_attrs q)) (ps_cache q)). reflexivity. }
      intros q' Eq'. destruct (log_prior_usable _ _ nv _ Hu Hx) as (lp & Elp).
      eapply (safe_bind _ _ (fun _ => True)); [eapply safe_lift; eauto|intros ? _].
      destruct (std_usable _ _ _ Hu Hx) as (sd & Esd & Hsd).
      eapply (safe_bind _ _ (fun y => y = sd)); [eapply safe_lift; eauto|intros ? ->].
      destruct (proposal_usable sd nv nb Hsd) as (lq & Elq).
      eapply (safe_bind _ _ (fun _ => True)); [eapply safe_lift; eauto|intros ? _].
      eapply Hmain; [|exact Eq']. exists (set_nth lw i nv). split; auto. rewrite set_nth_length; auto.
    + rewrite (Hsub _ _ Hin). destruct (old_state _ _ _ Hin Hj) as (o & Eo & Ho1 & Ho2).
      destruct Hshape as (lw & -> & Hlw & HF). destruct (nth_error_lt lw i) as [n0 En0]; [lia|].
      eapply (safe_bind _ _ (fun y => y = o)); [eapply safe_lift; eauto|intros ? ->].
      eapply (safe_bind _ _ (fun y => y = n0)); [eapply safe_lift; [rewrite Ew; cbn; apply idx_ok; exact En0|reflexivity]|intros ? ->].
      eapply safe_bind.
      { apply (IHs _ _ Hin); auto. rewrite Forall_forall in HF. apply HF. eapply nth_error_In; eauto. }
      intros [n' l'] Hn'. cbn [fst] in Hn'. rewrite Ew. unfold set_state. destruct (Nat.ltb_spec i (length lw)); [|lia].
      eapply (safe_bind _ _ (fun y => y = Lst (set_nth lw i n'))); [eapply safe_lift; reflexivity|intros ? ->].
      assert (Hshape' : right_shape (ps_n q) (PSpace s1) (Lst (set_nth lw i n'))).
      { exists (set_nth lw i n'). split; auto. split; [rewrite set_nth_length; auto|]. now apply Forall_set_nth'. }
      eapply safe_bind.
      { eapply safe_lift; [apply ps_set_complete; eapply right_nonempty; eauto|].
        instantiate (1 := fun q' => q' = PS (ps_n q) (dset k (Lst (set_nth lw i n')) (ps_vals q)) (dset k (Lst (set_nth lw i n')) (ps_attrs q)) (ps_cache q)). reflexivity. }
      intros q' Eq'. eapply Hmain; eauto.
Qed.
Lemma old_sited : sited s old.
Proof.
  destruct (Hw _ _ (part_here _ _)) as (Hdim & (Hk & Hlen & _) & Hsites & _). destruct Hok as (Hn & _).
  split; auto. split; [unfold dims_ok in Hdim; lia|].
  destruct (dget_keys disc_key (ps_vals old)) as (v & Ev).
  { rewrite Hk. unfold names. rewrite Hd. now left. }
  exists v. split; auto. apply (Hlen disc_key). exact Ev.
Qed.
Lemma points_safe is : (forall i x, In (i, x) is -> good_site (sp_cls s) x) ->
  forall q acc, ready s q -> (forall i x, In (i, x) is -> (i < ps_n q)%nat) ->
  safe (nb_points sample_from_neighbour (sp_params s) old is q acc) (fun qa => sited s (fst qa)).
Proof.
  induction is as [|[i x] is IH]; intros Hx q acc Hq Hi; cbn [nb_points].
  - apply safe_ret. apply Hq.
  - destruct (nearest_safe s old x Hd old_sited) as (j & Ej & Hj); [eapply Hx; now left|].
    eapply (safe_bind _ _ (fun y => y = j)); [eapply safe_lift; eauto|intros ? ->].
    eapply safe_bind; [apply each_safe; auto; [intros y Hy; exact Hy|eapply Hx; now left|eapply Hi; now left]|].
    intros [q2 acc2] (A & B & C). cbn [fst] in *. apply IH; auto.
    + intros; eapply Hx; right; eauto.
    + intros i' x' H'. rewrite B. eapply Hi. right; eauto.
Qed.
End Each.
Lemma sites_good s p ps : is_disc s = true -> sites_ok s p -> positions_of (ps_get disc_key p) = Ok ps ->
  Forall (good_site (sp_cls s)) ps.
Proof.
  unfold is_disc, sites_ok. destruct (sp_cls s) as [|lo hi sd fp|d lo hi sd poly kd fp]; [discriminate| |]; intros _.
  - intros (l & -> & _ & H) E. injection E as <-. apply Forall_map. exact H.
  - intros (l & -> & H) E. injection E as <-. apply Forall_map. exact H.
Qed.
Lemma sfn_safe s : valid s -> all_disc s -> all_usable s -> forall old new, wf s old -> structured s old -> sited s new ->
  safe (sample_from_neighbour s old new) (fun ql => sited s (fst ql)).
Proof.
  induction s as [s IH] using space_ind'. intros Hv Hd Hu old new Hw Hst Hnew.
  pose proof (valid_here _ Hv) as Hok. assert (Hds : is_disc s = true) by (apply Hd; constructor).
  assert (IHs : forall k s1, In (k, PSpace s1) (sp_params s) -> forall old new, wf s1 old -> structured s1 old ->
    sited s1 new -> safe (sample_from_neighbour s1 old new) (fun ql => sited s1 (fst ql))).
  { intros k s1 Hin. eapply IH; eauto.
    - intros s' H'. apply Hv. eapply sub_in; eauto.
    - intros s' H'. apply Hd. eapply sub_in; eauto.
    - intros s' k' p' H'. apply Hu. eapply sub_in; eauto. }
  clear IH. pose proof (points_safe s Hok Hds) as Hpts.
  assert (Hsub : forall k s1, In (k, PSpace s1) (sp_params s) -> is_disc s1 = true).
  { intros k s1 Hin. apply Hd. eapply sub_in; [exact Hin|constructor]. }
  assert (Hus : forall k p, In (k, PPrior p) (sp_params s) -> usable (sp_cls s) p).
  { intros k p Hin. eapply Hu; [constructor|exact Hin]. }
  specialize (Hpts Hsub Hus IHs old Hw Hst).
  assert (Hfill := fill_safe (sp_params s)). pose proof Hok as (_ & _ & _ & Hnd & Hdk & _).
  specialize (Hfill Hnd).
  assert (Hs' : forall k s', In (k, PSpace s') (sp_params s) -> is_disc s' = true /\ space_ok s').
  { intros k s1 Hin. split; [eauto|]. apply Hv. eapply sub_in; [exact Hin|constructor]. }
  specialize (Hfill Hs' new (Fin 0) (proj1 (proj2 Hnew))).
  destruct s as [nm fx mi ma rg cls params]. rewrite sfn_eq. cbn [sp_params] in *.
  eapply safe_bind; [exact Hfill|]. intros [q0 acc0] (E1 & E2 & E3). cbn [fst] in *.
  assert (Hq0 : sited (Space nm fx mi ma rg cls params) q0).
  { eapply sited_same; [| |exact Hnew]; auto. rewrite E2; auto. }
  destruct (positions_total _ q0 Hds (proj1 Hq0)) as (ps & Eps).
  eapply (safe_bind _ _ (fun y => y = ps)); [eapply safe_lift; eauto|intros ? ->].
  pose proof (sites_good _ _ _ Hds (proj1 Hq0) Eps) as Hgood. rewrite Forall_forall in Hgood.
  apply Hpts.
  - intros i x Hin. apply in_combine_r in Hin. apply Hgood; auto.
  - split; auto. intros k par Hin. cbn [sp_params] in Hin. rewrite E1. auto.
  - intros i x Hin. apply in_combine_l in Hin. apply in_seq in Hin.
    destruct (positions_spec _ q0 ps Hds (proj1 Hq0) Eps) as (_ & Hlen).
    destruct Hq0 as (_ & _ & v & Ev & Hlv). rewrite (Hlen v Ev) in Hlv. lia.
Qed.

(** * Births *)
Lemma newborn_safe s old x j l : valid s -> all_disc s -> all_usable s -> wf s old -> structured s old ->
  good_site (sp_cls s) x -> (j < ps_n old)%nat -> incl l (sp_params s) ->
  forall acc, safe (newborn_from_neighbour l x j old acc) (fun _ => True).
Proof.
  intros Hv Hd Hu Hw Hst Hx Hj. induction l as [|[k par] l IH]; intros Hl acc; cbn [newborn_from_neighbour].
  - now apply safe_ret.
  - assert (Hin : In (k, par) (sp_params s)) by (apply Hl; now left).
    assert (Hl' : incl l (sp_params s)) by (intros y Hy; apply Hl; now right). specialize (IH Hl').
    destruct par as [p|s1].
    + assert (Hp : usable (sp_cls s) p) by (eapply Hu; [constructor|exact Hin]).
      destruct (old_num s old Hst _ _ _ Hin Hj) as (nb & Enb).
      eapply (safe_bind _ _ (fun y => y = nb)); [eapply safe_lift; eauto|intros ? ->].
      eapply safe_bind; [now apply (perturb_usable (sp_cls s))|]. intros [nv r] _.
      destruct (std_usable _ _ _ Hp Hx) as (sd & Esd & Hsd).
      eapply (safe_bind _ _ (fun y => y = sd)); [eapply safe_lift; eauto|intros ? ->].
      destruct (log_prior_usable _ _ nv _ Hp Hx) as (lp & Elp).
      eapply (safe_bind _ _ (fun _ => True)); [eapply safe_lift; eauto|intros ? _].
      destruct (proposal_usable sd nv nb Hsd) as (lq & Elq).
      eapply (safe_bind _ _ (fun _ => True)); [eapply safe_lift; eauto|intros ? _].
      eapply safe_bind; [apply IH|]. intros [bn an] _. now apply safe_ret.
    + pose proof (valid_here _ Hv) as Hok. pose proof Hok as (_ & _ & _ & _ & _ & _ & Hnm).
      rewrite <- (Hnm _ _ Hin). assert (Hd1 : is_disc s1 = true) by (apply Hd; eapply sub_in; [exact Hin|constructor]).
      rewrite Hd1. destruct (old_state s old Hw Hst _ _ _ Hin Hj) as (o & Eo & Ho1 & Ho2).
      eapply (safe_bind _ _ (fun y => y = o)); [eapply safe_lift; eauto|intros ? ->].
      eapply safe_bind; [apply safe_sample_disc; auto; apply Hv; eapply sub_in; [exact Hin|constructor]|]. intros n Hn.
      eapply safe_bind.
      { apply sfn_safe; auto.
        - intros s' H'. apply Hv. eapply sub_in; eauto.
        - intros s' H'. apply Hd. eapply sub_in; eauto.
        - intros s' k' p' H'. apply Hu. eapply sub_in; eauto. }
      intros [n' l'] _. eapply safe_bind; [apply IH|]. intros [bn an] _. now apply safe_ret.
Qed.
Definition from_neighbour (s : space) : bool :=
  match sp_cls s with Vor1 _ _ _ false | VorN _ _ _ _ _ _ false => true | _ => false end.
Lemma newborns_safe s old x : valid s -> all_disc s -> all_usable s -> wf s old -> structured s old ->
  from_neighbour s = true -> good_site (sp_cls s) x ->
  safe (newborn_params s x old) (fun bl => keyed born_kind (sp_params s) (fst bl)).
Proof.
  intros Hv Hd Hu Hw Hst Hf Hx. eapply safe_impl; [apply safe_results with (Q := fun _ => True)
    (R := fun bl => keyed born_kind (sp_params s) (fst bl))|].
  - assert (Hn : exists j, nearest_neighbour (ps_get disc_key old) x = Ok j /\ (j < ps_n old)%nat).
    { apply nearest_safe with (s := s); auto; [apply Hd; constructor|].
      apply old_sited; auto; [now apply valid_here|apply Hd; constructor]. }
    destruct Hn as (j & Ej & Hj).
    assert (Hm : safe (j <- lift (nearest_neighbour (ps_get disc_key old) x) ;;
      newborn_from_neighbour (sp_params s) x j old (Fin 0)) (fun _ => True)).
    { eapply (safe_bind _ _ (fun y => y = j)); [eapply safe_lift; eauto|intros ? ->].
      eapply newborn_safe; eauto. intros y Hy; exact Hy. }
    unfold newborn_params, from_neighbour in *. destruct (sp_cls s) as [|lo hi sd [|]|d lo hi sd poly kd [|]]; try discriminate; exact Hm.
  - intros tr [b l] tr' H. eapply newborn_ok; eauto.
  - intros a H. exact (proj2 H).
Qed.
Lemma add_newborns_total put old born : forall acc,
  (forall k b, In (k, b) born -> exists v, put b (ps_get k old) = Ok v) ->
  exists vals, add_newborns put old born acc = Ok vals.
Proof.
  induction born as [|[k b] born IH]; intros acc H; cbn [add_newborns]; eauto.
  destruct (H k b (or_introl eq_refl)) as (v & ->). cbn [rbind]. apply IH. intros; apply H. now right.
Qed.

(** Under two hypotheses on the configuration that its constructor does not check: every nested space is a tessellation and every prior has, at
    every position of its tessellation, a density and a proposal width at births.  Then a
    birth from the neighbour raises nothing, whatever the draws, and reads nothing
    undefined. *)
Theorem C56_partial s old tr : valid s -> from_neighbour s = true -> all_disc s -> all_usable s ->
  wf s old -> structured s old ->
  match vor_birth s old tr with Ret _ _ => True | Starve => True | Err _ _ => False | UBeh => False end.
Proof.
  intros Hv Hf Hd Hu Hw Hst. revert tr. change (safe (vor_birth s old) (fun _ => True)).
  pose proof (valid_here _ Hv) as Hok. assert (Hds : is_disc s = true) by (apply Hd; constructor).
  pose proof Hok as (_ & _ & Hcls & Hnd & Hdk & _).
  pose proof (old_sited s Hok Hds old Hw) as Hsit. pose proof Hsit as (Hso & _ & dv & Edv & Ldv).
  unfold vor_birth. eapply (safe_bind _ _ (fun ql => exists v, ps_get disc_key (fst ql) = Some v)).
  - destruct (Nat.eqb_spec (ps_n old) (sp_max s)); [apply safe_ret; cbn; eauto|].
    eapply safe_bind; [apply safe_site; auto; intros E; unfold is_disc in Hds; rewrite E in Hds; discriminate|].
    intros x Hx. eapply safe_bind; [apply newborns_safe; auto|]. intros [born l] Hb. cbn [fst] in Hb.
    assert (Hkinds : forall k b, In (k, b) born -> exists par, In (k, par) (sp_params s) /\ born_kind par b).
    { clear - Hb. unfold keyed in Hb. induction Hb as [|[k1 p1] [k2 b2] ps bs [E1 E2] Hb IH]; intros k b Hin; [destruct Hin|].
      cbn in E1, E2. subst k2. destruct Hin as [E|Hin].
      - injection E as <- <-. exists p1. split; [now left|auto].
      - destruct (IH _ _ Hin) as (par & A & B). exists par. split; [now right|auto]. }
    assert (Hshape : forall k b, In (k, b) born -> exists v, ps_get k old = Some v /\ value_len v = ps_n old /\
      match v, b with Arr _, NNum _ => True | Lst _, NState _ => True | _, _ => False end).
    { intros k b Hin. destruct (Hkinds _ _ Hin) as (par & Hp & Hkd).
      destruct (Hst _ _ (part_here _ _)) as (_ & S1 & S2). destruct par as [p|s1], b as [r|q]; cbn in Hkd; try contradiction.
      - destruct (S1 _ _ Hp) as (lv & E & L). exists (Arr lv). auto.
      - destruct (S2 _ _ Hp) as (lv & E & L). exists (Lst lv). auto. }
    pose proof (keyed_keys _ _ _ Hb) as Hbk.
    assert (Hmk : forall i sv put vals, (i <= ps_n old)%nat -> value_len sv = S (ps_n old) -> sv <> Lst [] ->
      (forall b v v', value_len v = ps_n old -> put b (Some v) = Ok v' -> put_at i b v v') ->
      add_newborns put old born [(disc_key, sv)] = Ok vals ->
      safe (q <- lift (mk_ps (S (ps_n old)) vals) ;; ret (q, l)) (fun ql => exists v, ps_get disc_key (fst ql) = Some v)).
    { intros i sv put vals Hi Lsv Nsv Hput Hadd. apply add_newborns_spec in Hadd; [|rewrite Hbk; apply disc_first; auto].
      destruct Hadd as (new & -> & HF).
      assert (Hnk : dkeys new = dkeys (sp_params s)).
      { rewrite <- Hbk. unfold dkeys. symmetry. eapply Forall2_map_eq; [exact HF|]. intros a b _ [E _]. exact E. }
      eapply (safe_bind _ _ (fun q => exists v, ps_get disc_key q = Some v)).
      - eapply safe_lift; [apply mk_ps_complete|].
        + cbn [app dkeys map fst]. change (map fst new) with (dkeys new). rewrite Hnk. constructor; auto.
        + intros k v [E|Hin]; [injection E as <- <-; auto|].
          assert (exists b, In (k, b) born /\ put b (ps_get k old) = Ok v) as (b & Hbin & Eb).
          { clear - HF Hin. induction HF as [|[k1 b1] [k2 v2] bs vs [E1 E2] HF IH]; [destruct Hin|]. cbn in E1, E2. subst k2.
            destruct Hin as [E|Hin]; [injection E as <- <-; exists b1; split; [now left|auto]|].
            destruct (IH Hin) as (b & A & B). exists b. split; [now right|auto]. }
          destruct (Hshape _ _ Hbin) as (w & Ew & Lw & Hk2). rewrite Ew in Eb. pose proof (Hput _ _ _ Lw Eb) as Hpa.
          pose proof (put_len _ _ _ _ Hpa) as Hpl. split; [lia|]. intros ->. cbn in Hpl. lia.
        + cbn. eauto.
      - intros q Hq. apply safe_ret. exact Hq. }
    destruct x as [y|y].
    + assert (exists sites, dv = Arr sites /\ sortedR sites) as (sites & -> & Hsort).
      { clear - Hx Hso Edv. unfold sites_ok in Hso. destruct (sp_cls s) as [|? ? ? ?|? ? ? ? ? ? ?]; cbn in Hx; try tauto.
        destruct Hso as (l' & E' & Hso & _). rewrite Edv in E'. injection E' as ->. eauto. }
      rewrite Edv. cbn in Ldv. destruct (bisect_left_total sites y Hsort) as (i & Ei). rewrite Ei. cbn [rbind].
      destruct (bisect_left_ok _ _ _ Hsort Ei) as (Hi & _). rewrite insert_1d_spec by auto. cbn [rbind].
      destruct (add_newborns_total (insert_newborn i) old born [(disc_key, Arr (insert_at i y sites))]) as (vals & Ev).
      { intros k b Hin. destruct (Hshape _ _ Hin) as (w & -> & Lw & Hk2). cbn [insert_newborn].
        destruct w as [lw| | |lw], b as [r|q]; try contradiction; cbn [insert_value]; eauto.
        cbn in Lw. rewrite insert_1d_spec by lia. cbn. eauto. }
      rewrite Ev. eapply (safe_bind _ _ (fun y => y = vals)); [now apply safe_ret|intros ? ->].
      eapply (Hmk i); [lia| | | |exact Ev].
      * cbn. unfold insert_at. rewrite app_length. cbn [length]. rewrite firstn_length, skipn_length. lia.
      * discriminate.
      * intros b v v' Lv Hp. cbn in Hp. apply insert_value_ok; auto. lia.
    + assert (exists sites, dv = ArrN sites) as (sites & ->).
      { clear - Hx Hso Edv. unfold sites_ok in Hso. destruct (sp_cls s) as [|? ? ? ?|? ? ? ? ? ? ?]; cbn in Hx; try tauto.
        destruct Hso as (l' & E' & Hso). rewrite Edv in E'. injection E' as ->. eauto. }
      rewrite Edv. cbn in Ldv.
      destruct (add_newborns_total append_value old born [(disc_key, ArrN (sites ++ [y]))]) as (vals & Ev).
      { intros k b Hin. destruct (Hshape _ _ Hin) as (w & -> & Lw & Hk2).
        destruct w as [lw| | |lw], b as [r|q]; try contradiction; cbn [append_value]; eauto. }
      rewrite Ev. eapply (safe_bind _ _ (fun y => y = vals)); [now apply safe_ret|intros ? ->].
      eapply (Hmk (ps_n old)); [lia| | | |exact Ev].
      * cbn. rewrite app_length. cbn. lia.
      * discriminate.
      * intros b v v' Lv Hp. rewrite <- Lv. now apply append_value_ok.
  - intros [q l] (v & Ev). cbn [fst] in Ev.
    assert (exists q', add_kdtree (sp_cls s) q = Ok q') as (q' & Eq').
    { unfold add_kdtree. destruct (sp_cls s) as [|? ? ? ?|? ? ? ? ? [|] ?]; eauto. rewrite Ev. eauto. }
    eapply (safe_bind _ _ (fun _ => True)); [eapply safe_lift; eauto|]. intros. now apply safe_ret.
Qed.

(** With a plain parameter space among the parameters no birth from the neighbour ever
    succeeds ... *)
Lemma newborn_plain_fails l k s1 : In (k, PSpace s1) l -> is_disc s1 = false ->
  forall x j old acc tr r tr', newborn_from_neighbour l x j old acc tr <> Ret r tr'.
Proof.
  intros Hin Hd. induction l as [|[k' par] l IH]; [destruct Hin|]. intros x j old acc tr r tr' H.
  cbn [newborn_from_neighbour] in H. destruct Hin as [E|Hin].
  - injection E as -> ->. cbn in H. rewrite Hd in H. mb H as q Eq. discriminate H.
  - destruct par as [p|s2].
    + mb H as nb Enb. mb H as y Ey. destruct y as [nv r0]. mb H as sd Esd. mb H as lp Elp. mb H as lq Elq. mb H as z Ez.
      exact (IH Hin _ _ _ _ _ _ _ Ez).
    + destruct (is_disc s2).
      * mb H as o Eo. mb H as n En. mb H as y Ey. destruct y as [n' l']. mb H as z Ez. exact (IH Hin _ _ _ _ _ _ _ Ez).
      * mb H as q Eq. discriminate H.
Qed.
Theorem C56_plain_fails s old k s1 tr q r tr' : In (k, PSpace s1) (sp_params s) -> is_disc s1 = false ->
  from_neighbour s = true -> ps_n old <> sp_max s -> vor_birth s old tr <> Ret (q, r) tr'.
Proof.
  intros Hin Hd Hf Hn H. unfold vor_birth in H. mb H as y Ey. apply Nat.eqb_neq in Hn. rewrite Hn in Ey.
  mb Ey as x Ex. mb Ey as [born l] Enb. clear Ey H. unfold newborn_params, from_neighbour in *.
  destruct (sp_cls s) as [|lo hi sd [|]|d lo hi sd poly kd [|]]; try discriminate; mb Enb as j Ej;
    exact (newborn_plain_fails _ _ _ Hin Hd _ _ _ _ _ _ _ Enb).
Qed.
(** ... and there are such configurations with valid priors, made by [initialize]: the birth
    raises a TypeError. *)
Local Opaque Rleb Rltb Reqb py_int.
Definition np_in : space := Space "in" (Some 1%nat) 1 1 0 Plain [("w", PPrior ex_w)].
Definition np_top : space := Space "top" None 1 4 1 (Vor1 0 10 1 false) [("v", PPrior ex_v); ("in", PSpace np_in)].
Lemma np_is s : sub_space np_top s -> s = np_top \/ s = np_in.
Proof.
  intros H. inversion H as [|? ? s1 ? Hin Hs]; subst; auto.
  cbn in Hin. destruct Hin as [E|[E|[]]]; [discriminate E|]. injection E as <- <-. right.
  inversion Hs as [|? ? s1 ? Hin]; subst; auto. cbn in Hin. destruct Hin as [E|[]]; discriminate E.
Qed.
Lemma np_valid : valid np_top.
Proof.
  intros s' H. apply np_is in H. destruct H as [->| ->].
  - split; [cbn; lia|]. split; [cbn; lra|]. split; [cbn; lra|]. split; [|split; [|split]].
    + cbn. repeat constructor; cbn; intuition discriminate.
    + cbn. intuition discriminate.
    + cbn. intros k p [E|[E|[]]]; [|discriminate E]. injection E as <- <-. split; auto. apply ex_prior_v.
    + cbn. intros k p [E|[E|[]]]; [discriminate E|]. injection E as <- <-. reflexivity.
  - split; [cbn; lia|]. split; [cbn; lra|]. split; [exact I|]. split; [|split; [|split]].
    + cbn. repeat constructor; cbn; intuition discriminate.
    + cbn. intuition discriminate.
    + cbn. intros k p [E|[]]. injection E as <- <-. split; auto. apply ex_prior_w.
    + cbn. intros k p [E|[]]. discriminate E.
Qed.
Definition np_in0 : psstate := PS 1 [("w", Arr [0])] [("w", Arr [0])] [].
Definition np_0 : psstate :=
  PS 1 [("discretization", Arr [5]); ("v", Arr [2]); ("in", Lst [np_in0])]
       [("discretization", Arr [5]); ("v", Arr [2]); ("in", Lst [np_in0])] [].
Lemma np_init : exists tr, ModelSpace.initialize np_top tr = Ret np_0 [].
Proof. exists [DInt 1; DU (1/2); DU (1/2); DVal 77; DZ 0]. run. same. Qed.
Theorem C56_refuted : exists s tr0 old tr, valid s /\ from_neighbour s = true /\
  ModelSpace.initialize s tr0 = Ret old [] /\ (ps_n old < sp_max s)%nat /\ vor_birth s old tr = Err EType [].
Proof.
  destruct np_init as (tr0 & E). exists np_top, tr0, np_0. eexists [DU (8/10); DZ 1; DZ 0].
  split; [exact np_valid|]. split; [reflexivity|]. split; [exact E|]. split; [cbn; lia|]. run. reflexivity.
Qed.

(** A tessellation in a tessellation meets the hypotheses of [C56_partial]. *)
Example C56_case : forall tr,
  match vor_birth ex_nb ex_nb0 tr with Ret _ _ => True | Starve => True | Err _ _ => False | UBeh => False end.
Proof.
  intros tr. apply C56_partial.
  - apply ex_nb_valid.
  - reflexivity.
  - intros s H. apply ex_nb_is in H. destruct H as [->| ->]; reflexivity.
  - intros s k p H Hin. apply ex_nb_is in H. destruct H as [->| ->]; cbn in Hin.
    + destruct Hin as [E|[E|[]]]; [|discriminate E]. injection E as <- <-.
      split; [exact I|]. split; [split; exact I|]. intros x _. split.
      * exists (1/10). split; [constructor|lra].
      * exists 1, 3. split; [constructor|]. split; [constructor|lra].
    + destruct Hin as [E|[]]. injection E as <- <-.
      split; [exact I|]. split; [split; exact I|]. intros x _. split.
      * exists (1/10). split; [constructor|lra].
      * exists 0, 1. split; [constructor|]. split; [constructor|lra].
  - apply ex_nb_wf.
  - apply (C55_initialize _ _ _ _ ex_nb_valid (ex_nb_init [])).
Qed.
