(** Properties of the moves of parameter spaces: C07 - C10, C16. *)
From Coq Require Import Permutation.
From Verif Require Import Base ModelUtils1D ModelPrior ModelState ModelSpace ModelPerturb ModelChain ModelSampler
  ModelLikelihood SpecUtils1D SpecPrior SpecState SpecSpace SpecPerturb SpecChain SpecRun SpecMoves
  ProofUtils1D ProofChain ProofChainB ProofChainC ProofSampler ProofInversion
  ProofState ProofSpace ProofSpaceB ProofSpaceC ProofSpaceD ProofSpaceE ProofPerturb ProofTree ProofRun
  ProofRunB ProofRunC PropChain ExampleRun ExampleSpace.
Local Open Scope R_scope.
Local Open Scope string_scope.

(** * C08, C09: births and deaths *)
Lemma put_grown i b v v' : put_at i b v v' -> grown i v v'.
Proof.
  intros [Hi H]. destruct b, v; try contradiction; subst v'; cbn in *; eexists; (split; [eauto|reflexivity]).
Qed.
Lemma all_vals_intro s old q (Q : value -> value -> Prop) : valid s -> wf s old ->
  dkeys (ps_vals q) = dkeys (ps_vals old) ->
  (is_disc s = true -> forall v, ps_get disc_key old = Some v -> exists v', ps_get disc_key q = Some v' /\ Q v v') ->
  (forall k par, In (k, par) (sp_params s) -> forall v, ps_get k old = Some v ->
     exists v', ps_get k q = Some v' /\ Q v v') ->
  all_vals Q old q.
Proof.
  intros Hv Hwf Hk H1 H2. split; [exact Hk|]. intros k v Ev.
  destruct (wf_local _ _ Hwf) as (_ & (Hkeys & _) & _).
  assert (Hin : In k (names s)).
  { rewrite <- Hkeys. eapply dget_in_keys; eauto. }
  unfold names in Hin. apply in_app_or in Hin. destruct Hin as [Hin|Hin].
  - destruct (is_disc s) eqn:Hd; [|contradiction]. destruct Hin as [<-|[]]. apply H1; auto.
  - apply in_map_iff in Hin. destruct Hin as ([k0 par] & <- & Hin). eapply H2; eauto.
Qed.
Lemma birth_vals s old tr q r tr' : valid s -> wf s old -> (ps_n old < sp_max s)%nat ->
  birth s old tr = Ret (q, r) tr' ->
  ps_n q = S (ps_n old) /\ ps_attrs q = ps_vals q /\
  exists i, (i <= ps_n old)%nat /\ all_vals (grown i) old q.
Proof.
  intros Hv Hwf Hn H. unfold birth in H. destruct (is_disc s) eqn:Hd.
  - destruct (vor_birth_spec s old tr q r tr' Hv Hd Hwf H)
      as [(E & _)|(_ & x & i & born & _ & Hi & Hq & Hk & Ha & Hsite & _ & Hpar)]; [lia|].
    split; [auto|]. split; [auto|]. exists i. split; [auto|].
    apply (all_vals_intro s); auto.
    + intros _ v Ev. destruct x as [y|y]; destruct Hsite as (l & E1 & E2 & E3);
        rewrite Ev in E1; injection E1 as ->; rewrite E2; eexists; (split; [reflexivity|]);
        destruct (wf_local _ _ Hwf) as (_ & (_ & Hlen & _) & _); apply Hlen in Ev; cbn in Ev;
        exists y; (split; [lia|reflexivity]).
    + intros k par Hin v Ev. destruct (Hpar k par Hin) as (v0 & b & v' & E1 & E2 & E3 & E4).
      rewrite Ev in E1. injection E1 as <-. exists v'. split; auto. eapply put_grown; eauto.
  - destruct (plain_birth_spec s old tr q r tr' Hv Hd Hwf H)
      as [(E & _)|(_ & _ & i & Hi & Hq & Hk & Ha & _ & Hpar)]; [lia|].
    split; [auto|]. split; [auto|]. exists i. split; [auto|].
    apply (all_vals_intro s); auto; [congruence|].
    intros k par Hin v Ev. destruct (Hpar k par Hin) as (v0 & b & v' & E1 & E2 & E3 & E4).
    rewrite Ev in E1. injection E1 as <-. exists v'. split; auto. eapply put_grown; eauto.
Qed.
(** A birth that is not refused: one new dimension, at one common index in all parameters and
    in the sites; all else keeps value and order.  Attribute access shows the same values.
    That the state passed in is left alone is C17. *)
Theorem C08_birth s old tr q r tr' : valid s -> wf s old -> (ps_n old < sp_max s)%nat ->
  birth s old tr = Ret (q, r) tr' ->
  ps_n q = S (ps_n old) /\ ps_attrs q = ps_vals q /\
  exists i, (i <= ps_n old)%nat /\ all_vals (grown i) old q.
Proof. apply birth_vals. Qed.

Lemma ex_valid : valid ex_vor.
Proof. apply (se_valid _ _ ex_setup). now left. Qed.
Lemma ex_p0_wf : wf ex_vor ex_p0.
Proof.
  assert (H := starting_ok [ex_vor] ex_ll _ _ _ ex_setup (ex_starting [])).
  destruct (so_spaces _ _ _ (proj1 H) ex_vor) as (p & E & Hwf); [now left|].
  change (st_get "vor" ex_start = Some (EPS p)) in E. injection E as <-. exact Hwf.
Qed.

(** The birth of ExampleRun.v: a second cell, at index 1. *)
Example C08_case : valid ex_vor /\ wf ex_vor ex_p0 /\ (ps_n ex_p0 < sp_max ex_vor)%nat /\
  birth ex_vor ex_p0 [DU (8/10); DU (3/4); DZ 1] = Ret (ex_p1, Fin 0) [].
Proof.
  split; [apply ex_valid|]. split; [apply ex_p0_wf|]. split; [cbn; lia|]. apply ex_vor_birth.
Qed.
(** A birth at the upper limit is refused. *)
Lemma kdtree_total s p : is_disc s = true -> wf s p -> exists q, add_kdtree (sp_cls s) p = Ok q /\
  ps_n q = ps_n p /\ ps_vals q = ps_vals p /\ ps_attrs q = ps_attrs p.
Proof.
  intros Hd Hwf. destruct (wf_local _ _ Hwf) as (_ & _ & Hs & _). unfold sites_ok in Hs.
  unfold add_kdtree. destruct (sp_cls s) as [| |d lo hi sd poly [] fp]; eauto 6.
  destruct Hs as (l & E & _). rewrite E. eexists. split; [reflexivity|]. auto.
Qed.
Theorem C09_birth_refused s old tr : wf s old -> ps_n old = sp_max s ->
  exists q, birth s old tr = Ret (q, MInf) tr /\
    ps_n q = ps_n old /\ ps_vals q = ps_vals old /\ ps_attrs q = ps_attrs old.
Proof.
  intros Hwf Hn. unfold birth. destruct (is_disc s) eqn:Hd.
  - destruct (kdtree_total s old Hd Hwf) as (q & E & H). exists q. split; [|exact H].
    unfold vor_birth. rewrite Hn, Nat.eqb_refl. unfold bind at 1, ret at 1.
    now rewrite E.
  - exists old. split; auto. unfold plain_birth. now rewrite Hn, Nat.eqb_refl.
Qed.
Theorem C09_death_refused s old tr : wf s old -> ps_n old = sp_min s ->
  exists q, death s old tr = Ret (q, MInf) tr /\
    ps_n q = ps_n old /\ ps_vals q = ps_vals old /\ ps_attrs q = ps_attrs old.
Proof.
  intros Hwf Hn. unfold death. destruct (is_disc s) eqn:Hd.
  - destruct (kdtree_total s old Hd Hwf) as (q & E & H). exists q. split; [|exact H].
    unfold vor_death. rewrite Hn, Nat.eqb_refl. unfold bind at 1, ret at 1.
    now rewrite E.
  - exists old. split; auto. unfold plain_death. now rewrite Hn, Nat.eqb_refl.
Qed.
Example C09_refused_case : wf ex_vor ex_p0 /\ ps_n ex_p0 = sp_min ex_vor /\
  wf ex_in (ex_inner 1) /\ ps_n (ex_inner 1) = sp_max ex_in /\ ps_n (ex_inner 1) = sp_min ex_in.
Proof.
  split; [apply ex_p0_wf|]. split; [reflexivity|].
  split; [|split; reflexivity].
  assert (H : wf ex_vor ex_p1).
  { eapply birth_wf; [apply ex_valid|apply ex_p0_wf|apply (ex_vor_birth [])|exact I]. }
  intros s' p' Hp. apply H. eapply (part_in _ _ "in"); [right; left; reflexivity|reflexivity| |exact Hp].
  right; left; reflexivity.
Qed.
Lemma cut_shrunk i v v' : cut_at i v v' -> shrunk i v v'.
Proof. intros [Hi H]. destruct v; subst v'; cbn in *; (split; [auto|reflexivity]). Qed.
(** A death that is not refused: the removed index is the integer drawn. *)
Theorem C09_death s old tr q r tr' : valid s -> wf s old -> (sp_min s < ps_n old)%nat ->
  death s old tr = Ret (q, r) tr' ->
  ps_n q = (ps_n old - 1)%nat /\ ps_attrs q = ps_vals q /\
  exists i, tr = DInt i :: tr' /\ (i < ps_n old)%nat /\ all_vals (shrunk i) old q.
Proof.
  intros Hv Hwf Hn H.
  assert (Hc : exists i, tr = DInt i :: tr' /\ cut_state i old q).
  { unfold death in H. destruct (is_disc s).
    - destruct (vor_death_spec s old tr q r tr' Hv Hwf H) as [(E & _)|(_ & i & q0 & E & Hc & _)]; [lia|eauto].
    - destruct (plain_death_spec s old tr q r tr' Hv Hwf H) as [(E & _)|(_ & _ & i & E & Hc & _)]; [lia|eauto]. }
  destruct Hc as (i & E & Hi & Hq & Hk & Ha & Hvals). split; auto. split; auto. exists i. split; auto.
  split; auto. split; auto. intros k v Ev. destruct (Hvals k v Ev) as (v' & E1 & E2). exists v'. split; auto.
  now apply cut_shrunk.
Qed.

(** * C10: birth and death of a cell are exact reverses *)
Lemma delete_grown c i v v' : put_at i c v v' -> forall cl, vor_delete_value cl i v' = Ok v.
Proof.
  intros [Hi H] cl. destruct c as [r|p], v as [l| | |l]; try contradiction; subst v'; cbn in Hi;
    assert (Hlt : forall A (a : A) (l0 : list A), (i <= length l0)%nat -> (i < length (insert_at i a l0))%nat)
      by (intros; rewrite insert_at_length; lia).
  - destruct cl; cbn [vor_delete_value delete_value]; rewrite ?delete_1d_spec by (apply Hlt; auto); cbn [rbind];
      try (rewrite (proj2 (Nat.ltb_lt _ _)) by (apply Hlt; auto));
      change (list_delete i (insert_at i r l)) with (delete_at i (insert_at i r l)); now rewrite delete_insert.
  - destruct cl; cbn [vor_delete_value delete_value];
      change (list_delete i (insert_at i p l)) with (delete_at i (insert_at i p l)); now rewrite delete_insert.
Qed.
Lemma delete_site s x i old q : is_disc s = true -> good_site (sp_cls s) x -> shape_ok s old ->
  (i <= ps_n old)%nat -> site_put x i (ps_n old) (ps_get disc_key old) (ps_get disc_key q) ->
  exists v v', ps_get disc_key old = Some v /\ ps_get disc_key q = Some v' /\
    vor_delete_value (sp_cls s) i v' = Ok v /\ site_at (Some v') i = Ok x.
Proof.
  intros Hd Hx (_ & Hlen & _) Hi H. unfold good_site in Hx. unfold is_disc in Hd.
  destruct (sp_cls s) as [|lo hi sd fp|d lo hi sd poly kd fp]; [discriminate| |]; destruct x as [y|y]; try tauto.
  - destruct H as (l & E1 & E2 & _). exists (Arr l), (Arr (insert_at i y l)). split; auto. split; auto.
    apply Hlen in E1. cbn in E1.
    assert (Hl : (i < length (insert_at i y l))%nat) by (rewrite insert_at_length; lia). split.
    + cbn [vor_delete_value delete_value]. rewrite delete_1d_spec by auto. cbn [rbind].
      now rewrite delete_insert by lia.
    + unfold site_at. cbn [positions_of rbind]. apply idx_ok. rewrite nth_error_map.
      rewrite nth_error_insert_at by lia. rewrite Nat.ltb_irrefl, Nat.eqb_refl. reflexivity.
  - destruct H as (l & E1 & E2 & _). exists (ArrN l), (ArrN (insert_at i y l)). split; auto. split; auto.
    apply Hlen in E1. cbn in E1.
    assert (Hl : (i < length (insert_at i y l))%nat) by (rewrite insert_at_length; lia). split.
    + cbn [vor_delete_value]. rewrite (proj2 (Nat.ltb_lt _ _)) by auto.
      change (list_delete i (insert_at i y l)) with (delete_at i (insert_at i y l)). now rewrite delete_insert by lia.
    + unfold site_at. cbn [positions_of rbind]. apply idx_ok. rewrite nth_error_map.
      rewrite nth_error_insert_at by lia. rewrite Nat.ltb_irrefl, Nat.eqb_refl. reflexivity.
Qed.
Lemma rmap_back (f : value -> res value) (d d' : dict value) : NoDup (dkeys d) -> dkeys d' = dkeys d ->
  (forall k v, dget k d = Some v -> exists v', dget k d' = Some v' /\ f v' = Ok v) ->
  rmap (fun kv => v <-? f (snd kv) ;; Ok (fst kv, v)) d' = Ok d.
Proof.
  revert d'. induction d as [|[k v] d IH]; intros [|[k' v'] d'] Hnd Hk H; try discriminate Hk; auto.
  injection Hk as -> Hk. inversion Hnd as [|? ? Hn Hnd']; subst.
  cbn [rmap snd fst]. destruct (H k v) as (w & E1 & E2).
  { cbn. now rewrite String.eqb_refl. }
  cbn in E1. rewrite String.eqb_refl in E1. injection E1 as <-. rewrite E2. cbn [rbind].
  rewrite (IH d'); auto. intros k0 v0 E0. 
  assert (Hne : k0 <> k). { intros ->. apply Hn. eapply dget_in_keys; eauto. }
  destruct (H k0 v0) as (w & F1 & F2).
  - cbn. destruct (String.eqb_spec k0 k); [contradiction|]. auto.
  - cbn in F1. destruct (String.eqb_spec k0 k); [contradiction|]. eauto.
Qed.

Lemma put_num i r v v' : put_at i (NNum r) v v' -> num_at (Some v') i = Ok r.
Proof.
  intros [Hi H]. destruct v as [l| | |]; try contradiction. subst v'. cbn in *. apply idx_ok.
  rewrite nth_error_insert_at by auto. now rewrite Nat.ltb_irrefl, Nat.eqb_refl.
Qed.
Lemma put_state i p v v' : put_at i (NState p) v v' -> state_at (Some v') i = Ok p.
Proof.
  intros [Hi H]. destruct v as [| | |l]; try contradiction. subst v'. cbn in *. apply idx_ok.
  rewrite nth_error_insert_at by auto. now rewrite Nat.ltb_irrefl, Nat.eqb_refl.
Qed.
Lemma death_loop_rev old old' q x i j params born cs : params_ok params -> ps_vals old' = ps_vals old ->
  NoDup (dkeys params) -> length born = length cs ->
  Forall2 (fun kp bc => fst kp = fst (fst bc) /\
     nb_born old x j (fst kp) (snd kp) (snd (fst bc)) (snd bc)) params (combine born cs) ->
  (forall k b, In (k, b) born -> exists v v', ps_get k q = Some v' /\ put_at i b v v') ->
  forall acc, log_prob_death_loop params x i j q old' acc = Ok (eadd acc (eneg (esum (Fin 0) cs))).
Proof.
  intros Hok Hold. revert born cs.
  assert (Hget : forall k, ps_get k old' = ps_get k old) by (intros; unfold ps_get; now rewrite Hold).
  induction params as [|[k par] t IH]; intros born cs Hnd Hl HF Hput acc; inversion HF as [|? ? ? ? H1 H2]; subst.
  - destruct born as [|? born], cs as [|? cs]; try discriminate. cbn [log_prob_death_loop esum]. now rewrite eneg_0, eadd_0_r.
  - destruct born as [|[k1 b] born], cs as [|c cs]; try discriminate.
    match goal with H : _ = combine _ _ |- _ => cbn in H; injection H as -> -> end.
    destruct H1 as [E1 H1]. cbn [fst snd] in *. subst k1.
    inversion Hnd as [|? ? Hn Hnd']; subst.
    assert (IH' : forall acc, log_prob_death_loop t x i j q old' acc = Ok (eadd acc (eneg (esum (Fin 0) cs)))).
    { apply (IH (fun k0 p0 Hin => Hok k0 p0 (or_intror Hin)) born cs); auto.
      intros; apply Hput; right; auto. }
    destruct (Hput k b) as (v & v' & Ev & Hp); [now left|].
    pose proof (Hok k par (or_introl eq_refl)) as Hpar.
    cbn [esum]. rewrite (esum_acc (eadd (Fin 0) c)), eadd_0_l, eneg_eadd, <- eadd_assoc.
    destruct par as [p|s']; cbn [log_prob_death_loop nb_born] in *.
    + destruct H1 as (nb & nv & r & t0 & t' & lp & sd & lq & -> & E2 & E3 & E4 & E5 & E6 & ->).
      rewrite Ev, (put_num _ _ _ _ Hp), Hget, E2. cbn [rbind]. rewrite E5. cbn [rbind]. rewrite E4. cbn [rbind].
      rewrite E6. cbn [rbind]. rewrite IH'. unfold esub. rewrite eneg_eadd, !eadd_assoc. reflexivity.
    + destruct Hpar as [Hvs' ->]. destruct H1 as (Ed & o & n & n' & t0 & t' & -> & E2 & E3 & E4).
      rewrite Ev, (put_state _ _ _ _ Hp), Hget, E2. cbn [rbind]. rewrite Ed.
      rewrite (sfn_death s' Hvs' Ed o n t0 n' c t' E3 E4). cbn [rbind]. rewrite IH'.
      unfold log_init_disc. rewrite esub_0_r. reflexivity.
Qed.
Lemma vals_len s old : wf s old -> NoDup (names s) -> (1 <= ps_n old)%nat ->
  mk_ps (ps_n old) (ps_vals old) = Ok (PS (ps_n old) (ps_vals old) (ps_vals old) []).
Proof.
  intros Hwf Hnd Hn. destruct (wf_local _ _ Hwf) as (_ & (Hk & Hl & _) & _).
  apply mk_ps_complete; [congruence|]. intros k v Hin.
  assert (E : value_len v = ps_n old). { apply (Hl k). apply dget_in_nodup; auto. congruence. }
  split; auto. intros ->. cbn in E. lia.
Qed.

Lemma names_nodup s : valid s -> NoDup (names s).
Proof.
  intros Hv. destruct (valid_here _ Hv) as (_ & _ & _ & Hnd & Hdk & _). unfold names.
  destruct (is_disc s); cbn [app]; auto. constructor; auto.
Qed.
Lemma death_ratio_rev s x i old old' q born r t t' : valid s -> is_disc s = true -> ps_vals old' = ps_vals old ->
  newborn_params s x old t = Ret (born, r) t' ->
  site_at (ps_get disc_key q) i = Ok x ->
  (forall k par, In (k, par) (sp_params s) -> exists v b v', ps_get k old = Some v /\
        dget k born = Some b /\ ps_get k q = Some v' /\ put_at i b v v') ->
  log_prob_death_parameters s q old' i = Ok (eneg r).
Proof.
  intros Hv Hd Hold Hnb Hsite Hpar.
  destruct (valid_here _ Hv) as (_ & _ & _ & Hnd & _).
  assert (Hnbr : forall (H : match sp_cls s with Vor1 _ _ _ fp | VorN _ _ _ _ _ _ fp => fp = false | Plain => False end),
    (j <- lift (nearest_neighbour (ps_get disc_key old) x) ;;
     newborn_from_neighbour (sp_params s) x j old (Fin 0)) t = Ret (born, r) t' ->
    (x <-? site_at (ps_get disc_key q) i ;;
     j <-? nearest_neighbour (ps_get disc_key old') x ;;
     log_prob_death_loop (sp_params s) x i j q old' (Fin 0)) = Ok (eneg r)).
  { intros _ H. mb H as j Ej. unfold ps_get at 2. rewrite Hold.
    rewrite Hsite. cbn [rbind].
    change (dget disc_key (ps_vals old)) with (ps_get disc_key old). rewrite Ej. cbn [rbind].
    destruct (newborn_nb_spec _ _ _ _ (params_valid s Hv) _ _ _ _ _ H) as (cs & -> & HF & Hl & Hl').
    rewrite (death_loop_rev old old' q x i j (sp_params s) born cs); auto.
    - now rewrite eadd_0_l.
    - now apply params_valid.
    - assert (Hkb : dkeys born = dkeys (sp_params s)).
      { clear - HF Hl. revert born cs Hl HF. generalize (sp_params s) as l.
        induction l as [|[k p] l IH]; intros [|[k' b] born] [|c cs] Hl HF; inversion HF; subst; try discriminate; auto.
        cbn in *. match goal with H : _ = _ /\ _ |- _ => destruct H as [-> _] end. f_equal. eapply IH; eauto. }
      intros k b Hin. assert (Hk : In k (dkeys (sp_params s))).
      { rewrite <- Hkb. eapply in_dkeys; eauto. }
      apply in_map_iff in Hk. destruct Hk as ([k0 par] & Hk0 & Hk). cbn in Hk0. subst k0.
      destruct (Hpar k par Hk) as (v & b' & v' & E1 & E2 & E3 & E4).
      rewrite (dget_in_nodup k b born) in E2; [|congruence|exact Hin]. injection E2 as <-. eauto. }
  unfold newborn_params in Hnb. unfold log_prob_death_parameters. unfold is_disc in Hd.
  destruct (sp_cls s) as [|lo hi sd [|]|d lo hi sd poly kd [|]]; try discriminate; try (apply Hnbr; auto; fail);
    mb Hnb as a Ea; mr Hnb; inj Hnb; now rewrite eneg_0.
Qed.
(** If a birth takes [old] to [q] with log ratio [r], the death of the newborn cell (the one
    at the index where the birth inserted) takes [q] back to [old] with log ratio [- r]:
    births from the prior and from the neighbour, all priors, nested tessellations
    included. *)
Theorem C10_reverse s old tr q r tr' : valid s -> is_disc s = true -> wf s old ->
  (ps_n old < sp_max s)%nat -> vor_birth s old tr = Ret (q, r) tr' ->
  exists i, (i <= ps_n old)%nat /\ all_vals (grown i) old q /\
    forall tr2, exists q', vor_death s q (DInt i :: tr2) = Ret (q', eneg r) tr2 /\
      ps_n q' = ps_n old /\ ps_vals q' = ps_vals old /\ ps_attrs q' = ps_vals old.
Proof.
  intros Hv Hd Hwf Hn H.
  destruct (vor_birth_spec s old tr q r tr' Hv Hd Hwf H)
    as [(E & _)|(_ & x & i & born & Hx & Hi & Hq & Hk & Ha & Hsite & (t & t' & Hnb) & Hpar)]; [lia|].
  destruct (wf_local _ _ Hwf) as (Hdim & Hshape & _).
  destruct (delete_site s x i old q Hd Hx Hshape Hi Hsite) as (sv & sv' & Es1 & Es2 & Es3 & Es4).
  exists i. split; [exact Hi|]. split.
  { apply (all_vals_intro s); auto.
    - intros _ v Ev. rewrite Es1 in Ev. injection Ev as <-. exists sv'. split; auto.
      destruct Hshape as (_ & Hlen & _). pose proof (Hlen _ _ Es1) as HL.
      destruct x as [y|y]; destruct Hsite as (l & E1 & E2 & E3); rewrite Es2 in E2; injection E2 as ->.
      + assert (sv = Arr l) as -> by congruence. exists y. split; [cbn in HL; lia|reflexivity].
      + assert (sv = ArrN l) as -> by congruence. exists y. split; [cbn in HL; lia|reflexivity].
    - intros k par Hin v Ev. destruct (Hpar k par Hin) as (v0 & b & v' & E1 & E2 & E3 & E4).
      rewrite Ev in E1. injection E1 as <-. exists v'. split; auto. eapply put_grown; eauto. }
  intros tr2. set (m := PS (ps_n old) (ps_vals old) (ps_vals old) []).
  assert (Hm : wf s m) by (eapply (wf_same s old m); auto).
  destruct (kdtree_total s m Hd Hm) as (q' & Ek & Hq'). exists q'.
  split; [|destruct Hq' as (-> & -> & ->); auto].
  assert (Hratio : log_prob_death_parameters s q m i = Ok (eneg r)).
  { eapply (death_ratio_rev s x i old m q born); eauto. now rewrite Es2. }
  unfold dims_ok in Hdim. destruct (valid_here _ Hv) as (Hmm & _).
  unfold vor_death. rewrite Hq. rewrite (proj2 (Nat.eqb_neq _ _)) by lia.
  unfold bind at 1 2. cbn [randint_below]. unfold randint at 1. cbn [Nat.ltb Nat.leb].
  rewrite (proj2 (Nat.leb_le _ _) Hi). cbn [andb].
  rewrite (rmap_back (vor_delete_value (sp_cls s) i) (ps_vals old) (ps_vals q)); auto.
  - unfold lift at 1, bind at 1, ret at 1. replace (S (ps_n old) - 1)%nat with (ps_n old) by lia.
    rewrite (vals_len s) by (auto using names_nodup; lia). fold m.
    unfold lift at 1, bind at 1, ret at 1. rewrite Hratio. unfold lift at 1, bind at 1, ret at 1 2.
    rewrite Ek. reflexivity.
  - destruct Hshape as (-> & _). now apply names_nodup.
  - intros k v Ev. assert (Hin : In k (names s)).
    { destruct Hshape as (<- & _). eapply dget_in_keys; eauto. }
    unfold names in Hin. rewrite Hd in Hin. destruct Hin as [<-|Hin].
    + change (ps_get disc_key old = Some v) in Ev. assert (v = sv) as -> by congruence.
      exists sv'. split; auto.
    + apply in_map_iff in Hin. destruct Hin as ([k0 par] & <- & Hin). cbn [fst] in *.
      destruct (Hpar k0 par Hin) as (v0 & b & v' & E1 & E2 & E3 & E4).
      exists v'. split; auto. assert (v = v0) as -> by (unfold ps_get in E1; congruence).
      eapply delete_grown; eauto.
Qed.

(** A birth from the neighbour with a nested tessellation, with a finite ratio. *)
Example C10_case : valid ex_nb /\ is_disc ex_nb = true /\ wf ex_nb ex_nb0 /\ (ps_n ex_nb0 < sp_max ex_nb)%nat /\
  exists q r, vor_birth ex_nb ex_nb0 [DU (8/10); DZ 1; DU (1/4); DVal 77; DZ 2] = Ret (q, Fin r) [].
Proof.
  split; [apply ex_nb_valid|]. split; [reflexivity|]. split; [apply ex_nb_wf|]. split; [cbn; lia|].
  destruct (ex_nb_birth []) as (q & r & H & _). eauto.
Qed.
Example C09_case : exists q r i, valid ex_nb /\ wf ex_nb q /\ (sp_min ex_nb < ps_n q)%nat /\
  exists q', death ex_nb q [DInt i] = Ret (q', r) [].
Proof.
  destruct (ex_nb_birth []) as (q & r & H & Hn).
  assert (Hlt : (ps_n ex_nb0 < sp_max ex_nb)%nat) by (cbn; lia).
  destruct (C10_reverse _ _ _ _ _ _ ex_nb_valid eq_refl ex_nb_wf Hlt H) as (i & _ & _ & Hd).
  destruct (Hd []) as (q' & Hq' & _). exists q, (eneg (Fin r)), i. split; [apply ex_nb_valid|]. split.
  { eapply birth_wf; [apply ex_nb_valid|apply ex_nb_wf|exact H|exact I]. }
  split; [rewrite Hn; cbn; lia|]. exists q'. exact Hq'.
Qed.

(** * C07: a site move keeps every value attached to its site *)
Lemma reorder_item is v v' m o : reorder is v = Ok v' -> nth_error is m = Some o -> item_at v' m = item_at v o.
Proof.
  unfold reorder. destruct v as [l|l|l|l]; intros H Hm; apply rbind_ok in H; destruct H as (l' & Hp & [= <-]);
    cbn [item_at];
    pose proof (pick_len _ _ _ Hp) as Hl;
    (destruct (nth_error l' m) as [a|] eqn:E;
      [destruct (pick_nth _ _ _ _ _ Hp E) as (o' & E1 & E2); rewrite Hm in E1; injection E1 as <-; now rewrite E2
      |apply nth_error_None in E; apply nth_error_some_lt in Hm; lia]).
Qed.

Lemma reorder_items (d d' : dict value) (f : string -> value -> option item) (m : nat) :
  NoDup (dkeys d) -> dkeys d' = dkeys d ->
  (forall k v, dget k d = Some v -> exists v', dget k d' = Some v' /\ item_at v' m = f k v) ->
  map (fun kv => (fst kv, item_at (snd kv) m)) d' = map (fun kv => (fst kv, f (fst kv) (snd kv))) d.
Proof.
  revert d'. induction d as [|[k v] d IH]; intros [|[k' v'] d'] Hnd Hk H; try discriminate Hk; auto.
  injection Hk as -> Hk. inversion Hnd as [|? ? Hn Hnd']; subst. cbn [map fst snd].
  destruct (H k v) as (w & E1 & E2).
  { cbn. now rewrite String.eqb_refl. }
  cbn in E1. rewrite String.eqb_refl in E1. injection E1 as <-. rewrite E2. f_equal.
  apply IH; auto. intros k0 v0 E0.
  assert (Hne : k0 <> k). { intros ->. apply Hn. eapply dget_in_keys; eauto. }
  destruct (H k0 v0) as (w & F1 & F2).
  - cbn. destruct (String.eqb_spec k0 k); [contradiction|]. auto.
  - cbn in F1. destruct (String.eqb_spec k0 k); [contradiction|]. eauto.
Qed.
Lemma set_nth_at {A} (l : list A) i a o : (i < length l)%nat ->
  nth_error (set_nth l i a) o = if (o =? i)%nat then Some a else nth_error l o.
Proof.
  intros H. destruct (Nat.eqb_spec o i) as [->|Hne].
  - apply ProofUtils1D.set_nth_same; auto.
  - apply set_nth_other; auto.
Qed.
Lemma moved_item x x' i n is v v' m o : site_moved x x' i n is v v' ->
  Permutation is (seq 0 n) -> nth_error is m = Some o ->
  exists w w', v = Some w /\ v' = Some w' /\
    item_at w' m = if (o =? i)%nat then Some (pos_item x') else item_at w o.
Proof.
  intros H Hp Hm. destruct x' as [y|y].
  - destruct H as (l & l' & x0 & -> & -> & -> & Hx & Hpick & _). exists (Arr l), (Arr l'). split; auto. split; auto.
    cbn [item_at pos_item]. pose proof (nth_error_some_lt _ _ _ Hx) as Hi.
    pose proof (pick_len _ _ _ Hpick) as Hl.
    destruct (nth_error_lt l' m) as (a & Ea); [apply nth_error_some_lt in Hm; lia|].
    destruct (pick_nth _ _ _ _ _ Hpick Ea) as (o' & E1 & E2). rewrite Hm in E1. injection E1 as <-.
    rewrite set_nth_at in E2 by auto. rewrite Ea. destruct (o =? i)%nat; [injection E2 as <-; auto|now rewrite E2].
  - destruct H as (l & x0 & -> & -> & -> & Hx & ->). exists (ArrN l), (ArrN (set_nth l i y)). split; auto. split; auto.
    cbn [item_at pos_item]. pose proof (nth_error_some_lt _ _ _ Hx) as Hi.
    assert (m = o) as ->.
    { pose proof (nth_error_some_lt _ _ _ Hm) as Hmn. rewrite seq_length in Hmn.
      rewrite seq_nth_error in Hm by auto. injection Hm. lia. }
    rewrite set_nth_at by auto. destruct (o =? i)%nat; auto.
Qed.
(** Moving a site: one cell gets a new site [x'], all its parameter values stay with it, and all other cells
    are the old ones; only the order of the cells may change. *)
Theorem C07_site_move s old n tr q r tr' : valid s -> is_disc s = true -> wf s old ->
  elem_perturb (EParam n [PSpace s]) old tr = Ret (q, r) tr' ->
  ps_n q = ps_n old /\ ps_attrs q = ps_vals q /\ dkeys (ps_vals q) = dkeys (ps_vals old) /\
  exists i x' moved, (i < ps_n old)%nat /\ hd_error tr = Some (DInt i) /\
    replaced i (cell_to x') (cells old) moved /\ Permutation (cells q) moved.
Proof.
  intros Hv Hd Hwf H. cbn [elem_perturb] in H. unfold param_perturb in H. mb H as i Ei.
  cbn [perturb_params] in H. rewrite Hd in H.
  destruct (perturb_value_spec _ _ _ _ _ _ _ Hv Hd Hwf H)
    as (Hi & Hn & Hk & Ha & x & x' & is & cs & _ & _ & Hp & Hsite & Hpar & _).
  split; auto. split; auto. split; auto.
  set (cell' := fun j => if (j =? i)%nat then cell_to x' (cell old j) else cell old j).
  exists i, x', (map cell' (seq 0 (ps_n old))). split; auto. split; [|split].
  - revert Ei. unfold randint_below. destruct (ps_n old) as [|k]; [discriminate|]. unfold randint.
    destruct (k <? 0)%nat; [discriminate|]. destruct tr as [|[]]; try discriminate.
    destruct (_ && _)%bool; [|discriminate]. intros [= -> _]. reflexivity.
  - split; [unfold cells; now rewrite !map_length|]. intros j. unfold cells. rewrite !nth_error_map.
    destruct (nth_error (seq 0 (ps_n old)) j) as [o|] eqn:E; [|now destruct (j =? i)%nat].
    assert (o = j) as ->.
    { pose proof (nth_error_some_lt _ _ _ E) as Hj. rewrite seq_length in Hj.
      rewrite seq_nth_error in E by auto. injection E. lia. }
    cbn [option_map]. unfold cell'. now destruct (j =? i)%nat.
  - destruct (wf_local _ _ Hwf) as (_ & (Hkeys & _) & _).
    assert (Hcell : forall m o, nth_error is m = Some o -> cell q m = cell' o).
    { intros m o Hm. unfold cell' , cell_to, cell.
      transitivity (map (fun kv => (fst kv, (if (String.eqb (fst kv) "discretization" && (o =? i)%nat)%bool then Some (pos_item x')
                                else item_at (snd kv) o))) (ps_vals old)).
      - apply (reorder_items (ps_vals old) (ps_vals q)
          (fun k v => if (String.eqb k "discretization" && (o =? i)%nat)%bool then Some (pos_item x') else item_at v o));
          [rewrite Hkeys; now apply names_nodup|exact Hk|].
        intros k v Ev. assert (Hin : In k (names s)).
        { rewrite <- Hkeys. eapply dget_in_keys; eauto. }
        unfold names in Hin. rewrite Hd in Hin. destruct Hin as [<-|Hin].
        + destruct (moved_item _ _ _ _ _ _ _ _ _ Hsite Hp Hm) as (w & w' & E1 & E2 & E3).
          exists w'. split; [exact E2|]. unfold ps_get in E1. rewrite Ev in E1. injection E1 as ->.
          rewrite E3. reflexivity.
        + assert (Hne : String.eqb k "discretization" = false).
          { apply String.eqb_neq. intros ->. destruct (valid_here _ Hv) as (_ & _ & _ & _ & Hdk & _). auto. }
          apply in_map_iff in Hin. destruct Hin as ([k0 par] & <- & Hin). cbn [fst] in *. rewrite Hne.
          destruct (Hpar k0 par Hin) as (v0 & v' & E1 & E2 & E3).
          exists v'. split; [exact E2|]. unfold ps_get in E1. rewrite Ev in E1. injection E1 as <-.
          cbn [andb]. eapply reorder_item; eauto.
      - destruct (o =? i)%nat.
        + rewrite map_map. apply map_ext. intros [k v]. cbn [fst snd]. now rewrite andb_true_r.
        + apply map_ext. intros [k v]. cbn [fst snd]. now rewrite andb_false_r. }
    assert (Hall : cells q = map cell' is).
    { unfold cells. rewrite Hn. apply nth_error_ext. intros m. rewrite !nth_error_map.
      assert (Hl : length is = ps_n old) by (rewrite (Permutation_length Hp); apply seq_length).
      destruct (nth_error is m) as [o|] eqn:Em.
      - pose proof (nth_error_some_lt _ _ _ Em). rewrite seq_nth_error by lia. cbn [option_map Nat.add].
        now rewrite (Hcell m o).
      - apply nth_error_None in Em. rewrite (proj2 (nth_error_None _ _)); auto. rewrite seq_length. lia. }
    rewrite Hall. now apply Permutation_map.
Qed.

Lemma ex_p1_wf : wf ex_vor ex_p1.
Proof. eapply birth_wf; [apply ex_valid|apply ex_p0_wf|apply (ex_vor_birth [])|exact I]. Qed.
Local Opaque Rleb Rltb Reqb py_int.
(** The site 5 of the first of two cells moves to 9, so the cells change places. *)
Example C07_case : valid ex_vor /\ is_disc ex_vor = true /\ wf ex_vor ex_p1 /\ exists q,
  elem_perturb (EParam "vor" [PSpace ex_vor]) ex_p1 [DInt 0; DZ 4] = Ret (q, Fin 0) [] /\
  ps_get "discretization" q = Some (Arr [8; 9]) /\ ps_get "v" q = Some (Arr [5/2; 2]).
Proof.
  split; [apply ex_valid|]. split; [reflexivity|]. split; [apply ex_p1_wf|].
  exists (PS 2 [("discretization", Arr [8; 9]); ("v", Arr [5/2; 2]); ("in", Lst [ex_inner 1; ex_inner (1/2)])]
       [("discretization", Arr [8; 9]); ("v", Arr [5/2; 2]); ("in", Lst [ex_inner 1; ex_inner (1/2)])] []).
  split; [run; same|split; reflexivity].
Qed.

(** * C16: a parameter-space perturbation changes exactly one sub-state
    The states stored under the name anywhere in the tree are the [os], listed without
    repetition; the first draw is an integer, and [t] selects the [t]-th of them.  Its result is
    that of one function [e] of the perturbation, chosen with [choices] (C39), the log ratio is
    that of [e], and every other value in the tree is that of [s]. *)
Theorem C16_one_substate q s : sane_state s ->
  exists os,
    NoDup (map fst os) /\
    (forall w p, In (w, p) os <-> SpecPerturb.stored (psp_space q) w /\ st_holds s w p) /\
    (forall tr s' r tr', psp_perturb q s tr = Ret (s', r) tr' ->
       exists t tr1 w p i tr2 e wt p',
         tr = DInt t :: tr1 /\ nth_error os t = Some (w, p) /\
         choices (length (psp_funcs q)) (map snd (psp_funcs q)) tr1 = Ret i tr2 /\
         nth_error (psp_funcs q) i = Some (e, wt) /\
         elem_perturb e p tr2 = Ret (p', r) tr' /\
         st_changed_at (fun _ x => x = p') w s s' /\ st_temp s' = st_temp s) /\
    (* each of them is selected by one value of the draw, whatever comes of it *)
    (forall t tr w p, nth_error os t = Some (w, p) ->
       match psp_perturb_ps q p tr with
       | Ret (p', r, _) tr' => exists s', psp_perturb q s (DInt t :: tr) = Ret (s', r) tr' /\
                                  st_changed_at (fun _ x => x = p') w s s'
       | Err e tr' => psp_perturb q s (DInt t :: tr) = Err e tr'
       | UBeh => psp_perturb q s (DInt t :: tr) = UBeh
       | Starve => psp_perturb q s (DInt t :: tr) = Starve
       end) /\
    (os = [] -> forall tr, psp_perturb q s tr = Err EValue tr).
Proof.
  intros Hs. destruct (psp_spec q s Hs) as (os & (Hnd & Hin) & H0 & H1 & H2). exists os.
  split; auto. split; auto. split; [|split; auto].
  - intros tr s' r tr' H. destruct (H1 _ _ _ H) as (t & tr1 & -> & Ht).
    destruct (nth_error_lt os t) as ([w p] & Hw); auto.
    pose proof (H2 t tr1 w p Hw) as Hf. rewrite H in Hf.
    destruct (psp_perturb_ps q p tr1) as [[[p' r'] ty] t2|e t2| |] eqn:E; cbn in Hf; try contradiction.
    destruct Hf as (-> & -> & Hch & Htemp & _).
    unfold psp_perturb_ps in E. mb E as i Ei. mb E as ew Eew. mb E as pr Epr. destruct pr as [p1 r1]. mr E. inj E.
    destruct ew as [e wt]. cbn [fst] in *.
    apply idx_ok in Eew. exists t, tr1, w, p, i. do 4 eexists.
    split; [reflexivity|]. split; [exact Hw|]. split; [exact Ei|]. split; [exact Eew|]. split; [exact Epr|].
    split; auto.
  - intros t tr w p Hw. pose proof (H2 t tr w p Hw) as Hf.
    destruct (psp_perturb_ps q p tr) as [[[p' r'] ty] t2|e t2| |];
      destruct (psp_perturb q s (DInt t :: tr)) as [[s' r] t3|e' t3| |]; cbn in Hf; try contradiction; auto.
    + destruct Hf as (-> & -> & Hch & _). eauto.
    + destruct Hf as (-> & ->). auto.
Qed.

(** In the state after the birth of ExampleRun.v there are two nested states. *)
Example C16_case : sane_state ex_next /\
  SpecPerturb.stored "in" [("vor", 0%nat); ("in", 0%nat)] /\ st_holds ex_next [("vor", 0%nat); ("in", 0%nat)] (ex_inner (1/2)) /\
  SpecPerturb.stored "in" [("vor", 0%nat); ("in", 1%nat)] /\ st_holds ex_next [("vor", 0%nat); ("in", 1%nat)] (ex_inner 1).
Proof.
  assert (Hst : forall i, SpecPerturb.stored "in" [("vor", 0%nat); ("in", i)]).
  { intros i. exists [("vor", 0%nat)], i. split; auto. cbn. intuition discriminate. }
  assert (Hh : forall i c, nth_error [ex_inner (1/2); ex_inner 1] i = Some c ->
    st_holds ex_next [("vor", 0%nat); ("in", i)] c).
  { intros i c Hc. exists "vor", [("in", i)], ex_p1. split; auto. split; auto.
    eapply holds_in; [reflexivity|exact Hc|constructor]. }
  split; [|split; [|split; [|split]]]; auto.
  split; [cbn; repeat constructor; cbn; intuition discriminate|].
  intros k p Hin. cbn in Hin. destruct Hin as [E|[E|[]]]; [|discriminate E]. injection E as <- <-.
  eapply wf_sane; [apply ex_valid|apply ex_p1_wf].
Qed.
