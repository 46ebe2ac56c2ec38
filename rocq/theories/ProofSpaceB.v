(** Proofs about the model of parameter spaces: sites, initialize and sample. *)
From Verif Require Import Base ModelUtils1D ModelPrior ModelState ModelSpace SpecUtils1D SpecPrior
  SpecState SpecSpace ProofUtils1D ProofUtils1DB ProofChain ProofChainC ProofState PropPrior ProofSpace.
From Coq Require Import Sorting.Permutation.
Local Open Scope R_scope.

(** * Numbers of dimensions *)
Lemma Int_part_bounds x : IZR (Int_part x) <= x < IZR (Int_part x) + 1.
Proof. pose proof (base_Int_part x). lra. Qed.
Lemma init_n_inv s tr n tr' : space_ok s -> init_n s tr = Ret n tr' -> (sp_min s <= n <= sp_max s)%nat.
Proof.
  intros (Hmm & Hr & _). unfold init_n. destruct (sp_fixed s) eqn:Ef.
  - intros H. minv. subst. destruct s. cbn in *. subst. lia.
  - set (x := (INR (sp_max s) - INR (sp_min s)) * sp_range s + INR (sp_min s)).
    unfold randint_to. destruct (Z.ltb_spec (py_int x) (Z.of_nat (sp_min s))); [discriminate|].
    intros H1. apply randint_inv in H1. destruct H1 as [H1 _]. split; [lia|].
    assert (Hx : x <= INR (sp_max s)).
    { unfold x. assert (INR (sp_min s) <= INR (sp_max s)) by (apply le_INR; lia). nra. }
    assert (Hx0 : 0 <= x).
    { unfold x. assert (INR (sp_min s) <= INR (sp_max s)) by (apply le_INR; lia).
      pose proof (pos_INR (sp_min s)). nra. }
    unfold py_int in H1. rewrite (proj2 (Rltb_false x 0)) in H1 by lra.
    pose proof (Int_part_bounds x) as [HI _].
    assert (HZ : (Int_part x <= Z.of_nat (sp_max s))%Z).
    { apply le_IZR. rewrite <- INR_IZR_INZ. lra. }
    lia.
Qed.
Lemma sample_n_inv s tr n tr' : space_ok s -> sample_n s tr = Ret n tr' ->
  (sp_min s <= n <= sp_max s)%nat.
Proof.
  intros (Hmm & _). unfold sample_n. destruct (sp_fixed s) eqn:Ef.
  - intros H. minv. subst. destruct s. cbn in *. subst. lia.
  - intros H. now apply randint_inv in H.
Qed.

(** * Sorting *)
Lemma rinsert_perm x l : Permutation (rinsert x l) (x :: l).
Proof.
  induction l as [|y l IH]; cbn; auto. destruct (Rleb x y); auto.
  rewrite IH. apply perm_swap.
Qed.
Lemma rsort_perm l : Permutation (rsort l) l.
Proof. induction l as [|x l IH]; cbn; auto. rewrite rinsert_perm. now constructor. Qed.
Fixpoint ordered (l : list R) : Prop :=
  match l with [] => True | x :: t => Forall (fun y => x <= y) t /\ ordered t end.
Lemma rinsert_ordered x l : ordered l -> ordered (rinsert x l).
Proof.
  induction l as [|y l IH]; cbn; intros H; [auto|]. destruct H as [H1 H2].
  destruct (Rleb x y) eqn:E.
  - apply Rleb_true in E. cbn. split; [|auto]. constructor; auto.
    eapply Forall_impl; [|exact H1]. intros; cbn in *; lra.
  - assert (Hyx : y < x) by (destruct (Rle_dec x y); [apply Rleb_true in r; congruence|lra]).
    cbn. split; [|auto]. rewrite rinsert_perm. constructor; auto. lra.
Qed.
Lemma rsort_ordered l : ordered (rsort l).
Proof. induction l; cbn; auto using rinsert_ordered. Qed.
Lemma ordered_nth l i j a b : ordered l -> (i <= j)%nat ->
  nth_error l i = Some a -> nth_error l j = Some b -> a <= b.
Proof.
  revert i j. induction l as [|x l IH]; intros [|i] [|j] H Hij Ha Hb; cbn in *; try discriminate;
    try lia; destruct H as [H1 H2].
  - injection Ha as ->. injection Hb as ->. lra.
  - injection Ha as ->. rewrite Forall_forall in H1. apply H1. eapply nth_error_In; eauto.
  - eapply IH; [auto| |eauto..]. lia.
Qed.
Lemma ordered_sorted l : ordered l -> sortedR l.
Proof. intros H i j a b Hij Ha Hb. eapply ordered_nth; eauto. Qed.

(** * Sites *)
Definition good_site (c : sclass) (x : pos) : Prop :=
  match c, x with
  | Vor1 lo hi _ _, P1 y => lo <= y <= hi
  | VorN d lo hi _ poly _ _, PN y =>
      length y = d /\ boxed lo hi y /\
      match poly with Some inside => inside y = true | None => True end
  | _, _ => False
  end.
Lemma combine_nth {A B} (l : list A) (l' : list B) i a b :
  nth_error l i = Some a -> nth_error l' i = Some b -> nth_error (combine l l') i = Some (a, b).
Proof.
  revert l' i. induction l as [|x l IH]; intros [|y l'] [|i]; cbn; try discriminate.
  - congruence.
  - apply IH.
Qed.
Lemma uniform_vec_inv d lo hi tr x tr' :
  (forall i a b, nth_error lo i = Some a -> nth_error hi i = Some b -> a <= b) ->
  uniform_vec d lo hi tr = Ret x tr' -> length x = d /\ boxed lo hi x.
Proof.
  intros Hle. unfold uniform_vec. destruct (Nat.eqb_spec (length lo) d); cbn; [|discriminate].
  destruct (Nat.eqb_spec (length hi) d); [|discriminate].
  intros H. apply mapM_inv in H. split.
  - rewrite <- (Forall2_len _ _ _ H), combine_length. lia.
  - intros i a b y Ha Hb Hy.
    destruct (Forall2_nth _ _ _ _ _ _ H (combine_nth _ _ _ _ _ Ha Hb) Hy) as (t & t' & E).
    eapply uniform_inv; [|exact E]. cbn. eauto.
Qed.
Lemma sample_site_inv c tr x tr' : class_ok c -> sample_site c tr = Ret x tr' -> good_site c x.
Proof.
  destruct c as [|lo hi sd fp|d lo hi sd poly kd fp]; cbn [sample_site class_ok].
  - discriminate.
  - intros Hc H. minv. subst. cbn. eapply uniform_inv; eauto.
  - intros (Hlo & Hhi & Hle & Hp) H. destruct poly as [inside|].
    + minv. subst. apply until_inv in H0. destruct H0 as (Hin & t1 & t2 & H0).
      apply uniform_vec_inv in H0; auto. cbn. tauto.
    + minv. subst. apply uniform_vec_inv in H0; auto. cbn. tauto.
Qed.
Lemma in_box_boxed lo hi x : length lo = length x -> length hi = length x ->
  in_box lo hi x = true -> boxed lo hi x.
Proof.
  intros E1 E2 H i a b y Ha Hb Hy. unfold in_box in H. rewrite forallb_forall in H.
  specialize (H (a, b, y)). cbn in H.
  assert (Hin : In (a, b, y) (combine (combine lo hi) x)).
  { eapply nth_error_In. eapply combine_nth; eauto. eapply combine_nth; eauto. }
  specialize (H Hin). apply andb_true_iff in H. destruct H as [H1 H2].
  apply Rleb_true in H1. apply Rleb_true in H2. auto.
Qed.
Lemma normal_vec_len d sd tr v tr' : normal_vec d sd tr = Ret v tr' -> length v = d.
Proof.
  unfold normal_vec. destruct (Nat.eqb_spec (length sd) d); [|discriminate].
  destruct (neg_any sd); [discriminate|]. intros H. apply mapM_inv in H.
  rewrite <- (Forall2_len _ _ _ H). auto.
Qed.
Lemma perturb_site_inv c x tr y tr' : class_ok c -> good_site c x ->
  perturb_site c x tr = Ret y tr' -> good_site c y.
Proof.
  destruct c as [|lo hi sd fp|d lo hi sd poly kd fp], x as [x|x]; cbn [perturb_site class_ok good_site];
    try tauto; try discriminate.
  - intros Hc Hx H. mb H as z E. mr H. apply until_inv in E. destruct E as (Hin & _).
    apply andb_true_iff in Hin. destruct Hin as [H1 H2].
    apply Rleb_true in H1. apply Rleb_true in H2. cbn. auto.
  - intros (Hlo & Hhi & Hle & Hp) (Hl & Hb & Hi) H. mb H as z E. mr H.
    apply until_inv in E. destruct E as (Hin & t1 & t2 & E). mb E as dv E2. mr E.
    assert (HL : length (vadd x dv) = length x).
    { unfold vadd. rewrite map_length, combine_length. apply normal_vec_len in E2. lia. }
    cbn. split; [congruence|]. destruct poly as [inside|].
    + split; auto.
    + split; auto. apply in_box_boxed; congruence.
Qed.
Lemma good_P1 lo hi sd fp ps : Forall (good_site (Vor1 lo hi sd fp)) ps ->
  length (ravel ps) = length ps /\ Forall (fun x => lo <= x <= hi) (ravel ps).
Proof.
  induction 1 as [|x ps H1 H2 [IH1 IH2]]; [cbn; auto|].
  destruct x as [x|x]; cbn in *; [|tauto].
  split; [unfold ravel in IH1; congruence|]. now constructor.
Qed.
Lemma sites_value_ok s n p ps : class_ok (sp_cls s) -> is_disc s = true ->
  Forall (good_site (sp_cls s)) ps -> length ps = n ->
  ps_get disc_key p = Some (sites_value (sp_cls s) ps) ->
  sites_ok s p /\ value_len (sites_value (sp_cls s) ps) = n.
Proof.
  intros Hc Hd Hg Hn Hp. unfold sites_ok, is_disc in *.
  destruct (sp_cls s) as [|lo hi sd fp|d lo hi sd poly kd fp]; [discriminate| |].
  - destruct (good_P1 _ _ _ _ _ Hg) as [H1 H2]. cbn in *. split.
    + exists (rsort (ravel ps)). split; auto. split; [apply ordered_sorted, rsort_ordered|].
      rewrite rsort_perm. auto.
    + rewrite rsort_perm. lia.
  - cbn in *. split.
    + exists (rows ps). split; auto. unfold rows. apply Forall_map.
      eapply Forall_impl; [|exact Hg]. intros [x|x]; cbn; tauto.
    + unfold rows. now rewrite map_length.
Qed.

(** * Positions *)
Lemma position_disc s p q i at_ : ps_get disc_key p = ps_get disc_key q ->
  position_of s p i at_ -> position_of s q i at_.
Proof. unfold position_of. intros E. destruct (sp_cls s); rewrite <- ?E; auto. Qed.
Lemma sites_disc s p q : ps_get disc_key p = ps_get disc_key q -> sites_ok s p -> sites_ok s q.
Proof. unfold sites_ok. intros E. destruct (sp_cls s); rewrite <- ?E; auto. Qed.
Lemma positions_spec s p ps : is_disc s = true -> sites_ok s p ->
  positions_of (ps_get disc_key p) = Ok ps ->
  (forall i at_, position_of s p i at_ <-> exists x, nth_error ps i = Some x /\ at_ = Some x) /\
  (forall v, ps_get disc_key p = Some v -> value_len v = length ps).
Proof.
  unfold is_disc, sites_ok, position_of.
  destruct (sp_cls s) as [|lo hi sd fp|d lo hi sd poly kd fp]; [discriminate| |]; intros _ (l & Hl & _) E;
    rewrite Hl in *; cbn in E; injection E as <-; (split; [|intros v [= <-]; cbn; now rewrite map_length]);
    intros i at_; split.
  - intros (l' & x & [= <-] & Hx & ->). rewrite nth_error_map, Hx. cbn. eauto.
  - intros (x & Hx & ->). rewrite nth_error_map in Hx.
    destruct (nth_error l i) as [y|] eqn:E; [|discriminate]. cbn in Hx. injection Hx as <-. eauto.
  - intros (l' & x & [= <-] & Hx & ->). rewrite nth_error_map, Hx. cbn. eauto.
  - intros (x & Hx & ->). rewrite nth_error_map in Hx.
    destruct (nth_error l i) as [y|] eqn:E; [|discriminate]. cbn in Hx. injection Hx as <-. eauto.
Qed.
Lemma positions_total s p : is_disc s = true -> sites_ok s p ->
  exists ps, positions_of (ps_get disc_key p) = Ok ps.
Proof.
  unfold is_disc, sites_ok.
  destruct (sp_cls s) as [|lo hi sd fp|d lo hi sd poly kd fp]; [discriminate| |]; intros _ (l & Hl & _);
    rewrite Hl; cbn; eauto.
Qed.

(** * Dictionaries filled parameter by parameter *)
Definition keyed {A B} (Q : A -> B -> Prop) (l : dict A) (d : dict B) : Prop :=
  Forall2 (fun a b => fst a = fst b /\ Q (snd a) (snd b)) l d.
Lemma keyed_keys {A B} (Q : A -> B -> Prop) l d : keyed Q l d -> dkeys d = dkeys l.
Proof. unfold dkeys. induction 1 as [|? ? ? ? [E _]]; cbn; congruence. Qed.
Lemma keyed_get {A B} (Q : A -> B -> Prop) l d k par : NoDup (dkeys l) -> keyed Q l d ->
  In (k, par) l -> exists v, dget k d = Some v /\ Q par v.
Proof.
  intros Hn H. induction H as [|[k1 p1] [k2 v2] l d [E HQ] H IH]; cbn in *; [tauto|]. subst k2.
  inversion Hn as [|? ? Hn1 Hn2]; subst. intros [[= -> ->]|Hin].
  - rewrite String.eqb_refl. eauto.
  - destruct (String.eqb_spec k k1); [|auto]. subst. destruct Hn1. eapply in_dkeys; eauto.
Qed.
Lemma keyed_app {A B} (Q : A -> B -> Prop) l l' d d' : keyed Q l d -> keyed Q l' d' ->
  keyed Q (l ++ l') (d ++ d').
Proof. apply Forall2_app. Qed.

(** * Building a state *)
Lemma build_plain s n vals p : space_ok s -> is_disc s = false ->
  (sp_min s <= n <= sp_max s)%nat ->
  keyed (fits n (fun _ at_ => at_ = None)) (sp_params s) vals ->
  mk_ps n vals = Ok p -> wf s p.
Proof.
  intros (_ & _ & Hc & Hnd & Hdk & _) Hd Hn Hk Hmk.
  assert (Hnv : NoDup (dkeys vals)) by (rewrite (keyed_keys _ _ _ Hk); auto).
  destruct (mk_ps_ok _ _ _ Hnv Hmk) as [-> _].
  apply wf_build; auto.
  - unfold is_disc, sites_ok in *. destruct (sp_cls s); try discriminate. auto.
  - cbn [ps_vals]. unfold names. rewrite Hd, (keyed_keys _ _ _ Hk). reflexivity.
  - intros E. congruence.
  - intros k par Hin. destruct (keyed_get _ _ _ _ _ Hnd Hk Hin) as (v & Hv & Hf).
    exists v. split; auto. cbn [ps_n]. unfold position_of, is_disc in *.
    destruct (sp_cls s); try discriminate. exact Hf.
Qed.
Lemma build_disc s n sv vals q : space_ok s -> is_disc s = true ->
  (sp_min s <= n <= sp_max s)%nat -> value_len sv = n ->
  sites_ok s (PS n [(disc_key, sv)] [] []) ->
  keyed (fits n (position_of s (PS n [(disc_key, sv)] [] []))) (sp_params s) vals ->
  ps_n q = n -> ps_vals q = (disc_key, sv) :: vals -> wf s q.
Proof.
  intros (_ & _ & Hc & Hnd & Hdk & _) Hd Hn Hl Hs Hk Hqn Hqv.
  assert (Hg : ps_get disc_key q = ps_get disc_key (PS n [(disc_key, sv)] [] [])).
  { unfold ps_get. rewrite Hqv. reflexivity. }
  apply wf_build; auto.
  - unfold dims_ok. lia.
  - eapply sites_disc; [symmetry; exact Hg|exact Hs].
  - rewrite Hqv. unfold names. rewrite Hd, <- (keyed_keys _ _ _ Hk). reflexivity.
  - intros _. exists sv. split; [rewrite Hg; reflexivity|congruence].
  - intros k par Hin. destruct (keyed_get _ _ _ _ _ Hnd Hk Hin) as (v & Hv & Hf).
    exists v. split.
    + unfold ps_get. rewrite Hqv. cbn [dget].
      destruct (String.eqb_spec k disc_key); [|exact Hv]. subst. destruct Hdk. eapply in_dkeys; eauto.
    + rewrite Hqn. unfold fits in *. destruct par as [pr|s']; [|exact Hf].
      destruct Hf as (l & E & El & Hx). exists l. split; auto. split; auto.
      intros i x at_ Hi Hp. eapply Hx; eauto. eapply position_disc; [exact Hg|exact Hp].
Qed.

(** * initialize *)
Lemma initialize_plain_loop (f : space -> M psstate) n params :
  (forall k p, In (k, PPrior p) params -> prior_ok p) ->
  (forall k s' t q t', In (k, PSpace s') params -> f s' t = Ret q t' -> wf s' q) ->
  forall tr vals tr',
  (fix go (l : list (string * param)) : M (dict value) :=
     match l with
     | [] => ret []
     | (k, PPrior p) :: t =>
         g <- repeatM n drawVal ;;
         a <- p_initialize p (map P1 g) ;;
         r <- go t ;; ret ((k, Arr a) :: r)
     | (k, PSpace s') :: t =>
         a <- repeatM n (f s') ;;
         r <- go t ;; ret ((k, Lst a) :: r)
     end) params tr = Ret vals tr' ->
  keyed (fits n (fun _ at_ => at_ = None)) params vals.
Proof.
  intros Hp Hs. induction params as [|[k [pr|s']] t IH]; intros tr vals tr' H.
  - mr H. constructor.
  - mb H as g Eg. mb H as a Ea. mb H as r Er. mr H. constructor.
    + split; auto. cbn [snd fits]. apply p_initialize_inv in Ea; [|eapply Hp; left; reflexivity].
      destruct Ea as [L1 L2]. apply (repeatM_inv (fun _ => True)) in Eg; auto. destruct Eg as [L0 _].
      exists a. split; auto. split; [rewrite L1, map_length; auto|].
      intros i x at_ Hx ->. destruct (nth_error_lt (map P1 g) i) as (y & Hy).
      { rewrite <- L1. eapply nth_error_some_lt; eauto. }
      eapply support_none. eapply L2; eauto.
    + eapply IH; [intros; eapply Hp; right; eauto|intros; eapply Hs; [right|]; eauto|exact Er].
  - mb H as a Ea. mb H as r Er. mr H. constructor.
    + split; auto. cbn [snd fits]. exists a.
      apply (repeatM_inv (wf s')) in Ea; [|intros; eapply Hs; [left; reflexivity|eauto]].
      destruct Ea. auto.
    + eapply IH; [intros; eapply Hp; right; eauto|intros; eapply Hs; [right|]; eauto|exact Er].
Qed.
Definition pos_in (ps : list pos) (i : nat) (at_ : option pos) : Prop :=
  exists x, nth_error ps i = Some x /\ at_ = Some x.
Lemma fits_impl n (P Q : nat -> option pos -> Prop) par v :
  (forall i at_, Q i at_ -> P i at_) -> fits n P par v -> fits n Q par v.
Proof.
  intros H. unfold fits. destruct par; auto.
  intros (l & E & L & Hx). exists l. split; auto. split; auto. eauto.
Qed.
Lemma keyed_impl {A B} (P Q : A -> B -> Prop) l d :
  (forall a b, P a b -> Q a b) -> keyed P l d -> keyed Q l d.
Proof. intros H HF. induction HF as [|a b l d [E HP]]; constructor; auto. Qed.
Lemma initialize_disc_loop (f : space -> M psstate) positions params :
  (forall k p, In (k, PPrior p) params -> prior_ok p) ->
  (forall k s' t q t', In (k, PSpace s') params -> f s' t = Ret q t' -> wf s' q) ->
  forall acc tr vals tr', NoDup (dkeys acc ++ dkeys params) ->
  (fix go (l : list (string * param)) (acc : dict value) : M (dict value) :=
     match l with
     | [] => ret acc
     | (k, PPrior p) :: t =>
         a <- p_initialize p positions ;; go t (dset k (Arr a) acc)
     | (k, PSpace s') :: t =>
         a <- repeatM (length positions) (f s') ;;
         go t (dset k (Lst a) acc)
     end) params acc tr = Ret vals tr' ->
  exists new, vals = acc ++ new /\
    keyed (fits (length positions) (pos_in positions)) params new.
Proof.
  intros Hp Hs. induction params as [|[k par] t IH]; intros acc tr vals tr' Hnd H.
  - mr H. exists []. rewrite app_nil_r. split; auto. constructor.
  - assert (Hk : ~ In k (dkeys acc)).
    { intros Hin. apply NoDup_remove_2 in Hnd. apply Hnd. apply in_or_app. auto. }
    assert (Hnd' : forall v : value, NoDup (dkeys (dset k v acc) ++ dkeys t)).
    { intros v. rewrite dset_fresh by auto. unfold dkeys in *. rewrite map_app, <- app_assoc. exact Hnd. }
    assert (IH' : forall v tr vals tr', _) by (intros v; exact (fun tr0 vals0 tr1 =>
      IH (fun k p Hin => Hp k p (or_intror Hin))
         (fun k s' t0 q t' Hin => Hs k s' t0 q t' (or_intror Hin)) (dset k v acc) tr0 vals0 tr1 (Hnd' v))).
    clear IH. destruct par as [pr|s']; mb H as a Ea; destruct (IH' _ _ _ _ H) as (new & -> & Hnew);
      rewrite dset_fresh by auto; rewrite <- app_assoc; eexists; (split; [reflexivity|]);
      (constructor; [|exact Hnew]); split; auto; cbn [snd fits]; exists a.
    + apply p_initialize_inv in Ea; [|eapply Hp; left; reflexivity]. destruct Ea as [L1 L2].
      split; auto. split; auto. intros i x at_ Hx (y & Hy & ->). eauto.
    + apply (repeatM_inv (wf s')) in Ea; [|intros; eapply Hs; [left; reflexivity|eauto]].
      destruct Ea. auto.
Qed.
Lemma prior_of s k p : space_ok s -> In (k, PPrior p) (sp_params s) -> prior_ok p.
Proof. intros (_ & _ & _ & _ & _ & H & _) Hin. now apply (H k p). Qed.
Lemma add_kdtree_ok c p q : add_kdtree c p = Ok q ->
  ps_n q = ps_n p /\ ps_vals q = ps_vals p /\ ps_attrs q = ps_attrs p.
Proof.
  unfold add_kdtree. destruct c as [| |? ? ? ? ? [] ?]; try (intros [= <-]; auto; fail).
  destruct (ps_get disc_key p); [|discriminate]. intros [= <-]. auto.
Qed.
Lemma same_vals_view p q : ps_n p = ps_n q -> ps_vals p = ps_vals q -> view p = view q.
Proof. intros. apply view_same. split; congruence. Qed.
Lemma wf_same s p q : ps_n p = ps_n q -> ps_vals p = ps_vals q -> wf s p -> wf s q.
Proof. intros. eapply wf_view; [apply same_vals_view|]; eauto. Qed.
Lemma disc_first s sv : NoDup (dkeys (sp_params s)) -> ~ In disc_key (dkeys (sp_params s)) ->
  NoDup (dkeys [(disc_key, sv : value)] ++ dkeys (sp_params s)).
Proof. cbn. now constructor. Qed.
Theorem initialize_wf s : valid s -> forall tr p tr', initialize s tr = Ret p tr' -> wf s p.
Proof.
  induction s as [s IH] using space_ind'. intros Hv tr p tr' H.
  pose proof (valid_here _ Hv) as Hok.
  assert (HIH : forall k s' t q t', In (k, PSpace s') (sp_params s) ->
                initialize s' t = Ret q t' -> wf s' q).
  { intros k s' t q t' Hin. eapply IH; eauto. eapply valid_in; eauto. }
  assert (HP : forall k p, In (k, PPrior p) (sp_params s) -> prior_ok p).
  { intros k q. now apply prior_of. }
  destruct s as [nm fx mi ma rg cls params]. cbn [initialize] in H.
  mb H as n En. apply init_n_inv in En; [|exact Hok]. 
  destruct cls as [|lo hi sd fp|d lo hi sd poly kd fp].
  - mb H as vals Ev. mr H. eapply build_plain; eauto. eapply initialize_plain_loop; eauto.
  - mb H as sites Es. mb H as positions Ep. mb H as vals Ev. mb H as p0 E0. mr H.
    set (s := Space nm fx mi ma rg (Vor1 lo hi sd fp) params) in *.
    apply (repeatM_inv (good_site (sp_cls s))) in Es;
      [|intros; eapply sample_site_inv; [apply Hok|eauto]].
    destruct Es as [Els Hgs].
    set (pz := PS n [(disc_key, sites_value (sp_cls s) sites)] [] []).
    destruct (sites_value_ok s n pz sites) as [Hsk Hlen]; [apply Hok|reflexivity|auto..].
    destruct (positions_spec s pz positions eq_refl Hsk Ep) as [Hpos Hpl].
    pose proof Hok as (_ & _ & _ & Hnd & Hdk & _).
    destruct (initialize_disc_loop initialize positions params HP HIH _ _ _ _
                (disc_first s _ Hnd Hdk) Ev) as (new & -> & Hnew).
    assert (EL : length positions = n) by (rewrite <- (Hpl _ eq_refl); exact Hlen).
    assert (Hnd2 : NoDup (dkeys ([(disc_key, sites_value (sp_cls s) sites)] ++ new))).
    { unfold dkeys. rewrite map_app. cbn. constructor;
        change (map fst new) with (dkeys new); rewrite (keyed_keys _ _ _ Hnew); auto. }
    destruct (mk_ps_ok _ _ _ Hnd2 E0) as [-> _].
    eapply (build_disc s n); [exact Hok|reflexivity|exact En|exact Hlen|exact Hsk| |reflexivity|reflexivity].
    eapply keyed_impl; [|exact Hnew]. intros a b. rewrite EL. apply fits_impl.
    intros i at_ Hi. apply Hpos. exact Hi.
  - mb H as sites Es. mb H as positions Ep. mb H as vals Ev. mb H as p0 E0. mr H.
    set (s := Space nm fx mi ma rg (VorN d lo hi sd poly kd fp) params) in *.
    apply (repeatM_inv (good_site (sp_cls s))) in Es;
      [|intros; eapply sample_site_inv; [apply Hok|eauto]].
    destruct Es as [Els Hgs].
    set (pz := PS n [(disc_key, sites_value (sp_cls s) sites)] [] []).
    destruct (sites_value_ok s n pz sites) as [Hsk Hlen]; [apply Hok|reflexivity|auto..].
    destruct (positions_spec s pz positions eq_refl Hsk Ep) as [Hpos Hpl].
    pose proof Hok as (_ & _ & _ & Hnd & Hdk & _).
    destruct (initialize_disc_loop initialize positions params HP HIH _ _ _ _
                (disc_first s _ Hnd Hdk) Ev) as (new & -> & Hnew).
    assert (EL : length positions = n) by (rewrite <- (Hpl _ eq_refl); exact Hlen).
    assert (Hnd2 : NoDup (dkeys ([(disc_key, sites_value (sp_cls s) sites)] ++ new))).
    { unfold dkeys. rewrite map_app. cbn. constructor;
        change (map fst new) with (dkeys new); rewrite (keyed_keys _ _ _ Hnew); auto. }
    destruct (mk_ps_ok _ _ _ Hnd2 E0) as [-> _].
    apply add_kdtree_ok in H. destruct H as (K1 & K2 & _).
    eapply (build_disc s n); [exact Hok|reflexivity|exact En|exact Hlen|exact Hsk| |exact K1|exact K2].
    eapply keyed_impl; [|exact Hnew]. intros a b. rewrite EL. apply fits_impl.
    intros i at_ Hi. apply Hpos. exact Hi.
Qed.

(** * sample *)
(** What sample_discretization leaves: sites only. *)
Definition raw (s : space) (q : psstate) : Prop :=
  dims_ok s q /\ sites_ok s q /\
  exists sv, ps_vals q = [(disc_key, sv)] /\ value_len sv = ps_n q.
Lemma sample_disc_raw s tr q tr' : space_ok s -> is_disc s = true ->
  sample_discretization s tr = Ret q tr' -> raw s q /\ ps_attrs q = ps_vals q /\ ps_cache q = [].
Proof.
  intros Hok Hd H. unfold sample_discretization in H. mb H as n En. mb H as sites Es. mr H.
  apply sample_n_inv in En; auto.
  apply (repeatM_inv (good_site (sp_cls s))) in Es;
      [|intros; eapply sample_site_inv; [apply Hok|eauto]].
  destruct Es as [Els Hgs].
  apply mk_ps_ok in H; [|repeat constructor; cbn; tauto]. destruct H as [-> _].
  destruct (sites_value_ok s n (PS n [(disc_key, sites_value (sp_cls s) sites)]
     [(disc_key, sites_value (sp_cls s) sites)] []) sites) as [Hsk Hlen];
    [apply Hok|exact Hd|auto..].
  split; [|auto]. split; [exact En|]. split; [exact Hsk|]. exists (sites_value (sp_cls s) sites). auto.
Qed.
Lemma sample_plain_loop (f : space -> M psstate) n params :
  (forall k p, In (k, PPrior p) params -> prior_ok p) ->
  (forall k s' t q t', In (k, PSpace s') params -> f s' t = Ret q t' -> wf s' q) ->
  forall tr vals tr',
  (fix go (l : list (string * param)) : M (dict value) :=
     match l with
     | [] => ret []
     | (k, PPrior p) :: t =>
         a <- repeatM n (p_sample p None) ;;
         r <- go t ;; ret ((k, Arr a) :: r)
     | (k, PSpace s') :: t =>
         a <- repeatM n (f s') ;;
         r <- go t ;;
         ret ((k, if is_disc s' then AObj a else Lst a) :: r)
     end) params tr = Ret vals tr' ->
  keyed (fits n (fun _ at_ => at_ = None)) params vals.
Proof.
  intros Hp Hs. induction params as [|[k [pr|s']] t IH]; intros tr vals tr' H.
  - mr H. constructor.
  - mb H as a Ea. mb H as r Er. mr H. constructor.
    + split; auto. cbn [snd fits].
      apply (repeatM_inv (in_support pr None)) in Ea;
        [|intros; eapply p_sample_inv; [eapply Hp; left; reflexivity|eauto]].
      destruct Ea as [L0 L1]. exists a. split; auto. split; auto.
      intros i x at_ Hx ->. rewrite Forall_forall in L1. apply L1. eapply nth_error_In; eauto.
    + eapply IH; [intros; eapply Hp; right; eauto|intros; eapply Hs; [right|]; eauto|exact Er].
  - mb H as a Ea. mb H as r Er. mr H. constructor.
    + split; auto. cbn [snd fits]. exists a.
      apply (repeatM_inv (wf s')) in Ea; [|intros; eapply Hs; [left; reflexivity|eauto]].
      destruct Ea. destruct (is_disc s'); auto.
    + eapply IH; [intros; eapply Hp; right; eauto|intros; eapply Hs; [right|]; eauto|exact Er].
Qed.
Lemma sample_disc_loop (f : space -> M psstate) positions params :
  (forall k p, In (k, PPrior p) params -> prior_ok p) ->
  (forall k s' t q t', In (k, PSpace s') params -> f s' t = Ret q t' -> wf s' q) ->
  ~ In disc_key (dkeys params) ->
  forall q tr q' tr', NoDup (dkeys (ps_vals q) ++ dkeys params) ->
  positions_of (ps_get disc_key q) = Ok positions ->
  (fix go (l : list (string * param)) (q : psstate) : M psstate :=
     match l with
     | [] => ret q
     | (k, PPrior p) :: t =>
         positions <- lift (positions_of (ps_get disc_key q)) ;;
         a <- mapM (fun x => p_sample p (Some x)) positions ;;
         q' <- lift (ps_set k (Arr a) q) ;; go t q'
     | (k, PSpace s') :: t =>
         positions <- lift (positions_of (ps_get disc_key q)) ;;
         a <- repeatM (length positions) (f s') ;;
         q' <- lift (ps_set k (Lst a) q) ;; go t q'
     end) params q tr = Ret q' tr' ->
  ps_n q' = ps_n q /\ ps_cache q' = ps_cache q /\
  exists new, ps_vals q' = ps_vals q ++ new /\
    keyed (fits (length positions) (pos_in positions)) params new.
Proof.
  intros Hp Hs Hdk. induction params as [|[k par] t IH]; intros q tr q' tr' Hnd HP H.
  - mr H. split; [auto|]. split; [auto|]. exists []. rewrite app_nil_r. split; auto. constructor.
  - assert (Hk : ~ In k (dkeys (ps_vals q))).
    { intros Hin. apply NoDup_remove_2 in Hnd. apply Hnd. apply in_or_app. auto. }
    assert (Hkd : k <> disc_key) by (intros ->; apply Hdk; left; auto).
    assert (Hdk' : ~ In disc_key (dkeys t)) by (intros Hin; apply Hdk; right; auto).
    assert (Hprep : forall v,
      NoDup (dkeys (dset k v (ps_vals q)) ++ dkeys t) /\
      dget disc_key (dset k v (ps_vals q)) = dget disc_key (ps_vals q)).
    { intros v. split.
      - rewrite dset_fresh by auto. unfold dkeys in *. rewrite map_app, <- app_assoc. exact Hnd.
      - apply dget_dset_other; congruence. }
    assert (Hp' : forall k p, In (k, PPrior p) t -> prior_ok p)
      by (intros; eapply Hp; right; eauto).
    assert (Hs' : forall k s' t0 q t', In (k, PSpace s') t -> f s' t0 = Ret q t' -> wf s' q)
      by (intros; eapply Hs; [right|]; eauto).
    specialize (IH Hp' Hs' Hdk').
    destruct par as [pr|s']; mb H as ps' Eps; rewrite HP in Eps; injection Eps as <-;
      mb H as a Ea; mb H as q1 Eq1; apply ps_set_ok in Eq1; destruct Eq1 as [-> _];
      (apply IH in H; [|exact (proj1 (Hprep _))|
         rewrite <- HP; unfold ps_get; cbn [ps_vals]; f_equal; exact (proj2 (Hprep _))]);
      destruct H as (K1 & K2 & new & K3 & Hnew); (split; [exact K1|]);
      (split; [exact K2|]); cbn [ps_vals] in K3; rewrite dset_fresh in K3 by auto;
      rewrite <- app_assoc in K3; eexists; (split; [exact K3|]);
      (constructor; [|exact Hnew]); split; auto; cbn [snd fits]; exists a.
    + apply mapM_inv in Ea. split; auto. split; [symmetry; eapply Forall2_len; eauto|].
      intros i x at_ Hx (y & Hy & ->).
      destruct (Forall2_nth _ _ _ _ _ _ Ea Hy Hx) as (t1 & t2 & E).
      eapply p_sample_inv; [eapply Hp; left; reflexivity|eauto].
    + apply (repeatM_inv (wf s')) in Ea; [|intros; eapply Hs; [left; reflexivity|eauto]].
      destruct Ea. auto.
Qed.
Lemma raw_positions s q : is_disc s = true -> raw s q ->
  exists sv ps, ps_vals q = [(disc_key, sv)] /\ positions_of (ps_get disc_key q) = Ok ps /\
    length ps = ps_n q /\ value_len sv = ps_n q /\
    (forall i at_, position_of s (PS (ps_n q) [(disc_key, sv)] [] []) i at_ <-> pos_in ps i at_) /\
    sites_ok s (PS (ps_n q) [(disc_key, sv)] [] []).
Proof.
  intros Hd (Hdim & Hs & sv & Hv & Hl). destruct (positions_total s q Hd Hs) as (ps & Eps).
  destruct (positions_spec s q ps Hd Hs Eps) as [Hpos Hpl].
  assert (Eg : ps_get disc_key q = Some sv) by (unfold ps_get; now rewrite Hv).
  assert (Eg2 : ps_get disc_key q = ps_get disc_key (PS (ps_n q) [(disc_key, sv)] [] [])).
  { rewrite Eg. reflexivity. }
  exists sv, ps. split; auto. split; auto. split; [rewrite <- (Hpl _ Eg); auto|]. split; auto.
  split; [|eapply sites_disc; eauto]. intros i at_. rewrite <- (Hpos i at_).
  split; apply position_disc; auto.
Qed.
Theorem sample_wf s : valid s -> forall tr p tr', sample s tr = Ret p tr' -> wf s p.
Proof.
  induction s as [s IH] using space_ind'. intros Hv tr p tr' H.
  pose proof (valid_here _ Hv) as Hok.
  assert (HIH : forall k s' t q t', In (k, PSpace s') (sp_params s) ->
                sample s' t = Ret q t' -> wf s' q).
  { intros k s' t q t' Hin. eapply IH; eauto. eapply valid_in; eauto. }
  assert (HP : forall k p, In (k, PPrior p) (sp_params s) -> prior_ok p).
  { intros k q. now apply prior_of. }
  destruct s as [nm fx mi ma rg cls params]. cbn [sample] in H.
  destruct cls as [|lo hi sd fp|d lo hi sd poly kd fp].
  - mb H as n En. apply sample_n_inv in En; [|exact Hok].
    mb H as vals Ev. mr H. eapply build_plain; eauto. eapply sample_plain_loop; eauto.
  - set (s := Space nm fx mi ma rg (Vor1 lo hi sd fp) params) in *.
    mb H as p0 E0. apply sample_disc_raw in E0; [|exact Hok|reflexivity]. destruct E0 as [Hraw _].
    destruct (raw_positions s p0 eq_refl Hraw) as (sv & ps & Hv0 & Hps & Hlen & Hl & Hpos & Hsk).
    pose proof Hok as (_ & _ & _ & Hnd & Hdk & _).
    destruct (sample_disc_loop sample ps params HP HIH Hdk p0 _ _ _
       (eq_ind_r (fun d => NoDup (dkeys d ++ dkeys params)) (disc_first s _ Hnd Hdk) Hv0) Hps H)
       as (K1 & _ & new & K3 & Hnew).
    eapply (build_disc s (ps_n p0));
      [exact Hok|reflexivity|exact (proj1 Hraw)|exact Hl|exact Hsk| |exact K1|rewrite K3, Hv0; reflexivity].
    eapply keyed_impl; [|exact Hnew]. intros a b. rewrite Hlen. apply fits_impl.
    intros i at_ Hi. apply Hpos. exact Hi.
  - set (s := Space nm fx mi ma rg (VorN d lo hi sd poly kd fp) params) in *.
    mb H as p0 E0. apply sample_disc_raw in E0; [|exact Hok|reflexivity]. destruct E0 as [Hraw _].
    destruct (raw_positions s p0 eq_refl Hraw) as (sv & ps & Hv0 & Hps & Hlen & Hl & Hpos & Hsk).
    pose proof Hok as (_ & _ & _ & Hnd & Hdk & _).
    destruct (sample_disc_loop sample ps params HP HIH Hdk p0 _ _ _
       (eq_ind_r (fun d => NoDup (dkeys d ++ dkeys params)) (disc_first s _ Hnd Hdk) Hv0) Hps H)
       as (K1 & _ & new & K3 & Hnew).
    eapply (build_disc s (ps_n p0));
      [exact Hok|reflexivity|exact (proj1 Hraw)|exact Hl|exact Hsk| |exact K1|rewrite K3, Hv0; reflexivity].
    eapply keyed_impl; [|exact Hnew]. intros a b. rewrite Hlen. apply fits_impl.
    intros i at_ Hi. apply Hpos. exact Hi.
Qed.
