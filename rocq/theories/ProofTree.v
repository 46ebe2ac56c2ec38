(** Proofs about the model of ParamSpacePerturbation: the two breadth-first loops. *)
From Verif Require Import Base ModelUtils1D ModelPrior ModelState ModelSpace ModelPerturb ModelChain SpecUtils1D
  SpecState SpecPerturb ProofUtils1D ProofUtils1DB ProofChain ProofChainC ProofInversion ProofState ProofSpace
  ProofSpaceB ProofSpaceC ProofSpaceE ProofPerturb.
Local Open Scope R_scope.

(** * Outcomes that run in parallel *)
Definition follows {A B} (rel : A -> B -> Prop) (x : out A) (y : out B) : Prop :=
  match x, y with
  | Ret a t, Ret b t' => t = t' /\ rel a b
  | Err e t, Err e' t' => e = e' /\ t = t'
  | UBeh, UBeh => True
  | Starve, Starve => True
  | _, _ => False
  end.
Lemma follows_bind {A B C} (rel : A -> B -> Prop) (rel' : A -> C -> Prop) x (m : M B) (f : B -> M C) tr :
  follows rel x (m tr) ->
  (forall a b t, rel a b -> exists c, f b t = Ret c t /\ rel' a c) ->
  follows rel' x (bind m f tr).
Proof.
  intros H Hf. unfold bind. destruct x as [a t|e t| |], (m tr) as [b t'|e' t'| |]; cbn in *; try tauto.
  destruct H as [-> H]. destruct (Hf a b t' H) as (c & -> & Hc). auto.
Qed.
Lemma follows_impl {A B} (rel rel' : A -> B -> Prop) x y : (forall a b, rel a b -> rel' a b) ->
  follows rel x y -> follows rel' x y.
Proof. intros H. destruct x, y; cbn; intuition. Qed.

Lemma bind_is {A B} (m : M A) (f : A -> M B) a tr tr' : m tr = Ret a tr' -> bind m f tr = f a tr'.
Proof. intros H. unfold bind. now rewrite H. Qed.
Lemma bind_ok {A B} (m : res A) (f : A -> M B) a tr : m = Ok a -> bind (lift m) f tr = f a tr.
Proof. intros ->. reflexivity. Qed.

(** * Views and places *)
Lemma view_by_get p q : NoDup (dkeys (ps_vals p)) -> ps_n q = ps_n p ->
  dkeys (ps_vals q) = dkeys (ps_vals p) ->
  (forall k, option_map view_value (ps_get k q) = option_map view_value (ps_get k p)) ->
  view q = view p.
Proof.
  intros Hnd Hn Hk Hg. apply view_same. split; auto. unfold ps_get in Hg.
  revert Hnd Hk Hg. generalize (ps_vals p) as d, (ps_vals q) as d'. clear.
  intros d. induction d as [|[k v] d IH]; intros [|[k' v'] d'] Hnd Hk Hg; cbn in Hk; try discriminate; auto.
  injection Hk as -> Hk. inversion Hnd as [|? ? H1 H2]; subst.
  pose proof (Hg k) as G. cbn in G. rewrite String.eqb_refl in G. injection G as G.
  cbn. f_equal; [now rewrite G|]. apply IH; auto. intros k1. specialize (Hg k1). cbn in Hg.
  destruct (String.eqb_spec k1 k) as [E|E]; [subst k1|exact Hg].
  assert (E1 : dget k d = None) by now apply dget_none_keys.
  assert (E2 : dget k d' = None) by (apply dget_none_keys; unfold dkeys; rewrite Hk; exact H1).
  now rewrite E1, E2.
Qed.
Lemma map_view_nth l l' : length l' = length l ->
  (forall j, option_map view (nth_error l' j) = option_map view (nth_error l j)) -> map view l' = map view l.
Proof.
  revert l'. induction l as [|x l IH]; intros [|y l'] L H; cbn in *; try discriminate; auto.
  f_equal; [specialize (H 0%nat); cbn in H; congruence|]. apply IH; [congruence|].
  intros j. apply (H (S j)).
Qed.
Lemma sane_in n vals attrs cache k l c : sane (PS n vals attrs cache) -> dget k vals = Some (Lst l) ->
  In c l -> sane c.
Proof.
  intros H Hg Hc. inversion H as [? ? ? ? _ _ Hs]; subst. apply (Hs k (Lst l)); auto.
  apply dget_some_in. exact Hg.
Qed.
Lemma sane_get p k l c : sane p -> ps_get k p = Some (Lst l) -> In c l -> sane c.
Proof. destruct p. apply sane_in. Qed.
Lemma sane_nodup p : sane p -> NoDup (dkeys (ps_vals p)).
Proof. intros H. now inversion H. Qed.
Lemma sane_nonempty p k l : sane p -> ps_get k p = Some (Lst l) -> l <> [].
Proof.
  intros H Hg. inversion H as [n vals attrs cache _ Hl _]; subst. apply dget_some_in in Hg.
  destruct (Hl _ _ Hg) as [_ G]. congruence.
Qed.
Lemma holds_sane p w c : sane p -> holds_at p w c -> sane c.
Proof.
  intros H Hw. induction Hw as [|p k i l c w q E1 E2 _ IH]; auto. apply IH.
  eapply sane_get; eauto. eapply nth_error_In; eauto.
Qed.
Lemma holds_app p w1 c w2 q : holds_at p w1 c -> holds_at c w2 q -> holds_at p (w1 ++ w2) q.
Proof. intros H1 H2. induction H1; cbn; auto. econstructor; eauto. Qed.
Lemma changed_impl (Q Q' : psstate -> psstate -> Prop) w2 w p p' :
  (forall c c', holds_at p w c -> Q c c' -> changed_at Q' w2 c c') ->
  changed_at Q w p p' -> changed_at Q' (w ++ w2) p p'.
Proof.
  intros H Hc. induction Hc as [p p' HQ|p p' k i l l' c c' w E1 E2 E3 E4 E5 E6 Hc IH E7 E8 E9]; cbn.
  - apply H; auto. constructor.
  - econstructor; eauto. apply IH. intros c0 c0' Hh. apply H. econstructor; eauto.
Qed.
Lemma changed_same (Q : psstate -> psstate -> Prop) w p p' : sane p ->
  (forall c c', holds_at p w c -> Q c c' -> view c' = view c) -> changed_at Q w p p' -> view p' = view p.
Proof.
  intros Hs H Hc. revert Hs H.
  induction Hc as [p p' HQ|p p' k i l l' c c' w E1 E2 E3 E4 E5 E6 Hc IH E7 E8 E9]; intros Hs H.
  - apply H; auto. constructor.
  - assert (Hv : view c' = view c).
    { apply IH; [eapply sane_get; eauto; eapply nth_error_In; eauto|].
      intros c0 c0' Hh. apply H. econstructor; eauto. }
    apply view_by_get; auto using sane_nodup.
    intros k'. destruct (string_dec k' k) as [->|Hne]; auto. rewrite E3, E4. cbn. f_equal. f_equal.
    apply map_view_nth; auto. intros j. destruct (Nat.eq_dec j i) as [->|]; auto.
    rewrite E5, E6. cbn. congruence.
Qed.

(** * Setting a value at a place *)
Definition key_set (k : string) (v : value) (c0 c c' : psstate) : Prop :=
  c = c0 /\ ps_n c' = ps_n c /\ dkeys (ps_vals c') = dkeys (ps_vals c) /\ ps_get k c' = Some v /\
  forall k', k' <> k -> option_map view_value (ps_get k' c') = option_map view_value (ps_get k' c).
Lemma ps_set_spec k v pn p0 : view pn = view p0 -> v <> Lst [] -> In k (dkeys (ps_vals p0)) ->
  exists p', ps_set k v pn = Ok p' /\ ps_n p' = ps_n p0 /\ dkeys (ps_vals p') = dkeys (ps_vals p0) /\
    ps_get k p' = Some v /\
    (forall k', k' <> k -> option_map view_value (ps_get k' p') = option_map view_value (ps_get k' p0)).
Proof.
  intros V Hv Hk.
  exists (PS (ps_n pn) (dset k v (ps_vals pn)) (dset k v (ps_attrs pn)) (ps_cache pn)).
  split; [destruct v as [| | |[|]]; auto; congruence|].
  split; [cbn; now apply same_n|].
  split; [cbn; rewrite <- (same_keys _ _ V) in *; now apply dkeys_dset_in|].
  split; [unfold ps_get; cbn; apply dget_dset_same|].
  intros k' Hne. unfold ps_get at 1. cbn. rewrite dget_dset_other by auto.
  change (dget k' (ps_vals pn)) with (ps_get k' pn). rewrite <- !view_get. congruence.
Qed.
Lemma set_in_ps_spec k v c : v <> Lst [] -> In k (dkeys (ps_vals c)) -> forall w p0 pn,
  view pn = view p0 -> holds_at p0 w c ->
  exists p', set_in_ps w k v pn = Ok p' /\ changed_at (key_set k v c) w p0 p'.
Proof.
  intros Hv Hk w. induction w as [|[k1 i] w IH]; intros p0 pn V Hh; inversion Hh; subst; cbn [set_in_ps].
  - destruct (ps_set_spec k v pn c V Hv Hk) as (p' & E & H). exists p'. split; auto.
    constructor. split; auto.
  - match goal with A : ps_get k1 p0 = Some (Lst ?l), B : nth_error ?l i = Some ?x, C : holds_at ?x w c |- _ =>
      rename A into E1; rename B into E2; rename C into E3; rename l into l0; rename x into x0 end.
    destruct (same_get pn p0 k1 _ V E1) as (vn & En & Vn). cbn in Vn.
    destruct vn as [| | |ln]; try discriminate. injection Vn as Vn. rewrite En.
    assert (Ln : length ln = length l0) by (rewrite <- (map_length view ln), Vn; apply map_length).
    destruct (nth_error_lt ln i) as (xn & Exn); [rewrite Ln; eapply nth_error_some_lt; eauto|].
    assert (Vx : view xn = view x0).
    { assert (A : nth_error (map view ln) i = nth_error (map view l0) i) by congruence.
      rewrite !nth_error_map, Exn, E2 in A. cbn in A. congruence. }
    unfold idx at 1. rewrite Exn. cbn [rbind].
    destruct (IH x0 xn Vx E3) as (x' & -> & Hx). cbn [rbind].
    assert (Hi : (i < length ln)%nat) by (eapply nth_error_some_lt; eauto).
    destruct (ps_set_spec k1 (Lst (set_nth ln i x')) pn p0 V) as (p' & -> & A1 & A2 & A3 & A4).
    + intros [= E]. apply (f_equal (@length _)) in E. rewrite set_nth_length in E by auto. cbn in E. lia.
    + eapply dget_in_keys; exact E1.
    + exists p'. split; auto. econstructor; eauto.
      * rewrite nth_set_nth by auto. now rewrite Nat.eqb_refl.
      * rewrite set_nth_length; auto.
      * intros j Hj. rewrite nth_set_nth by auto. apply Nat.eqb_neq in Hj. rewrite Hj.
        assert (A : nth_error (map view ln) j = nth_error (map view l0) j) by congruence.
        now rewrite !nth_error_map in A.
Qed.

(** * The same at the level of the State *)
Definition same_state (s0 s : state) : Prop := view_state s = view_state s0.
Lemma view_state_get k s : dget k (view_state s) = option_map view_entry (st_get k s).
Proof. apply dget_map. Qed.
Lemma view_state_keys s : dkeys (view_state s) = dkeys (st_vals s).
Proof. apply dkeys_map. Qed.
Lemma same_state_get s0 s k p : same_state s0 s -> st_get k s0 = Some (EPS p) ->
  exists pn, st_get k s = Some (EPS pn) /\ view pn = view p.
Proof.
  intros H E. assert (A : dget k (view_state s) = dget k (view_state s0)) by congruence.
  rewrite !view_state_get, E in A. destruct (st_get k s) as [[pn|]|]; try discriminate.
  injection A as A. eauto.
Qed.
Lemma view_state_by_get s s' : NoDup (dkeys (st_vals s)) -> dkeys (st_vals s') = dkeys (st_vals s) ->
  (forall k, option_map view_entry (st_get k s') = option_map view_entry (st_get k s)) ->
  same_state s s'.
Proof.
  unfold same_state, view_state, st_get. generalize (st_vals s) as d, (st_vals s') as d'. clear.
  intros d. induction d as [|[k v] d IH]; intros [|[k' v'] d'] Hnd Hk Hg; cbn in Hk; try discriminate; auto.
  injection Hk as -> Hk. inversion Hnd as [|? ? H1 H2]; subst.
  pose proof (Hg k) as G. cbn in G. rewrite String.eqb_refl in G. injection G as G.
  cbn. f_equal; [now rewrite G|]. apply IH; auto. intros k1. specialize (Hg k1). cbn in Hg.
  destruct (String.eqb_spec k1 k) as [E|E]; [subst k1|exact Hg].
  assert (E1 : dget k d = None) by now apply dget_none_keys.
  assert (E2 : dget k d' = None) by (apply dget_none_keys; unfold dkeys; rewrite Hk; exact H1).
  now rewrite E1, E2.
Qed.
Lemma st_changed_impl (Q Q' : psstate -> psstate -> Prop) w2 w s s' :
  (forall c c', st_holds s w c -> Q c c' -> changed_at Q' w2 c c') ->
  st_changed_at Q w s s' -> st_changed_at Q' (w ++ w2) s s'.
Proof.
  intros H (k & w' & p & p' & -> & E1 & E2 & Hc & E3 & E4).
  exists k, (w' ++ w2), p, p'. repeat (split; [auto|]); auto.
  eapply changed_impl; [|exact Hc]. intros c c' Hh. apply H. exists k, w', p. auto.
Qed.
Lemma st_changed_same (Q : psstate -> psstate -> Prop) w s s' : sane_state s ->
  (forall c c', st_holds s w c -> Q c c' -> view c' = view c) -> st_changed_at Q w s s' -> same_state s s'.
Proof.
  intros [Hnd Hs] H (k & w' & p & p' & -> & E1 & E2 & Hc & E3 & E4).
  apply view_state_by_get; auto. intros k'. destruct (string_dec k' k) as [->|]; auto.
  rewrite E1, E2. cbn. do 2 f_equal. eapply changed_same; [|  |exact Hc].
  - apply (Hs k). now apply dget_some_in.
  - intros c c' Hh. apply H. exists k, w', p. auto.
Qed.
Definition keeps (s s' : state) : Prop :=
  st_temp s' = st_temp s /\ st_cache s' = st_cache s /\ st_extra s' = st_extra s.
Lemma set_in_state_spec s0 s w c k v : same_state s0 s -> st_holds s0 w c -> v <> Lst [] ->
  In k (dkeys (ps_vals c)) ->
  exists s', set_in_state w k v s = Ok s' /\ st_changed_at (key_set k v c) w s0 s' /\ keeps s s'.
Proof.
  intros V (k0 & w' & p & -> & Eg & Hh) Hv Hk. cbn [set_in_state].
  destruct (same_state_get _ _ _ _ V Eg) as (pn & En & Vn). rewrite En.
  destruct (set_in_ps_spec k v c Hv Hk w' p pn Vn Hh) as (p' & -> & Hc). cbn [rbind].
  eexists. split; [reflexivity|]. split; [|repeat split].
  exists k0, w', p, p'. split; auto. split; auto. split; [unfold st_get; cbn; apply dget_dset_same|].
  split; auto. split.
  - cbn. rewrite <- !view_state_keys, <- V, !view_state_keys. apply dkeys_dset_in.
    eapply dget_in_keys; exact En.
  - intros k' Hne. unfold st_get at 1. cbn. rewrite dget_dset_other by auto.
    change (dget k' (st_vals s)) with (st_get k' s). rewrite <- !view_state_get. congruence.
Qed.
Lemma st_set_spec s0 s k p q : same_state s0 s -> st_get k s0 = Some (EPS p) ->
  st_changed_at (fun c c' => c' = q) [(k, 0%nat)] s0 (st_set k (EPS q) s) /\ keeps s (st_set k (EPS q) s).
Proof.
  intros V Eg. split; [|repeat split].
  destruct (same_state_get _ _ _ _ V Eg) as (pn & En & Vn).
  exists k, [], p, q. split; auto. split; auto. split; [unfold st_get; cbn; apply dget_dset_same|].
  split; [now constructor|]. split.
  - cbn. rewrite <- !view_state_keys, <- V, !view_state_keys. apply dkeys_dset_in.
    eapply dget_in_keys; exact En.
  - intros k' Hne. unfold st_get at 1. cbn. rewrite dget_dset_other by auto.
    change (dget k' (st_vals s)) with (st_get k' s). rewrite <- !view_state_get. congruence.
Qed.

(** * A list of states *)
Section Walk.
Variables (q : psp) (target : nat).
Lemma walk_list_skip vs : forall i ratio stats tr, Forall sane vs ->
  (target < i)%nat \/ (i + length vs <= target)%nat ->
  exists vs', walk_list q target vs i ratio stats tr = Ret (vs', (i + length vs)%nat, ratio, stats) tr /\
    map view vs' = map view vs.
Proof.
  induction vs as [|v t IH]; intros i ratio stats tr Hs Hr; cbn [walk_list length] in *.
  - exists []. rewrite Nat.add_0_r. auto.
  - inversion Hs as [|? ? H1 H2]; subst.
    destruct (Nat.eqb_spec i target) as [E|E]; [lia|].
    destruct (ps_copy_spec v H1) as (v' & Ev & Vv & _).
    destruct (IH (S i) ratio stats tr H2) as (t' & Et & Vt); [lia|].
    rewrite (bind_ok _ _ _ _ Ev). rewrite (bind_is _ _ _ _ _ Et).
    exists (v' :: t'). split; [|cbn; congruence].
    replace (i + S (length t))%nat with (S i + length t)%nat by lia. reflexivity.
Qed.
Definition list_changed (j : nat) (p' : psstate) (l l' : list psstate) : Prop :=
  length l' = length l /\ nth_error l' j = Some p' /\
  forall j', j' <> j -> option_map view (nth_error l' j') = option_map view (nth_error l j').
Lemma walk_list_hit vs : forall i ratio stats tr v, Forall sane vs -> (i <= target)%nat ->
  nth_error vs (target - i) = Some v ->
  follows (fun '(p', r, ty) '(vs', i', ratio', stats') =>
      i' = (i + length vs)%nat /\ ratio' = eadd ratio r /\ stats' = bump_type ty stats /\
      list_changed (target - i) p' vs vs')
    (psp_perturb_ps q v tr) (walk_list q target vs i ratio stats tr).
Proof.
  induction vs as [|x t IH]; intros i ratio stats tr v Hs Hi Hv; [destruct (target - i)%nat; discriminate|].
  inversion Hs as [|? ? H1 H2]; subst. cbn [walk_list length].
  destruct (Nat.eqb_spec i target) as [E|E].
  - subst i. rewrite Nat.sub_diag in *. cbn in Hv. injection Hv as ->.
    eapply follows_bind with (rel := eq).
    { destruct (psp_perturb_ps q v tr); cbn; auto. }
    intros a b tr1 <-. destruct a as [[p' r] ty].
    destruct (walk_list_skip t (S target) (eadd ratio r) (bump_type ty stats) tr1 H2) as (t' & Et & Vt); [lia|].
    rewrite (bind_is _ _ _ _ _ Et). eexists. split; [reflexivity|]. split; [lia|]. split; auto. split; auto.
    assert (Lt : length t' = length t) by (rewrite <- (map_length view t'), Vt; apply map_length).
    split; [cbn; congruence|]. split; auto. intros [|j'] Hj; [congruence|]. cbn.
    rewrite <- !nth_error_map. congruence.
  - destruct (ps_copy_spec x H1) as (x' & Ex & Vx & _).
    assert (Eq : (target - i)%nat = S (target - S i)) by lia. rewrite Eq in *. cbn in Hv.
    rewrite (bind_ok _ _ _ _ Ex).
    eapply follows_bind; [apply (IH (S i) ratio stats tr v H2); [lia|exact Hv]|].
    intros [[p' r] ty] [[[t' i'] ratio'] stats'] tr1 (E1 & E2 & E3 & L & N & O). subst.
    eexists. split; [reflexivity|]. split; [lia|]. split; auto. split; auto.
    split; [cbn; congruence|]. split; auto. intros [|j'] Hj; cbn; [congruence|]. apply O. lia.
Qed.

(** * One pass *)
Notation name := (psp_space q).
Definition places_in (w : place) (k : string) (ps : list psstate) : list (place * psstate) :=
  map (fun ip => (w ++ [(k, fst ip)], snd ip)) (combine (seq 0 (length ps)) ps).
Fixpoint found (w : place) (vals : dict value) : list (place * psstate) :=
  match vals with
  | [] => []
  | (k, Lst ps) :: t => if String.eqb k name then places_in w k ps ++ found w t else found w t
  | _ :: t => found w t
  end.
Fixpoint next (w : place) (vals : dict value) : list (place * psstate) :=
  match vals with
  | [] => []
  | (k, Lst ps) :: t => if String.eqb k name then next w t else places_in w k ps ++ next w t
  | _ :: t => next w t
  end.
Definition enq (l : list (place * psstate)) : list (path * dict child) :=
  map (fun wp => (fst wp, ps_children (snd wp))) l.
Definition children (vals : dict value) : dict child := map (fun kv => (fst kv, value_child (snd kv))) vals.
Lemma places_len w k ps : length (places_in w k ps) = length ps.
Proof. unfold places_in. rewrite map_length, combine_length, seq_length. lia. Qed.
Lemma enq_app a b : enq (a ++ b) = enq a ++ enq b.
Proof. apply map_app. Qed.
Lemma enq_places w k ps : enq (places_in w k ps) =
  map (fun ip => (w ++ [(k, fst ip)], ps_children (snd ip))) (combine (seq 0 (length ps)) ps).
Proof. unfold enq, places_in. rewrite map_map. reflexivity. Qed.
Lemma nth_combine_seq {A} (ps : list A) m j x : nth_error ps j = Some x ->
  nth_error (combine (seq m (length ps)) ps) j = Some ((m + j)%nat, x).
Proof.
  revert m j. induction ps as [|y ps IH]; intros m [|j]; cbn; try discriminate.
  - intros [= ->]. now rewrite Nat.add_0_r.
  - intros H. rewrite (IH (S m) j H). do 2 f_equal. lia.
Qed.
Lemma places_nth w k ps j x : nth_error ps j = Some x ->
  nth_error (places_in w k ps) j = Some (w ++ [(k, j)], x).
Proof.
  intros H. unfold places_in. rewrite nth_error_map, (nth_combine_seq ps 0 j x H). reflexivity.
Qed.
Lemma places_inv w k ps wp : In wp (places_in w k ps) ->
  exists j x, nth_error ps j = Some x /\ wp = (w ++ [(k, j)], x).
Proof.
  intros H. apply In_nth_error in H. destruct H as (j & Hj).
  assert (Hl : (j < length ps)%nat) by (rewrite <- (places_len w k ps); eapply nth_error_some_lt; eauto).
  destruct (nth_error_lt ps j Hl) as (x & Ex). exists j, x. split; auto.
  rewrite (places_nth w k ps j x Ex) in Hj. congruence.
Qed.

Definition lists_ok (vals : dict value) : Prop := forall k l, In (k, Lst l) vals -> l <> [] /\ Forall sane l.
Lemma lists_ok_tl kv t : lists_ok (kv :: t) -> lists_ok t.
Proof. intros H k l Hin. apply (H k). right. auto. Qed.
Lemma walk_node_none w vals : forall s tr, ~ In name (dkeys vals) -> lists_ok vals ->
  walk_node q target w (children vals) s tr =
  Ret (mkWalk (w_new s) (w_i s) (w_ratio s) (w_stats s) (w_queue s ++ enq (next w vals))) tr /\
  found w vals = [].
Proof.
  induction vals as [|[k v] t IH]; intros s tr Hn Hl; cbn [children map fst snd walk_node next found].
  - cbn. rewrite app_nil_r. destruct s; auto.
  - assert (Hn' : ~ In name (dkeys t)) by (intros ?; apply Hn; cbn; auto).
    pose proof (lists_ok_tl _ _ Hl) as Hl'. change (map _ t) with (children t).
    destruct v as [| | |ps]; cbn [value_child]; try (apply IH; auto).
    destruct (String.eqb_spec k name) as [E|E]; [exfalso; apply Hn; cbn; auto|].
    destruct (Hl k ps (or_introl eq_refl)) as [Hne _].
    destruct ps as [|p ps]; [congruence|]. destruct (IH
      {| w_new := w_new s; w_i := w_i s; w_ratio := w_ratio s; w_stats := w_stats s;
         w_queue := w_queue s ++ enq (places_in w k (p :: ps)) |} tr Hn' Hl') as [E1 E2].
    split; auto. rewrite enq_places in E1. rewrite E1. cbn [w_new w_i w_ratio w_stats w_queue].
    rewrite enq_app, enq_places, app_assoc. reflexivity.
Qed.

Variables (s0 : state) (Hs0 : sane_state s0).
Lemma st_holds_sane w c : st_holds s0 w c -> sane c.
Proof.
  intros (k & w' & p & -> & E & Hh). eapply holds_sane; [|exact Hh]. apply (proj2 Hs0 k).
  now apply dget_some_in.
Qed.
Lemma key_set_view k v v0 c c' : sane c -> ps_get k c = Some v0 -> view_value v = view_value v0 ->
  key_set k v c c c' -> view c' = view c.
Proof.
  intros Hs Hg V (_ & H1 & H2 & H3 & H4). apply view_by_get; auto using sane_nodup.
  intros k'. destruct (string_dec k' k) as [->|]; auto. rewrite H3, Hg. cbn. congruence.
Qed.
Lemma walk_node_skip w c : st_holds s0 w c -> forall vals s tr,
  NoDup (dkeys vals) -> (forall k v, In (k, v) vals -> ps_get k c = Some v) -> lists_ok vals ->
  same_state s0 (w_new s) -> (w_i s + length (found w vals) <= target)%nat ->
  exists new', walk_node q target w (children vals) s tr =
    Ret (mkWalk new' (w_i s + length (found w vals)) (w_ratio s) (w_stats s)
           (w_queue s ++ enq (next w vals))) tr /\
    same_state s0 new' /\ keeps (w_new s) new'.
Proof.
  intros Hh. induction vals as [|[k v] t IH]; intros s tr Hnd Hg Hl Hsame Hr;
    cbn [children map fst snd walk_node next found] in *.
  - exists (w_new s). cbn. rewrite app_nil_r, Nat.add_0_r. destruct s. repeat split; auto.
  - pose proof (lists_ok_tl _ _ Hl) as Hl'. inversion Hnd as [|? ? Hk Hnd']; subst.
    assert (Hg' : forall k v, In (k, v) t -> ps_get k c = Some v) by (intros; apply Hg; cbn; auto).
    change (map _ t) with (children t).
    destruct v as [| | |ps]; cbn [value_child]; try (apply IH; auto).
    destruct (Hl k ps (or_introl eq_refl)) as [Hne Hsp].
    pose proof (Hg k (Lst ps) (or_introl eq_refl)) as Hgk.
    destruct (String.eqb_spec k name) as [E|E].
    + rewrite app_length, places_len in *.
      destruct (walk_list_skip ps (w_i s) (w_ratio s) (w_stats s) tr Hsp) as (ps' & Eps & Vps); [right; lia|].
      assert (Hne' : Lst ps' <> Lst []).
      { intros [= ->]. destruct ps; [congruence|discriminate]. }
      destruct (set_in_state_spec s0 (w_new s) w c k (Lst ps') Hsame Hh Hne') as (new' & Enew & Hch & Hke).
      { eapply dget_in_keys. exact Hgk. }
      rewrite (bind_is _ _ _ _ _ Eps), (bind_ok _ _ _ _ Enew).
      assert (Hsame' : same_state s0 new').
      { eapply st_changed_same; [exact Hs0| |exact Hch]. intros c0 c' Hc0 Hset.
        assert (c0 = c) by (apply Hset). subst c0.
        eapply key_set_view; [eapply st_holds_sane; eauto|exact Hgk| |exact Hset]. cbn. congruence. }
      rewrite E in Hk. destruct (walk_node_none w t
        (mkWalk new' (w_i s + length ps) (w_ratio s) (w_stats s) (w_queue s)) tr Hk Hl') as [E1 E2].
      rewrite E1, E2. cbn [w_new w_i w_ratio w_stats w_queue length]. rewrite Nat.add_0_r.
      exists new'. auto.
    + destruct ps as [|p ps]; [congruence|].
      destruct (IH {| w_new := w_new s; w_i := w_i s; w_ratio := w_ratio s; w_stats := w_stats s;
         w_queue := w_queue s ++ enq (places_in w k (p :: ps)) |} tr Hnd' Hg' Hl' Hsame Hr)
        as (new' & E1 & E2 & E3).
      exists new'. split; auto. rewrite enq_places in E1. rewrite E1. cbn [w_new w_i w_ratio w_stats w_queue].
      rewrite enq_app, enq_places, app_assoc. reflexivity.
Qed.
Definition hit (new : state) (ratio : ext) (stats : dict nat) (w' : place) (a : psstate * ext * string)
    (wk : walk) : Prop :=
  let '(p', r, ty) := a in
  (target < w_i wk)%nat /\ w_ratio wk = eadd ratio r /\ w_stats wk = bump_type ty stats /\
  st_changed_at (fun _ x => x = p') w' s0 (w_new wk) /\ keeps new (w_new wk).
Lemma walk_node_hit w c : st_holds s0 w c -> forall vals s tr w' v,
  NoDup (dkeys vals) -> (forall k v, In (k, v) vals -> ps_get k c = Some v) -> lists_ok vals ->
  same_state s0 (w_new s) -> (w_i s <= target)%nat ->
  nth_error (found w vals) (target - w_i s) = Some (w', v) ->
  follows (hit (w_new s) (w_ratio s) (w_stats s) w') (psp_perturb_ps q v tr)
    (walk_node q target w (children vals) s tr).
Proof.
  intros Hh. induction vals as [|[k x] t IH]; intros s tr w' v Hnd Hg Hl Hsame Hi Hv;
    cbn [children map fst snd walk_node found] in *.
  - destruct (target - w_i s)%nat; discriminate.
  - pose proof (lists_ok_tl _ _ Hl) as Hl'. inversion Hnd as [|? ? Hk Hnd']; subst.
    assert (Hg' : forall k v, In (k, v) t -> ps_get k c = Some v) by (intros; apply Hg; cbn; auto).
    change (map _ t) with (children t).
    destruct x as [| | |ps]; cbn [value_child]; try (apply IH; auto).
    destruct (Hl k ps (or_introl eq_refl)) as [Hne Hsp].
    pose proof (Hg k (Lst ps) (or_introl eq_refl)) as Hgk.
    destruct (String.eqb_spec k name) as [E|E].
    + assert (Et : found w t = []).
      { rewrite E in Hk. apply (walk_node_none w t s tr Hk Hl'). }
      rewrite Et, app_nil_r in Hv.
      assert (Hj : (target - w_i s < length ps)%nat).
      { rewrite <- (places_len w k ps). eapply nth_error_some_lt; eauto. }
      destruct (nth_error_lt ps _ Hj) as (y & Ey).
      rewrite (places_nth w k ps _ y Ey) in Hv. injection Hv as <- ->.
      eapply follows_bind; [apply (walk_list_hit ps (w_i s) (w_ratio s) (w_stats s) tr v Hsp Hi Ey)|].
      intros [[p' r] ty] [[[ps' i'] ratio'] stats'] tr1 (-> & -> & -> & L & N & O).
      assert (Hne' : Lst ps' <> Lst []).
      { intros [= ->]. destruct ps; [congruence|discriminate]. }
      destruct (set_in_state_spec s0 (w_new s) w c k (Lst ps') Hsame Hh Hne') as (new' & Enew & Hch & Hke).
      { eapply dget_in_keys. exact Hgk. }
      rewrite (bind_ok _ _ _ _ Enew). rewrite E in Hk.
      destruct (walk_node_none w t (mkWalk new' (w_i s + length ps) (eadd (w_ratio s) r)
        (bump_type ty (w_stats s)) (w_queue s)) tr1 Hk Hl') as [E1 E2].
      rewrite E1. eexists. split; [reflexivity|]. cbn [hit w_new w_i w_ratio w_stats w_queue].
      split; [lia|]. split; auto. split; auto. split; auto.
      eapply st_changed_impl; [|exact Hch]. intros c0 c' Hc0 (-> & A1 & A2 & A3 & A4).
      eapply changed_in; eauto. now constructor.
    + destruct ps as [|p ps]; [congruence|].
      specialize (IH {| w_new := w_new s; w_i := w_i s; w_ratio := w_ratio s; w_stats := w_stats s;
         w_queue := w_queue s ++ enq (places_in w k (p :: ps)) |} tr w' v Hnd' Hg' Hl' Hsame Hi Hv).
      cbn [w_new w_i w_ratio w_stats w_queue] in IH. rewrite enq_places in IH. exact IH.
Qed.
Lemma lists_ok_sane c : sane c -> lists_ok (ps_vals c).
Proof.
  intros Hs k l Hin. assert (Hg : ps_get k c = Some (Lst l)) by (apply dget_in_nodup; auto using sane_nodup).
  split; [eapply sane_nonempty; eauto|]. apply Forall_forall. intros x Hx. eapply sane_get; eauto.
Qed.

(** * The queue *)
(** The states found by breadth-first search. *)
Inductive bfs : list (place * psstate) -> list (place * psstate) -> Prop :=
| bfs_nil : bfs [] []
| bfs_cons w c rest os : bfs (rest ++ next w (ps_vals c)) os ->
    bfs ((w, c) :: rest) (found w (ps_vals c) ++ os).
Definition queue_size (l : list (place * psstate)) : nat := nsum (map (fun wp => ps_size (snd wp)) l).
Definition value_size (v : value) : nat := match v with Lst ps => nsum (map ps_size ps) | _ => O end.
Lemma ps_size_eq n vals attrs cache :
  ps_size (PS n vals attrs cache) = S (nsum (map (fun kv => value_size (snd kv)) vals)).
Proof.
  assert (HE : forall ps, (fix each (q : list psstate) : nat :=
       match q with [] => O | x :: r => ps_size x + each r end)%nat ps = nsum (map ps_size ps)).
  { induction ps as [|x r IH]; [reflexivity|]. rewrite IH. reflexivity. }
  cbn [ps_size]. f_equal. induction vals as [|[k v] t IH]; [reflexivity|].
  change (nsum (map (fun kv => value_size (snd kv)) ((k, v) :: t)))
    with (value_size v + nsum (map (fun kv => value_size (snd kv)) t))%nat.
  rewrite <- IH. f_equal. destruct v; auto. apply HE.
Qed.
Lemma nsum_app a b : nsum (a ++ b) = (nsum a + nsum b)%nat.
Proof. unfold nsum. induction a as [|x a IH]; cbn; [reflexivity|]. rewrite IH. lia. Qed.
Lemma nsum_cons x l : nsum (x :: l) = (x + nsum l)%nat.
Proof. reflexivity. Qed.
Lemma queue_size_app a b : queue_size (a ++ b) = (queue_size a + queue_size b)%nat.
Proof. unfold queue_size. now rewrite map_app, nsum_app. Qed.
Lemma queue_size_places w k ps : queue_size (places_in w k ps) = nsum (map ps_size ps).
Proof.
  unfold queue_size, places_in. rewrite map_map. cbn [snd]. generalize 0%nat as m.
  induction ps as [|p ps IH]; intros m; [reflexivity|]. cbn [length seq combine map snd].
  rewrite !nsum_cons. now rewrite IH.
Qed.
Lemma next_size w vals : (queue_size (next w vals) <= nsum (map (fun kv => value_size (snd kv)) vals))%nat.
Proof.
  induction vals as [|[k v] t IH]; cbn [next map fst snd]; [reflexivity|]. rewrite nsum_cons.
  destruct v as [| | |ps]; cbn [value_size]; try lia.
  destruct (String.eqb k name); [lia|]. rewrite queue_size_app, queue_size_places. lia.
Qed.
Lemma next_smaller w c : (queue_size (next w (ps_vals c)) < ps_size c)%nat.
Proof. destruct c as [n vals attrs cache]. rewrite ps_size_eq. cbn [ps_vals]. pose proof (next_size w vals). lia. Qed.
Lemma queue_size_cons w c rest : queue_size ((w, c) :: rest) = (ps_size c + queue_size rest)%nat.
Proof. reflexivity. Qed.
Lemma bfs_ex : forall m queue, (queue_size queue <= m)%nat -> exists os, bfs queue os.
Proof.
  induction m as [|m IH]; intros [|[w c] rest] H.
  - eexists; constructor.
  - rewrite queue_size_cons in H. pose proof (next_smaller w c). lia.
  - eexists; constructor.
  - rewrite queue_size_cons in H. pose proof (next_smaller w c).
    destruct (IH (rest ++ next w (ps_vals c))) as (os & Hos); [rewrite queue_size_app; lia|].
    eexists. constructor. exact Hos.
Qed.

(** * Counting *)
Definition queue_sane (l : list (place * psstate)) : Prop := Forall (fun wp => sane (snd wp)) l.
Definition kids (l : list (place * psstate)) : list (dict child) := map (fun wp => ps_children (snd wp)) l.
Lemma kids_places w k ps : kids (places_in w k ps) = map ps_children ps.
Proof.
  unfold kids, places_in. rewrite map_map. cbn. generalize 0%nat as m.
  induction ps as [|p ps IH]; intros m; cbn; auto. now rewrite IH.
Qed.
Lemma count_node_spec w vals : forall n queue, lists_ok vals ->
  count_node name (children vals) n queue =
  Ok ((n + length (found w vals))%nat, queue ++ kids (next w vals)).
Proof.
  induction vals as [|[k v] t IH]; intros n queue Hl; cbn [children map fst snd count_node next found].
  - cbn. now rewrite app_nil_r, Nat.add_0_r.
  - pose proof (lists_ok_tl _ _ Hl) as Hl'. change (map _ t) with (children t).
    destruct v as [| | |ps]; cbn [value_child]; try (apply IH; auto).
    destruct (Hl k ps (or_introl eq_refl)) as [Hne _].
    destruct (String.eqb k name).
    + rewrite IH by auto. rewrite app_length, places_len. do 2 f_equal. lia.
    + destruct ps as [|p ps]; [congruence|]. rewrite IH by auto.
      unfold kids. rewrite map_app. fold (kids (places_in w k (p :: ps))). rewrite kids_places, app_assoc.
      reflexivity.
Qed.
Lemma next_inv w vals wp : In wp (next w vals) -> exists k ps j x, In (k, Lst ps) vals /\ k <> name /\
  nth_error ps j = Some x /\ wp = (w ++ [(k, j)], x).
Proof.
  induction vals as [|[k v] t IH]; cbn [next]; [intros []|].
  assert (IH' : In wp (next w t) -> exists k0 ps j x, In (k0, Lst ps) ((k, v) :: t) /\ k0 <> name /\
    nth_error ps j = Some x /\ wp = (w ++ [(k0, j)], x)).
  { intros H. destruct (IH H) as (k0 & ps & j & x & A & B). exists k0, ps, j, x. split; [right|]; auto. }
  destruct v as [| | |ps]; auto. destruct (String.eqb_spec k name) as [E|E]; auto.
  intros H. apply in_app_or in H. destruct H as [H|H]; auto.
  destruct (places_inv _ _ _ _ H) as (j & x & A & B). exists k, ps, j, x. split; [left|]; auto.
Qed.
Lemma next_in w vals k ps j x : In (k, Lst ps) vals -> k <> name -> nth_error ps j = Some x ->
  In (w ++ [(k, j)], x) (next w vals).
Proof.
  intros Hin Hk Hx. induction vals as [|[k' v] t IH]; [destruct Hin|]. cbn [next].
  destruct Hin as [[= -> ->]|Hin].
  - apply String.eqb_neq in Hk. rewrite Hk. apply in_or_app. left.
    eapply nth_error_In. apply places_nth. exact Hx.
  - specialize (IH Hin). destruct v as [| | |ps']; auto. destruct (String.eqb k' name); auto.
    apply in_or_app. auto.
Qed.
Lemma found_inv w vals wp : In wp (found w vals) -> exists ps j x, In (name, Lst ps) vals /\
  nth_error ps j = Some x /\ wp = (w ++ [(name, j)], x).
Proof.
  induction vals as [|[k v] t IH]; cbn [found]; [intros []|].
  assert (IH' : In wp (found w t) -> exists ps j x, In (name, Lst ps) ((k, v) :: t) /\
    nth_error ps j = Some x /\ wp = (w ++ [(name, j)], x)).
  { intros H. destruct (IH H) as (ps & j & x & A & B). exists ps, j, x. split; [right|]; auto. }
  destruct v as [| | |ps]; auto. destruct (String.eqb_spec k name) as [E|E]; auto.
  intros H. apply in_app_or in H. destruct H as [H|H]; auto. subst k.
  destruct (places_inv _ _ _ _ H) as (j & x & A & B). exists ps, j, x. split; [left|]; auto.
Qed.
Lemma found_in w vals ps j x : In (name, Lst ps) vals -> nth_error ps j = Some x ->
  In (w ++ [(name, j)], x) (found w vals).
Proof.
  intros Hin Hx. induction vals as [|[k' v] t IH]; [destruct Hin|]. cbn [found].
  destruct Hin as [[= -> ->]|Hin].
  - rewrite String.eqb_refl. apply in_or_app. left.
    eapply nth_error_In. apply places_nth. exact Hx.
  - specialize (IH Hin). destruct v as [| | |ps']; auto. destruct (String.eqb k' name); auto.
    apply in_or_app. auto.
Qed.
Lemma next_sane w c : sane c -> queue_sane (next w (ps_vals c)).
Proof.
  intros Hs. apply Forall_forall. intros wp Hin.
  destruct (next_inv _ _ _ Hin) as (k & ps & j & x & A & _ & B & ->). cbn.
  destruct (lists_ok_sane c Hs k ps A) as [_ HF]. rewrite Forall_forall in HF. apply HF.
  eapply nth_error_In; eauto.
Qed.
Lemma count_loop_spec queue os : bfs queue os -> forall fuel n, queue_sane queue ->
  (queue_size queue <= fuel)%nat -> count_loop fuel name (kids queue) n = Ok (n + length os)%nat.
Proof.
  intros H. induction H as [|w c rest os H IH]; intros fuel n Hs Hf.
  - destruct fuel; cbn; now rewrite Nat.add_0_r.
  - rewrite queue_size_cons in Hf. pose proof (next_smaller w c).
    inversion Hs as [|? ? Hc Hr]; subst. cbn in Hc.
    destruct fuel as [|f]; [lia|]. cbn [kids map snd count_loop].
    change (ps_children c) with (children (ps_vals c)).
    rewrite (count_node_spec w) by now apply lists_ok_sane. cbn [rbind].
    change (map _ rest) with (kids rest).
    assert (E : kids rest ++ kids (next w (ps_vals c)) = kids (rest ++ next w (ps_vals c)))
      by (symmetry; apply map_app).
    rewrite E, IH.
    + rewrite app_length. f_equal. lia.
    + apply Forall_app. split; auto. now apply next_sane.
    + rewrite queue_size_app. lia.
Qed.

(** * The second loop *)
Definition queue_ok (l : list (place * psstate)) : Prop := Forall (fun wp => st_holds s0 (fst wp) (snd wp)) l.
Lemma st_holds_in w c k l j x : st_holds s0 w c -> ps_get k c = Some (Lst l) -> nth_error l j = Some x ->
  st_holds s0 (w ++ [(k, j)]) x.
Proof.
  intros (k0 & w' & p & -> & E & Hh) Hg Hx. exists k0, (w' ++ [(k, j)]), p. split; auto. split; auto.
  eapply holds_app; eauto. econstructor; eauto. constructor.
Qed.
Lemma next_ok w c : st_holds s0 w c -> queue_ok (next w (ps_vals c)).
Proof.
  intros Hh. apply Forall_forall. intros wp Hin.
  destruct (next_inv _ _ _ Hin) as (k & ps & j & x & A & _ & B & ->). cbn.
  eapply st_holds_in; eauto. apply dget_in_nodup; auto. apply sane_nodup. eapply st_holds_sane; eauto.
Qed.
Lemma get_all c : sane c -> forall k v, In (k, v) (ps_vals c) -> ps_get k c = Some v.
Proof. intros Hs k v Hin. apply dget_in_nodup; auto using sane_nodup. Qed.
Lemma walk_loop_hit queue os : bfs queue os -> forall fuel s tr w' v, queue_ok queue ->
  (queue_size queue <= fuel)%nat -> w_queue s = enq queue -> same_state s0 (w_new s) ->
  (w_i s <= target)%nat -> nth_error os (target - w_i s) = Some (w', v) ->
  follows (hit (w_new s) (w_ratio s) (w_stats s) w') (psp_perturb_ps q v tr) (walk_loop fuel q target s tr).
Proof.
  intros H. induction H as [|w c rest os H IH]; intros fuel s tr w' v Hok Hf Hq Hsame Hi Hv.
  - destruct (target - w_i s)%nat; discriminate.
  - rewrite queue_size_cons in Hf. pose proof (next_smaller w c) as Hsz.
    inversion Hok as [|? ? Hh Hr]; subst. cbn [fst snd] in Hh. pose proof (st_holds_sane _ _ Hh) as Hsc.
    destruct fuel as [|f]; [lia|]. cbn [walk_loop]. rewrite Hq. cbn [enq map fst snd].
    change (map _ rest) with (enq rest). change (ps_children c) with (children (ps_vals c)).
    apply Nat.leb_le in Hi as Hi'. rewrite Hi'.
    set (s1 := mkWalk (w_new s) (w_i s) (w_ratio s) (w_stats s) (enq rest)).
    destruct (Nat.lt_ge_cases (target - w_i s) (length (found w (ps_vals c)))) as [Hlt|Hge].
    + rewrite nth_error_app1 in Hv by auto.
      eapply follows_bind.
      { apply (walk_node_hit w c Hh (ps_vals c) s1 tr w' v); auto using sane_nodup, lists_ok_sane.
        now apply get_all. }
      intros a b t1 Hhit. exists b. split; [|exact Hhit]. destruct a as [[p' r] ty]. cbn in Hhit.
      destruct Hhit as (Hgt & _). destruct f; cbn [walk_loop]; destruct (w_queue b) as [|[w1 l1] r1]; auto;
        apply Nat.leb_gt in Hgt; now rewrite Hgt.
    + rewrite nth_error_app2 in Hv by auto.
      destruct (walk_node_skip w c Hh (ps_vals c) s1 tr) as (new' & E1 & E2 & E3);
        auto using sane_nodup, lists_ok_sane.
      { now apply get_all. }
      { cbn. lia. }
      rewrite (bind_is _ _ _ _ _ E1). cbn [w_i w_new w_ratio w_stats w_queue s1] in E1, E3 |- *.
      set (s2 := mkWalk _ _ _ _ _).
      assert (G : follows (hit (w_new s2) (w_ratio s2) (w_stats s2) w') (psp_perturb_ps q v tr)
                    (walk_loop f q target s2 tr)).
      { apply IH; auto.
        - apply Forall_app. split; auto. now apply next_ok.
        - rewrite queue_size_app. lia.
        - cbn. now rewrite enq_app.
        - cbn. lia.
        - cbn [s2 w_i]. rewrite <- Hv. f_equal. lia. }
      eapply follows_impl; [|exact G]. intros [[p' r] ty] b (B1 & B2 & B3 & B4 & K1 & K2 & K3).
      cbn [s2 w_new w_ratio w_stats] in *. destruct E3 as (L1 & L2 & L3).
      split; auto. split; auto. split; auto. split; auto. repeat split; congruence.
Qed.

(** * The entries of the State *)
Fixpoint root_found (vals : dict ModelState.entry) : list (place * psstate) :=
  match vals with
  | [] => []
  | (k, EPS p) :: t => if String.eqb k name then ([(k, 0%nat)], p) :: root_found t else root_found t
  | _ :: t => root_found t
  end.
Fixpoint root_next (vals : dict ModelState.entry) : list (place * psstate) :=
  match vals with
  | [] => []
  | (k, EPS p) :: t => if String.eqb k name then root_next t else ([(k, 0%nat)], p) :: root_next t
  | _ :: t => root_next t
  end.
Definition root_children (vals : dict ModelState.entry) : dict child := map (fun ke => (fst ke, entry_child (snd ke))) vals.
Lemma root_none vals : ~ In name (dkeys vals) -> root_found vals = [].
Proof.
  induction vals as [|[k [p|d]] t IH]; cbn; auto. intros H.
  destruct (String.eqb_spec k name) as [E|E]; [exfalso; apply H; auto|]. apply IH. tauto.
Qed.
Lemma root_found_inv vals wp : In wp (root_found vals) -> exists p, In (name, EPS p) vals /\ wp = ([(name, 0%nat)], p).
Proof.
  induction vals as [|[k [p|d]] t IH]; cbn; [tauto| |].
  - destruct (String.eqb_spec k name) as [->|E].
    + intros [<-|H]; [eauto|]. destruct (IH H) as (p' & A & B). eauto.
    + intros H. destruct (IH H) as (p' & A & B). eauto.
  - intros H. destruct (IH H) as (p' & A & B). eauto.
Qed.
Lemma root_found_in vals p : In (name, EPS p) vals -> In ([(name, 0%nat)], p) (root_found vals).
Proof.
  induction vals as [|[k [p'|d]] t IH]; cbn; [tauto| |].
  - intros [[= -> ->]|H]; [rewrite String.eqb_refl; cbn; auto|]. destruct (String.eqb k name); cbn; auto.
  - intros [[=]|H]; auto.
Qed.
Lemma root_next_inv vals wp : In wp (root_next vals) ->
  exists k p, In (k, EPS p) vals /\ k <> name /\ wp = ([(k, 0%nat)], p).
Proof.
  induction vals as [|[k [p|d]] t IH]; cbn; [tauto| |].
  - destruct (String.eqb_spec k name) as [E|E].
    + intros H. destruct (IH H) as (k' & p' & A & B). exists k', p'. auto.
    + intros [<-|H]; [eauto 6|]. destruct (IH H) as (k' & p' & A & B). exists k', p'. auto.
  - intros H. destruct (IH H) as (k' & p' & A & B). exists k', p'. auto.
Qed.
Lemma root_next_in vals k p : In (k, EPS p) vals -> k <> name -> In ([(k, 0%nat)], p) (root_next vals).
Proof.
  intros Hin Hk. induction vals as [|[k' [p'|d]] t IH]; cbn; [destruct Hin| |].
  - destruct Hin as [[= -> ->]|H]; [apply String.eqb_neq in Hk; rewrite Hk; cbn; auto|].
    destruct (String.eqb k' name); cbn; auto.
  - destruct Hin as [[=]|H]; auto.
Qed.
Lemma root_count vals : forall n queue, count_node name (root_children vals) n queue =
  Ok ((n + length (root_found vals))%nat, queue ++ kids (root_next vals)).
Proof.
  induction vals as [|[k [p|d]] t IH]; intros n queue; cbn [root_children map fst snd entry_child count_node
    root_found root_next].
  - cbn. now rewrite app_nil_r, Nat.add_0_r.
  - change (map _ t) with (root_children t). destruct (String.eqb k name).
    + rewrite IH. cbn. do 2 f_equal. lia.
    + rewrite IH, <- app_assoc. reflexivity.
  - apply IH.
Qed.
Lemma root_skip vals : forall s tr, (w_i s + length (root_found vals) <= target)%nat \/ root_found vals = [] ->
  walk_node q target [] (root_children vals) s tr =
  Ret (mkWalk (w_new s) (w_i s + length (root_found vals)) (w_ratio s) (w_stats s)
         (w_queue s ++ enq (root_next vals))) tr.
Proof.
  induction vals as [|[k [p|d]] t IH]; intros s tr Hr; cbn [root_children map fst snd entry_child walk_node
    root_found root_next] in *.
  - cbn. rewrite app_nil_r, Nat.add_0_r. now destruct s.
  - change (map _ t) with (root_children t). destruct (String.eqb k name).
    + destruct Hr as [Hr|[=]]. cbn [length] in Hr. destruct (Nat.eqb_spec (w_i s) target); [lia|].
      rewrite IH by (left; cbn; lia). cbn [w_new w_i w_ratio w_stats w_queue length].
      replace (w_i s + S (length (root_found t)))%nat with (S (w_i s) + length (root_found t))%nat by lia.
      reflexivity.
    + rewrite IH by exact Hr. cbn [w_new w_i w_ratio w_stats w_queue enq map fst snd app].
      rewrite <- app_assoc. reflexivity.
  - now apply IH.
Qed.
Lemma root_hit vals : forall s tr w' v, NoDup (dkeys vals) ->
  (forall k e, In (k, e) vals -> st_get k s0 = Some e) ->
  same_state s0 (w_new s) -> (w_i s <= target)%nat ->
  nth_error (root_found vals) (target - w_i s) = Some (w', v) ->
  follows (hit (w_new s) (w_ratio s) (w_stats s) w') (psp_perturb_ps q v tr)
    (walk_node q target [] (root_children vals) s tr).
Proof.
  induction vals as [|[k [p|d]] t IH]; intros s tr w' v Hnd Hg Hsame Hi Hv;
    cbn [root_children map fst snd entry_child walk_node root_found] in *.
  - destruct (target - w_i s)%nat; discriminate.
  - change (map _ t) with (root_children t). inversion Hnd as [|? ? Hk Hnd']; subst.
    pose proof (Hg k (EPS p) (or_introl eq_refl)) as Hgk.
    destruct (String.eqb_spec k name) as [E|E].
    + rewrite E in Hk. pose proof (root_none t Hk) as Et. rewrite Et in Hv.
      destruct (target - w_i s)%nat as [|m] eqn:Em; [|destruct m; discriminate].
      cbn in Hv. injection Hv as <- <-. destruct (Nat.eqb_spec (w_i s) target); [|lia].
      eapply follows_bind with (rel := eq).
      { destruct (psp_perturb_ps q p tr); cbn; auto. }
      intros a b t1 <-. destruct a as [[p' r] ty]. rewrite root_skip by (right; exact Et).
      eexists. split; [reflexivity|]. cbn [hit w_new w_i w_ratio w_stats w_queue].
      split; [lia|]. split; auto. split; auto. apply (st_set_spec s0 (w_new s) k p p' Hsame Hgk).
    + specialize (IH (mkWalk (w_new s) (w_i s) (w_ratio s) (w_stats s)
        (w_queue s ++ [([] ++ [(k, 0%nat)], ps_children p)])) tr w' v). apply IH; auto.
      intros; apply Hg; cbn; auto.
  - inversion Hnd as [|? ? Hk Hnd']; subst. apply IH; auto. intros; apply Hg; cbn; auto.
Qed.

(** * All places, each once *)
Definition apart (a b : place) : Prop := forall u v, a ++ u <> b ++ v.
Lemma apart_app a b x y : apart a b -> apart (a ++ x) (b ++ y).
Proof. intros H u v. rewrite <- !app_assoc. apply H. Qed.
Lemma apart_app_l a b x : apart a b -> apart (a ++ x) b.
Proof. intros H u v. rewrite <- app_assoc. apply H. Qed.
Lemma apart_app_r a b x : apart a b -> apart a (b ++ x).
Proof. intros H u v. rewrite <- app_assoc. apply H. Qed.
Lemma apart_last w a b : a <> b -> apart (w ++ [a]) (w ++ [b]).
Proof. intros H u v. rewrite <- !app_assoc. intros E. apply app_inv_head in E. cbn in E. congruence. Qed.
Lemma apart_sym a b : apart a b -> apart b a.
Proof. intros H u v E. apply (H v u). auto. Qed.
Definition all_apart (l : list (place * psstate)) : Prop := ForallOrdPairs apart (map fst l).
Lemma fop_app {A} (P : A -> A -> Prop) l l' : ForallOrdPairs P l -> ForallOrdPairs P l' ->
  (forall a b, In a l -> In b l' -> P a b) -> ForallOrdPairs P (l ++ l').
Proof.
  intros H. induction H as [|a l Ha H IH]; cbn; intros H' Hx; auto. constructor.
  - apply Forall_app. split; auto. apply Forall_forall. intros b Hb. apply Hx; auto.
  - apply IH; auto.
Qed.
Lemma places_apart w k ps : all_apart (places_in w k ps).
Proof.
  unfold all_apart, places_in. rewrite map_map. cbn. generalize 0%nat as m.
  induction ps as [|p ps IH]; intros m; cbn; [constructor|]. constructor; auto.
  apply Forall_forall. intros b Hb. apply in_map_iff in Hb. destruct Hb as ([i x] & <- & Hin). cbn.
  apply apart_last. apply in_combine_l in Hin. apply in_seq in Hin. intros [= ?]. lia.
Qed.
Lemma next_apart w vals : NoDup (dkeys vals) -> all_apart (next w vals).
Proof.
  induction vals as [|[k v] t IH]; intros Hnd; cbn [next]; [constructor|].
  inversion Hnd as [|? ? Hk Hnd']; subst.
  destruct v as [| | |ps]; auto. destruct (String.eqb k name); auto.
  unfold all_apart. rewrite map_app. apply fop_app; [apply places_apart|now apply IH|].
  intros a b Ha Hb. apply in_map_iff in Ha. destruct Ha as (wa & <- & Ha).
  apply in_map_iff in Hb. destruct Hb as (wb & <- & Hb).
  destruct (places_inv _ _ _ _ Ha) as (j & x & _ & ->). cbn.
  destruct (next_inv _ _ _ Hb) as (k' & ps' & j' & x' & Hin & _ & _ & ->). cbn.
  apply apart_last. intros [= E1 E2]. subst k'. apply Hk. apply (in_dkeys _ _ _ Hin).
Qed.
Lemma found_nodup w vals : NoDup (dkeys vals) -> NoDup (map fst (found w vals)).
Proof.
  induction vals as [|[k v] t IH]; intros Hnd; cbn [found]; [constructor|].
  inversion Hnd as [|? ? Hk Hnd']; subst.
  destruct v as [| | |ps]; auto. destruct (String.eqb_spec k name) as [E|E]; auto.
  rewrite map_app. assert (Ef : found w t = []).
  { destruct (found w t) as [|wp l] eqn:Ef; auto. exfalso. assert (Hin : In wp (found w t)) by (rewrite Ef; cbn; auto).
    destruct (found_inv _ _ _ Hin) as (ps' & j & x & A & _). apply Hk. subst k. apply (in_dkeys _ _ _ A). }
  rewrite Ef, app_nil_r. unfold places_in. rewrite map_map. cbn. clear. generalize 0%nat as m.
  induction ps as [|p ps IH]; intros m; cbn; constructor; auto.
  intros Hin. apply in_map_iff in Hin. destruct Hin as ([i x] & E & Hin). cbn in E.
  apply app_inv_head in E. apply in_combine_l in Hin. apply in_seq in Hin. injection E as ->. lia.
Qed.
Lemma bfs_char queue os : bfs queue os -> queue_sane queue -> forall w p,
  In (w, p) os <-> exists w1 c w2, In (w1, c) queue /\ w = w1 ++ w2 /\ stored name w2 /\ holds_at c w2 p.
Proof.
  intros H. induction H as [|w1 c rest os H IH]; intros Hs w p.
  - split; [intros []|intros (w1 & c & w2 & [] & _)].
  - inversion Hs as [|? ? Hc Hr]; subst. cbn in Hc.
    assert (Hsn : queue_sane (rest ++ next w1 (ps_vals c))) by (apply Forall_app; split; [exact Hr|now apply next_sane]).
    rewrite in_app_iff, (IH Hsn). split.
    + intros [Hf|(w2 & c2 & w3 & Hin & -> & Hst & Hh)].
      * destruct (found_inv _ _ _ Hf) as (ps & j & x & A & B & [= -> ->]).
        exists w1, c, [(name, j)]. split; [left; auto|]. split; auto. split; [exists [], j; cbn; auto|].
        econstructor; [|exact B|constructor]. now apply get_all.
      * apply in_app_or in Hin. destruct Hin as [Hin|Hin].
        -- exists w2, c2, w3. split; [right; auto|auto].
        -- destruct (next_inv _ _ _ Hin) as (k & ps & j & x & A & B & C & [= -> ->]).
           exists w1, c, ((k, j) :: w3). split; [left; auto|]. split; [now rewrite <- app_assoc|]. split.
           ++ destruct Hst as (w0 & i & -> & Hn). exists ((k, j) :: w0), i. split; auto.
              cbn. intros [E|E]; auto.
           ++ econstructor; eauto. now apply get_all.
    + intros (w2 & c2 & w3 & [[= -> ->]|Hin] & -> & Hst & Hh).
      * destruct Hst as (w0 & i & -> & Hn). destruct w0 as [|[k j] w0].
        -- left. cbn in Hh |- *. inversion Hh as [|? ? ? l x ? ? A B C]; subst. inversion C; subst.
           eapply found_in; eauto. apply dget_some_in. exact A.
        -- right. cbn in Hh. inversion Hh as [|? ? ? l x ? ? A B C]; subst.
           exists (w2 ++ [(k, j)]), x, (w0 ++ [(name, i)]). split; [|split; [|split]].
           ++ apply in_or_app. right. eapply next_in; eauto; [apply dget_some_in; exact A|].
              intros ->. apply Hn. cbn. auto.
           ++ now rewrite <- app_assoc.
           ++ exists w0, i. split; auto. intros Hw. apply Hn. cbn. auto.
           ++ exact C.
      * right. exists w2, c2, w3. split; [apply in_or_app; auto|auto].
Qed.
Lemma nodup_app {A} (l l' : list A) : NoDup l -> NoDup l' -> (forall x, In x l -> ~ In x l') -> NoDup (l ++ l').
Proof.
  intros H. induction H as [|a l Ha H IH]; cbn; intros H' Hx; auto. constructor.
  - rewrite in_app_iff. intros [?|?]; auto. apply (Hx a); auto.
  - apply IH; auto.
Qed.
Lemma fop_in {A} (P : A -> A -> Prop) a l : ForallOrdPairs P (a :: l) -> (forall b, In b l -> P a b) /\ ForallOrdPairs P l.
Proof. intros H. inversion H as [|? ? H1 H2]; subst. rewrite Forall_forall in H1. auto. Qed.
Lemma bfs_nodup queue os : bfs queue os -> queue_sane queue -> all_apart queue -> NoDup (map fst os).
Proof.
  intros H. induction H as [|w1 c rest os H IH]; intros Hs Ha; [constructor|].
  inversion Hs as [|? ? Hc Hr]; subst. cbn in Hc.
  assert (Hsn : queue_sane (rest ++ next w1 (ps_vals c))) by (apply Forall_app; split; [exact Hr|now apply next_sane]).
  destruct (fop_in _ _ _ Ha) as [Ha1 Ha2].
  assert (Hap : all_apart (rest ++ next w1 (ps_vals c))).
  { unfold all_apart. rewrite map_app. apply fop_app; auto.
    - apply next_apart. now apply sane_nodup.
    - intros a b Hia Hib. apply in_map_iff in Hib. destruct Hib as (wb & <- & Hb).
      destruct (next_inv _ _ _ Hb) as (k' & ps' & j' & x' & _ & _ & _ & ->). cbn.
      apply apart_app_r, apart_sym, Ha1, Hia. }
  rewrite map_app. apply nodup_app; auto.
  - apply found_nodup. now apply sane_nodup.
  - intros w Hw Hw'. apply in_map_iff in Hw. destruct Hw as (wf & <- & Hf).
    destruct (found_inv _ _ _ Hf) as (ps & j & x & _ & _ & ->). cbn in Hw'.
    apply in_map_iff in Hw'. destruct Hw' as ([w p] & E & Ho). cbn in E. subst w.
    apply (bfs_char _ _ H Hsn) in Ho. destruct Ho as (w2 & c2 & w3 & Hin & E & _).
    apply in_app_or in Hin. destruct Hin as [Hin|Hin].
    + apply (Ha1 w2) in E; auto. apply in_map_iff. exists (w2, c2). auto.
    + destruct (next_inv _ _ _ Hin) as (k & ps' & j' & x' & _ & Hk & _ & [= -> ->]).
      assert (A : apart (w1 ++ [(name, j)]) (w1 ++ [(k, j')])) by (apply apart_last; congruence).
      apply (A [] w3). now rewrite app_nil_r.
Qed.
End Walk.

(** * Copies of States *)
Lemma dset_id {A} k (v : A) d : dget k d = Some v -> dset k v d = d.
Proof.
  induction d as [|[k' v'] t IH]; cbn; [discriminate|]. destruct (String.eqb_spec k k') as [->|]; intros H.
  - congruence.
  - now rewrite IH.
Qed.
Lemma mk_state_spec vals t c : NoDup (dkeys vals) ->
  mk_state vals t c = mkState vals vals t c [].
Proof.
  intros Hnd. unfold mk_state.
  assert (G : forall todo pre, vals = pre ++ todo -> NoDup (dkeys (pre ++ todo)) ->
    fold_left (fun s ke => st_set (fst ke) (snd ke) s) todo (mkState vals pre t c []) =
    mkState vals vals t c []).
  { induction todo as [|[k e] todo IH]; intros pre E Hn; cbn [fold_left].
    - rewrite app_nil_r in E. now subst.
    - unfold st_set. cbn [fst snd st_vals st_attrs st_temp st_cache st_extra].
      rewrite dset_id by (apply dget_in_nodup; auto; rewrite E; apply in_or_app; cbn; auto).
      rewrite dset_fresh.
      + apply IH; rewrite <- app_assoc; auto.
      + unfold dkeys in Hn. rewrite map_app in Hn. apply NoDup_remove_2 in Hn.
        intros Hin. apply Hn. apply in_or_app. auto. }
  apply (G vals []); auto.
Qed.
Lemma st_copy_spec s : sane_state s -> exists vals, st_copy false s = Ok (mkState vals vals (st_temp s) [] []) /\
  same_state s (mkState vals vals (st_temp s) [] []) /\
  (forall k p, dget k vals = Some (EPS p) -> exists p0, st_get k s = Some (EPS p0) /\ ps_copy p0 = Ok p).
Proof.
  intros [Hnd Hs]. unfold st_copy.
  assert (G : exists vals, rmap (fun ke => e <-? entry_copy (snd ke) ;; Ok (fst ke, e)) (st_vals s) = Ok vals /\
     map (fun ke => (fst ke, view_entry (snd ke))) vals = view_state s /\
     (forall k p, dget k vals = Some (EPS p) -> exists p0, dget k (st_vals s) = Some (EPS p0) /\ ps_copy p0 = Ok p)).
  { unfold view_state. revert Hs. generalize (st_vals s) as d. clear. induction d as [|[k e] d IH]; intros Hs.
    - exists []. cbn. split; auto. split; auto. discriminate.
    - destruct IH as (vals & E1 & E2 & E3); [intros k0 p0 Hin; apply (Hs k0); right; auto|].
      destruct e as [p|d0].
      + destruct (ps_copy_spec p (Hs k p (or_introl eq_refl))) as (p' & Ep & Vp & _).
        exists ((k, EPS p') :: vals). cbn. rewrite Ep. cbn. rewrite E1. cbn. rewrite E2, Vp.
        split; auto. split; auto. intros k0 p0. destruct (k0 =? k)%string; [|apply E3].
        intros [= <-]. eauto.
      + exists ((k, ENoise d0) :: vals). cbn. rewrite E1. cbn. rewrite E2.
        split; auto. split; auto. intros k0 p0. destruct (k0 =? k)%string; [discriminate|apply E3]. }
  destruct G as (vals & E1 & E2 & E3). rewrite E1. cbn [rbind]. exists vals.
  rewrite mk_state_spec.
  - split; auto.
  - assert (E : dkeys vals = dkeys (st_vals s)).
    { rewrite <- (view_state_keys s), <- E2. symmetry. apply dkeys_map. }
    now rewrite E.
Qed.

(** * The whole perturbation *)
Definition places_of (name : string) (s : state) (os : list (place * psstate)) : Prop :=
  NoDup (map fst os) /\ forall w p, In (w, p) os <-> stored name w /\ st_holds s w p.
Definition one_changed (s : state) (w : place) (a : psstate * ext * string) (b : state * ext) : Prop :=
  let '(p', r, ty) := a in
  let '(s', r') := b in
  r' = r /\ st_changed_at (fun _ x => x = p') w s s' /\ st_temp s' = st_temp s /\ st_extra s' = [] /\
  st_cache s' = [("perturb_stats"%string, CStats [(ty, 1)])].
Theorem psp_spec q s : sane_state s -> exists os, places_of (psp_space q) s os /\
  (forall tr, os = [] -> psp_perturb q s tr = Err EValue tr) /\
  (forall tr x tr', psp_perturb q s tr = Ret x tr' -> exists t tr1, tr = DInt t :: tr1 /\ (t < length os)%nat) /\
  (forall t tr w p, nth_error os t = Some (w, p) ->
     follows (one_changed s w) (psp_perturb_ps q p tr) (psp_perturb q s (DInt t :: tr))).
Proof.
  intros Hs. pose proof Hs as [Hnd Hsub].
  set (rf := root_found q (st_vals s)). set (rn := root_next q (st_vals s)).
  destruct (bfs_ex q (queue_size rn) rn (le_n _)) as (os & Hbfs).
  assert (Hget : forall k e, In (k, e) (st_vals s) -> st_get k s = Some e)
    by (intros; apply dget_in_nodup; auto).
  assert (Hrn : queue_ok s rn).
  { apply Forall_forall. intros wp Hin. destruct (root_next_inv _ _ _ Hin) as (k & p & A & _ & ->).
    exists k, [], p. split; auto. split; auto. constructor. }
  assert (Hrs : queue_sane rn).
  { apply Forall_forall. intros wp Hin. destruct (root_next_inv _ _ _ Hin) as (k & p & A & _ & ->).
    cbn. eauto. }
  assert (Hap : all_apart rn).
  { subst rn. clear - Hnd. induction (st_vals s) as [|[k [p|d]] t IH]; cbn [root_next]; [constructor| |];
      inversion Hnd as [|? ? Hk Hnd']; subst; auto.
    destruct (String.eqb k (psp_space q)); auto. constructor; [|now apply IH].
    apply Forall_forall. intros b Hb. apply in_map_iff in Hb. destruct Hb as (wb & <- & Hb).
    destruct (root_next_inv _ _ _ Hb) as (k' & p' & A & _ & ->). cbn.
    apply (apart_last []). intros [= ->]. apply Hk. apply (in_dkeys _ _ _ A). }
  assert (Hsize : (S (queue_size rn) <= st_size s)%nat).
  { subst rn. unfold st_size. clear. induction (st_vals s) as [|[k [p|d]] t IH]; cbn [root_next map snd]; auto.
    - rewrite nsum_cons. destruct (String.eqb k (psp_space q)); [lia|]. rewrite queue_size_cons. lia. }
  exists (rf ++ os). split; [split|split; [|split]].
  - rewrite map_app. apply nodup_app.
    + subst rf. clear - Hnd. induction (st_vals s) as [|[k [p|d]] t IH]; cbn [root_found]; [constructor| |];
        inversion Hnd as [|? ? Hk Hnd']; subst; auto.
      destruct (String.eqb_spec k (psp_space q)) as [E|E]; auto. subst k.
      rewrite root_none by auto. cbn. repeat constructor. intros [].
    + eapply bfs_nodup; eauto.
    + intros w Hw Hw'. apply in_map_iff in Hw. destruct Hw as (wf & <- & Hf).
      destruct (root_found_inv _ _ _ Hf) as (p & _ & ->). cbn in Hw'.
      apply in_map_iff in Hw'. destruct Hw' as ([w p0] & E & Ho). cbn in E. subst w.
      apply (bfs_char q rn os Hbfs Hrs) in Ho. destruct Ho as (w2 & c2 & w3 & Hin & E & _).
      destruct (root_next_inv _ _ _ Hin) as (k & p' & _ & Hk & [= -> ->]). cbn in E. congruence.
  - intros w p. rewrite in_app_iff, (bfs_char q rn os Hbfs Hrs). split.
    + intros [Hf|(w1 & c & w2 & Hin & -> & (w0 & i & -> & Hn) & Hh)].
      * destruct (root_found_inv _ _ _ Hf) as (p0 & A & [= -> ->]). split.
        -- exists [], 0%nat. cbn. auto.
        -- exists (psp_space q), [], p0. split; auto. split; auto. constructor.
      * destruct (root_next_inv _ _ _ Hin) as (k & p' & A & Hk & [= -> ->]). split.
        -- exists ((k, 0%nat) :: w0), i. split; auto. cbn. intros [E|E]; auto.
        -- exists k, (w0 ++ [(psp_space q, i)]), p'. split; auto.
    + intros [(w0 & i & -> & Hn) (k & w' & p0 & E & Hg & Hh)]. destruct w0 as [|[k0 i0] w0]; cbn in E.
      * injection E as <- -> <-. inversion Hh; subst. left. apply root_found_in. now apply dget_some_in.
      * injection E as -> -> <-. right. exists [(k, 0%nat)], p0, (w0 ++ [(psp_space q, i)]).
        split; [|split; [|split]]; auto.
        -- apply root_next_in; [now apply dget_some_in|]. intros ->. apply Hn. cbn. auto.
        -- exists w0, i. split; auto. intros Hw. apply Hn. cbn. auto.
  - (* nothing to perturb *)
    intros tr E. unfold psp_perturb. destruct (st_copy_spec s Hs) as (vals & Ec & _).
    rewrite (bind_ok _ _ _ _ Ec).
    assert (En : count_loop (st_size s) (psp_space q) [st_children s] 0 = Ok (length (rf ++ os))).
    { destruct (st_size s) as [|f] eqn:Ef; [lia|]. cbn [count_loop].
      change (st_children s) with (root_children (st_vals s)). rewrite root_count. cbn [rbind app].
      rewrite (count_loop_spec q rn os Hbfs f) by (auto; lia). rewrite app_length. reflexivity. }
    rewrite (bind_ok _ _ _ _ En), E. reflexivity.
  - intros tr x tr' H. unfold psp_perturb in H. destruct (st_copy_spec s Hs) as (vals & Ec & _).
    rewrite (bind_ok _ _ _ _ Ec) in H.
    assert (En : count_loop (st_size s) (psp_space q) [st_children s] 0 = Ok (length (rf ++ os))).
    { destruct (st_size s) as [|f] eqn:Ef; [lia|]. cbn [count_loop].
      change (st_children s) with (root_children (st_vals s)). rewrite root_count. cbn [rbind app].
      rewrite (count_loop_spec q rn os Hbfs f) by (auto; lia). rewrite app_length. reflexivity. }
    rewrite (bind_ok _ _ _ _ En) in H. mb H as t Et. apply randint_below_inv in Et.
    destruct Et as [Ht ->]. eauto.
  - intros t tr w p Hn. unfold psp_perturb. destruct (st_copy_spec s Hs) as (vals & Ec & Hsame & _).
    rewrite (bind_ok _ _ _ _ Ec).
    assert (En : count_loop (st_size s) (psp_space q) [st_children s] 0 = Ok (length (rf ++ os))).
    { destruct (st_size s) as [|f] eqn:Ef; [lia|]. cbn [count_loop].
      change (st_children s) with (root_children (st_vals s)). rewrite root_count. cbn [rbind app].
      rewrite (count_loop_spec q rn os Hbfs f) by (auto; lia). rewrite app_length. reflexivity. }
    rewrite (bind_ok _ _ _ _ En).
    assert (Ht : (t < length (rf ++ os))%nat) by (eapply nth_error_some_lt; eauto).
    rewrite (bind_is _ _ t _ tr) by now apply randint_below_ok.
    set (new := mkState vals vals (st_temp s) [] []) in *.
    set (s1 := mkWalk new 0 (Fin 0) [] [([], st_children s)]).
    assert (G : follows (hit t s new (Fin 0) [] w) (psp_perturb_ps q p tr)
                  (walk_loop (st_size s) q t s1 tr)).
    { destruct (st_size s) as [|f] eqn:Ef; [lia|]. cbn [walk_loop s1 w_queue w_i Nat.leb].
      change (st_children s) with (root_children (st_vals s)).
      set (s2 := mkWalk _ _ _ _ _).
      destruct (Nat.lt_ge_cases t (length rf)) as [Hlt|Hge].
      - rewrite nth_error_app1 in Hn by auto.
        eapply follows_bind.
        { apply (root_hit q t s (st_vals s) s2 tr w p); auto.
          - cbn. lia.
          - cbn. rewrite Nat.sub_0_r. exact Hn. }
        intros a b t1 Hhit. exists b. split; [|exact Hhit]. destruct a as [[p' r] ty]. cbn in Hhit.
        destruct Hhit as (Hgt & _). destruct f; cbn [walk_loop]; destruct (w_queue b) as [|[w1 l1] r1]; auto;
          apply Nat.leb_gt in Hgt; now rewrite Hgt.
      - rewrite nth_error_app2 in Hn by auto.
        rewrite (bind_is _ _ _ _ _ (root_skip q t (st_vals s) s2 tr (or_introl Hge))).
        cbn [s2 s1 w_new w_i w_ratio w_stats w_queue app Nat.add].
        apply (walk_loop_hit q t s Hs rn os Hbfs f
          (mkWalk new (length (root_found q (st_vals s))) (Fin 0) [] (enq (root_next q (st_vals s)))) tr w p);
          auto; lia. }
    eapply follows_bind; [exact G|].
    intros [[p' r] ty] b tr1 (_ & Hr & Hst & Hch & K1 & K2 & K3).
    eexists. split; [reflexivity|]. rewrite Hr, Hst. cbn [one_changed bump_type dget dset map fst snd].
    split; [apply eadd_0_l|]. split; [exact Hch|].
    split; [exact K1|]. split; [exact K3|]. cbn [st_save_cache st_cache]. rewrite K2. cbn.
    do 5 f_equal. lra.
Qed.
