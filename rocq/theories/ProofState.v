(** Proofs about the model of _state.py. *)
From Verif Require Import Base ModelState SpecState ProofUtils1D ProofChain ProofChainC.
Local Open Scope R_scope.

(** * Results *)
Lemma rbind_ok {A B} (m : res A) (f : A -> res B) b :
  rbind m f = Ok b -> exists a, m = Ok a /\ f a = Ok b.
Proof. destruct m; cbn; try discriminate. eauto. Qed.
Ltac rinv :=
  repeat match goal with
  | H : rbind _ _ = Ok _ |- _ =>
      let a := fresh "a" in let H1 := fresh "H" in let H2 := fresh "H" in
      apply rbind_ok in H; destruct H as (a & H1 & H2)
  | H : Ok _ = Ok _ |- _ => injection H as H
  | H : Raise _ = Ok _ |- _ => discriminate H
  | H : Undef = Ok _ |- _ => discriminate H
  end.
Lemma rmap_ok {A B} (f : A -> res B) l l' :
  rmap f l = Ok l' <-> Forall2 (fun a b => f a = Ok b) l l'.
Proof.
  revert l'. induction l as [|x l IH]; intros l'; cbn.
  - split; [intros [= <-]; constructor|intros H; inversion H; auto].
  - split.
    + intros H. rinv. subst. constructor; auto. now apply IH.
    + intros H. inversion H as [|x' y l1 l2 H1 H2]; subst. rewrite H1. cbn.
      apply IH in H2. now rewrite H2.
Qed.
Lemma idx_ok {A} (l : list A) i a : idx l i = Ok a <-> nth_error l i = Some a.
Proof. unfold idx. destruct (nth_error l i); split; congruence. Qed.
Lemma pick_ok {A} (l : list A) is l' :
  pick l is = Ok l' <-> Forall2 (fun i a => nth_error l i = Some a) is l'.
Proof.
  unfold pick. rewrite rmap_ok. split; intros H; induction H; constructor; auto; now apply idx_ok.
Qed.

(** * Dictionaries *)
Lemma dset_fresh {A} k (v : A) d : ~ In k (dkeys d) -> dset k v d = d ++ [(k, v)].
Proof.
  unfold dkeys. induction d as [|[k' v'] d IH]; cbn; intros H; auto.
  destruct (String.eqb_spec k k'); [subst; tauto|]. rewrite IH; tauto.
Qed.
Lemma dset_same {A} k (v : A) d : NoDup (dkeys d) -> In (k, v) d -> dset k v d = d.
Proof.
  unfold dkeys. induction d as [|[k' v'] d IH]; cbn; intros Hn Hin; [tauto|].
  inversion Hn as [|? ? H1 H2]; subst. destruct (String.eqb_spec k k').
  - subst. destruct Hin as [E|Hin]; [congruence|].
    exfalso. apply H1. apply in_map_iff. exists (k', v). auto.
  - destruct Hin as [E|Hin]; [congruence|]. f_equal. auto.
Qed.
Lemma dkeys_dset_in {A} k (v : A) d : In k (dkeys d) -> dkeys (dset k v d) = dkeys d.
Proof.
  unfold dkeys. induction d as [|[k' v'] d IH]; cbn; intros H; [tauto|].
  destruct (String.eqb_spec k k'); cbn; [now subst|]. f_equal. apply IH. intuition congruence.
Qed.
Lemma dget_some_in {A} k (v : A) d : dget k d = Some v -> In (k, v) d.
Proof.
  induction d as [|[k' v'] d IH]; cbn; [discriminate|].
  destruct (String.eqb_spec k k'); [intros [= ->]; subst; auto|auto].
Qed.
Lemma dget_none {A} k (d : dict A) : dget k d = None <-> ~ In k (dkeys d).
Proof.
  unfold dkeys. induction d as [|[k' v'] d IH]; cbn; [tauto|].
  destruct (String.eqb_spec k k').
  - subst. split; [discriminate|]. intros H. exfalso. auto.
  - rewrite IH. intuition congruence.
Qed.
Lemma dget_keys {A} k (d : dict A) : In k (dkeys d) -> exists v, dget k d = Some v.
Proof.
  intros H. destruct (dget k d) eqn:E; eauto. apply dget_none in E. tauto.
Qed.
Lemma in_dkeys {A} k (v : A) d : In (k, v) d -> In k (dkeys d).
Proof. intros H. apply in_map_iff. exists (k, v). auto. Qed.
Lemma dget_map {A B} (f : A -> B) k (d : dict A) :
  dget k (map (fun kv => (fst kv, f (snd kv))) d) = option_map f (dget k d).
Proof.
  induction d as [|[k' v'] d IH]; cbn; auto. destruct (String.eqb k k'); auto.
Qed.
Lemma dkeys_map {A B} (f : A -> B) (d : dict A) :
  dkeys (map (fun kv => (fst kv, f (snd kv))) d) = dkeys d.
Proof. unfold dkeys. rewrite map_map. apply map_ext. auto. Qed.

(** * The view *)
Lemma view_eq n vals attrs cache : view (PS n vals attrs cache) = PS n (view_vals vals) [] [].
Proof.
  assert (HE : forall ps, (fix each (q : list psstate) : list psstate :=
       match q with [] => [] | x :: r => view x :: each r end) ps = map view ps).
  { induction ps; cbn; congruence. }
  cbn [view]. f_equal. unfold view_vals.
  induction vals as [|[k v] t IH]; [reflexivity|]. cbn [map fst snd]. rewrite <- IH.
  destruct v; cbn [view_value]; rewrite ?HE; reflexivity.
Qed.
Lemma view_n p : ps_n (view p) = ps_n p.
Proof. destruct p. now rewrite view_eq. Qed.
Lemma view_ps_vals p : ps_vals (view p) = view_vals (ps_vals p).
Proof. destruct p. now rewrite view_eq. Qed.
Lemma view_get k p : ps_get k (view p) = option_map view_value (ps_get k p).
Proof. unfold ps_get. rewrite view_ps_vals. apply dget_map. Qed.
Lemma view_same p q : view p = view q <-> ps_n p = ps_n q /\ view_vals (ps_vals p) = view_vals (ps_vals q).
Proof.
  destruct p, q. rewrite !view_eq. cbn [ps_n ps_vals]. split; [intros [= -> ->]; auto|intros [-> ->]; auto].
Qed.
Lemma view_keys l : dkeys (view_vals l) = dkeys l.
Proof. apply dkeys_map. Qed.
Lemma view_value_len v : value_len (view_value v) = value_len v.
Proof. destruct v; cbn; auto using map_length. Qed.
Lemma view_states v : states_in (view_value v) = map view (states_in v).
Proof. destruct v; reflexivity. Qed.

(** * Induction on nested states *)
Fixpoint psize (p : psstate) : nat :=
  match p with
  | PS _ vals _ _ =>
      S ((fix go (l : list (string * value)) : nat :=
            match l with
            | [] => O
            | (_, v) :: t =>
                (match v with
                 | Lst ps | AObj ps => (fix each (q : list psstate) : nat :=
                                match q with [] => O | x :: r => psize x + each r end) ps
                 | _ => O
                 end + go t)%nat
            end) vals)
  end.
Lemma psize_in n vals attrs cache k v q :
  In (k, v) vals -> In q (states_in v) -> (psize q < psize (PS n vals attrs cache))%nat.
Proof.
  intros Hk Hq. cbn [psize]. apply -> Nat.lt_succ_r.
  assert (HE : forall ps, In q ps -> (psize q <= (fix each (q : list psstate) : nat :=
       match q with [] => O | x :: r => psize x + each r end) ps)%nat).
  { induction ps as [|x ps IH]; cbn; [tauto|]. intros [<-|H]; [lia|]. specialize (IH H). lia. }
  induction vals as [|[k' v'] t IH]; cbn in Hk; [tauto|].
  destruct Hk as [[= -> ->]|Hk].
  - destruct v; cbn in Hq; try tauto; apply HE in Hq; lia.
  - specialize (IH Hk). lia.
Qed.
Lemma psstate_ind' (P : psstate -> Prop) :
  (forall n vals attrs cache,
     (forall k v q, In (k, v) vals -> In q (states_in v) -> P q) -> P (PS n vals attrs cache)) ->
  forall p, P p.
Proof.
  intros H p. remember (psize p) as m eqn:E. revert p E.
  induction m as [m IH] using (well_founded_induction lt_wf). intros [n vals attrs cache] E.
  apply H. intros k v q Hk Hq. eapply IH; [|reflexivity]. subst. eapply psize_in; eauto.
Qed.

(** * Construction *)
Lemma post_init_spec n vals todo pre p :
  NoDup (dkeys (pre ++ todo)) -> vals = pre ++ todo ->
  post_init todo (PS n vals pre []) = Ok p ->
  p = PS n vals vals [] /\ (forall k v, In (k, v) todo -> value_len v = n /\ v <> Lst []).
Proof.
  intros Hn -> H. revert pre Hn H. induction todo as [|[k v] t IH]; intros pre Hn H; cbn in H.
  - injection H as <-. rewrite app_nil_r. split; [reflexivity|]. intros ? ? [].
  - destruct (value_len v =? n)%nat eqn:E; [|discriminate]. apply Nat.eqb_eq in E. cbn in H. rinv.
    unfold ps_set in H0. assert (Hv : v <> Lst []).
    { intros ->. discriminate. }
    assert (H0' : Ok (PS n (dset k v (pre ++ (k, v) :: t)) (dset k v pre) []) = Ok a).
    { destruct v as [| | |[|]]; auto; congruence. }
    injection H0' as <-. clear H0.
    rewrite dset_same in H1; [|exact Hn|apply in_or_app; right; left; auto].
    rewrite dset_fresh in H1.
    2:{ unfold dkeys in *. rewrite map_app in Hn. cbn in Hn. apply NoDup_remove_2 in Hn.
        intros Hin. apply Hn. apply in_or_app. auto. }
    replace (pre ++ (k, v) :: t) with ((pre ++ [(k, v)]) ++ t) in * by (rewrite <- app_assoc; reflexivity).
    destruct (IH (pre ++ [(k, v)]) Hn H1) as [-> Hl]. split; [reflexivity|].
    intros k' v' [[= <- <-]|Hin]; auto. eapply Hl; eauto.
Qed.
Lemma mk_ps_ok n vals p : NoDup (dkeys vals) -> mk_ps n vals = Ok p ->
  p = PS n vals vals [] /\ (forall k v, In (k, v) vals -> value_len v = n /\ v <> Lst []).
Proof. intros Hn H. eapply (post_init_spec n vals vals []); eauto. Qed.
Lemma post_init_complete n vals todo pre :
  NoDup (dkeys (pre ++ todo)) -> vals = pre ++ todo ->
  (forall k v, In (k, v) todo -> value_len v = n /\ v <> Lst []) ->
  post_init todo (PS n vals pre []) = Ok (PS n vals vals []).
Proof.
  intros Hn -> H. revert pre Hn. induction todo as [|[k v] t IH]; intros pre Hn; cbn.
  - now rewrite app_nil_r.
  - destruct (H k v (or_introl eq_refl)) as [H1 H2]. rewrite (proj2 (Nat.eqb_eq _ _) H1). cbn.
    assert (E : ps_set k v (PS n (pre ++ (k, v) :: t) pre []) =
       Ok (PS n (dset k v (pre ++ (k, v) :: t)) (dset k v pre) [])).
    { destruct v as [| | |[|]]; auto; congruence. }
    rewrite E. cbn. rewrite dset_same; [|exact Hn|apply in_or_app; right; left; auto].
    rewrite dset_fresh.
    2:{ unfold dkeys in *. rewrite map_app in Hn. cbn in Hn. apply NoDup_remove_2 in Hn.
        intros Hin. apply Hn. apply in_or_app. auto. }
    replace (pre ++ (k, v) :: t) with ((pre ++ [(k, v)]) ++ t) in * by (rewrite <- app_assoc; reflexivity).
    apply IH; auto. intros k' v' Hin. apply (H k' v'). right. auto.
Qed.
Lemma mk_ps_complete n vals : NoDup (dkeys vals) ->
  (forall k v, In (k, v) vals -> value_len v = n /\ v <> Lst []) ->
  mk_ps n vals = Ok (PS n vals vals []).
Proof. intros. now apply (post_init_complete n vals vals []). Qed.
(** Without assumption on the keys: the number of dimensions is the one asked for. *)
Lemma ps_set_ok k v p q : ps_set k v p = Ok q ->
  q = PS (ps_n p) (dset k v (ps_vals p)) (dset k v (ps_attrs p)) (ps_cache p) /\ v <> Lst [].
Proof.
  unfold ps_set. destruct v as [| | |[|]]; intros [= <-]; split; congruence.
Qed.
Lemma ps_set_complete k v p : v <> Lst [] ->
  ps_set k v p = Ok (PS (ps_n p) (dset k v (ps_vals p)) (dset k v (ps_attrs p)) (ps_cache p)).
Proof. unfold ps_set. destruct v as [| | |[|]]; congruence. Qed.

(** * Copies *)
Definition value_copy (v : value) : res value :=
  match v with Lst ps => ps' <-? rmap ps_copy ps ;; Ok (Lst ps') | a => Ok a end.
Lemma ps_copy_eq n vals attrs cache :
  ps_copy (PS n vals attrs cache) =
  (vals' <-? rmap (fun kv => v <-? value_copy (snd kv) ;; Ok (fst kv, v)) vals ;;
   p' <-? mk_ps n vals' ;;
   Ok (PS (ps_n p') (ps_vals p') (ps_attrs p') cache)).
Proof.
  cbn [ps_copy]. f_equal.
  induction vals as [|[k v] t IH]; [reflexivity|]. cbn [rmap fst snd].
  rewrite <- IH. clear IH.
  assert (HE : forall ps, (fix copy_list (q : list psstate) : res (list psstate) :=
       match q with
       | [] => Ok []
       | x :: r => x' <-? ps_copy x ;; r' <-? copy_list r ;; Ok (x' :: r')
       end) ps = rmap ps_copy ps).
  { induction ps as [|x ps IH]; [reflexivity|]. cbn [rmap]. now rewrite IH. }
  destruct v as [l|l|l|l]; cbn [value_copy rbind]; try reflexivity.
  rewrite HE. destruct (rmap ps_copy l); reflexivity.
Qed.
Lemma Forall2_map_eq {A B C} (f : A -> C) (g : B -> C) (R : A -> B -> Prop) l l' :
  Forall2 R l l' -> (forall a b, In a l -> R a b -> f a = g b) -> map f l = map g l'.
Proof.
  induction 1 as [|a b l l' H1 H2 IH]; intros H; cbn; auto.
  f_equal; [apply H; cbn; auto|]. apply IH. intros; apply H; cbn; auto.
Qed.
Lemma copy_keys (vals vals' : dict value) :
  Forall2 (fun kv kv' => (v <-? value_copy (snd kv) ;; Ok (fst kv, v)) = Ok kv') vals vals' ->
  dkeys vals' = dkeys vals.
Proof.
  intros H. unfold dkeys. symmetry. eapply Forall2_map_eq; [exact H|].
  intros a b _ E. apply rbind_ok in E. destruct E as (v & _ & [= <-]). reflexivity.
Qed.
(** A copy has the same view and cache, and its attributes are in step at the top. *)
Lemma ps_copy_spec p : sane p -> exists p', ps_copy p = Ok p' /\
  view p' = view p /\ ps_cache p' = ps_cache p /\ ps_n p' = ps_n p /\
  ps_attrs p' = ps_vals p' /\ sane p' /\ dkeys (ps_vals p') = dkeys (ps_vals p).
Proof.
  induction p as [n vals attrs cache IH] using psstate_ind'. intros Hs.
  inversion Hs as [n' vals' attrs' cache' Hn Hl Hsub]; subst.
  rewrite ps_copy_eq.
  assert (HV : forall l, (forall kv, In kv l -> In kv vals) -> exists l',
     rmap (fun kv => v <-? value_copy (snd kv) ;; Ok (fst kv, v)) l = Ok l' /\
     view_vals l' = view_vals l /\ dkeys l' = dkeys l /\
     (forall k v, In (k, v) l' -> value_len v = n /\ v <> Lst []) /\
     (forall k v q, In (k, v) l' -> In q (states_in v) -> sane q)).
  { induction l as [|[k v] t IHt]; intros Hin.
    - exists []. repeat split; intros; try (cbn in *; tauto).
    - destruct IHt as (t' & E1 & E2 & E3 & E4 & E5); [intros; apply Hin; cbn; auto|].
      assert (Hkv : In (k, v) vals) by (apply Hin; cbn; auto).
      destruct (Hl k v Hkv) as [L1 L2].
      assert (HC : exists v', value_copy v = Ok v' /\ view_value v' = view_value v /\
         value_len v' = value_len v /\ v' <> Lst [] /\ (forall q, In q (states_in v') -> sane q)).
      { destruct v as [a|a|a|a]; cbn [value_copy].
        - exists (Arr a). repeat split; try discriminate. intros q [].
        - exists (ArrN a). repeat split; try discriminate. intros q [].
        - exists (AObj a). repeat split; try discriminate. intros q Hq. exact (Hsub k _ q Hkv Hq).
        - assert (HL : forall l0, (forall q, In q l0 -> In q a) -> exists l0',
             rmap ps_copy l0 = Ok l0' /\ map view l0' = map view l0 /\ length l0' = length l0 /\
             (forall q, In q l0' -> sane q)).
          { induction l0 as [|x l0 IH0]; intros Hi.
            - exists []. repeat split. intros q [].
            - destruct IH0 as (l0' & F1 & F2 & F3 & F4); [intros; apply Hi; cbn; auto|].
              assert (Hx : In x a) by (apply Hi; cbn; auto).
              destruct (IH k (Lst a) x Hkv Hx (Hsub k _ x Hkv Hx)) as (x' & G1 & G2 & _ & _ & _ & G3 & _).
              exists (x' :: l0'). cbn [rmap]. rewrite G1, F1. cbn.
              repeat split; [now rewrite G2, F2|now rewrite F3|]. intros q [<-|Hq]; auto. }
          destruct (HL a (fun q H => H)) as (a' & F1 & F2 & F3 & F4).
          exists (Lst a'). rewrite F1. cbn. repeat split; auto.
          + now rewrite F2.
          + intros [= ->]. apply L2. destruct a; [auto|cbn in F3; lia]. }
      destruct HC as (v' & C1 & C2 & C3 & C4 & C5).
      exists ((k, v') :: t'). cbn [rmap fst snd]. rewrite C1. cbn [rbind]. rewrite E1. cbn [rbind].
      repeat split.
      + cbn. rewrite C2. f_equal. exact E2.
      + cbn. f_equal. exact E3.
      + destruct H as [[= <- <-]|H]; [congruence|]. eapply E4; eauto.
      + destruct H as [[= <- <-]|H]; [congruence|]. eapply E4; eauto.
      + intros k0 v0 q [[= <- <-]|H] Hq; eauto. }
  destruct (HV vals (fun _ H => H)) as (vals' & E1 & E2 & E3 & E4 & E5).
  rewrite E1. cbn [rbind].
  rewrite mk_ps_complete; [|now rewrite E3|exact E4].
  cbn [rbind ps_n ps_vals ps_attrs]. eexists. split; [reflexivity|].
  cbn [ps_n ps_vals ps_attrs ps_cache].
  split; [now rewrite !view_eq, E2|].
  do 3 (split; [reflexivity|]). split; [|exact E3].
  constructor; [now rewrite E3|exact E4|exact E5].
Qed.
Lemma ps_copy_ok p q : sane p -> ps_copy p = Ok q -> view q = view p /\ ps_cache q = ps_cache p /\
  ps_n q = ps_n p /\ ps_attrs q = ps_vals q /\ sane q /\ dkeys (ps_vals q) = dkeys (ps_vals p).
Proof. intros Hs E. destruct (ps_copy_spec p Hs) as (q' & E' & H). congruence. Qed.

