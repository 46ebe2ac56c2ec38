(** C76: selecting dimensions of a ParameterSpaceState with a list of indices. *)
From Verif Require Import Base ModelState SpecState ProofState.
Local Open Scope string_scope.
Local Open Scope R_scope.

(** * Specification *)
(** [w] has the entries of [v] at the indices [is], in that order: numbers, rows and objects
    the same ones, listed states equal ones. *)
Definition chosen (is : list nat) (v w : value) : Prop :=
  match v, w with
  | Arr a, Arr b => Forall2 (fun i x => nth_error a i = Some x) is b
  | ArrN a, ArrN b => Forall2 (fun i x => nth_error a i = Some x) is b
  | AObj a, AObj b => Forall2 (fun i x => nth_error a i = Some x) is b
  | Lst a, Lst b => Forall2 (fun i y => exists x, nth_error a i = Some x /\ view y = view x /\ ps_cache y = ps_cache x) is b
  | _, _ => False
  end.

(** * Proofs *)
Lemma same_len {A B} (P : A -> B -> Prop) l l' : Forall2 P l l' -> length l = length l'.
Proof. intros H. induction H; cbn; congruence. Qed.
Lemma chosen_len is v w : chosen is v w -> value_len w = length is.
Proof. destruct v, w; cbn; try tauto; intros H; symmetry; eapply same_len; eauto. Qed.
Lemma pick_in {A} (l : list A) is : (forall i, In i is -> (i < length l)%nat) -> exists l', pick l is = Ok l' /\ Forall2 (fun i a => nth_error l i = Some a) is l'.
Proof.
  induction is as [|i is IH]; intros H; [exists []; split; [reflexivity|constructor]|].
  destruct (nth_error l i) as [a|] eqn:E; [|apply nth_error_None in E; specialize (H i (or_introl eq_refl)); lia].
  destruct IH as (l' & P & F); [intros; apply H; now right|]. exists (a :: l'). split; [|now constructor].
  unfold pick in *. cbn [rmap]. unfold idx at 1. rewrite E. cbn [rbind]. now rewrite P.
Qed.
Lemma pick_out {A} (l : list A) is : (exists i, In i is /\ (length l <= i)%nat) -> pick l is = Raise EIndex.
Proof.
  induction is as [|i is IH]; intros (j & Hj & Hl); [destruct Hj|]. unfold pick in *. cbn [rmap]. unfold idx at 1.
  destruct (nth_error l i) as [a|] eqn:E; [|reflexivity]. cbn [rbind]. rewrite IH; [reflexivity|].
  destruct Hj as [->|Hj]; [|eauto]. assert (nth_error l j <> None) by congruence. apply nth_error_Some in H. lia.
Qed.
Lemma copies l : (forall q, In q l -> sane q) -> exists l', rmap ps_copy l = Ok l' /\ Forall2 (fun x y => view y = view x /\ ps_cache y = ps_cache x /\ sane y) l l'.
Proof.
  induction l as [|q l IH]; intros H; [exists []; split; [reflexivity|constructor]|].
  destruct (ps_copy_spec q (H q (or_introl eq_refl))) as (q' & E & V & C & _ & _ & S & _).
  destruct IH as (l' & R & F); [intros; apply H; now right|]. exists (q' :: l'). cbn [rmap]. rewrite E. cbn [rbind]. rewrite R. split; [reflexivity|]. constructor; auto.
Qed.
Lemma Forall2_compose {A B C} (P : A -> B -> Prop) (Q : B -> C -> Prop) l1 l2 l3 : Forall2 P l1 l2 -> Forall2 Q l2 l3 -> Forall2 (fun a c => exists b, P a b /\ Q b c) l1 l3.
Proof. intros H. revert l3. induction H; intros l3 H'; inversion H'; subst; constructor; eauto. Qed.
Lemma select_vals_in is l : (forall k v, In (k, v) l -> forall i, In i is -> (i < value_len v)%nat) ->
  (forall k v q, In (k, v) l -> In q (states_in v) -> sane q) ->
  exists l', ps_select_vals l is = Ok l' /\
    Forall2 (fun kv kv' => fst kv' = fst kv /\ chosen is (snd kv) (snd kv') /\ forall q, In q (states_in (snd kv')) -> sane q) l l'.
Proof.
  induction l as [|[k v] l IH]; intros Hi Hs; [exists []; split; [reflexivity|constructor]|].
  destruct IH as (l' & E & F); [intros k0 v0 Hk; apply (Hi k0 v0); now right|intros k0 v0 q Hk; apply (Hs k0 v0 q); now right|].
  assert (exists w, match v with
             | Arr a => a' <-? pick a is ;; Ok (Arr a')
             | ArrN a => a' <-? pick a is ;; Ok (ArrN a')
             | AObj a => a' <-? pick a is ;; Ok (AObj a')
             | Lst a => a' <-? pick a is ;; c <-? rmap ps_copy a' ;; Ok (Lst c)
             end = Ok w /\ chosen is v w /\ forall q, In q (states_in w) -> sane q) as (w & Ew & Cw & Sw).
  { specialize (Hi k v (or_introl eq_refl)). assert (Hv : forall q, In q (states_in v) -> sane q) by (intros q; apply (Hs k v q); now left).
    assert (PI : forall A (a : list A) b, Forall2 (fun i x => nth_error a i = Some x) is b -> forall x, In x b -> In x a).
    { intros A a b Hb x Hx. clear -Hb Hx. induction Hb; [destruct Hx|]. destruct Hx as [->|Hx]; [eapply nth_error_In; eauto|auto]. }
    destruct v as [a|a|a|a]; cbn [value_len] in Hi; destruct (pick_in a is Hi) as (b & -> & Fb); cbn [rbind].
    - eexists. split; [reflexivity|]. split; [exact Fb|intros q []].
    - eexists. split; [reflexivity|]. split; [exact Fb|intros q []].
    - eexists. split; [reflexivity|]. split; [exact Fb|]. intros q Hq. apply Hv. eapply PI; eauto.
    - destruct (copies b) as (c & -> & Fc); [intros q Hq; apply Hv; eapply PI; eauto|]. cbn [rbind]. eexists. split; [reflexivity|]. split.
      + cbn [chosen]. pose proof (Forall2_compose _ _ _ _ _ Fb Fc) as H. clear -H. induction H as [|i y is' c' (x & H1 & H2 & H3 & _) H IH]; constructor; eauto.
      + intros q Hq. cbn [states_in] in Hq. clear -Fc Hq. induction Fc as [|? ? ? ? (_ & _ & S)]; [destruct Hq|]. destruct Hq as [->|Hq]; auto. }
  exists ((k, w) :: l'). cbn [ps_select_vals]. rewrite Ew. cbn [rbind]. rewrite E. cbn [rbind]. split; [reflexivity|]. constructor; cbn; auto.
Qed.
(** state[[i0, i1, ...]]: a state with as many dimensions as indices; every parameter has the
    entries at these indices, in their order (indices may repeat); attributes agree and the
    cache is empty.  An index out of range, or no index at all for a state with nested
    states, is an IndexError. *)
Theorem C76_select p is : sane p -> (forall i, In i is -> (i < ps_n p)%nat) ->
  is <> [] \/ (forall k v, In (k, v) (ps_vals p) -> forall l, v <> Lst l) ->
  exists q, ps_select p is = Ok q /\ ps_n q = length is /\ ps_cache q = [] /\ ps_attrs q = ps_vals q /\ sane q /\
    dkeys (ps_vals q) = dkeys (ps_vals p) /\
    forall k v, ps_get k p = Some v -> exists w, ps_get k q = Some w /\ chosen is v w.
Proof.
  intros Hs Hi Hne. destruct p as [n vals attrs cache]. cbn [ps_n ps_vals] in *. inversion Hs as [? ? ? ? Hd Hl Hsub]; subst.
  destruct (select_vals_in is vals) as (l' & E & F).
  { intros k v Hk i Hin. rewrite (proj1 (Hl k v Hk)). auto. }
  { exact Hsub. }
  assert (K : dkeys l' = dkeys vals).
  { clear -F. induction F as [|[k v] [k' w] l l' (H & _) F IH]; auto. unfold dkeys in *. cbn in *. congruence. }
  assert (W : forall k v, In (k, v) l' -> value_len v = length is /\ v <> Lst []).
  { intros k w Hk. assert (exists v, In (k, v) vals /\ chosen is v w) as (v & Hv & C).
    { clear -F Hk. induction F as [|[k0 v0] [k1 w1] l l' (H & C & _) F IH]; [destruct Hk|]. destruct Hk as [[= -> ->]|Hk].
      - cbn in *. subst. exists v0. auto.
      - destruct (IH Hk) as (v & ? & ?). exists v. split; auto. now right. }
    split; [now apply (chosen_len is v w)|]. intros ->. destruct v as [a|a|a|a]; try (cbn in C; tauto).
    destruct Hne as [Hne|Hne]; [cbn in C; inversion C; congruence|]. now apply (Hne _ _ Hv a). }
  unfold ps_select. cbn [ps_vals]. rewrite E. cbn [rbind]. rewrite mk_ps_complete; [|now rewrite K|exact W].
  eexists. split; [reflexivity|]. cbn [ps_n ps_cache ps_attrs ps_vals]. split; [reflexivity|]. split; [reflexivity|]. split; [reflexivity|]. split.
  { constructor; [now rewrite K|exact W|]. intros k w q Hk Hq. clear -F Hk Hq. induction F as [|[k0 v0] [k1 w1] l l' (H & C & S) F IH]; [destruct Hk|].
    destruct Hk as [[= -> ->]|Hk]; auto. }
  split; [exact K|]. intros k v. unfold ps_get. cbn [ps_vals]. clear -F. induction F as [|[k0 v0] [k1 w1] l l' (H & C & _) F IH]; cbn [dget]; [discriminate|].
  cbn in H. subst k1. destruct (String.eqb k k0); [intros [= ->]; exists w1; auto|auto].
Qed.
Theorem C76_out_of_range p is : sane p -> ps_vals p <> [] -> (exists i, In i is /\ (ps_n p <= i)%nat) -> ps_select p is = Raise EIndex.
Proof.
  intros Hs Hv Hi. destruct p as [n vals attrs cache]. inversion Hs as [? ? ? ? Hd Hl Hsub]; subst. cbn [ps_n ps_vals] in *.
  destruct vals as [|[k v] t]; [congruence|]. unfold ps_select. cbn [ps_vals ps_select_vals].
  pose proof (proj1 (Hl k v (or_introl eq_refl))) as L. destruct v as [a|a|a|a]; cbn [value_len] in L; rewrite pick_out by (rewrite L; exact Hi); reflexivity.
Qed.
Theorem C76_no_index_refuted : exists p, sane p /\ ps_select p [] = Raise EIndex.
Proof.
  exists (PS 1 [("t", Lst [PS 0 [] [] []])] [] []). split; [|reflexivity].
  constructor; cbn.
  - repeat constructor; auto.
  - intros k v [[= <- <-]|[]]. split; [reflexivity|discriminate].
  - intros k v q [[= <- <-]|[]] [<-|[]]. constructor; cbn; [constructor|tauto|tauto].
Qed.
(** Three dimensions with a number and a nested state each: the last and the first. *)
Example C76_case : let inner r := PS 1 [("d", Arr [r])] [] [("tree", Arr [r])] in
  let p := PS 3 [("v", Arr [5; 6; 7]); ("t", Lst [inner 1; inner 2; inner 3])] [] [("x", Arr [0])] in
  sane p /\ exists q, ps_select p [2; 0]%nat = Ok q /\ ps_n q = 2%nat /\ ps_get "v" q = Some (Arr [7; 5]) /\ ps_cache q = [] /\
  ps_select p [3]%nat = Raise EIndex.
Proof.
  cbn zeta. split.
  - constructor; cbn.
    + repeat constructor; cbn; intuition discriminate.
    + intros k v [[= <- <-]|[[= <- <-]|[]]]; split; try reflexivity; discriminate.
    + intros k v q [[= <- <-]|[[= <- <-]|[]]] Hq; [destruct Hq|].
      assert (exists r, q = PS 1 [("d", Arr [r])] [] [("tree", Arr [r])]) as (r & ->) by (destruct Hq as [<-|[<-|[<-|[]]]]; eauto).
      constructor; cbn; [repeat constructor; auto| |]; intros k v; [intros [[= <- <-]|[]]; split; [reflexivity|discriminate]|intros q' [[= <- <-]|[]] []].
  - eexists. split; [reflexivity|]. repeat split; reflexivity.
Qed.
