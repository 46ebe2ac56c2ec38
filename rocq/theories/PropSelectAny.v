(** C76 for negative indices and every argument of __getitem__. *)
From Verif Require Import Base ModelState ModelSelect SpecState ProofState.
From Verif Require Import PropSelect.
Local Open Scope string_scope.
Local Open Scope R_scope.

(** * Specification *)
(** The dimension that the integer [i] names among [n]: [i] itself, or counted from the end. *)
Definition dimension (n : nat) (i : Z) (d : nat) : Prop :=
  (d < n)%nat /\ (Z.of_nat d = i \/ Z.of_nat d - Z.of_nat n = i)%Z.

(** * Proofs *)
Lemma dimension_range n i : (exists d, dimension n i d) <-> (- Z.of_nat n <= i < Z.of_nat n)%Z.
Proof.
  unfold dimension. split; [intros (d & H & [<-|<-]); lia|]. intros H. destruct (Z_lt_le_dec i 0).
  - exists (Z.to_nat (Z.of_nat n + i)). lia.
  - exists (Z.to_nat i). lia.
Qed.
Lemma idxz_in {A} (l : list A) i d : dimension (length l) i d -> idxz l i = idx l d.
Proof.
  intros (H & [E|E]); unfold idxz; rewrite <- E.
  - destruct (Z.leb_spec 0 (Z.of_nat d)); [|lia]. destruct (Z.ltb_spec (Z.of_nat d) (Z.of_nat (length l))); [|lia]. cbn [andb]. now rewrite Nat2Z.id.
  - destruct (Z.leb_spec 0 (Z.of_nat d - Z.of_nat (length l))); [lia|]. cbn [andb].
    destruct (Z.leb_spec (- Z.of_nat (length l)) (Z.of_nat d - Z.of_nat (length l))); [|lia].
    destruct (Z.ltb_spec (Z.of_nat d - Z.of_nat (length l)) 0); [|lia]. cbn [andb]. f_equal. lia.
Qed.
Lemma idxz_out {A} (l : list A) i : ~ (- Z.of_nat (length l) <= i < Z.of_nat (length l))%Z -> idxz l i = Raise EIndex.
Proof.
  intros H. unfold idxz. destruct (Z.leb_spec 0 i), (Z.ltb_spec i (Z.of_nat (length l))), (Z.leb_spec (- Z.of_nat (length l)) i), (Z.ltb_spec i 0);
    cbn [andb]; auto; lia.
Qed.
Lemma picks {A} (l : list A) is ds : Forall2 (dimension (length l)) is ds -> rmap (idxz l) is = pick l ds.
Proof.
  intros H. unfold pick. induction H as [|i d is' ds' H _ IH]; auto. cbn [rmap]. rewrite (idxz_in l i d H). destruct (idx l d); cbn [rbind]; auto. now rewrite IH.
Qed.
Lemma picks_copy (l : list psstate) is ds : Forall2 (dimension (length l)) is ds ->
  (forall q, In q l -> sane q) ->
  rmap (fun i => q <-? idxz l i ;; ps_copy q) is = (a' <-? pick l ds ;; rmap ps_copy a').
Proof.
  intros H Hs. induction H as [|i d is' ds' H _ IH]; auto. unfold pick in *. cbn [rmap]. rewrite (idxz_in l i d H). unfold idx at 1 2.
  destruct (nth_error l d) as [q|] eqn:E; [|cbn [rbind]; reflexivity]. cbn [rbind].
  destruct (ps_copy_spec q (Hs q (nth_error_In _ _ E))) as (q' & E' & _). rewrite E', IH. cbn [rbind].
  destruct (rmap (idx l) ds'); cbn [rbind rmap]; auto. rewrite E'. cbn [rbind]. reflexivity.
Qed.
Lemma vals_same n l is ds : Forall2 (dimension n) is ds -> (forall k v, In (k, v) l -> value_len v = n) ->
  (forall k v q, In (k, v) l -> In q (states_in v) -> sane q) -> getitem_vals l is = ps_select_vals l ds.
Proof.
  intros H. induction l as [|[k v] t IH]; intros Hn Hs; auto. cbn [getitem_vals ps_select_vals].
  rewrite IH; [|intros k0 v0 Hk; apply (Hn k0 v0); now right|intros k0 v0 q Hk; apply (Hs k0 v0 q); now right].
  specialize (Hn k v (or_introl eq_refl)). assert (Hv : forall q, In q (states_in v) -> sane q) by (intros q; apply (Hs k v q); now left).
  destruct v as [a|a|a|a]; cbn [value_len] in Hn; subst n; try (rewrite (picks a is ds) by exact H; reflexivity).
  rewrite (picks_copy a is ds) by (auto; exact H). destruct (pick a ds); reflexivity.
Qed.
(** ** C76 *)
(** Every integer from -n to n-1 names a dimension; the state selected has the entries of these dimensions, in the
    order given. *)
Theorem C76_any_index p is : sane p -> (forall i, In i is -> (- Z.of_nat (ps_n p) <= i < Z.of_nat (ps_n p))%Z) ->
  is <> [] \/ (forall k v, In (k, v) (ps_vals p) -> forall l, v <> Lst l) ->
  exists ds q, Forall2 (dimension (ps_n p)) is ds /\ ps_getitem p (KList is) = Ok (IState q) /\
    ps_n q = length is /\ ps_cache q = [] /\ ps_attrs q = ps_vals q /\ sane q /\ dkeys (ps_vals q) = dkeys (ps_vals p) /\
    forall k v, ps_get k p = Some v -> exists w, ps_get k q = Some w /\ chosen ds v w.
Proof.
  intros Hs Hi Hne.
  assert (Hd : exists ds, Forall2 (dimension (ps_n p)) is ds).
  { clear Hne. induction is as [|i is IH]; [exists []; constructor|]. destruct IH as (ds & H); [intros; apply Hi; now right|].
    destruct (proj2 (dimension_range (ps_n p) i) (Hi i (or_introl eq_refl))) as (d & Hd). exists (d :: ds). now constructor. }
  destruct Hd as (ds & Hd). pose proof (same_len _ _ _ Hd) as Hlen.
  assert (Hr : forall d, In d ds -> (d < ps_n p)%nat).
  { clear - Hd. induction Hd as [|i d is' ds' [H _] _ IH]; intros x Hx; [destruct Hx|]. destruct Hx as [<-|Hx]; auto. }
  assert (Hne' : ds <> [] \/ (forall k v, In (k, v) (ps_vals p) -> forall l, v <> Lst l)).
  { destruct Hne as [Hne|Hne]; [left; intros ->; inversion Hd; congruence|now right]. }
  destruct (C76_select p ds Hs Hr Hne') as (q & E & Hn & Hq). exists ds, q. split; [exact Hd|].
  split; [|split; [congruence|exact Hq]]. destruct p as [n vals attrs cache]. inversion Hs as [? ? ? ? Hk Hl Hsub]; subst. cbn [ps_n ps_vals] in *.
  unfold ps_select in E. unfold ps_getitem. cbn [ps_vals] in *.
  rewrite (vals_same n vals is ds Hd) by (auto; intros k v Hkv; apply (Hl k v Hkv)).
  destruct (ps_select_vals vals ds) as [vs| |]; cbn [rbind] in *; try discriminate. now rewrite Hlen, E.
Qed.
(** All other integers raise IndexError, if there is a parameter at all. *)
Theorem C76_any_out_of_range p is : sane p -> ps_vals p <> [] ->
  (exists i, In i is /\ ~ (- Z.of_nat (ps_n p) <= i < Z.of_nat (ps_n p))%Z) -> ps_getitem p (KList is) = Raise EIndex.
Proof.
  intros Hs Hv Hi. destruct p as [n vals attrs cache]. inversion Hs as [? ? ? ? Hd Hl Hsub]; subst. cbn [ps_n ps_vals] in *.
  destruct vals as [|[k v] t]; [congruence|]. unfold ps_getitem. cbn [ps_vals getitem_vals].
  pose proof (proj1 (Hl k v (or_introl eq_refl))) as L.
  assert (Hv' : forall q, In q (states_in v) -> sane q) by (intros q; apply (Hsub k v q); now left).
  assert (G : forall A (a : list A), length a = n -> forall js, (exists i, In i js /\ ~ (- Z.of_nat n <= i < Z.of_nat n)%Z) -> rmap (idxz a) js = Raise EIndex).
  { intros A a La js. induction js as [|j js IH]; intros (i & Hin & Ho); [destruct Hin|]. destruct Hin as [->|Hin].
    - cbn [rmap]. rewrite idxz_out by (now rewrite La). reflexivity.
    - cbn [rmap]. destruct (Z_lt_le_dec j (- Z.of_nat n)); [rewrite idxz_out by lia; reflexivity|].
      destruct (Z_lt_le_dec j (Z.of_nat n)); [|rewrite idxz_out by lia; reflexivity].
      destruct (proj2 (dimension_range n j) ltac:(lia)) as (d & Hdd). rewrite (idxz_in a j d) by (now rewrite La).
      unfold idx. destruct (nth_error a d) eqn:E; [|reflexivity]. cbn [rbind]. rewrite IH; eauto. }
  destruct v as [a|a|a|a]; cbn [value_len] in L; try (rewrite (G _ a L is Hi); reflexivity).
  assert (E : rmap (fun i => q <-? idxz a i ;; ps_copy q) is = Raise EIndex).
  { clear Hs Hl Hsub. revert Hi. induction is as [|j js IH]; intros (i & Hin & Ho); [destruct Hin|]. destruct Hin as [->|Hin].
    - cbn [rmap]. rewrite idxz_out by (now rewrite L). reflexivity.
    - cbn [rmap]. destruct (Z_lt_le_dec j (- Z.of_nat n)); [rewrite idxz_out by lia; reflexivity|].
      destruct (Z_lt_le_dec j (Z.of_nat n)); [|rewrite idxz_out by lia; reflexivity].
      destruct (proj2 (dimension_range n j) ltac:(lia)) as (d & Hdd). rewrite (idxz_in a j d) by (now rewrite L).
      unfold idx. destruct (nth_error a d) as [q|] eqn:E; [|reflexivity]. cbn [rbind].
      destruct (ps_copy_spec q (Hv' q (nth_error_In _ _ E))) as (q' & -> & _). cbn [rbind]. rewrite IH; eauto. }
  rewrite E. reflexivity.
Qed.
(** A name gives the values stored under it, or None; anything else is a TypeError. *)
Theorem C76_name p s : ps_getitem p (KName s) = Ok (IValues (dget s (ps_vals p))).
Proof. reflexivity. Qed.
Theorem C76_other p : ps_getitem p KOther = Raise EType.
Proof. reflexivity. Qed.
(** Three dimensions with a number and a nested state each: the last by -1, the first by 0 and by -3. *)
Example C76_any_case : let inner r := PS 1 [("d", Arr [r])] [] [("tree", Arr [r])] in
  let p := PS 3 [("v", Arr [5; 6; 7]); ("t", Lst [inner 1; inner 2; inner 3])] [] [("x", Arr [0])] in
  (exists q, ps_getitem p (KList [-1; 0; -3]%Z) = Ok (IState q) /\ ps_n q = 3%nat /\ ps_get "v" q = Some (Arr [7; 5; 5]) /\ ps_cache q = []) /\
  ps_getitem p (KList [-4]%Z) = Raise EIndex /\ ps_getitem p (KList [0; 3]%Z) = Raise EIndex /\
  ps_getitem p (KName "w") = Ok (IValues None).
Proof. cbn zeta. split; [eexists; split; [reflexivity|]; repeat split; reflexivity|]. repeat split; reflexivity. Qed.
