(** Proofs about ModelEnsemble.v: histograms. *)
From Coq Require Import Permutation.
From Verif Require Import Base ModelUtils1D ModelPrior ModelState ModelSpace ModelEnsemble
  SpecUtils1D SpecEnsemble ProofUtils1D ProofUtils1DB ProofState ProofSpaceB ProofEnsemble ProofEnsembleB.
Local Open Scope R_scope.

(** * Bins *)
Lemma strict_sorted e : strictly_sortedR e -> sortedR e.
Proof.
  intros H i j a b Hij Ha Hb. destruct (Nat.eq_dec i j) as [->|N]; [replace b with a by congruence; lra|].
  left. apply (H i j); auto. lia.
Qed.
Lemma filter_le e x i a : sortedR e -> nth_error e i = Some a ->
  ((i < length (filter (fun y => Rleb y x) e))%nat <-> a <= x).
Proof.
  revert i. induction e as [|y e IH]; intros i Hs Hi; [destruct i; discriminate|].
  destruct (sorted_cons _ _ Hs) as [Hs' F]. rewrite Forall_forall in F. cbn.
  destruct (Rleb y x) eqn:E.
  - apply Rleb_true in E. destruct i as [|i]; cbn in *; [injection Hi as <-; split; [auto|lia]|].
    rewrite <- (IH i Hs' Hi). lia.
  - apply Rleb_false in E.
    assert (Z : filter (fun y => Rleb y x) e = []).
    { destruct (filter (fun y => Rleb y x) e) as [|z zs] eqn:Ef; auto. exfalso.
      assert (In z (filter (fun y => Rleb y x) e)) by (rewrite Ef; now left).
      apply filter_In in H. destruct H as [H1 H2]. apply Rleb_true in H2. specialize (F _ H1). lra. }
    rewrite Z. cbn. split; [lia|]. intros Hax. destruct i as [|i]; cbn in Hi; [injection Hi as <-; lra|].
    specialize (F a (nth_error_In _ _ Hi)). lra.
Qed.
Lemma rev_last {A} (l : list A) : l <> [] -> exists a t, rev l = a :: t /\ nth_error l (length l - 1) = Some a.
Proof.
  intros H. destruct (rev l) as [|a t] eqn:E.
  - apply (f_equal (@rev A)) in E. rewrite rev_involutive in E. easy.
  - exists a, t. split; auto. apply (f_equal (@rev A)) in E. rewrite rev_involutive in E. cbn in E. subst l.
    rewrite app_length. cbn. rewrite nth_error_app2 by lia. replace (_ - _)%nat with O by lia. reflexivity.
Qed.
Lemma filter_len {A} (f : A -> bool) l : (length (filter f l) <= length l)%nat.
Proof. induction l as [|a l IH]; cbn; auto. destruct (f a); cbn; lia. Qed.
Lemma bin_of_spec e x i : strictly_sortedR e -> (bin_of e x = Some i <-> in_bin e i x).
Proof.
  intros Hst. pose proof (strict_sorted e Hst) as Hs. unfold bin_of.
  set (c := length (filter (fun y => Rleb y x) e)).
  assert (Hc : (c <= length e)%nat) by apply filter_len.
  assert (Hle : forall j a, nth_error e j = Some a -> ((j < c)%nat <-> a <= x)) by (intros; now apply filter_le).
  destruct e as [|e0 e'] eqn:Ee.
  { cbn. split; [discriminate|]. intros (a & b & Ha & _). destruct i; discriminate. }
  rewrite <- Ee in *. destruct (rev_last e) as (z & t & Er & Hz); [subst; easy|]. rewrite Er. clear Ee.
  assert (Ln : (0 < length e)%nat) by (apply (Nat.le_lt_trans _ (length e - 1)); [lia|]; apply nth_error_Some; congruence).
  destruct (Reqb x z) eqn:E.
  - apply Reqb_true in E. subst z.
    assert (c = length e).
    { assert (length e - 1 < c)%nat by (apply (Hle _ _ Hz); lra). lia. }
    rewrite H. destruct (1 <=? length e - 1)%nat eqn:E1; cbn [andb].
    + apply Nat.leb_le in E1. replace (length e - 1 <? length e)%nat with true by (symmetry; apply Nat.ltb_lt; lia). split.
      * intros [= <-]. destruct (nth_error e (length e - 1 - 1)) as [a|] eqn:Ea; [|apply nth_error_None in Ea; lia].
        exists a, x. replace (S (length e - 1 - 1)) with (length e - 1)%nat by lia. repeat split; auto.
        -- apply (Hle _ _ Ea). lia.
        -- right. split; auto. lia.
      * intros (a & b & Ha & Hb & Hax & [Hxb|[-> Hi]]).
        -- exfalso. assert (S i < c)%nat by (rewrite H; apply nth_error_Some; congruence). apply (Hle _ _ Hb) in H0. lra.
        -- f_equal. lia.
    + apply Nat.leb_gt in E1. split; [discriminate|]. intros (a & b & Ha & Hb & _).
      assert (S i < length e)%nat by (apply nth_error_Some; congruence). lia.
  - apply Reqb_false in E.
    destruct (1 <=? c)%nat eqn:E1; cbn [andb]; [apply Nat.leb_le in E1|apply Nat.leb_gt in E1].
    2:{ split; [discriminate|]. intros (a & b & Ha & _ & Hax & _). apply (Hle _ _ Ha) in Hax. lia. }
    destruct (c <? length e)%nat eqn:E2; [apply Nat.ltb_lt in E2|apply Nat.ltb_ge in E2].
    + split.
      * intros [= <-]. destruct (nth_error e (c - 1)) as [a|] eqn:Ea; [|apply nth_error_None in Ea; lia].
        destruct (nth_error e c) as [b|] eqn:Eb; [|apply nth_error_None in Eb; lia].
        exists a, b. replace (S (c - 1)) with c by lia. repeat split; auto; [apply (Hle _ _ Ea); lia|].
        left. destruct (Rlt_le_dec x b) as [L|L]; auto. apply (Hle _ _ Eb) in L. lia.
      * intros (a & b & Ha & Hb & Hax & [Hxb|[-> Hi]]).
        -- apply (Hle _ _ Ha) in Hax. assert (~ (S i < c)%nat) by (intros Q; apply (Hle _ _ Hb) in Q; lra). f_equal. lia.
        -- exfalso. replace (length e - 1)%nat with (S i) in Hz by lia. congruence.
    + split; [discriminate|]. intros (a & b & Ha & Hb & Hax & [Hxb|[-> Hi]]).
      * assert (S i < c)%nat by (assert (S i < length e)%nat by (apply nth_error_Some; congruence); lia).
        apply (Hle _ _ Hb) in H. lra.
      * replace (length e - 1)%nat with (S i) in Hz by lia. congruence.
Qed.
Lemma bin_lt e i x : in_bin e i x -> (i < length e - 1)%nat.
Proof. intros (a & b & _ & Hb & _). assert (S i < length e)%nat by (apply nth_error_Some; congruence). lia. Qed.

(** * Widths *)
Lemma widths_length e : length (widths e) = (length e - 1)%nat.
Proof. unfold widths. rewrite map_length, combine_length, skipn_length. lia. Qed.
Lemma nth_combine {A B} (l : list A) (l' : list B) i :
  nth_error (combine l l') i = match nth_error l i, nth_error l' i with Some a, Some b => Some (a, b) | _, _ => None end.
Proof.
  revert l' i. induction l as [|x l IH]; intros [|y l'] [|i]; cbn; auto.
  now destruct (nth_error l i).
Qed.
Lemma nth_skipn1 {A} (l : list A) i : nth_error (skipn 1 l) i = nth_error l (S i).
Proof. destruct l; cbn; auto. destruct i; auto. Qed.
Lemma widths_nth e i w : nth_error (widths e) i = Some w <-> bin_width e i w.
Proof.
  unfold widths, bin_width. rewrite nth_error_map, nth_combine, nth_skipn1.
  destruct (nth_error e i) as [a|]; [|split; [discriminate|intros (a & b & H & _); discriminate]].
  destruct (nth_error e (S i)) as [b|] eqn:Eb; cbn [option_map fst snd].
  - split.
    + intros [= <-]. exists a, b. auto.
    + intros (a' & b' & [= <-] & [= <-] & ->). reflexivity.
  - split; [discriminate|]. intros (a' & b' & _ & H & _). discriminate.
Qed.
Lemma adjacent_strict e : (forall i a b, nth_error e i = Some a -> nth_error e (S i) = Some b -> a < b) -> strictly_sortedR e.
Proof.
  intros H i j a b Hij Ha Hb. revert b Hb. induction Hij as [|j Hij IH]; intros b Hb; [eapply H; eauto|].
  destruct (nth_error e j) as [c|] eqn:Ec.
  - specialize (IH c eq_refl). specialize (H _ _ _ Ec Hb). lra.
  - apply nth_error_None in Ec. assert (S j < length e)%nat by (apply nth_error_Some; congruence). lia.
Qed.
Lemma linspace_length a b n : length (linspace a b n) = n.
Proof. unfold linspace. now rewrite map_length, seq_length. Qed.
Lemma linspace_nth a b n i x : nth_error (linspace a b n) i = Some x <->
  (i < n)%nat /\ x = a + INR i * ((b - a) / INR (n - 1)).
Proof.
  unfold linspace. rewrite nth_error_map. destruct (Nat.lt_ge_cases i n) as [L|L].
  - rewrite nth_error_seq0 by auto. cbn. split; [intros [= <-]; auto|intros [_ ->]; auto].
  - replace (nth_error (seq 0 n) i) with (@None nat) by (symmetry; apply nth_error_None; now rewrite seq_length).
    cbn. split; [discriminate|lia].
Qed.
Lemma linspace_strict a b n : a < b -> strictly_sortedR (linspace a b n).
Proof.
  intros H. apply adjacent_strict. intros i x y Hx Hy. apply linspace_nth in Hx, Hy.
  destruct Hx as [Hi ->], Hy as [Hi' ->]. rewrite S_INR.
  assert (0 < (b - a) / INR (n - 1)).
  { apply Rdiv_lt_0_compat; [lra|]. apply lt_0_INR. lia. }
  lra.
Qed.
Lemma edges_order b data e : edges_of b data = Ok e ->
  forallb (fun ab => Rleb (fst ab) (snd ab)) (combine e (skipn 1 e)) = true \/ strictly_sortedR e.
Proof.
  destruct b as [n|l]; cbn [edges_of].
  - destruct (n =? 0)%nat; [discriminate|]. intros H. right. destruct data as [|x data].
    + injection H as <-. apply linspace_strict. lra.
    + apply rbind_ok in H. destruct H as (lo & El & H). apply rbind_ok in H. destruct H as (hi & Eh & H).
      assert (lo <= hi).
      { cbn in El, Eh. injection El as <-. injection Eh as <-.
        assert (A : forall l m, fold_left Rmin l m <= m) by (induction l as [|y l IH]; intros m; cbn; [lra|]; specialize (IH (Rmin m y)); pose proof (Rmin_l m y); lra).
        assert (B : forall l m, m <= fold_left Rmax l m) by (induction l as [|y l IH]; intros m; cbn; [lra|]; specialize (IH (Rmax m y)); pose proof (Rmax_l m y); lra).
        specialize (A data x). specialize (B data x). lra. }
      destruct (Reqb lo hi) eqn:E.
      * injection H as <-. apply linspace_strict. lra.
      * apply Reqb_false in E. injection H as <-. apply linspace_strict. lra.
  - destruct (forallb _ (combine l (skipn 1 l))) eqn:E; [|discriminate]. intros [= <-]. auto.
Qed.
Lemma edges_strict b data e : edges_of b data = Ok e -> (forall w, In w (widths e) -> w <> 0) -> strictly_sortedR e.
Proof.
  intros H Hw. destruct (edges_order _ _ _ H) as [F|S]; auto. apply adjacent_strict. intros i x y Hx Hy.
  assert (W : bin_width e i (y - x)) by (exists x, y; auto). apply widths_nth in W. apply nth_error_In in W. apply Hw in W.
  rewrite forallb_forall in F. assert (Q : nth_error (combine e (skipn 1 e)) i = Some (x, y)).
  { now rewrite nth_combine, nth_skipn1, Hx, Hy. }
  apply nth_error_In in Q. apply F in Q. cbn in Q. apply Rleb_true in Q. lra.
Qed.

(** * Counting all cells *)
Lemma nsum_map_add {A} (f g : A -> nat) l : nsum (map (fun a => (f a + g a)%nat) l) = (nsum (map f l) + nsum (map g l))%nat.
Proof. unfold nsum. induction l; cbn; lia. Qed.
Lemma nsum_map_ext {A} (f g : A -> nat) l : (forall a, In a l -> f a = g a) -> nsum (map f l) = nsum (map g l).
Proof. intros H. f_equal. now apply map_ext_in. Qed.
Lemma nsum_zero {A} (f : A -> nat) l : (forall a, In a l -> f a = O) -> nsum (map f l) = O.
Proof. unfold nsum. induction l as [|a l IH]; cbn; intros H; auto. rewrite (H a) by now left. cbn. apply IH. intros; apply H; now right. Qed.
Lemma nsum_delta f s n k : (s <= k < s + n)%nat -> (forall i, i <> k -> f i = O) -> nsum (map f (seq s n)) = f k.
Proof.
  revert s. induction n as [|n IH]; intros s Hk H; [lia|]. cbn [seq map nsum fold_right]. fold (nsum (map f (seq (S s) n))).
  destruct (Nat.eq_dec s k) as [->|N].
  - rewrite nsum_zero; [lia|]. intros a Ha. apply in_seq in Ha. apply H. lia.
  - rewrite (H s) by auto. rewrite IH; auto. lia.
Qed.
Definition binned (ex ey : list R) (xy : R * R) : bool :=
  match bin_of ex (fst xy), bin_of ey (snd xy) with Some _, Some _ => true | _, _ => false end.
Definition b2n (b : bool) : nat := if b then 1%nat else 0%nat.
Lemma filter_cons_len {A} (f : A -> bool) a l : length (filter f (a :: l)) = (b2n (f a) + length (filter f l))%nat.
Proof. cbn. destruct (f a); reflexivity. Qed.
Lemma bin_of_lt e x i : bin_of e x = Some i -> (i < length e - 1)%nat.
Proof.
  unfold bin_of. set (c := match rev e with [] => _ | _ => _ end).
  destruct (1 <=? c)%nat eqn:E1; cbn [andb]; [|discriminate]. destruct (c <? length e)%nat eqn:E2; [|discriminate].
  apply Nat.leb_le in E1. apply Nat.ltb_lt in E2. intros [= <-]. lia.
Qed.
Lemma total_count ex ey pts nx ny : nx = (length ex - 1)%nat -> ny = (length ey - 1)%nat ->
  nsum (map nsum (map (fun i => map (fun j => length (filter (in_cell ex ey i j) pts)) (seq 0 ny)) (seq 0 nx)))
  = length (filter (binned ex ey) pts).
Proof.
  intros -> ->. rewrite map_map. induction pts as [|p pts IH].
  - cbn [filter length]. apply nsum_zero. intros i _. now apply nsum_zero.
  - rewrite filter_cons_len, <- IH.
    rewrite (nsum_map_ext _ (fun i => (nsum (map (fun j => b2n (in_cell ex ey i j p)) (seq 0 (length ey - 1)))
      + nsum (map (fun j => length (filter (in_cell ex ey i j) pts)) (seq 0 (length ey - 1))))%nat)).
    2:{ intros i _. rewrite <- nsum_map_add. apply nsum_map_ext. intros j _. apply filter_cons_len. }
    rewrite nsum_map_add. f_equal. unfold binned, in_cell.
    destruct (bin_of ex (fst p)) as [a|] eqn:Ea; [|apply nsum_zero; intros; now apply nsum_zero].
    destruct (bin_of ey (snd p)) as [b|] eqn:Eb; [|apply nsum_zero; intros; now apply nsum_zero].
    apply bin_of_lt in Ea, Eb. rewrite (nsum_delta _ 0 _ a) by
      (try lia; intros i Hi; apply nsum_zero; intros j _; replace (a =? i)%nat with false by (symmetry; apply Nat.eqb_neq; lia); reflexivity).
    rewrite (nsum_delta _ 0 _ b) by
      (try lia; intros j Hj; replace (b =? j)%nat with false by (symmetry; apply Nat.eqb_neq; lia); now rewrite andb_false_r).
    now rewrite !Nat.eqb_refl.
Qed.

(** * Histogram *)
Lemma histogram_spec pts bx by_ d ex ey : histogram2d pts bx by_ = Ok (d, ex, ey) ->
  edges_of bx (map fst pts) = Ok ex /\ edges_of by_ (map snd pts) = Ok ey /\
  strictly_sortedR ex /\ strictly_sortedR ey /\
  length d = (length ex - 1)%nat /\ Forall (fun r => length r = (length ey - 1)%nat) d /\
  exists total, (0 < total)%nat /\
    counts (fun xy => exists i j, in_bin ex i (fst xy) /\ in_bin ey j (snd xy)) pts total /\
    forall i j r v wx wy, nth_error d i = Some r -> nth_error r j = Some v -> bin_width ex i wx -> bin_width ey j wy ->
      0 < wx /\ 0 < wy /\
      exists c, counts (fun xy => in_bin ex i (fst xy) /\ in_bin ey j (snd xy)) pts c /\ v * wx * wy = INR c / INR total.
Proof.
  unfold histogram2d. intros H. apply rbind_ok in H. destruct H as (ex' & Ex & H).
  apply rbind_ok in H. destruct H as (ey' & Ey & H).
  pose proof (total_count ex' ey' pts _ _ (widths_length ex') (widths_length ey')) as T.
  set (cs := map (fun i => map (fun j => length (filter (in_cell ex' ey' i j) pts)) (seq 0 (length (widths ey')))) (seq 0 (length (widths ex')))) in *.
  rewrite T in H. set (total := length (filter (binned ex' ey') pts)) in *.
  destruct ((total =? 0)%nat || existsb (fun w => Reqb w 0) (widths ex' ++ widths ey')) eqn:E; [discriminate|].
  apply orb_false_iff in E. destruct E as [E0 E1]. apply Nat.eqb_neq in E0.
  injection H as <- <- <-.
  assert (Wx : forall w, In w (widths ex') -> w <> 0).
  { intros w Hw ->. assert (existsb (fun w => Reqb w 0) (widths ex' ++ widths ey') = true); [|congruence].
    apply existsb_exists. exists 0. split; [apply in_or_app; auto|]. now apply Reqb_true. }
  assert (Wy : forall w, In w (widths ey') -> w <> 0).
  { intros w Hw ->. assert (existsb (fun w => Reqb w 0) (widths ex' ++ widths ey') = true); [|congruence].
    apply existsb_exists. exists 0. split; [apply in_or_app; auto|]. now apply Reqb_true. }
  pose proof (edges_strict _ _ _ Ex Wx) as Sx. pose proof (edges_strict _ _ _ Ey Wy) as Sy.
  assert (Lc : length cs = length (widths ex')) by (unfold cs; now rewrite map_length, seq_length).
  split; [exact Ex|]. split; [exact Ey|]. split; [exact Sx|]. split; [exact Sy|]. split; [|split].
  { rewrite map_length, combine_length, Lc, widths_length. lia. }
  { apply Forall_forall. intros r Hr. apply in_map_iff in Hr. destruct Hr as ([c w] & <- & Hin).
    apply in_combine_l in Hin. unfold cs in Hin. apply in_map_iff in Hin. destruct Hin as (i & <- & _).
    cbn [fst]. rewrite map_length, combine_length, map_length, seq_length, widths_length. lia. }
  exists total. split; [lia|]. split.
  { apply counts_filter. intros [x y]. unfold binned. cbn [fst snd].
    destruct (bin_of ex' x) as [a|] eqn:Ea.
    - destruct (bin_of ey' y) as [b|] eqn:Eb.
      + split; auto. intros _. exists a, b. split; now apply bin_of_spec.
      + split; [discriminate|]. intros (i & j & _ & Hj). apply bin_of_spec in Hj; [congruence|auto].
    - split; [discriminate|]. intros (i & j & Hi & _). apply bin_of_spec in Hi; [congruence|auto]. }
  intros i j r v wx wy Hr Hv Hwx Hwy.
  assert (Px : 0 < wx) by (destruct Hwx as (a & b & Ha & Hb & ->); pose proof (Sx i (S i) a b ltac:(lia) Ha Hb); lra).
  assert (Py : 0 < wy) by (destruct Hwy as (a & b & Ha & Hb & ->); pose proof (Sy j (S j) a b ltac:(lia) Ha Hb); lra).
  split; auto. split; auto. apply widths_nth in Hwx, Hwy.
  assert (Hi : (i < length (widths ex'))%nat) by (apply nth_error_Some; congruence).
  assert (Hj : (j < length (widths ey'))%nat) by (apply nth_error_Some; congruence).
  rewrite nth_error_map, nth_combine, Hwx in Hr. unfold cs in Hr. rewrite nth_error_map, nth_error_seq0 in Hr by auto.
  cbn [option_map] in Hr. injection Hr as <-. cbn [fst snd] in Hv.
  rewrite nth_error_map, nth_combine, Hwy, nth_error_map, nth_error_seq0 in Hv by auto. cbn [option_map] in Hv.
  injection Hv as <-. cbn [fst snd]. exists (length (filter (in_cell ex' ey' i j) pts)). split.
  - apply counts_filter. intros [x y]. unfold in_cell. cbn [fst snd]. rewrite <- (bin_of_spec ex' x i Sx), <- (bin_of_spec ey' y j Sy).
    destruct (bin_of ex' x) as [a|]; [|split; [discriminate|intros [Q _]; discriminate]].
    destruct (bin_of ey' y) as [b|]; [|split; [discriminate|intros [_ Q]; discriminate]].
    rewrite andb_true_iff, !Nat.eqb_eq. split; [intros [-> ->]; auto|].
    intros [Q1 Q2]. injection Q1 as ->. injection Q2 as ->. auto.
  - assert (INR total <> 0) by (apply not_0_INR; lia). field. repeat split; lra.
Qed.
