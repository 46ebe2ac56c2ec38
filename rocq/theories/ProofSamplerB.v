(** Lemmas about parallel tempering: ladder, swaps, batches. *)
From Coq Require Import Permutation.
From Verif Require Import Base ModelChain ModelSampler SpecChain SpecSampler
  ProofUtils1D ProofChain ProofChainB ProofChainC ProofSampler.
Local Open Scope R_scope.

(** ** Ladder *)
Lemma int_part_floor x : 0 <= x -> is_floor x (int_part x).
Proof.
  intros Hx. unfold is_floor, int_part. destruct (base_Int_part x) as [H1 H2].
  assert (Hz : (0 <= Int_part x)%Z).
  { assert (IZR (-1) < IZR (Int_part x)) by lra. apply lt_IZR in H. lia. }
  rewrite INR_IZR_INZ, Z2Nat.id by auto. lra.
Qed.
Lemma floor_unique x a b : is_floor x a -> is_floor x b -> a = b.
Proof.
  intros [H1 H2] [H3 H4].
  assert (Ha : INR a < INR (S b)) by (rewrite S_INR; lra). apply INR_lt in Ha.
  assert (Hb : INR b < INR (S a)) by (rewrite S_INR; lra). apply INR_lt in Hb. lia.
Qed.

Lemma nth_error_repeat {A} (x : A) n i : (i < n)%nat -> nth_error (repeat x n) i = Some x.
Proof. revert i. induction n; intros [|i] H; cbn; auto; try lia. apply IHn. lia. Qed.

Lemma nth_error_seq_map {A} (f : nat -> A) n i : (i < n)%nat ->
  nth_error (map f (seq 0 n)) i = Some (f i).
Proof.
  intros H. rewrite nth_error_map. rewrite (nth_error_nth' _ 0%nat) by (now rewrite seq_length).
  rewrite seq_nth by auto. reflexivity.
Qed.

Lemma Reqb_false x y : x <> y -> Reqb x y = false.
Proof. unfold Reqb. destruct (Req_EM_T x y); auto; lra. Qed.
Lemma Rltb_false x y : y <= x -> Rltb x y = false.
Proof. unfold Rltb. destruct (Rlt_dec x y); auto; lra. Qed.

Lemma pt_temperatures_ok n f T k :
  (2 <= n)%nat -> 0 <= f <= 1 -> 1 < T -> is_floor (INR n * f) k ->
  let m := Nat.max 2 k in
  exists ts, pt_temperatures n f T = Ok ts /\ (m <= n)%nat /\ length ts = n /\
    forall i, (i < n)%nat -> nth_error ts i =
      Some (if (i <? m - 1)%nat then 1 else Rpower T (INR (i - (m - 1)) / INR (n - m))).
Proof.
  intros Hn Hf HT Hk m.
  assert (Hn2 : 2 <= INR n) by (change 2 with (INR 2); now apply le_INR).
  assert (Hi : int_part (INR n * f) = k).
  { eapply floor_unique; [|exact Hk]. apply int_part_floor. nra. }
  assert (Hkn : (k <= n)%nat).
  { apply INR_le. destruct Hk as [Hk _]. nra. }
  assert (Hmn : (2 <= m <= n)%nat) by (unfold m; lia).
  unfold pt_temperatures. rewrite Hi. fold m. rewrite repeat_length.
  destruct (m - 1 <? n)%nat eqn:Hlt; [|apply Nat.ltb_ge in Hlt; lia].
  unfold geomspace. rewrite Reqb_false, Rltb_false by lra. cbn [rbind].
  eexists. split; [reflexivity|]. split; [lia|].
  split; [rewrite app_length, repeat_length, map_length, seq_length; lia|].
  intros i Hi'. destruct (i <? m - 1)%nat eqn:Hc.
  - apply Nat.ltb_lt in Hc. rewrite nth_error_app1 by (now rewrite repeat_length).
    now apply nth_error_repeat.
  - apply Nat.ltb_ge in Hc. rewrite nth_error_app2 by (now rewrite repeat_length).
    rewrite repeat_length. rewrite nth_error_seq_map by lia.
    do 4 f_equal. lia.
Qed.

Lemma pt_ladder n f T k :
  (2 <= n)%nat -> 0 <= f <= 1 -> 1 < T -> is_floor (INR n * f) k ->
  exists ts, pt_temperatures n f T = Ok ts /\ ladder n (Nat.max 2 k) T ts.
Proof.
  intros Hn Hf HT Hk.
  destruct (pt_temperatures_ok n f T k Hn Hf HT Hk) as (ts & Hts & Hmn & Hlen & Hnth).
  set (m := Nat.max 2 k) in *. assert (Hm2 : (2 <= m)%nat) by (unfold m; lia).
  exists ts. split; auto.
  assert (Hget : forall i t, nth_error ts i = Some t -> (i < n)%nat /\
     t = if (i <? m - 1)%nat then 1 else Rpower T (INR (i - (m - 1)) / INR (n - m))).
  { intros i t Hi. assert (i < n)%nat by (rewrite <- Hlen; apply nth_error_Some; congruence).
    split; auto. rewrite Hnth in Hi by auto. congruence. }
  set (P := fun a b => Rpower T (INR a / INR b)) in *.
  assert (Hln : 0 < ln T) by (rewrite <- ln_1; apply ln_increasing; lra).
  assert (HP0 : forall b, P 0%nat b = 1).
  { intros b. unfold P, Rpower. cbn [INR]. unfold Rdiv. rewrite Rmult_0_l, Rmult_0_l. apply exp_0. }
  assert (HPmono : forall a b d, (0 < d)%nat -> (a < b)%nat -> P a d < P b d).
  { intros a b d Hd Hab. unfold P, Rpower. apply exp_increasing.
    apply Rmult_lt_compat_r; auto. apply Rmult_lt_compat_r.
    - apply Rinv_0_lt_compat. now apply lt_0_INR.
    - now apply lt_INR. }
  assert (HPT : forall d, (0 < d)%nat -> P d d = T).
  { intros d Hd. unfold P. assert (0 < INR d) by now apply lt_0_INR.
    replace (INR d / INR d) with 1 by (field; lra). apply Rpower_1. lra. }
  constructor; auto.
  - intros i t Hi. apply Hget in Hi. destruct Hi as [Hi ->].
    destruct (i <? m - 1)%nat eqn:Hc; [lra|]. apply Nat.ltb_ge in Hc.
    fold (P (i - (m - 1))%nat (n - m)%nat).
    destruct (Nat.eq_dec (i - (m - 1)) 0) as [->|H0]; [rewrite HP0; lra|].
    assert (0 < n - m)%nat by lia.
    split.
    + rewrite <- (HP0 (n - m)%nat). left. apply HPmono; lia.
    + apply Rle_trans with (P (n - m)%nat (n - m)%nat); [|rewrite HPT by auto; lra].
      destruct (Nat.eq_dec (i - (m - 1)) (n - m)) as [->|]; [lra|]. left. apply HPmono; lia.
  - intros i t t' H1 H2. apply Hget in H1, H2. destruct H1 as [H1 ->], H2 as [H2 ->].
    fold (P (i - (m - 1))%nat (n - m)%nat). fold (P (S i - (m - 1))%nat (n - m)%nat).
    destruct (i <? m - 1)%nat eqn:Hc1, (S i <? m - 1)%nat eqn:Hc2;
      rewrite ?Nat.ltb_ge, ?Nat.ltb_lt in *; try lra; try lia.
    + replace (S i - (m - 1))%nat with 0%nat by lia. rewrite HP0. lra.
    + left. apply HPmono; lia.
  - intros i t Hi. apply Hget in Hi. destruct Hi as [Hi ->].
    destruct (i <? m - 1)%nat eqn:Hc; rewrite ?Nat.ltb_ge, ?Nat.ltb_lt in *; [split; [lia|auto]|].
    fold (P (i - (m - 1))%nat (n - m)%nat). split.
    + intros H1. destruct (Nat.eq_dec i (m - 1)) as [->|Hne]; [lia|]. exfalso.
      assert (P 0%nat (n - m)%nat < P (i - (m - 1))%nat (n - m)%nat) by (apply HPmono; lia).
      rewrite HP0 in H. lra.
    + intros H1. replace (i - (m - 1))%nat with 0%nat by lia. apply HP0.
  - intros Hmn'. rewrite Hnth by lia.
    destruct (n - 1 <? m - 1)%nat eqn:Hc; rewrite ?Nat.ltb_ge, ?Nat.ltb_lt in *; [lia|].
    replace (n - 1 - (m - 1))%nat with (n - m)%nat by lia. f_equal. apply HPT. lia.
  - exists (Rpower T (1 / INR (n - m))). intros i t t' Hi H1 H2.
    apply Hget in H1, H2. destruct H1 as [H1 ->], H2 as [H2 ->].
    destruct (i <? m - 1)%nat eqn:Hc1, (S i <? m - 1)%nat eqn:Hc2;
      rewrite ?Nat.ltb_ge, ?Nat.ltb_lt in *; try lia.
    rewrite <- Rpower_plus. f_equal.
    replace (S i - (m - 1))%nat with (S (i - (m - 1)))%nat by lia. rewrite S_INR.
    unfold Rdiv. ring.
Qed.

(** ** Lists *)
Section Lists.
Context {A : Type}.
Lemma set_nth_split (l : list A) i a b : nth_error l i = Some a ->
  exists l1 l2, l = l1 ++ a :: l2 /\ length l1 = i /\ set_nth l i b = l1 ++ b :: l2.
Proof.
  intros H. destruct (nth_error_split _ _ H) as (l1 & l2 & -> & <-).
  exists l1, l2. repeat split. unfold set_nth.
  rewrite firstn_app, Nat.sub_diag, firstn_all, firstn_O, app_nil_r. f_equal. f_equal.
  rewrite skipn_app. replace (S (length l1) - length l1)%nat with 1%nat by lia.
  rewrite skipn_all2 by lia. reflexivity.
Qed.
Lemma set_nth_length_eq (l : list A) i a b : nth_error l i = Some a ->
  length (set_nth l i b) = length l.
Proof.
  intros H. destruct (set_nth_split _ _ _ b H) as (l1 & l2 & -> & _ & ->).
  now rewrite !app_length.
Qed.
Lemma set_nth_nth (l : list A) i a b k : nth_error l i = Some a ->
  nth_error (set_nth l i b) k = if (k =? i)%nat then Some b else nth_error l k.
Proof.
  intros H. destruct (set_nth_split _ _ _ b H) as (l1 & l2 & -> & Hl & ->).
  destruct (k =? i)%nat eqn:Hk.
  - apply Nat.eqb_eq in Hk. subst k i. rewrite nth_error_app2 by lia. now rewrite Nat.sub_diag.
  - apply Nat.eqb_neq in Hk. destruct (lt_dec k (length l1)).
    + now rewrite !nth_error_app1 by lia.
    + rewrite !nth_error_app2 by lia. destruct (k - length l1)%nat eqn:E; [lia|reflexivity].
Qed.
Lemma set_nth_map {B} (f : A -> B) (l : list A) i b :
  map f (set_nth l i b) = set_nth (map f l) i (f b).
Proof. unfold set_nth. now rewrite map_app, firstn_map, skipn_map. Qed.
Lemma set_nth_same (l : list A) i a : nth_error l i = Some a -> set_nth l i a = l.
Proof. intros H. now destruct (set_nth_split _ _ _ a H) as (l1 & l2 & -> & _ & ->). Qed.
Lemma set_nth_perm (l : list A) i a b : nth_error l i = Some a ->
  Permutation (b :: l) (a :: set_nth l i b).
Proof.
  intros H. destruct (set_nth_split _ _ _ b H) as (l1 & l2 & -> & _ & ->).
  etransitivity; [apply perm_skip; symmetry; apply Permutation_middle|].
  etransitivity; [apply perm_swap|]. apply perm_skip. apply Permutation_middle.
Qed.
Lemma set_nth_swap_perm (l : list A) i j a b :
  i <> j -> nth_error l i = Some a -> nth_error l j = Some b ->
  Permutation l (set_nth (set_nth l i b) j a).
Proof.
  intros Hij Hi Hj. apply (Permutation_cons_inv (a := b)).
  etransitivity; [exact (set_nth_perm l i a b Hi)|].
  apply set_nth_perm. rewrite (set_nth_nth _ _ _ _ _ Hi).
  now destruct (Nat.eqb_spec j i); [lia|].
Qed.
Lemma Forall2_refl (R : A -> A -> Prop) : (forall a, R a a) -> forall l, Forall2 R l l.
Proof. intros H. induction l; auto. Qed.
Lemma Forall2_set_nth (R : A -> A -> Prop) (l : list A) i a b :
  (forall x, R x x) -> nth_error l i = Some a -> R a b -> Forall2 R l (set_nth l i b).
Proof.
  intros Hr H Hab. destruct (set_nth_split _ _ _ b H) as (l1 & l2 & -> & _ & ->).
  apply Forall2_app; [now apply Forall2_refl|]. constructor; auto. now apply Forall2_refl.
Qed.
Lemma Forall2_trans (R : A -> A -> Prop) :
  (forall a b c, R a b -> R b c -> R a c) ->
  forall l1 l2, Forall2 R l1 l2 -> forall l3, Forall2 R l2 l3 -> Forall2 R l1 l3.
Proof.
  intros HR l1 l2 H. induction H; intros l3 H3; inversion H3; subst; auto.
  constructor; eauto.
Qed.
End Lists.

(** ** Swaps *)
Section Swaps.
Context {St V : Type}.
Variable E : env St V.
Let chain := chain St V.

(** What a swap may do to one chain. *)
Inductive swap_step : chain -> chain -> Prop :=
| ss_like1 c s2 T tr s1' s2' r tr' :
    e_like E (c_cur c) s2 T tr = Ret (s1', s2', r) tr' -> swap_step c (set_cur s1' c)
| ss_like2 c s1 T tr s1' s2' r tr' :
    e_like E s1 (c_cur c) T tr = Ret (s1', s2', r) tr' -> swap_step c (set_cur s2' c)
| ss_temp c T : swap_step c (set_temperature E T c).

Lemma choose_two_inv n tr i j tr' : choose_two n tr = Ret (i, j) tr' ->
  (i < n)%nat /\ (j < n)%nat /\ i <> j /\ tr = DPair i j :: tr'.
Proof.
  unfold choose_two. destruct (n <? 2)%nat; [discriminate|].
  destruct tr as [|[]]; try discriminate.
  destruct (_ && _)%bool eqn:H; [|discriminate]. intros [= <- <- <-].
  apply andb_true_iff in H. destruct H as [H H3]. apply andb_true_iff in H. destruct H as [H1 H2].
  apply Nat.ltb_lt in H1, H2. apply negb_true_iff, Nat.eqb_neq in H3. auto.
Qed.

(** One proposed exchange, case by case. *)
Lemma pt_swap_with_cases i j cs tr cs' o tr' c1 c2 :
  i <> j -> nth_error cs i = Some c1 -> nth_error cs j = Some c2 ->
  pt_swap_with E i j cs tr = Ret (cs', o) tr' ->
  exists s1 s2 r tr1,
    e_like E (c_cur c1) (c_cur c2) (c_temp c1) tr = Ret (s1, s2, r) tr1 /\
    let cs1 := set_nth (set_nth cs i (set_cur s1 c1)) j (set_cur s2 c2) in
    ((exists e, r = inr e /\ o = Some e /\ cs' = cs1 /\ tr' = tr1) \/
     (exists llr u, r = inl llr /\ tr1 = DU u :: tr' /\ 0 <= u < 1 /\
        ((u = 0 /\ o = Some EValue /\ cs' = cs1) \/
         (0 < u < 1 /\ o = None /\
          ((mhg_accepts (emul (1 / c_temp c1 - 1 / c_temp c2) llr) u /\
            cs' = set_nth (set_nth cs1 i (set_temperature E (c_temp c2) (set_cur s1 c1)))
                    j (set_temperature E (c_temp c1) (set_cur s2 c2))) \/
           (~ mhg_accepts (emul (1 / c_temp c1 - 1 / c_temp c2) llr) u /\ cs' = cs1)))))).
Proof.
  intros Hij H1 H2. unfold pt_swap_with. rewrite H1, H2. intros H. minv.
  destruct a as [[s1 s2] r]. exists s1, s2, r, t. split; auto. cbn zeta.
  destruct r as [llr|e]; minv.
  2:{ left. subst. eauto. }
  destruct (Reqb _ 0 || Reqb _ 0)%bool; [discriminate|]. minv. rename a into u.
  right. exists llr, u.
  match goal with H : 0 <= u < 1 |- _ => rename H into Hu end.
  split; auto.
  destruct (py_log_cases u Hu) as [[Hu0 Hlog]|[Hu0 Hlog]]; rewrite Hlog in *; minv; subst.
  - repeat split; auto; lra.
  - destruct (egtb _ _) eqn:Ha; minv; subst; (split; [auto|]); (split; [auto|]); right;
      (split; [auto|]); (split; [auto|]).
    + left. split; auto. now apply accept_rule.
    + right. split; auto. rewrite <- accept_rule by auto. congruence.
Qed.

Lemma pt_swap_with_respects (R : chain -> chain -> Prop) i j cs tr cs' o tr' :
  (forall c, R c c) -> (forall a b c, R a b -> R b c -> R a c) ->
  (forall c c', swap_step c c' -> R c c') ->
  i <> j -> pt_swap_with E i j cs tr = Ret (cs', o) tr' ->
  Forall2 R cs cs' /\ Permutation (map c_temp cs) (map c_temp cs').
Proof.
  intros Hr Ht Hs Hij H.
  destruct (nth_error cs i) as [c1|] eqn:H1.
  2:{ unfold pt_swap_with in H. rewrite H1 in H. discriminate. }
  destruct (nth_error cs j) as [c2|] eqn:H2.
  2:{ unfold pt_swap_with in H. rewrite H1, H2 in H. discriminate. }
  destruct (pt_swap_with_cases _ _ _ _ _ _ _ _ _ Hij H1 H2 H) as (s1 & s2 & r & tr1 & Hl & Hc).
  cbn zeta in Hc. set (cs1 := set_nth (set_nth cs i (set_cur s1 c1)) j (set_cur s2 c2)) in *.
  assert (Hji : nth_error (set_nth cs i (set_cur s1 c1)) j = Some c2).
  { rewrite (set_nth_nth _ _ _ _ _ H1). destruct (Nat.eqb_spec j i); [lia|auto]. }
  assert (HR1 : Forall2 R cs cs1).
  { eapply (Forall2_trans R Ht).
    - eapply (Forall2_set_nth R cs i c1 (set_cur s1 c1)); auto. apply Hs. econstructor; eauto.
    - eapply (Forall2_set_nth R _ j c2); auto. apply Hs. eapply ss_like2; eauto. }
  assert (HT1 : map c_temp cs1 = map c_temp cs).
  { unfold cs1. rewrite !set_nth_map. cbn [set_cur c_temp].
    rewrite (set_nth_same (map c_temp cs) i) by (now rewrite nth_error_map, H1).
    apply set_nth_same. now rewrite nth_error_map, H2. }
  assert (Hstay : Forall2 R cs cs1 /\ Permutation (map c_temp cs) (map c_temp cs1))
    by (rewrite HT1; auto).
  destruct Hc as [(e & _ & _ & -> & _)|(llr & u & _ & _ & _ & [(_ & _ & ->)|(_ & _ & [(_ & ->)|(_ & ->)])])]; auto.
  assert (G1 : nth_error cs1 i = Some (set_cur s1 c1)).
  { unfold cs1. rewrite (set_nth_nth _ _ _ _ _ Hji). destruct (Nat.eqb_spec i j); [lia|].
    rewrite (set_nth_nth _ _ _ _ _ H1). now rewrite Nat.eqb_refl. }
  assert (G2 : forall x, nth_error (set_nth cs1 i x) j = Some (set_cur s2 c2)).
  { intros x. rewrite (set_nth_nth _ _ _ _ _ G1). destruct (Nat.eqb_spec j i); [lia|].
    unfold cs1. rewrite (set_nth_nth _ _ _ _ _ Hji). now rewrite Nat.eqb_refl. }
  split.
  - eapply (Forall2_trans R Ht); [exact HR1|].
    eapply (Forall2_trans R Ht).
    + eapply (Forall2_set_nth R cs1 i); [auto|exact G1|]. apply Hs. apply ss_temp.
    + eapply (Forall2_set_nth R _ j); [auto|apply G2|]. apply Hs. apply ss_temp.
  - rewrite !set_nth_map. cbn [set_temperature c_temp]. rewrite HT1.
    apply set_nth_swap_perm; auto; now rewrite nth_error_map, ?H1, ?H2.
Qed.

Lemma pt_swap_one_respects (R : chain -> chain -> Prop) cs tr cs' o tr' :
  (forall c, R c c) -> (forall a b c, R a b -> R b c -> R a c) ->
  (forall c c', swap_step c c' -> R c c') ->
  pt_swap_one E cs tr = Ret (cs', o) tr' ->
  Forall2 R cs cs' /\ Permutation (map c_temp cs) (map c_temp cs').
Proof.
  intros Hr Ht Hs H. unfold pt_swap_one in H. minv.
  destruct a as [[i j]|e]; minv; subst.
  - apply choose_two_inv in H0. destruct H0 as (_ & _ & Hij & _).
    eapply pt_swap_with_respects; eauto.
  - split; auto. now apply Forall2_refl.
Qed.

Lemma pt_swaps_respects (R : chain -> chain -> Prop) k :
  (forall c, R c c) -> (forall a b c, R a b -> R b c -> R a c) ->
  (forall c c', swap_step c c' -> R c c') ->
  forall cs tr cs' o tr', pt_swaps E k cs tr = Ret (cs', o) tr' ->
  Forall2 R cs cs' /\ Permutation (map c_temp cs) (map c_temp cs').
Proof.
  intros Hr Ht Hs. induction k as [|k IH]; intros cs tr cs' o tr' H; cbn [pt_swaps] in H; minv; subst.
  - split; auto. now apply Forall2_refl.
  - destruct a as [cs1 o1]. apply (pt_swap_one_respects R) in H0; auto. destruct H0 as [A1 A2].
    destruct o1; minv; subst; auto.
    apply IH in H1. destruct H1 as [B1 B2]. split.
    + eapply (Forall2_trans R); eauto.
    + etransitivity; eauto.
Qed.

(** Everything but state and temperature is left alone; [same] compares states. *)
Definition untouched (same : St -> St -> Prop) (c c' : chain) : Prop :=
  same (c_cur c) (c_cur c') /\ c_nprop c' = c_nprop c /\ c_nacc c' = c_nacc c /\
  c_nprop_tot c' = c_nprop_tot c /\ c_nacc_tot c' = c_nacc_tot c /\ c_exc c' = c_exc c /\
  c_saved c' = c_saved c /\ c_flag c' = c_flag c /\ c_log c' = c_log c.

Lemma swap_step_untouched (same : St -> St -> Prop) :
  (forall s, same s s) ->
  (forall old new t tr old' new' r tr', e_like E old new t tr = Ret (old', new', r) tr' ->
     same old old' /\ same new new') ->
  (forall t s, same s (s_settemp (e_ops E) t s)) ->
  forall c c', swap_step c c' -> untouched same c c'.
Proof.
  intros Hr Hl Ht c c' H. unfold untouched. destruct H as [? ? ? ? ? ? ? ? H|? ? ? ? ? ? ? ? H|c T]; cbn.
  - apply Hl in H. tauto.
  - apply Hl in H. tauto.
  - repeat split; auto. destruct (s_kind _ _); auto.
Qed.
Lemma untouched_refl (same : St -> St -> Prop) : (forall s, same s s) -> forall c, untouched same c c.
Proof. intros H c. unfold untouched. auto 10. Qed.
Lemma untouched_trans (same : St -> St -> Prop) : (forall a b c, same a b -> same b c -> same a c) ->
  forall a b c, untouched same a b -> untouched same b c -> untouched same a c.
Proof.
  intros H a b c (?&?&?&?&?&?&?&?&?) (?&?&?&?&?&?&?&?&?). unfold untouched.
  split; [eauto|]. repeat split; congruence.
Qed.
Definition anything (s s' : St) : Prop := True.
Lemma swap_step_anything c c' : swap_step c c' -> untouched anything c c'.
Proof. apply swap_step_untouched; unfold anything; auto. Qed.

Lemma swaps_untouched k cs tr cs' o tr' : pt_swaps E k cs tr = Ret (cs', o) tr' ->
  Forall2 (untouched anything) cs cs' /\ Permutation (map c_temp cs) (map c_temp cs').
Proof.
  apply pt_swaps_respects.
  - apply untouched_refl. unfold anything. auto.
  - apply untouched_trans. unfold anything. auto.
  - apply swap_step_anything.
Qed.

(** ** What a run adds to the saved samples *)
Definition appended (sel : list chain) (sv sv' : saved St V) : Prop :=
  match sv, sv' with
  | SDict d, SDict d' => forall k,
      stored k d' = stored k d ++ concat (map (fun ce => sample E k (c_cur ce)) sel)
  | SList l, SList l' => l' = l ++ map c_cur sel
  | _, _ => False
  end.
(** Lists hold states that are neither State nor dict. *)
Definition fitting (c : chain) : Prop :=
  match c_saved c with SDict _ => True | SList _ => forall s, s_kind (e_ops E) s = KOther end.

Lemma appended_nil sv : appended [] sv sv.
Proof. destruct sv; cbn; intros; now rewrite app_nil_r. Qed.
Lemma appended_app s1 s2 a b c : appended s1 a b -> appended s2 b c -> appended (s1 ++ s2) a c.
Proof.
  destruct a, b, c; cbn; try tauto.
  - intros H1 H2 k. rewrite H2, H1, map_app, concat_app. now rewrite app_assoc.
  - intros -> ->. rewrite map_app. now rewrite app_assoc.
Qed.
Lemma appended_fitting sel c c' : appended sel (c_saved c) (c_saved c') -> fitting c -> fitting c'.
Proof. unfold fitting. destruct (c_saved c), (c_saved c'); cbn; tauto. Qed.

Lemma rounds_appended sc b e c tr ces c' tr' : leaves_records b -> leaves_records e ->
  fitting c -> rounds E sc b e c tr ces c' tr' ->
  exists sel, selects (sampled sc) ces sel /\ appended sel (c_saved c) (c_saved c').
Proof.
  intros Hb He Hf Hr. unfold fitting in Hf. destruct (c_saved c) as [d|l] eqn:Hd.
  - destruct (rounds_dict E sc b e Hb He _ _ _ _ _ Hr d Hd) as (sel & d' & Hs & -> & Hst).
    exists sel. auto.
  - destruct (rounds_list E sc b e Hb He Hf _ _ _ _ _ Hr l Hd) as (sel & Hs & ->).
    exists sel. cbn. auto.
Qed.

Lemma selects_app {A} (P : A -> Prop) l1 s1 l2 s2 :
  selects P l1 s1 -> selects P l2 s2 -> selects P (l1 ++ l2) (s1 ++ s2).
Proof. induction 1; cbn; intros; auto; constructor; auto. Qed.
Lemma selects_ext {A} (P Q : A -> Prop) l s :
  (forall a, In a l -> (P a <-> Q a)) -> selects P l s -> selects Q l s.
Proof.
  intros H Hs. induction Hs; constructor; auto.
  - apply H; auto. now left.
  - apply IHHs. intros x Hx. apply H. now right.
  - rewrite <- H; auto. now left.
  - apply IHHs. intros x Hx. apply H. now right.
Qed.

(** ** Batches *)
Section Batches.
Variable s : sampler St V.
Variable jobs : option Z.
Hypothesis Hb : leaves_records (Some (begin_iteration s)).
Hypothesis He : leaves_records (Some (end_iteration s)).
Hypothesis Hend : sm_on_end_advance s = pt_on_end_advance E.

(** One batch: every chain [k] iterations, then the swaps. *)
Lemma advance_chain_inv k sc cs tr cs' tr' :
  advance_chain E s jobs k sc cs tr = Ret (cs', None) tr' ->
  exists csm trm,
    all_chains (advance E k sc (Some (begin_iteration s)) (Some (end_iteration s))) cs tr csm trm /\
    sm_on_end_advance s csm trm = Ret (cs', None) tr'.
Proof.
  unfold advance_chain. destruct jobs as [j|]; [|intros H; minv; discriminate].
  intros H. minv. destruct a as [csm [x|]]; minv; [discriminate|].
  apply each_chain_ok in H0. eauto.
Qed.

Lemma batch_facts k sc cs tr cs' tr' :
  advance_chain E s jobs k sc cs tr = Ret (cs', None) tr' ->
  length cs' = length cs /\
  forall p c, nth_error cs p = Some c -> exists c' ces t t' cm,
    nth_error cs' p = Some c' /\
    rounds E sc (Some (begin_iteration s)) (Some (end_iteration s)) c t ces cm t' /\
    length ces = k /\ untouched anything cm c'.
Proof.
  intros H. apply advance_chain_inv in H. destruct H as (csm & trm & Ha & Hs).
  rewrite Hend in Hs. apply swaps_untouched in Hs. destruct Hs as [Hu _].
  split.
  - rewrite <- (all_chains_length _ _ _ _ _ Ha). clear -Hu. induction Hu; cbn; congruence.
  - intros p c Hp. destruct (all_chains_nth _ _ _ _ _ Ha p c Hp) as (cm & t & t' & Hm & Hadv).
    apply advance_rounds in Hadv. destruct Hadv as (ces & Hl & Hr).
    assert (Hx : forall l l', Forall2 (untouched anything) l l' -> forall p x, nth_error l p = Some x ->
      exists y, nth_error l' p = Some y /\ untouched anything x y).
    { clear. induction 1 as [|x y l l' Hxy HF IH]; intros [|p] z Hz; cbn in *; try discriminate.
      - injection Hz as <-. eauto.
      - eauto. }
    destruct (Hx _ _ Hu p cm Hm) as (c' & Hc' & Hun).
    exists c', ces, t, t', cm. auto.
Qed.

Lemma batch_count k sc cs tr cs' tr' it :
  advance_chain E s jobs k sc cs tr = Ret (cs', None) tr' ->
  (forall c, In c cs -> c_nprop_tot c = it) -> (forall c, In c cs' -> c_nprop_tot c = it + k)%nat.
Proof.
  intros H Hall c' Hin. destruct (batch_facts _ _ _ _ _ _ H) as [Hlen Hf].
  apply In_nth_error in Hin. destruct Hin as [p Hp].
  assert (Hpl : (p < length cs)%nat) by (rewrite <- Hlen; apply nth_error_Some; congruence).
  destruct (nth_error cs p) as [c|] eqn:Hc; [|apply nth_error_None in Hc; lia].
  destruct (Hf p c Hc) as (c1 & ces & t & t' & cm & Hc1 & Hr & Hl & Hu).
  assert (c1 = c') by congruence. subst c1.
  destruct (rounds_counts E _ _ _ Hb He _ _ _ _ _ Hr) as (Hn & _ & _).
  destruct Hu as (_ & _ & _ & Hu & _). rewrite Hu, Hn, Hl.
  rewrite (Hall c); auto. eapply nth_error_In; eauto.
Qed.

(** A sequence of batches with given numbers of iterations and burn-ins. *)
Inductive batches (sc : sched) : list (nat * nat) -> list chain -> trace -> list chain -> trace -> Prop :=
| bs_nil cs tr : batches sc [] cs tr cs tr
| bs_cons k b plan cs tr cs1 tr1 cs' tr' :
    advance_chain E s jobs k (with_burnin b sc) cs tr = Ret (cs1, None) tr1 ->
    batches sc plan cs1 tr1 cs' tr' -> batches sc ((k, b) :: plan) cs tr cs' tr'.

Lemma batch_sizes_step m n : (0 < m)%nat -> (0 < n)%nat ->
  batch_sizes m n = Nat.min m n :: batch_sizes m (n - Nat.min m n).
Proof.
  intros Hm Hn. unfold batch_sizes. destruct (le_lt_dec m n) as [H|H].
  - rewrite Nat.min_l by auto.
    assert (Hd : (n / m = S ((n - m) / m))%nat).
    { replace n with (n - m + 1 * m)%nat at 1 by lia. rewrite Nat.div_add by lia. lia. }
    assert (Hmod : (n mod m = (n - m) mod m)%nat).
    { replace n with (n - m + 1 * m)%nat at 1 by lia. now rewrite Nat.mod_add by lia. }
    rewrite Hd, Hmod. reflexivity.
  - rewrite Nat.min_r by lia. rewrite Nat.sub_diag.
    rewrite Nat.div_small, Nat.mod_small by auto. rewrite Nat.div_0_l, Nat.mod_0_l by lia.
    destruct (n =? 0)%nat eqn:E0; [apply Nat.eqb_eq in E0; lia|]. reflexivity.
Qed.
Lemma batch_sizes_0 m : (0 < m)%nat -> batch_sizes m 0 = [].
Proof. intros H. unfold batch_sizes. rewrite Nat.div_0_l, Nat.mod_0_l by lia. reflexivity. Qed.

Lemma pt_loop_batches swap n sc fuel : (0 < swap)%nat -> forall cs tr cs' tr' it,
  (it <= n)%nat -> (forall c, In c cs -> c_nprop_tot c = it) ->
  pt_loop E fuel s jobs swap n sc cs tr = Ret (cs', None) tr' ->
  exists plan, map fst plan = batch_sizes swap (n - it) ++ [0%nat] /\
    batches sc plan cs tr cs' tr' /\ (forall c, In c cs' -> c_nprop_tot c = n).
Proof.
  intros Hsw. induction fuel as [|fuel IH]; intros cs tr cs' tr' it Hit Hall H; cbn [pt_loop] in H; [discriminate|].
  destruct cs as [|c0 t]; [minv; discriminate|].
  rewrite (Hall c0 (or_introl eq_refl)) in H.
  apply bind_ret_inv in H. destruct H as ([cs1 o] & tr1 & Hb1 & H).
  destruct o as [x|]; [minv; discriminate|].
  pose proof (batch_count _ _ _ _ _ _ it Hb1 Hall) as Hc1.
  destruct (n <=? it)%nat eqn:Hni.
  - apply Nat.leb_le in Hni. assert (it = n) by lia. subst it. minv. subst.
    exists [(Nat.min swap (n - n), Nat.min swap (sc_burnin sc - n))].
    rewrite Nat.sub_diag in *. rewrite Nat.min_0_r in *.
    split; [now rewrite batch_sizes_0 by auto|]. split; [econstructor; [exact Hb1|constructor]|].
    intros c Hc. rewrite (Hc1 c Hc). lia.
  - apply Nat.leb_gt in Hni.
    assert (Hle : (it + Nat.min swap (n - it) <= n)%nat) by lia.
    destruct (IH _ _ _ _ _ Hle Hc1 H) as (plan & Hp & Hbs & Hc).
    exists ((Nat.min swap (n - it), Nat.min swap (sc_burnin sc - it)) :: plan).
    split; [|split; [econstructor; eauto|auto]].
    cbn [map fst]. rewrite Hp. rewrite (batch_sizes_step swap (n - it)) by lia.
    cbn [app]. do 3 f_equal. lia.
Qed.

(** The loop ends: more fuel than the number of missing iterations changes nothing. *)
Lemma pt_loop_fuel swap n sc : (0 < swap)%nat -> forall f1 f2 cs tr it,
  (forall c, In c cs -> c_nprop_tot c = it) ->
  (n - it < f1)%nat -> (n - it < f2)%nat ->
  pt_loop E f1 s jobs swap n sc cs tr = pt_loop E f2 s jobs swap n sc cs tr.
Proof.
  intros Hsw. induction f1 as [|f1 IH]; intros f2 cs tr it Hall H1 H2; [lia|].
  destruct f2 as [|f2]; [lia|]. cbn [pt_loop].
  destruct cs as [|c0 t]; [reflexivity|].
  rewrite (Hall c0 (or_introl eq_refl)). unfold bind.
  destruct (advance_chain _ _ _ _ _ _ tr) as [[cs1 [x|]] tr1|x tr1| |] eqn:Hb1; auto.
  destruct (n <=? it)%nat eqn:Hni; auto. apply Nat.leb_gt in Hni.
  apply (IH f2 cs1 tr1 (it + Nat.min swap (n - it))%nat); try lia.
  exact (batch_count _ _ _ _ _ _ it Hb1 Hall).
Qed.

(** The iterations saved by a run: the burn-in of the batch an iteration is in is compared
    with the number of the iteration since the start of the chain. *)
Definition batch_schedule (swap burnin every i : nat) : Prop :=
  on_schedule (Nat.min swap (burnin - ((i - 1) / swap) * swap)) every i.

Lemma pt_loop_saved swap n sc fuel : (0 < swap)%nat -> forall cs tr cs' tr' it,
  (it <= n)%nat -> (exists q, it = q * swap)%nat \/ it = n ->
  (forall c, In c cs -> c_nprop_tot c = it) ->
  pt_loop E fuel s jobs swap n sc cs tr = Ret (cs', None) tr' ->
  length cs' = length cs /\
  forall p c, nth_error cs p = Some c -> fitting c ->
  exists c' ces sel, nth_error cs' p = Some c' /\ length ces = (n - it)%nat /\
    (forall j ce, nth_error ces j = Some ce -> c_nprop_tot ce = it + S j)%nat /\
    selects (fun ce => batch_schedule swap (sc_burnin sc) (sc_every sc) (c_nprop_tot ce) /\
                       c_temp ce = 1) ces sel /\
    appended sel (c_saved c) (c_saved c').
Proof.
  intros Hsw. induction fuel as [|fuel IH]; intros cs tr cs' tr' it Hit Hq Hall H; cbn [pt_loop] in H; [discriminate|].
  destruct cs as [|c0 t]; [minv; discriminate|].
  rewrite (Hall c0 (or_introl eq_refl)) in H. remember (c0 :: t) as cs eqn:Hcs. clear c0 t Hcs.
  apply bind_ret_inv in H. destruct H as ([cs1 o] & tr1 & Hb1 & H).
  destruct o as [x|]; [minv; discriminate|].
  pose proof (batch_count _ _ _ _ _ _ it Hb1 Hall) as Hc1.
  destruct (batch_facts _ _ _ _ _ _ Hb1) as [Hlen1 Hf].
  set (k := Nat.min swap (n - it)) in *.
  assert (Hone : forall p c, nth_error cs p = Some c -> fitting c ->
    exists c1 ces sel, nth_error cs1 p = Some c1 /\ length ces = k /\
    (forall j ce, nth_error ces j = Some ce -> c_nprop_tot ce = it + S j)%nat /\
    selects (fun ce => batch_schedule swap (sc_burnin sc) (sc_every sc) (c_nprop_tot ce) /\
                       c_temp ce = 1) ces sel /\
    appended sel (c_saved c) (c_saved c1)).
  { intros p c Hp Hfit. destruct (Hf p c Hp) as (c1 & ces & t & t' & cm & Hc1p & Hr & Hl & Hu).
    destruct (rounds_appended _ _ _ _ _ _ _ _ Hb He Hfit Hr) as (sel & Hsel & Happ).
    destruct (rounds_counts E _ _ _ Hb He _ _ _ _ _ Hr) as (_ & _ & Hj).
    rewrite (Hall c) in Hj by (eapply nth_error_In; eauto).
    exists c1, ces, sel. split; auto. split; auto. split; auto. split.
    - eapply selects_ext; [|exact Hsel]. intros ce Hce. unfold sampled. cbn [with_burnin sc_burnin sc_every].
      apply In_nth_error in Hce. destruct Hce as [j Hce].
      assert (Hjk : (j < k)%nat) by (rewrite <- Hl; apply nth_error_Some; congruence).
      rewrite (Hj _ _ Hce). unfold batch_schedule.
      destruct Hq as [[q ->]|Hn]; [|unfold k in Hjk; lia].
      replace ((q * swap + S j - 1) / swap)%nat with q; [tauto|].
      apply (Nat.div_unique _ _ _ j); unfold k in Hjk; lia.
    - destruct Hu as (_ & _ & _ & _ & _ & _ & -> & _). auto. }
  destruct (n <=? it)%nat eqn:Hni.
  - apply Nat.leb_le in Hni. minv. subst. split; auto.
    intros p c Hp Hfit. destruct (Hone p c Hp Hfit) as (c1 & ces & sel & G1 & G2 & G3 & G4 & G5).
    exists c1, ces, sel. repeat split; auto. rewrite G2. unfold k. lia.
  - apply Nat.leb_gt in Hni.
    assert (Hle : (it + k <= n)%nat) by (unfold k; lia).
    assert (Hq' : (exists q, it + k = q * swap)%nat \/ (it + k)%nat = n).
    { unfold k. destruct Hq as [[q ->]|]; [|lia].
      destruct (le_lt_dec swap (n - q * swap)) as [G|G].
      - left. exists (S q). rewrite Nat.min_l by auto. lia.
      - right. rewrite Nat.min_r by lia. lia. }
    destruct (IH _ _ _ _ _ Hle Hq' Hc1 H) as [Hlen Hrest]. split; [congruence|].
    intros p c Hp Hfit. destruct (Hone p c Hp Hfit) as (c1 & ces & sel & G1 & G2 & G3 & G4 & G5).
    destruct (Hrest p c1 G1 (appended_fitting _ _ _ G5 Hfit)) as (c' & ces' & sel' & K1 & K2 & K3 & K4 & K5).
    exists c', (ces ++ ces'), (sel ++ sel'). split; auto.
    split; [rewrite app_length; lia|].
    split.
    + intros j ce Hce. destruct (lt_dec j (length ces)) as [Hj|Hj].
      * rewrite nth_error_app1 in Hce by auto. auto.
      * rewrite nth_error_app2 in Hce by lia. rewrite (K3 _ _ Hce). lia.
    + split; [now apply selects_app|]. eapply appended_app; eauto.
Qed.

Lemma pt_loop_temps swap n sc fuel :
  leaves_temp (Some (begin_iteration s)) -> leaves_temp (Some (end_iteration s)) ->
  forall cs tr cs' o tr',
  pt_loop E fuel s jobs swap n sc cs tr = Ret (cs', o) tr' ->
  Permutation (map c_temp cs) (map c_temp cs').
Proof.
  intros Hbt Het. induction fuel as [|fuel IH]; intros cs tr cs' o tr' H; cbn [pt_loop] in H; [discriminate|].
  destruct cs as [|c0 t]; [minv; subst; auto|]. remember (c0 :: t) as cs eqn:Hcs. clear Hcs.
  apply bind_ret_inv in H. destruct H as ([cs1 o1] & tr1 & Hb1 & H).
  assert (Hp : Permutation (map c_temp cs) (map c_temp cs1)).
  { revert Hb1. unfold advance_chain. destruct jobs as [j|]; [|intros Hb1; minv; subst; auto].
    intros Hb1. minv. destruct a as [csm om].
    apply (each_chain_respects (fun c c' => c_temp c' = c_temp c)) in H0; auto.
    2:{ intros c tr2 c' o2 tr3 Hadv. exact (advance_keeps_temp E _ _ _ _ _ _ _ _ _ Hbt Het Hadv). }
    assert (Hm : map c_temp csm = map c_temp cs).
    { clear -H0. induction H0; cbn; congruence. }
    destruct om as [x|]; minv; subst.
    - destruct (1 <? j)%Z; [auto|]. now rewrite Hm.
    - rewrite Hend in H1. apply swaps_untouched in H1. destruct H1 as [_ H1].
      now rewrite Hm in H1. }
  destruct o1 as [x|]; minv; subst; auto.
  destruct (n <=? _)%nat; minv; subst; auto.
  etransitivity; [exact Hp|]. eapply IH; eauto.
Qed.

End Batches.
End Swaps.
