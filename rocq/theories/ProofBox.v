(** Integrals over boxes of numbers: existence, order of integration, and the exchange of one
    number of the box with another number. *)
From Coquelicot Require Import Coquelicot.
From Verif Require Import Base SpecInvariance ProofFubini.
Local Open Scope R_scope.

Lemma near_refl d xs : 0 < d -> near d xs xs.
Proof.
  intros Hd. induction xs as [|x xs IH]; constructor; auto. replace (x - x) with 0 by lra. now rewrite Rabs_R0.
Qed.
Lemma near_mono d e xs ys : d <= e -> near d xs ys -> near e xs ys.
Proof. intros He H. induction H; constructor; auto. lra. Qed.
Lemma near_nth d xs ys i : near d xs ys -> 0 < d -> Rabs (nth i xs 0 - nth i ys 0) < d.
Proof.
  intros H Hd. revert i. induction H as [|x y xs ys H Hs IH]; intros [|i]; cbn; auto;
    (replace (0 - 0) with 0 by lra; now rewrite Rabs_R0).
Qed.
Lemma set_nth_cons {A} (x : A) l i y : set_nth (x :: l) (S i) y = x :: set_nth l i y.
Proof. reflexivity. Qed.
Lemma near_set d xs ys i x y : near d xs ys -> Rabs (x - y) < d -> (i < length xs)%nat ->
  near d (set_nth xs i x) (set_nth ys i y).
Proof.
  intros H Hd. revert i. induction H as [|a b xs ys H Hs IH]; intros [|i] Hi; cbn [length] in Hi; try lia.
  - constructor; auto.
  - rewrite !set_nth_cons. constructor; auto. apply IH. lia.
Qed.

Section Box.
Context (lo hi : R) (Hlo : lo < hi).
Notation box := (in_box lo hi).
Notation ucont := (cont_on lo hi).
Notation inside x := (lo <= x <= hi).

Lemma box_cons n x xs : box (S n) (x :: xs) <-> inside x /\ box n xs.
Proof.
  unfold in_box. split.
  - intros [Hl Hf]. inversion Hf; subst. cbn in Hl. repeat split; auto; lra.
  - intros [Hx [Hl Hf]]. split; [cbn; lia|]. now constructor.
Qed.
Lemma box_set n xs i y : box n xs -> inside y -> (i < n)%nat -> box n (set_nth xs i y).
Proof.
  revert xs i. induction n as [|n IH]; intros xs i H Hy Hi; [lia|].
  destruct xs as [|x xs]; [now destruct H|]. apply box_cons in H. destruct H as [Hx Hs].
  destruct i as [|i]; [now apply box_cons|]. rewrite set_nth_cons. apply box_cons. split; auto. apply IH; auto. lia.
Qed.
Lemma box_nth n xs i : box n xs -> (i < n)%nat -> inside (nth i xs 0).
Proof. intros [Hl Hf] Hi. rewrite List.Forall_forall in Hf. apply Hf. apply nth_In. lia. Qed.

(** Closure properties. *)
Lemma ucont_ext n f g : (forall xs, box n xs -> f xs = g xs) -> ucont n f -> ucont n g.
Proof.
  intros E H eps He. destruct (H eps He) as (d & Hd & Hf). exists d. split; auto. intros xs ys Hx Hy Hn.
  rewrite <- !E by auto. auto.
Qed.
Lemma ucont_const n c : ucont n (fun _ => c).
Proof.
  intros eps He. exists 1. split; [lra|]. intros. replace (c - c) with 0 by lra. now rewrite Rabs_R0.
Qed.
Lemma ucont_map m n f (k : list R -> list R) :
  (forall xs, box m xs -> box n (k xs)) ->
  (forall d xs ys, 0 < d -> box m xs -> box m ys -> near d xs ys -> near d (k xs) (k ys)) ->
  ucont n f -> ucont m (fun xs => f (k xs)).
Proof.
  intros Hb Hk H eps He. destruct (H eps He) as (d & Hd & Hf). exists d. split; auto.
Qed.
Lemma ucont_plus n f g : ucont n f -> ucont n g -> ucont n (fun xs => f xs + g xs).
Proof.
  intros Hf Hg eps He. destruct (Hf (eps/2) ltac:(lra)) as (d & Hd & H1), (Hg (eps/2) ltac:(lra)) as (e & Hee & H2).
  exists (Rmin d e). split; [now apply Rmin_pos|]. intros xs ys Hx Hy Hn.
  assert (N1 : near d xs ys) by (eapply near_mono; [apply Rmin_l|exact Hn]).
  assert (N2 : near e xs ys) by (eapply near_mono; [apply Rmin_r|exact Hn]).
  specialize (H1 xs ys Hx Hy N1). specialize (H2 xs ys Hx Hy N2).
  replace (f xs + g xs - (f ys + g ys)) with ((f xs - f ys) + (g xs - g ys)) by lra.
  eapply Rle_lt_trans; [apply Rabs_triang|]. lra.
Qed.
Lemma ucont_nth n i : ucont n (fun xs => nth i xs 0).
Proof. intros eps He. exists eps. split; auto. intros. now apply near_nth. Qed.

(** Bounded on the box: from the lower corner in small steps. *)
Fixpoint toward (t : R) (xs : list R) : list R :=
  match xs with [] => [] | x :: r => (lo + t * (x - lo)) :: toward t r end.
Lemma toward_box n t xs : 0 <= t <= 1 -> box n xs -> box n (toward t xs).
Proof.
  intros Ht. revert n. induction xs as [|x xs IH]; intros n H; [exact H|].
  destruct n as [|n]; [now destruct H|]. apply box_cons in H. destruct H as [Hx Hs].
  cbn. apply box_cons. split; auto. split; [nra|]. nra.
Qed.
Lemma toward_one xs : toward 1 xs = xs.
Proof. induction xs as [|x xs IH]; cbn; auto. rewrite IH. f_equal. lra. Qed.
Lemma toward_zero n xs : length xs = n -> toward 0 xs = repeat lo n.
Proof. revert n. induction xs as [|x xs IH]; intros n <-; cbn; auto. rewrite (IH (length xs)) by auto. f_equal. lra. Qed.
Lemma toward_near n d s t xs : box n xs -> Rabs (s - t) * (hi - lo) < d -> near d (toward s xs) (toward t xs).
Proof.
  revert n. induction xs as [|x xs IH]; intros n H Hd; cbn; [constructor|].
  destruct n as [|n]; [now destruct H|]. apply box_cons in H. destruct H as [Hx Hs]. constructor.
  - replace (lo + s * (x - lo) - (lo + t * (x - lo))) with ((s - t) * (x - lo)) by lra.
    rewrite Rabs_mult, (Rabs_pos_eq (x - lo)) by lra. pose proof (Rabs_pos (s - t)).
    eapply Rle_lt_trans; [|exact Hd]. apply Rmult_le_compat_l; lra.
  - eapply IH; eauto.
Qed.
Lemma ucont_bounded n f : ucont n f -> exists B, 0 < B /\ forall xs, box n xs -> Rabs (f xs) <= B.
Proof.
  intros H. destruct (H 1 ltac:(lra)) as (d & Hd & Hf).
  destruct (archimed_cor1 (d / (hi - lo)) ltac:(apply Rdiv_lt_0_compat; lra)) as (N & HN & HN0).
  assert (Npos : 0 < INR N) by (apply lt_0_INR; lia).
  assert (HNd : / INR N * (hi - lo) < d).
  { apply Rmult_lt_reg_r with (/ (hi - lo)); [apply Rinv_0_lt_compat; lra|].
    rewrite Rmult_assoc, Rinv_r by lra. unfold Rdiv in HN. lra. }
  exists (Rabs (f (repeat lo n)) + INR N + 1). split.
  { pose proof (Rabs_pos (f (repeat lo n))). lra. }
  intros xs Hx.
  assert (St : forall k, (k <= N)%nat -> Rabs (f (toward (INR k / INR N) xs) - f (repeat lo n)) <= INR k).
  { induction k as [|k IH]; intros Hk.
    - replace (INR 0 / INR N) with 0 by (cbn; field; lra). destruct Hx as [Hl _]. rewrite (toward_zero n) by auto.
      replace (f (repeat lo n) - f (repeat lo n)) with 0 by lra. rewrite Rabs_R0. cbn. lra.
    - assert (Hr : forall j, (j <= N)%nat -> 0 <= INR j / INR N <= 1).
      { intros j Hj. apply le_INR in Hj. pose proof (pos_INR j). split.
        - apply Rmult_le_pos; [lra|]. apply Rlt_le. now apply Rinv_0_lt_compat.
        - apply Rmult_le_reg_r with (INR N); auto. unfold Rdiv. rewrite Rmult_assoc, Rinv_l by lra. lra. }
      specialize (IH ltac:(lia)).
      assert (Hn : Rabs (f (toward (INR (S k) / INR N) xs) - f (toward (INR k / INR N) xs)) < 1).
      { apply Hf; try (apply toward_box; auto; apply Hr; lia).
        apply (toward_near n); auto. rewrite S_INR.
        replace ((INR k + 1) / INR N - INR k / INR N) with (/ INR N) by (field; lra).
        rewrite Rabs_pos_eq; [exact HNd|]. apply Rlt_le. now apply Rinv_0_lt_compat. }
      rewrite S_INR at 2.
      replace (f (toward (INR (S k) / INR N) xs) - f (repeat lo n)) with
        ((f (toward (INR (S k) / INR N) xs) - f (toward (INR k / INR N) xs)) + (f (toward (INR k / INR N) xs) - f (repeat lo n))) by lra.
      eapply Rle_trans; [apply Rabs_triang|]. lra. }
  specialize (St N (le_n N)). replace (INR N / INR N) with 1 in St by (field; lra). rewrite toward_one in St.
  replace (f xs) with ((f xs - f (repeat lo n)) + f (repeat lo n)) by lra.
  eapply Rle_trans; [apply Rabs_triang|]. lra.
Qed.
Lemma ucont_mult n f g : ucont n f -> ucont n g -> ucont n (fun xs => f xs * g xs).
Proof.
  intros Hf Hg. destruct (ucont_bounded n f Hf) as (A & HA & BA), (ucont_bounded n g Hg) as (B & HB & BB).
  intros eps He.
  destruct (Hf (eps / (2 * B)) ltac:(apply Rdiv_lt_0_compat; lra)) as (d & Hd & H1).
  destruct (Hg (eps / (2 * A)) ltac:(apply Rdiv_lt_0_compat; lra)) as (e & Hee & H2).
  exists (Rmin d e). split; [now apply Rmin_pos|]. intros xs ys Hx Hy Hn.
  assert (N1 : near d xs ys) by (eapply near_mono; [apply Rmin_l|exact Hn]).
  assert (N2 : near e xs ys) by (eapply near_mono; [apply Rmin_r|exact Hn]).
  specialize (H1 xs ys Hx Hy N1). specialize (H2 xs ys Hx Hy N2). specialize (BA xs Hx). specialize (BB ys Hy).
  replace (f xs * g xs - f ys * g ys) with (f xs * (g xs - g ys) + (f xs - f ys) * g ys) by lra.
  eapply Rle_lt_trans; [apply Rabs_triang|]. rewrite !Rabs_mult.
  assert (T1 : Rabs (f xs) * Rabs (g xs - g ys) <= eps / 2).
  { replace (eps / 2) with (A * (eps / (2 * A))) by (field; lra).
    apply Rmult_le_compat; try apply Rabs_pos; lra. }
  assert (T2 : Rabs (f xs - f ys) * Rabs (g ys) < eps / 2).
  { replace (eps / 2) with ((eps / (2 * B)) * B) by (field; lra).
    apply Rle_lt_trans with (Rabs (f xs - f ys) * B); [apply Rmult_le_compat_l; [apply Rabs_pos|exact BB]|].
    now apply Rmult_lt_compat_r. }
  lra.
Qed.
Lemma ucont_comp n h f : (forall x, continuity_pt h x) -> ucont n f -> ucont n (fun xs => h (f xs)).
Proof.
  intros Hh Hf. destruct (ucont_bounded n f Hf) as (B & HB & BB). intros eps He.
  destruct (Heine_cor2 (f := h) (a := - B) (b := B) (fun x _ => Hh x) (mkposreal eps He)) as ([d Hd] & H). cbn in H.
  destruct (Hf d Hd) as (e & Hee & H1). exists e. split; auto. intros xs ys Hx Hy Hn.
  apply H; auto; apply Rabs_le_between; auto.
Qed.
Lemma ucont_scal n c f : ucont n f -> ucont n (fun xs => c * f xs).
Proof. intros. apply (ucont_mult n (fun _ => c) f); auto. apply ucont_const. Qed.
Lemma ucont_minus n f g : ucont n f -> ucont n g -> ucont n (fun xs => f xs - g xs).
Proof.
  intros Hf Hg. apply (ucont_ext n (fun xs => f xs + (-1) * g xs)); [intros; lra|].
  apply ucont_plus; auto. now apply ucont_scal.
Qed.
Lemma Rabs_close x y : Rabs (Rabs x - Rabs y) <= Rabs (x - y).
Proof. apply Rabs_triang_inv2. Qed.
Lemma ucont_min n f g : ucont n f -> ucont n g -> ucont n (fun xs => Rmin (f xs) (g xs)).
Proof.
  intros Hf Hg. apply (ucont_ext n (fun xs => / 2 * ((f xs + g xs) - Rabs (f xs - g xs)))).
  { intros. unfold Rmin, Rabs. destruct (Rcase_abs _), (Rle_dec _ _); lra. }
  apply ucont_scal. apply ucont_minus; [now apply ucont_plus|].
  apply (ucont_comp n Rabs); [|now apply ucont_minus]. intros. apply Rcontinuity_abs.
Qed.
Lemma ucont_sum n l (f : nat -> list R -> R) : (forall i, In i l -> ucont n (f i)) ->
  ucont n (fun xs => rsum (map (fun i => f i xs) l)).
Proof.
  induction l as [|i l IH]; intros H; cbn; [apply ucont_const|].
  apply ucont_plus; [apply H; now left|]. apply IH. intros. apply H. now right.
Qed.

Lemma ucont_cons n f x : ucont (S n) f -> inside x -> ucont n (fun xs => f (x :: xs)).
Proof.
  intros H Hx. apply (ucont_map n (S n) f (cons x)); auto.
  - intros. now apply box_cons.
  - intros. constructor; auto. replace (x - x) with 0 by lra. now rewrite Rabs_R0.
Qed.
Lemma ucont_head n f xs : ucont (S n) f -> box n xs -> uc1 lo hi (fun x => f (x :: xs)).
Proof.
  intros H Hx eps He. destruct (H eps He) as (d & Hd & Hf). exists d. split; auto. intros x y ? ? ?.
  apply Hf; try now apply box_cons. constructor; auto. now apply near_refl.
Qed.
Lemma ucont_two n f xs : ucont (S (S n)) f -> box n xs -> uc2 lo hi (fun x y => f (x :: y :: xs)).
Proof.
  intros H Hx eps He. destruct (H eps He) as (d & Hd & Hf). exists d. split; auto. intros.
  apply Hf; try (apply box_cons; split; auto; now apply box_cons). constructor; auto. constructor; auto. now apply near_refl.
Qed.

(** The integral as a function. *)
Fixpoint box_int (n : nat) (f : list R -> R) : R :=
  match n with
  | O => f []
  | S m => RInt (fun x => box_int m (fun xs => f (x :: xs))) lo hi
  end.
Lemma box_int_close n : forall f g e, ucont n f -> ucont n g ->
  (forall xs, box n xs -> Rabs (f xs - g xs) <= e) ->
  Rabs (box_int n f - box_int n g) <= e * (hi - lo) ^ n.
Proof.
  induction n as [|n IH]; intros f g e Hf Hg H; cbn [box_int pow].
  - rewrite Rmult_1_r. apply H. split; [reflexivity|constructor].
  - assert (U : forall f, ucont (S n) f -> uc1 lo hi (fun x => box_int n (fun xs => f (x :: xs)))).
    { intros k Hk eps He. assert (Hp : 0 < (hi - lo) ^ n) by (apply pow_lt; lra).
      destruct (Hk (eps / (2 * (hi - lo) ^ n))) as (d & Hd & Hkk); [apply Rdiv_lt_0_compat; lra|].
      exists d. split; auto. intros x y Hx Hy Hxy.
      eapply Rle_lt_trans; [apply (IH _ _ (eps / (2 * (hi - lo) ^ n)))|].
      - now apply ucont_cons.
      - now apply ucont_cons.
      - intros xs Hxs. apply Rlt_le. apply Hkk; try now apply box_cons. constructor; auto. now apply near_refl.
      - replace (eps / (2 * (hi - lo) ^ n) * (hi - lo) ^ n) with (eps / 2) by (field; lra). lra. }
    replace (e * ((hi - lo) * (hi - lo) ^ n)) with (e * (hi - lo) ^ n * (hi - lo)) by lra.
    apply int_close; auto. intros x Hx. apply IH; try (now apply ucont_cons).
    intros xs Hxs. apply H. now apply box_cons.
Qed.
Lemma box_int_uc1 n f : ucont (S n) f -> uc1 lo hi (fun x => box_int n (fun xs => f (x :: xs))).
Proof.
  intros Hk eps He. assert (Hp : 0 < (hi - lo) ^ n) by (apply pow_lt; lra).
  destruct (Hk (eps / (2 * (hi - lo) ^ n))) as (d & Hd & Hkk); [apply Rdiv_lt_0_compat; lra|].
  exists d. split; auto. intros x y Hx Hy Hxy.
  eapply Rle_lt_trans; [apply (box_int_close n _ _ (eps / (2 * (hi - lo) ^ n)))|].
  - now apply ucont_cons.
  - now apply ucont_cons.
  - intros xs Hxs. apply Rlt_le. apply Hkk; try now apply box_cons. constructor; auto. now apply near_refl.
  - replace (eps / (2 * (hi - lo) ^ n) * (hi - lo) ^ n) with (eps / 2) by (field; lra). lra.
Qed.
Lemma box_int_uc2 n f : ucont (S (S n)) f -> uc2 lo hi (fun x y => box_int n (fun xs => f (x :: y :: xs))).
Proof.
  intros Hk eps He. assert (Hp : 0 < (hi - lo) ^ n) by (apply pow_lt; lra).
  destruct (Hk (eps / (2 * (hi - lo) ^ n))) as (d & Hd & Hkk); [apply Rdiv_lt_0_compat; lra|].
  exists d. split; auto. intros x y x' y' Hx Hy Hx' Hy' Hxx Hyy.
  assert (Hc : forall a b, inside a -> inside b -> ucont n (fun xs => f (a :: b :: xs))).
  { intros a b Ha Hb. apply (ucont_cons n (fun xs => f (a :: xs)) b); auto. now apply ucont_cons. }
  eapply Rle_lt_trans; [apply (box_int_close n _ _ (eps / (2 * (hi - lo) ^ n)))|]; auto.
  - intros xs Hxs. apply Rlt_le. apply Hkk; try (apply box_cons; split; auto; now apply box_cons).
    constructor; auto. constructor; auto. now apply near_refl.
  - replace (eps / (2 * (hi - lo) ^ n) * (hi - lo) ^ n) with (eps / 2) by (field; lra). lra.
Qed.
Lemma box_int_is n : forall f, ucont n f -> box_integral lo hi n f (box_int n f).
Proof.
  induction n as [|n IH]; intros f Hf; cbn [box_integral box_int]; auto.
  exists (fun x => box_int n (fun xs => f (x :: xs))). split.
  - intros x Hx. apply IH. now apply ucont_cons.
  - apply @RInt_correct. apply uc1_int; auto. now apply box_int_uc1.
Qed.
Lemma RInt_in (f g : R -> R) : (forall x, inside x -> f x = g x) -> RInt f lo hi = RInt g lo hi.
Proof. intros H. apply RInt_ext. intros x Hx. rewrite Rmin_left, Rmax_right in Hx by lra. apply H. lra. Qed.
Lemma box_int_ext n : forall f g, (forall xs, box n xs -> f xs = g xs) -> box_int n f = box_int n g.
Proof.
  induction n as [|n IH]; intros f g H; cbn [box_int].
  - apply H. split; [reflexivity|constructor].
  - apply RInt_in. intros x Hx. apply IH. intros xs Hxs. apply H. now apply box_cons.
Qed.
(** The integral is unique. *)
Lemma box_integral_unique n : forall f v w, box_integral lo hi n f v -> box_integral lo hi n f w -> v = w.
Proof.
  induction n as [|n IH]; intros f v w; cbn [box_integral]; [congruence|].
  intros (h & Hh & Iv) (k & Hk & Iw). apply (is_RInt_unique (V := R_CompleteNormedModule)) in Iv, Iw. rewrite <- Iv, <- Iw.
  apply RInt_in. intros x Hx. eapply IH; eauto.
Qed.
Lemma box_integral_ext n : forall f g v, (forall xs, box n xs -> f xs = g xs) ->
  box_integral lo hi n f v -> box_integral lo hi n g v.
Proof.
  induction n as [|n IH]; intros f g v H; cbn [box_integral].
  - intros ->. apply H. split; [reflexivity|constructor].
  - intros (h & Hh & Iv). exists h. split; auto. intros x Hx. eapply IH; [|now apply Hh].
    intros xs Hxs. apply H. now apply box_cons.
Qed.

(** Integrating out the first number keeps continuity. *)
Lemma ucont_int n f : ucont (S n) f -> ucont n (fun xs => RInt (fun x => f (x :: xs)) lo hi).
Proof.
  intros H eps He. destruct (H (eps / (2 * (hi - lo)))) as (d & Hd & Hf); [apply Rdiv_lt_0_compat; lra|].
  exists d. split; auto. intros xs ys Hx Hy Hn. eapply Rle_lt_trans.
  - apply (int_close lo hi Hlo _ _ (eps / (2 * (hi - lo)))); try now apply ucont_head with (n := n).
    intros x Hxx. apply Rlt_le. apply Hf; try now apply box_cons. constructor; auto.
    replace (x - x) with 0 by lra. now rewrite Rabs_R0.
  - replace (eps / (2 * (hi - lo)) * (hi - lo)) with (eps / 2) by (field; lra). lra.
Qed.

(** The integral over one number and over the box commute. *)
Lemma box_int_commute n : forall f, ucont (S n) f ->
  box_int n (fun xs => RInt (fun x => f (x :: xs)) lo hi) = RInt (fun x => box_int n (fun xs => f (x :: xs))) lo hi.
Proof.
  induction n as [|n IH]; intros f Hf; cbn [box_int]; [reflexivity|].
  rewrite (fubini lo hi Hlo (fun x y => box_int n (fun xs => f (x :: y :: xs)))) by now apply box_int_uc2.
  apply RInt_in. intros y Hy.
  apply (IH (fun l => match l with x :: xs => f (x :: y :: xs) | [] => 0 end)).
  apply (ucont_ext (S n) (fun l => f (hd 0 l :: y :: tl l))).
  { intros [|x xs] [Hl _]; [discriminate|reflexivity]. }
  apply (ucont_map (S n) (S (S n)) f (fun l => hd 0 l :: y :: tl l)); auto.
  - intros [|x xs] Hb; [now destruct Hb|]. apply box_cons in Hb. destruct Hb. apply box_cons. split; auto. now apply box_cons.
  - intros d [|x xs] [|x' xs'] Hd [Hl _] [Hl' _] Hn; try discriminate. cbn. inversion Hn; subst. constructor; auto. constructor; auto.
    replace (y - y) with 0 by lra. now rewrite Rabs_R0.
Qed.

(** Exchange of the number at [i] with the extra number. *)
Lemma set_nth_set {A} (l : list A) i x y : (i < length l)%nat -> set_nth (set_nth l i x) i y = set_nth l i y.
Proof.
  revert i. induction l as [|a l IH]; intros [|i] Hi; cbn [length] in Hi; try lia; [reflexivity|].
  rewrite !set_nth_cons. f_equal. apply IH. lia.
Qed.
Lemma set_nth_nth (l : list R) i : (i < length l)%nat -> set_nth l i (nth i l 0) = l.
Proof.
  revert i. induction l as [|a l IH]; intros [|i] Hi; cbn [length] in Hi; try lia; [reflexivity|].
  rewrite set_nth_cons. cbn [nth]. f_equal. apply IH. lia.
Qed.
Lemma nth_set (l : list R) i x : (i < length l)%nat -> nth i (set_nth l i x) 0 = x.
Proof.
  revert i. induction l as [|a l IH]; intros [|i] Hi; cbn [length] in Hi; try lia; [reflexivity|].
  rewrite set_nth_cons. cbn [nth]. apply IH. lia.
Qed.
Lemma exchange n : forall i f, (i < n)%nat -> ucont (S n) f ->
  box_int n (fun xs => RInt (fun y => f (y :: xs)) lo hi) =
  box_int n (fun xs => RInt (fun y => f (nth i xs 0 :: set_nth xs i y)) lo hi).
Proof.
  induction n as [|n IH]; intros i f Hi Hf; [lia|].
  destruct i as [|i].
  - cbn [box_int nth].
    transitivity (RInt (fun x => RInt (fun y => box_int n (fun xs => f (y :: x :: xs))) lo hi) lo hi).
    { apply RInt_in. intros x Hx. apply (box_int_commute n (fun l => f (hd 0 l :: x :: tl l))).
      apply (ucont_map (S n) (S (S n)) f (fun l => hd 0 l :: x :: tl l)); auto.
      - intros [|a xs] Hb; [now destruct Hb|]. apply box_cons in Hb. destruct Hb. apply box_cons. split; auto. now apply box_cons.
      - intros d [|a xs] [|a' xs'] Hd [Hl _] [Hl' _] Hn; try discriminate. cbn. inversion Hn; subst. constructor; auto. constructor; auto.
        replace (x - x) with 0 by lra. now rewrite Rabs_R0. }
    transitivity (RInt (fun x => RInt (fun y => box_int n (fun xs => f (x :: y :: xs))) lo hi) lo hi).
    { apply (fubini lo hi Hlo (fun x y => box_int n (fun xs => f (y :: x :: xs)))).
      apply (uc2_swap lo hi (fun x y => box_int n (fun xs => f (x :: y :: xs)))). now apply box_int_uc2. }
    apply RInt_in. intros x Hx. symmetry. apply (box_int_commute n (fun l => f (x :: l))). now apply (ucont_cons (S n)).
  - cbn [box_int]. apply RInt_in. intros x Hx. cbn [nth].
    apply (IH i (fun l => f (hd 0 l :: x :: tl l))); [lia|].
    apply (ucont_map (S n) (S (S n)) f (fun l => hd 0 l :: x :: tl l)); auto.
    + intros [|a xs] Hb; [now destruct Hb|]. apply box_cons in Hb. destruct Hb. apply box_cons. split; auto. now apply box_cons.
    + intros d [|a xs] [|a' xs'] Hd [Hl _] [Hl' _] Hn; try discriminate. cbn. inversion Hn; subst. constructor; auto. constructor; auto.
      replace (x - x) with 0 by lra. now rewrite Rabs_R0.
Qed.

(** Linearity. *)
Lemma uc1_ex n f xs : ucont (S n) f -> box n xs -> ex_RInt (fun y => f (y :: xs)) lo hi.
Proof. intros H Hx. apply uc1_int; auto. now apply ucont_head with (n := n). Qed.
Lemma box_int_plus n : forall f g, ucont n f -> ucont n g -> box_int n (fun xs => f xs + g xs) = box_int n f + box_int n g.
Proof.
  induction n as [|n IH]; intros f g Hf Hg; cbn [box_int]; [reflexivity|].
  rewrite <- (RInt_plus (V := R_CompleteNormedModule)) by (apply uc1_int; auto; now apply box_int_uc1).
  apply RInt_in. intros x Hx. apply (IH (fun xs => f (x :: xs)) (fun xs => g (x :: xs))); now apply ucont_cons.
Qed.
Lemma box_int_scal n c : forall f, ucont n f -> box_int n (fun xs => c * f xs) = c * box_int n f.
Proof.
  induction n as [|n IH]; intros f Hf; cbn [box_int]; [reflexivity|].
  rewrite <- (RInt_scal (V := R_CompleteNormedModule)) by (apply uc1_int; auto; now apply box_int_uc1).
  apply RInt_in. intros x Hx. apply (IH (fun xs => f (x :: xs))). now apply ucont_cons.
Qed.
Lemma box_int_zero n : box_int n (fun _ => 0) = 0.
Proof.
  transitivity (box_int n (fun xs => 0 * (fun _ : list R => 0) xs)).
  - apply box_int_ext. intros. cbn. lra.
  - rewrite box_int_scal by apply ucont_const. lra.
Qed.
Lemma box_int_sum n l (f : nat -> list R -> R) : (forall i, In i l -> ucont n (f i)) ->
  box_int n (fun xs => rsum (map (fun i => f i xs) l)) = rsum (map (fun i => box_int n (f i)) l).
Proof.
  induction l as [|i l IH]; intros H.
  - apply box_int_zero.
  - change (box_int n (fun xs => f i xs + rsum (map (fun i => f i xs) l)) = box_int n (f i) + rsum (map (fun i => box_int n (f i)) l)).
    rewrite (box_int_plus n (f i) (fun xs => rsum (map (fun i => f i xs) l))).
    + f_equal. apply IH. intros. apply H. now right.
    + apply H. now left.
    + apply ucont_sum. intros. apply H. now right.
Qed.
End Box.
