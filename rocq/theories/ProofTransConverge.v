(** Convergence of chains on lists of varying length. *)
From Coq Require Import FunctionalExtensionality.
From Coquelicot Require Import Coquelicot.
From Verif Require Import Base SpecWalk SpecInvariance SpecTransd.
From Verif Require Import ProofBox ProofLine ProofInvariance ProofConverge ProofTransd.
Local Open Scope R_scope.

Section Trans.
Context (lo hi : R) (Hlo : lo < hi) (kmin kmax : nat) (Hk : (1 <= kmin <= kmax)%nat) (sd T : R) (Hsd : 0 < sd) (HT : 0 < T).
Context (F phi : R -> R) (HF : normal_cdf F) (Hphi : forall z, derivable_pt_lim F z (phi z)).
Context (L : list R -> R) (HL : forall k, (kmin <= k <= kmax)%nat -> cont_on lo hi k L).
Notation box := (in_box lo hi).
Notation ucont := (cont_on lo hi).
Notation acc := (acc T L).
Notation W := (hi - lo).
Notation P := (next_mean lo hi kmin kmax sd T phi L).
Notation births := (births lo hi kmax T L).
Notation deaths := (deaths kmin T L).
Notation birth_i := (birth_i lo hi T L).
Notation death_i := (death_i T L).
Notation gain := (ProofTransd.gain T L).
Notation good := (good lo hi kmin kmax).
Notation aft k := (after lo hi k sd T phi L).
Definition dom (xs : list R) : Prop := exists k, (kmin <= k <= kmax)%nat /\ box k xs.

Lemma next_parts g k xs : box k xs ->
  P g xs = 1 / 5 * (g xs + births g xs) + 1 / 5 * (g xs + deaths g xs) + 3 / 5 * aft k g xs.
Proof. intros Hx. unfold next_mean, values. rewrite (box_length lo hi k xs Hx). field. Qed.
Lemma mean_shift {A} (l : list A) c f : l <> [] -> c + rsum (map f l) / INR (length l) = rsum (map (fun i => c + f i) l) / INR (length l).
Proof.
  intros Hl. assert (H : INR (length l) <> 0) by (apply not_0_INR; destruct l; [easy|discriminate]).
  enough (E : rsum (map (fun i => c + f i) l) = INR (length l) * c + rsum (map f l)) by (rewrite E; field; exact H).
  clear. induction l as [|x l IH]; [cbn; ring|]. cbn [map length]. rewrite S_INR.
  change (c + f x + rsum (map (fun i => c + f i) l) = (INR (length l) + 1) * c + (f x + rsum (map f l))). rewrite IH. ring.
Qed.
Lemma mean_ge {A} (l : list A) c f : l <> [] -> (forall i, In i l -> c <= f i) -> c <= rsum (map f l) / INR (length l).
Proof.
  intros Hl H. assert (Hp : 0 < INR (length l)) by (apply lt_0_INR; destruct l; [easy|cbn; lia]).
  enough (E : INR (length l) * c <= rsum (map f l)).
  { apply (Rmult_le_reg_l (INR (length l))); auto. replace (INR (length l) * (rsum (map f l) / INR (length l))) with (rsum (map f l)) by (field; lra). exact E. }
  clear -H. induction l as [|x l IH]; [cbn; lra|]. cbn [map length]. rewrite S_INR.
  change ((INR (length l) + 1) * c <= f x + rsum (map f l)). pose proof (H x (or_introl eq_refl)). assert (forall i, In i l -> c <= f i) by (intros; apply H; now right).
  pose proof (IH H1). lra.
Qed.
Lemma gain_split g xs ys : g xs + gain g xs ys = (1 - acc xs ys) * g xs + acc xs ys * g ys.
Proof. unfold ProofTransd.gain. ring. Qed.
Lemma gain_ex g k i xs : good g -> (kmin <= k < kmax)%nat -> (i <= k)%nat -> box k xs -> ex_RInt (fun y => gain g xs (ins i y xs)) lo hi.
Proof.
  intros Hg H Hi Hx. apply (uc1_ex lo hi Hlo k (fun l => gain g (tl l) (ins i (hd 0 l) (tl l)))); auto.
  apply (ucont_gain_ins lo hi Hlo kmin kmax Hk T L HL); auto; lia.
Qed.
Lemma birth_pos g k i xs : good g -> (forall xs, dom xs -> 0 <= g xs) -> (kmin <= k < kmax)%nat -> (i <= k)%nat -> box k xs -> 0 <= g xs + birth_i g i xs.
Proof.
  intros Hg Hp H Hi Hx. unfold ProofTransd.birth_i.
  assert (Hgx : 0 <= g xs) by (apply Hp; exists k; split; [lia|auto]).
  assert (E : RInt (fun _ => - g xs) lo hi <= RInt (fun y => gain g xs (ins i y xs)) lo hi).
  { apply RInt_le; [lra|apply ex_RInt_const|now apply (gain_ex g k)|]. intros y Hy.
    assert (Hgy : 0 <= g (ins i y xs)). { apply Hp. exists (S k). split; [lia|]. apply box_ins; auto. lra. }
    pose proof (acc_range T L xs (ins i y xs)). pose proof (gain_split g xs (ins i y xs)). nra. }
  assert (C : RInt (fun _ => - g xs) lo hi = W * - g xs) by (rewrite RInt_const; reflexivity).
  assert (E' : W * - g xs <= RInt (fun y => gain g xs (ins i y xs)) lo hi) by (rewrite <- C; exact E).
  clear E C. revert E'. generalize (RInt (fun y => gain g xs (ins i y xs)) lo hi). intros v E'. change (W * - g xs <= v) in E'. change (0 <= g xs + / W * v).
  assert (Hw : 0 < / W) by (apply Rinv_0_lt_compat; lra).
  assert (H1 : / W * (W * - g xs) <= / W * v) by (apply Rmult_le_compat_l; lra). replace (/ W * (W * - g xs)) with (- g xs) in H1 by (field; lra). lra.
Qed.
Lemma births_pos g xs : good g -> (forall xs, dom xs -> 0 <= g xs) -> dom xs -> 0 <= g xs + births g xs.
Proof.
  intros Hg Hp (k & Hkk & Hx). unfold ProofTransd.births. rewrite (box_length lo hi k xs Hx).
  destruct (Nat.ltb_spec k kmax) as [E|E]; [|pose proof (Hp xs (ex_intro _ k (conj Hkk Hx))); lra].
  rewrite <- (seq_length (S k) 0) at 2. rewrite mean_shift by discriminate. apply mean_ge; [discriminate|].
  intros i Hi. apply in_seq in Hi. apply (birth_pos g k); auto; lia.
Qed.
Lemma death_low c g k i xs : 0 < c -> (forall xs ys, dom xs -> dom ys -> c <= acc xs ys) -> (forall xs, dom xs -> 0 <= g xs) ->
  (kmin <= k)%nat -> (S k <= kmax)%nat -> (i <= k)%nat -> box (S k) xs -> c * g (del i xs) <= g xs + death_i g i xs.
Proof.
  intros Hc Ha Hp H1 H2 Hi Hx. unfold ProofTransd.death_i. rewrite gain_split.
  assert (D1 : dom xs) by (exists (S k); split; [lia|auto]).
  assert (D2 : dom (del i xs)) by (exists k; split; [lia|now apply box_del]).
  pose proof (Ha _ _ D1 D2). pose proof (acc_range T L xs (del i xs)). pose proof (Hp _ D1). pose proof (Hp _ D2). nra.
Qed.
Lemma acc_low : exists c, 0 < c /\ forall xs ys, dom xs -> dom ys -> c <= acc xs ys.
Proof.
  assert (HB : exists B, 0 < B /\ forall xs, dom xs -> Rabs (L xs) <= B).
  { enough (G : forall n, (kmin + n <= kmax)%nat -> exists B, 0 < B /\ forall k xs, (kmin <= k <= kmin + n)%nat -> box k xs -> Rabs (L xs) <= B).
    { destruct (G (kmax - kmin)%nat) as (B & HB & H); [lia|]. exists B. split; auto. intros xs (k & Hkk & Hx). apply (H k); auto. lia. }
    induction n as [|n IH]; intros Hn.
    - destruct (ucont_bounded lo hi Hlo kmin L (HL kmin ltac:(lia))) as (B & HB & H). exists B. split; auto. intros k xs Hkk Hx. apply H. now replace kmin with k by lia.
    - destruct IH as (B & HB & H); [lia|]. destruct (ucont_bounded lo hi Hlo (kmin + S n) L (HL (kmin + S n)%nat ltac:(lia))) as (B' & HB' & H').
      exists (B + B'). split; [lra|]. intros k xs Hkk Hx. destruct (Nat.eq_dec k (kmin + S n)) as [->|Ne].
      + pose proof (H' xs Hx). lra.
      + pose proof (H k xs ltac:(lia) Hx). lra. }
  destruct HB as (B & HB & BB). exists (exp (- (2 * B / T))). split; [apply exp_pos|]. intros xs ys Hx Hy.
  assert (He : forall a b, a <= b -> exp a <= exp b) by (intros a b [H| ->]; [apply Rlt_le; now apply exp_increasing|lra]).
  unfold ProofInvariance.acc. apply Rmin_glb.
  - rewrite <- exp_0. apply He. assert (0 < 2 * B / T) by (apply Rdiv_lt_0_compat; lra). lra.
  - apply He. pose proof (BB xs Hx) as B1. pose proof (BB ys Hy) as B2. apply Rabs_le_between in B1. apply Rabs_le_between in B2.
    replace (- (2 * B / T)) with (- (2 * B) / T) by (field; lra). unfold Rdiv. apply Rmult_le_compat_r; [apply Rlt_le; now apply Rinv_0_lt_compat|]. lra.
Qed.
Lemma deaths_low c d g k xs : 0 < c -> (forall xs ys, dom xs -> dom ys -> c <= acc xs ys) -> (forall xs, dom xs -> 0 <= g xs) ->
  (kmin <= k)%nat -> (S k <= kmax)%nat -> box (S k) xs -> (forall ys, box k ys -> d <= g ys) -> c * d <= g xs + deaths g xs.
Proof.
  intros Hc Ha Hp H1 H2 Hx Hd. unfold ProofTransd.deaths. rewrite (box_length lo hi (S k) xs Hx).
  destruct (Nat.ltb_spec kmin (S k)) as [E|E]; [|lia].
  rewrite <- (seq_length (S k) 0) at 2. rewrite mean_shift by discriminate. apply mean_ge; [discriminate|].
  intros i Hi. apply in_seq in Hi. eapply Rle_trans; [|apply (death_low c g k); auto; lia].
  apply Rmult_le_compat_l; [lra|]. apply Hd. apply box_del; auto. lia.
Qed.
Lemma deaths_pos g xs : (forall xs, dom xs -> 0 <= g xs) -> dom xs -> 0 <= g xs + deaths g xs.
Proof.
  intros Hp (k & Hkk & Hx). destruct (Nat.eq_dec k kmin) as [->|Ne].
  - unfold ProofTransd.deaths. rewrite (box_length lo hi kmin xs Hx), Nat.ltb_irrefl. pose proof (Hp xs (ex_intro _ kmin (conj Hkk Hx))). lra.
  - destruct k as [|k]; [lia|]. destruct acc_low as (c & Hc & Ha). replace 0 with (c * 0) by ring.
    apply (deaths_low c 0 g k xs); auto; try lia. intros ys Hy. apply Hp. exists k. split; [lia|auto].
Qed.
Lemma aft_averages k : (kmin <= k <= kmax)%nat -> averages (box k) (ucont k) (aft k).
Proof. intros H. apply (after_averages lo hi Hlo k ltac:(lia) sd T Hsd HT F phi HF Hphi L (HL k H)). Qed.
Lemma aft_pos g k xs : good g -> (forall xs, dom xs -> 0 <= g xs) -> (kmin <= k <= kmax)%nat -> box k xs -> 0 <= aft k g xs.
Proof. intros Hg Hp H Hx. apply (av_pos _ _ _ (aft_averages k H)); auto. intros ys Hy. apply Hp. now exists k. Qed.
Lemma rsum_scal {A} (l : list A) b f : rsum (map (fun i => b * f i) l) = b * rsum (map f l).
Proof. induction l as [|x l IH]; [cbn; ring|]. change (b * f x + rsum (map (fun i => b * f i) l) = b * (f x + rsum (map f l))). rewrite IH. ring. Qed.
Lemma gain_aff a b g xs ys : gain (fun x => a + b * g x) xs ys = b * gain g xs ys.
Proof. unfold ProofTransd.gain. ring. Qed.
Lemma births_aff a b g k xs : good g -> (kmin <= k <= kmax)%nat -> box k xs -> births (fun x => a + b * g x) xs = b * births g xs.
Proof.
  intros Hg H Hx. unfold ProofTransd.births. rewrite (box_length lo hi k xs Hx). destruct (Nat.ltb_spec k kmax) as [E|E]; [|ring].
  replace (rsum (map (fun i => birth_i (fun x => a + b * g x) i xs) (seq 0 (S k)))) with (b * rsum (map (fun i => birth_i g i xs) (seq 0 (S k)))); [unfold Rdiv; ring|].
  rewrite <- rsum_scal. f_equal. apply map_ext_in. intros i Hi. apply in_seq in Hi. unfold ProofTransd.birth_i.
  assert (E2 : RInt (fun y => gain (fun x => a + b * g x) xs (ins i y xs)) lo hi = b * RInt (fun y => gain g xs (ins i y xs)) lo hi).
  { transitivity (RInt (fun y => scal b (gain g xs (ins i y xs))) lo hi).
    - apply RInt_in; auto. intros y _. rewrite gain_aff. reflexivity.
    - apply (RInt_scal (V := R_CompleteNormedModule)). apply (gain_ex g k); auto; lia. }
  rewrite E2. ring.
Qed.
Lemma deaths_aff a b g xs : deaths (fun x => a + b * g x) xs = b * deaths g xs.
Proof.
  unfold ProofTransd.deaths. destruct (kmin <? length xs)%nat; [|ring].
  replace (rsum (map (fun i => death_i (fun x => a + b * g x) i xs) (seq 0 (length xs)))) with (b * rsum (map (fun i => death_i g i xs) (seq 0 (length xs)))); [unfold Rdiv; ring|].
  rewrite <- rsum_scal. f_equal. apply map_ext. intros i. unfold ProofTransd.death_i. now rewrite gain_aff.
Qed.
Lemma next_ext g h xs : (forall x, dom x -> g x = h x) -> dom xs -> P g xs = P h xs.
Proof.
  intros E Hd. pose proof (E xs Hd) as E0. destruct Hd as (k & Hkk & Hx). rewrite !(next_parts _ k) by auto.
  assert (G : forall ys, dom ys -> gain g xs ys = gain h xs ys) by (intros ys Hy; unfold ProofTransd.gain; now rewrite E0, (E ys Hy)).
  f_equal; [f_equal|]; f_equal.
  - rewrite E0. f_equal. unfold ProofTransd.births. rewrite (box_length lo hi k xs Hx). destruct (Nat.ltb_spec k kmax) as [Hlt|]; auto.
    f_equal. f_equal. apply map_ext_in. intros i Hi. apply in_seq in Hi. unfold ProofTransd.birth_i. f_equal. apply RInt_in; auto. intros y Hy.
    apply G. exists (S k). split; [lia|]. apply box_ins; auto. lia.
  - rewrite E0. f_equal. unfold ProofTransd.deaths. rewrite (box_length lo hi k xs Hx). destruct (Nat.ltb_spec kmin k) as [Hlt|]; auto.
    f_equal. f_equal. apply map_ext_in. intros i Hi. apply in_seq in Hi. unfold ProofTransd.death_i.
    apply G. destruct k as [|k]; [lia|]. exists k. split; [lia|]. apply box_del; auto. lia.
  - apply (av_ext _ _ _ (aft_averages k Hkk)); auto. intros x Hxx. apply E. now exists k.
Qed.
Lemma next_averages : averages dom good P.
Proof.
  split.
  - intros g Hg. exact (good_next lo hi Hlo kmin kmax Hk sd T F phi HF Hphi L HL g Hg).
  - intros a b g Hg k H. apply ucont_plus; [apply ucont_const|apply ucont_scal; auto].
  - intros a b g x Hg (k & H & Hx). rewrite !(next_parts _ k) by auto. rewrite (births_aff a b g k), deaths_aff by auto.
    rewrite (av_aff _ _ _ (aft_averages k H) a b g x) by auto. field.
  - intros g x Hg Hp Hx. destruct Hx as (k & H & Hx). rewrite (next_parts _ k) by auto.
    assert (D : dom x) by now exists k.
    pose proof (births_pos g x Hg Hp D). pose proof (deaths_pos g x Hp D). pose proof (aft_pos g k x Hg Hp H Hx). lra.
  - intros g h x E Hx. now apply next_ext.
Qed.

(** * A bound of the mean after [kmax] iterations from below *)
Lemma next_after g k xs : good g -> (forall xs, dom xs -> 0 <= g xs) -> (kmin <= k <= kmax)%nat -> box k xs -> 3 / 5 * aft k g xs <= P g xs.
Proof.
  intros Hg Hp H Hx. rewrite (next_parts _ k) by auto. assert (D : dom xs) by now exists k.
  pose proof (births_pos g xs Hg Hp D). pose proof (deaths_pos g xs Hp D). lra.
Qed.
Lemma next_deaths g xs : good g -> (forall xs, dom xs -> 0 <= g xs) -> dom xs -> 1 / 5 * (g xs + deaths g xs) <= P g xs.
Proof.
  intros Hg Hp D. pose proof (births_pos g xs Hg Hp D). destruct D as (k & Hkk & Hx). rewrite (next_parts _ k) by auto.
  pose proof (aft_pos g k xs Hg Hp Hkk Hx). lra.
Qed.
Lemma iter_pos g : good g -> (forall xs, dom xs -> 0 <= g xs) -> forall j xs, dom xs -> 0 <= Nat.iter j P g xs.
Proof.
  intros Hg Hp. induction j as [|j IH]; auto. intros xs Hx. change (0 <= P (Nat.iter j P g) xs).
  apply (av_pos _ _ _ next_averages); auto. exact (iter_ok dom good P next_averages j g Hg).
Qed.
Definition small (g : list R -> R) : R := box_int lo hi kmin g / W ^ kmin.
Lemma trans_low : exists theta, 0 < theta /\ forall g xs, good g -> (forall xs, dom xs -> 0 <= g xs) -> dom xs -> theta * small g <= Nat.iter kmax P g xs.
Proof.
  assert (Hm : (kmin <= kmin <= kmax)%nat) by lia.
  destruct (after_low lo hi Hlo kmin ltac:(lia) sd T Hsd HT F phi HF Hphi L (HL kmin Hm)) as (kap & Hkap & Hlow).
  destruct acc_low as (c & Hc & Ha).
  set (ka := 3 / 5 * kap). assert (Hka : 0 < ka) by (unfold ka; lra).
  assert (HW : 0 < W) by lra. assert (HWm : 0 < W ^ kmin) by now apply pow_lt.
  assert (Hlow' : forall g i xs, (i < kmin)%nat -> good g -> (forall xs, dom xs -> 0 <= g xs) -> box kmin xs -> ka * over lo hi i g xs <= P g xs).
  { intros g i xs Hi Hg Hp Hx. eapply Rle_trans; [|apply (next_after g kmin xs); auto]. unfold ka. rewrite Rmult_assoc. apply Rmult_le_compat_l; [lra|].
    apply Hlow; auto. intros ys Hy. apply Hp. now exists kmin. }
  set (e := Rmin (ka * W) (1 / 5 * c)).
  assert (He : 0 < e). { apply Rmin_pos; [now apply Rmult_lt_0_compat|lra]. }
  assert (HkaW : e <= ka * W) by apply Rmin_l. assert (Hc5 : e <= 1 / 5 * c) by apply Rmin_r.
  exists (e ^ (kmax - kmin) * (ka ^ kmin * W ^ kmin)). split.
  { apply Rmult_lt_0_compat; [now apply pow_lt|]. apply Rmult_lt_0_compat; auto. now apply pow_lt. }
  intros g xs Hg Hp Hx. set (I := ka ^ kmin * W ^ kmin * small g).
  assert (HI : 0 <= I).
  { unfold I, small. apply Rmult_le_pos; [apply Rmult_le_pos; [apply pow_le; lra|lra]|].
    apply Rmult_le_pos; [|apply Rlt_le; now apply Rinv_0_lt_compat]. apply box_int_nonneg; auto. intros ys Hy. apply Hp. now exists kmin. }
  pose proof (iter_pos g Hg Hp) as Hpos.
  pose proof (fun j => iter_ok dom good P next_averages j g Hg) as Hok.
  assert (A : forall j xs, box kmin xs -> e ^ j * I <= Nat.iter (j + kmin) P g xs).
  { induction j as [|j IH]; intros ys Hy.
    - cbn [pow Nat.add]. rewrite Rmult_1_l. eapply Rle_trans; [|apply (iter_low lo hi Hlo kmin dom good P next_averages (fun g Hg => Hg kmin Hm) ka Hka Hlow' g Hg Hp kmin ys); auto].
      right. unfold I, small, lasts. rewrite Nat.sub_diag. change (fun zs => g (firstn 0 ys ++ zs)) with g. field. lra.
    - change (e ^ S j * I <= P (Nat.iter (j + kmin) P g) ys). eapply Rle_trans; [|exact (Hlow' (Nat.iter (j + kmin) P g) 0%nat ys ltac:(lia) (Hok (j + kmin)%nat) (Hpos (j + kmin)%nat) Hy)].
      assert (Hov : W * (e ^ j * I) <= over lo hi 0 (Nat.iter (j + kmin) P g) ys).
      { unfold over. replace (W * (e ^ j * I)) with (RInt (fun _ => e ^ j * I) lo hi) by (rewrite RInt_const; reflexivity).
        apply RInt_le; [lra|apply ex_RInt_const|exact (over_ex lo hi Hlo kmin 0%nat (Nat.iter (j + kmin) P g) ys ltac:(lia) (Hok (j + kmin)%nat kmin Hm) Hy)|].
        intros y Hyy. apply IH. apply box_set; auto; [lra|lia]. }
      assert (0 <= e ^ j * I) by (apply Rmult_le_pos; auto; apply pow_le; lra).
      apply Rle_trans with (ka * (W * (e ^ j * I))); [|apply Rmult_le_compat_l; lra].
      cbn [pow]. rewrite <- (Rmult_assoc ka). rewrite Rmult_assoc. apply Rmult_le_compat_r; lra. }
  assert (B : forall d j xs, (kmin + d <= kmax)%nat -> box (kmin + d) xs -> e ^ (d + j) * I <= Nat.iter (d + (j + kmin)) P g xs).
  { induction d as [|d IH]; intros j ys Hd Hy; [rewrite Nat.add_0_r in Hy; now apply A|].
    rewrite Nat.add_succ_r in Hy, Hd.
    change (e ^ S (d + j) * I <= P (Nat.iter (d + (j + kmin)) P g) ys).
    assert (D : dom ys) by (exists (S (kmin + d)); split; [lia|auto]).
    eapply Rle_trans; [|apply (next_deaths (Nat.iter (d + (j + kmin)) P g) ys); [exact (Hok (d + (j + kmin))%nat)|exact (Hpos (d + (j + kmin))%nat)|exact D]].
    pose proof (deaths_low c (e ^ (d + j) * I) (Nat.iter (d + (j + kmin)) P g) (kmin + d) ys Hc Ha (Hpos (d + (j + kmin))%nat) ltac:(lia) Hd Hy (fun zs Hz => IH j zs ltac:(lia) Hz)) as HD.
    assert (0 <= e ^ (d + j) * I) by (apply Rmult_le_pos; auto; apply pow_le; lra).
    apply Rle_trans with (1 / 5 * (c * (e ^ (d + j) * I))); [|apply Rmult_le_compat_l; lra].
    cbn [pow]. rewrite <- (Rmult_assoc (1 / 5)). rewrite Rmult_assoc. apply Rmult_le_compat_r; lra. }
  destruct Hx as (k & Hkk & Hx).
  assert (Hx' : box (kmin + (k - kmin)) xs) by (now replace (kmin + (k - kmin))%nat with k by lia).
  pose proof (B (k - kmin)%nat (kmax - k)%nat xs ltac:(lia) Hx') as H.
  replace (k - kmin + (kmax - k + kmin))%nat with kmax in H by lia. replace (k - kmin + (kmax - k))%nat with (kmax - kmin)%nat in H by lia.
  unfold I in H. rewrite Rmult_assoc. exact H.
Qed.

(** * Convergence *)
Notation post := (ProofTransd.post lo hi T L).
Notation lengths := (seq kmin (S kmax - kmin)).
Definition trans_mass : R := rsum (map (fun k => box_int lo hi k (post k)) lengths).
Definition trans_mean (g : list R -> R) : R := rsum (map (fun k => box_int lo hi k (fun xs => post k xs * g xs)) lengths) / trans_mass.
Lemma in_lengths k : In k lengths -> (kmin <= k <= kmax)%nat.
Proof. intros H. apply in_seq in H. lia. Qed.
Lemma post_pos k xs : 0 < post k xs.
Proof. unfold ProofTransd.post. apply Rmult_lt_0_compat; [|apply exp_pos]. apply Rinv_0_lt_compat. apply pow_lt. lra. Qed.
Lemma trans_mass_pos : 0 < trans_mass.
Proof.
  assert (Hp : forall k, In k lengths -> 0 < box_int lo hi k (post k)).
  { intros k Hi. apply in_lengths in Hi. apply box_int_pos; auto; [|intros; apply post_pos]. apply (ucont_post lo hi Hlo kmin kmax T L HL); auto. }
  apply Rlt_le_trans with (box_int lo hi kmin (post kmin)); [apply Hp; apply in_seq; lia|].
  apply (rsum_ge lengths (fun k => box_int lo hi k (post k)) kmin); [|apply in_seq; lia]. intros i Hi. apply Rlt_le. now apply Hp.
Qed.
Lemma trans_converges : exists rho, 0 <= rho < 1 /\ forall g B, good g -> (forall xs, dom xs -> Rabs (g xs) <= B) ->
  forall j xs, dom xs -> Rabs (Nat.iter j P g xs - trans_mean g) <= 2 * B * rho ^ (j / kmax).
Proof.
  destruct trans_low as (theta & Hth & Hmin). pose proof trans_mass_pos as HM. assert (HWm : 0 < W ^ kmin) by (apply pow_lt; lra).
  assert (Hm : (kmin <= kmin <= kmax)%nat) by lia.
  assert (Hpc : forall k, (kmin <= k <= kmax)%nat -> ucont k (post k)) by (intros; now apply (ucont_post lo hi Hlo kmin kmax T L HL)).
  assert (Haff : forall a b g, good g -> small (fun x => a + b * g x) = a + b * small g).
  { intros a b g Hg. unfold small. rewrite (box_int_ext lo hi Hlo kmin (fun x => a + b * g x) (fun x => (fun _ => 1) x * (a + b * g x))) by (intros; ring).
    rewrite box_aff by (auto; apply ucont_const). rewrite box_const.
    rewrite (box_int_ext lo hi Hlo kmin (fun xs => 1 * g xs) g) by (intros; ring). field. lra. }
  assert (Hone : theta <= 1).
  { set (x0 := repeat lo kmin). assert (Hx0 : dom x0).
    { exists kmin. split; auto. split; [apply repeat_length|]. apply Forall_forall. intros x Hx. apply repeat_spec in Hx. subst. lra. }
    pose proof (Hmin (fun _ => 1) x0 (fun k _ => ucont_const lo hi k 1) ltac:(intros; lra) Hx0) as H.
    assert (E : small (fun _ => 1) = 1) by (unfold small; rewrite box_const; field; lra).
    pose proof (iter_bounds dom good P next_averages kmax (fun _ => 1) 1 1 (fun k _ => ucont_const lo hi k 1) ltac:(intros; lra) x0 Hx0) as [_ H2]. rewrite E in H. lra. }
  exists (1 - theta). split; [lra|]. intros g B Hg HB j xs Hx.
  replace (2 * B) with (B - - B) by ring.
  apply (converges dom good P kmax small trans_mean theta next_averages); auto; [| | | |lia].
  - intros a b h Hh. unfold trans_mean.
    rewrite (map_ext_in _ (fun k => a * box_int lo hi k (post k) + b * box_int lo hi k (fun xs => post k xs * h xs)) lengths).
    2:{ intros k Hi. apply in_lengths in Hi. apply box_aff; auto. }
    enough (E : rsum (map (fun k => a * box_int lo hi k (post k) + b * box_int lo hi k (fun xs => post k xs * h xs)) lengths)
      = a * trans_mass + b * rsum (map (fun k => box_int lo hi k (fun xs => post k xs * h xs)) lengths)) by (rewrite E; field; lra).
    unfold trans_mass. generalize lengths. induction l as [|x l IH]; [cbn; ring|]. cbn [map]. unfold rsum in *. cbn [fold_right] in *. rewrite IH. ring.
  - intros h Hh Hp. unfold trans_mean. apply Rmult_le_pos; [|apply Rlt_le; now apply Rinv_0_lt_compat]. apply rsum_pos. intros k Hi. apply in_lengths in Hi.
    apply box_int_nonneg; auto; [apply ucont_mult; auto|]. intros ys Hy. apply Rmult_le_pos; [apply Rlt_le, post_pos|]. apply Hp. now exists k.
  - intros h Hh. unfold trans_mean. f_equal. exact (trans_balance lo hi Hlo kmin kmax Hk sd T Hsd HT F phi HF Hphi L HL h Hh).
  - intros x Hxx. pose proof (HB x Hxx) as H. apply Rabs_le_between in H. lra.
Qed.
End Trans.
