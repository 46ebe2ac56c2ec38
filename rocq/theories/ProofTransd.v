(** Births, deaths and changes of numbers leave the posterior density on lists of varying
    length invariant. *)
From Coquelicot Require Import Coquelicot.
From Verif Require Import Base SpecWalk SpecInvariance SpecTransd ProofFubini ProofBox ProofInvariance.
Local Open Scope R_scope.

Definition ins (i : nat) (y : R) (xs : list R) : list R := firstn i xs ++ y :: skipn i xs.
Definition del (i : nat) (xs : list R) : list R := firstn i xs ++ skipn (S i) xs.
Lemma ins_cons i y x xs : ins (S i) y (x :: xs) = x :: ins i y xs.
Proof. reflexivity. Qed.
Lemma del_cons i x xs : del (S i) (x :: xs) = x :: del i xs.
Proof. reflexivity. Qed.
Lemma del_ins i y xs : (i <= length xs)%nat -> del i (ins i y xs) = xs.
Proof.
  revert i. induction xs as [|x xs IH]; intros [|i] Hi; cbn [length] in Hi; try lia; try reflexivity.
  rewrite ins_cons, del_cons, IH by lia. reflexivity.
Qed.
Lemma near_ins d i x y xs ys : near d xs ys -> Rabs (x - y) < d -> near d (ins i x xs) (ins i y ys).
Proof.
  intros H Hd. revert i. induction H as [|a b xs ys H Hs IH]; intros [|i].
  - constructor; auto. constructor.
  - constructor; auto. constructor.
  - constructor; auto. constructor; auto.
  - rewrite !ins_cons. constructor; auto. apply IH.
Qed.
Lemma near_del d i xs ys : near d xs ys -> near d (del i xs) (del i ys).
Proof.
  intros H. revert i. induction H as [|a b xs ys H Hs IH]; intros [|i].
  - constructor.
  - constructor.
  - exact Hs.
  - rewrite !del_cons. constructor; auto. apply IH.
Qed.

Section Transd.
Context (lo hi : R) (Hlo : lo < hi) (kmin kmax : nat) (Hk : (1 <= kmin <= kmax)%nat) (sd T : R) (Hsd : 0 < sd) (HT : 0 < T).
Context (F phi : R -> R) (HF : normal_cdf F) (Hphi : forall z, derivable_pt_lim F z (phi z)).
Context (L : list R -> R) (HL : forall k, (kmin <= k <= kmax)%nat -> cont_on lo hi k L).
Notation box := (in_box lo hi).
Notation ucont := (cont_on lo hi).
Notation inside x := (lo <= x <= hi).
Notation acc := (acc T L).
Notation dens := (dens T L).
Notation W := (hi - lo).

Lemma box_ins n i y xs : box n xs -> inside y -> (i <= n)%nat -> box (S n) (ins i y xs).
Proof.
  clear Hk. revert i xs. induction n as [|n IH]; intros i xs H Hy Hi.
  - assert (i = 0%nat) by lia. subst. apply box_cons. auto.
  - destruct xs as [|x xs]; [now destruct H|]. destruct i as [|i]; [now apply box_cons|].
    apply box_cons in H. rewrite ins_cons. apply box_cons. split; [tauto|]. apply IH; tauto || lia.
Qed.
Lemma box_del n i xs : box (S n) xs -> (i <= n)%nat -> box n (del i xs).
Proof.
  clear Hk. revert i xs. induction n as [|n IH]; intros i xs H Hi; (destruct xs as [|x xs]; [now destruct H|]); apply box_cons in H.
  - assert (i = 0%nat) by lia. subst. apply H.
  - destruct i as [|i]; [apply H|]. rewrite del_cons. apply box_cons. split; [tauto|]. apply IH; tauto || lia.
Qed.
Lemma box_length n xs : box n xs -> length xs = n.
Proof. now intros []. Qed.
Lemma ucont_ins n i f : (i <= n)%nat -> ucont (S n) f -> ucont (S n) (fun l => f (ins i (hd 0 l) (tl l))).
Proof.
  intros Hi. apply ucont_map.
  - intros [|x xs] H; [now destruct H|]. apply box_cons in H. cbn [hd tl]. now apply box_ins.
  - intros d [|x xs] [|y ys] Hd [Hb _] [Hb' _] H; try discriminate. inversion H; subst. cbn [hd tl]. now apply near_ins.
Qed.
Lemma ucont_del n i f : (i <= n)%nat -> ucont n f -> ucont (S n) (fun l => f (del i l)).
Proof.
  intros Hi. apply ucont_map.
  - intros xs H. now apply box_del.
  - intros d xs ys Hd _ _ H. now apply near_del.
Qed.
(** Inserting a number at [i] and integrating it out first. *)
Lemma insertion n : forall i f, (i <= n)%nat -> ucont (S n) f ->
  box_int lo hi n (fun xs => RInt (fun y => f (ins i y xs)) lo hi) = box_int lo hi (S n) f.
Proof.
  induction n as [|n IH]; intros i f Hi Hf.
  - assert (i = 0%nat) by lia. subst. reflexivity.
  - destruct i as [|i].
    + change (box_int lo hi (S n) (fun xs => RInt (fun y => f (y :: xs)) lo hi) = box_int lo hi (S (S n)) f). now rewrite box_int_commute.
    + cbn [box_int]. apply RInt_in; auto. intros x Hx.
      change (box_int lo hi n (fun xs => RInt (fun y => f (x :: ins i y xs)) lo hi) = box_int lo hi (S n) (fun l => f (x :: l))).
      apply (IH i (fun l => f (x :: l))); [lia|]. now apply ucont_cons.
Qed.

(** * One iteration *)
Definition decide_at (xs ys : list R) (u : R) : list R := if Rlt_dec (ln u) ((L ys - L xs) / T) then ys else xs.
Definition step_birth (xs : list R) (i : nat) (a u : R) : list R := decide_at xs (ins i (lo + (hi - lo) * a) xs) u.
Definition step_death (xs : list R) (i : nat) (u : R) : list R := decide_at xs (del i xs) u.
Definition gain (g : list R -> R) (xs ys : list R) : R := acc xs ys * (g ys - g xs).
Lemma mean_decide g xs ys : mean_unit (fun u => g (decide_at xs ys u)) (g xs + gain g xs ys).
Proof.
  unfold mean_unit, decide_at, gain. pose proof (acc_range T L xs ys) as Ha. set (a := acc xs ys) in *.
  replace (g xs + a * (g ys - g xs)) with (plus ((a - 0) * g ys) ((1 - a) * g xs)) by (unfold plus; cbn; ring).
  apply (is_RInt_Chasles (V := R_NormedModule)) with a.
  - apply (is_RInt_ext (fun _ => g ys)); [|apply const_int]. intros u Hu. rewrite Rmin_left, Rmax_right in Hu by lra.
    destruct (Rlt_dec _ _) as [|Hn]; auto. exfalso. apply Hn. apply (ln_acc T L); unfold a in *; lra.
  - apply (is_RInt_ext (fun _ => g xs)); [|apply const_int]. intros u Hu. rewrite Rmin_left, Rmax_right in Hu by lra.
    destruct (Rlt_dec _ _) as [Hn|]; auto. apply (ln_acc T L) in Hn; unfold a in *; lra.
Qed.
Definition birth_i (g : list R -> R) (i : nat) (xs : list R) : R := / W * RInt (fun y => gain g xs (ins i y xs)) lo hi.
Definition death_i (g : list R -> R) (i : nat) (xs : list R) : R := gain g xs (del i xs).
Definition births (g : list R -> R) (xs : list R) : R :=
  if (length xs <? kmax)%nat then rsum (map (fun i => birth_i g i xs) (seq 0 (S (length xs)))) / INR (S (length xs)) else 0.
Definition deaths (g : list R -> R) (xs : list R) : R :=
  if (kmin <? length xs)%nat then rsum (map (fun i => death_i g i xs) (seq 0 (length xs))) / INR (length xs) else 0.
Definition values (g : list R -> R) (xs : list R) : R := after lo hi (length xs) sd T phi L g xs - g xs.
Definition next_mean (g : list R -> R) (xs : list R) : R :=
  g xs + (1 / 5 * births g xs + 1 / 5 * deaths g xs + 3 / 5 * values g xs).

(** Continuity. *)
Definition good (g : list R -> R) : Prop := forall k, (kmin <= k <= kmax)%nat -> ucont k g.
Lemma ucont_accs m f h : ucont m f -> ucont m h -> ucont m (fun l => Rmin 1 (exp ((f l - h l) / T))).
Proof.
  intros Hf Hh. apply ucont_min; [exact Hlo|apply ucont_const|].
  apply (ucont_comp lo hi Hlo m exp). { intros. apply derivable_continuous_pt. apply derivable_pt_exp. }
  apply (ucont_ext lo hi m (fun l => / T * (f l - h l))); [intros; unfold Rdiv; lra|].
  apply ucont_scal; auto. apply ucont_minus; auto.
Qed.
Lemma ucont_gain_ins g k i : good g -> (kmin <= k)%nat -> (S k <= kmax)%nat -> (i <= k)%nat ->
  ucont (S k) (fun l => gain g (tl l) (ins i (hd 0 l) (tl l))).
Proof.
  intros Hg H1 H2 Hi. unfold gain. apply ucont_mult; auto.
  - apply (ucont_accs (S k) (fun l => L (ins i (hd 0 l) (tl l))) (fun l => L (tl l))); [apply ucont_ins; auto; apply HL; lia|apply ucont_tl; apply HL; lia].
  - apply ucont_minus; [exact Hlo|apply ucont_ins; auto; apply Hg; lia|apply ucont_tl; apply Hg; lia].
Qed.
Lemma ucont_birth_i g k i : good g -> (kmin <= k)%nat -> (S k <= kmax)%nat -> (i <= k)%nat -> ucont k (birth_i g i).
Proof.
  intros Hg H1 H2 Hi. unfold birth_i. apply ucont_scal; auto.
  apply (ucont_int lo hi Hlo k (fun l => gain g (tl l) (ins i (hd 0 l) (tl l)))). now apply ucont_gain_ins.
Qed.
Lemma ucont_death_i g k i : good g -> (kmin <= k)%nat -> (S k <= kmax)%nat -> (i <= k)%nat -> ucont (S k) (death_i g i).
Proof.
  intros Hg H1 H2 Hi. unfold death_i, gain. apply ucont_mult; auto.
  - apply (ucont_accs (S k) (fun l => L (del i l)) L); [apply ucont_del; auto; apply HL; lia|apply HL; lia].
  - apply ucont_minus; [exact Hlo|apply ucont_del; auto; apply Hg; lia|apply Hg; lia].
Qed.
Lemma ucont_births g k : good g -> (kmin <= k <= kmax)%nat -> ucont k (births g).
Proof.
  intros Hg H.
  apply (ucont_ext lo hi k (fun xs => if (k <? kmax)%nat then / INR (S k) * rsum (map (fun i => birth_i g i xs) (seq 0 (S k))) else 0)).
  { intros xs Hx. unfold births. rewrite (box_length k xs Hx). destruct (k <? kmax)%nat; auto. unfold Rdiv. lra. }
  destruct (Nat.ltb_spec k kmax) as [E|E]; [|apply ucont_const]. apply ucont_scal; auto. apply ucont_sum; auto.
  intros i Hi. apply in_seq in Hi. apply ucont_birth_i; auto; lia.
Qed.
Lemma ucont_deaths g k : good g -> (kmin <= k <= kmax)%nat -> ucont k (deaths g).
Proof.
  intros Hg H.
  apply (ucont_ext lo hi k (fun xs => if (kmin <? k)%nat then / INR k * rsum (map (fun i => death_i g i xs) (seq 0 k)) else 0)).
  { intros xs Hx. unfold deaths. rewrite (box_length k xs Hx). destruct (kmin <? k)%nat; auto. unfold Rdiv. lra. }
  destruct (Nat.ltb_spec kmin k) as [E|E]; [|apply ucont_const]. apply ucont_scal; auto. apply ucont_sum; auto.
  intros i Hi. apply in_seq in Hi. destruct k as [|k]; [lia|]. apply ucont_death_i; auto; lia.
Qed.
Lemma ucont_values g k : good g -> (kmin <= k <= kmax)%nat -> ucont k (values g).
Proof.
  intros Hg H. apply (ucont_ext lo hi k (fun xs => after lo hi k sd T phi L g xs - g xs)).
  { intros xs Hx. unfold values. now rewrite (box_length k xs Hx). }
  apply ucont_minus; auto. apply (ucont_after lo hi Hlo k sd T F phi HF Hphi L); auto.
Qed.
Lemma good_next g : good g -> good (next_mean g).
Proof.
  intros Hg k H. unfold next_mean. apply ucont_plus; auto. apply ucont_plus; [apply ucont_plus|]; (apply ucont_scal; [exact Hlo|]).
  - now apply ucont_births.
  - now apply ucont_deaths.
  - now apply ucont_values.
Qed.

(** The mean over the draws. *)
Lemma mean_births g k xs : good g -> (kmin <= k)%nat -> (k < kmax)%nat -> box k xs ->
  mean_index_two (S k) (fun i a u => g (step_birth xs i a u)) (g xs + births g xs).
Proof.
  intros Hg H1 H2 Hx. exists (fun i a => g xs + gain g xs (ins i (lo + (hi - lo) * a) xs)), (fun i => g xs + birth_i g i xs). split; [|split].
  - intros i a _ _. apply mean_decide.
  - intros i Hi. unfold mean_unit.
    apply (is_RInt_ext (fun a => plus (g xs) (gain g xs (ins i (lo + (hi - lo) * a) xs)))); [reflexivity|].
    apply (is_RInt_plus (V := R_NormedModule) (fun _ => g xs)).
    { pose proof (const_int (g xs) 0 1) as D. now replace ((1 - 0) * g xs) with (g xs) in D by lra. }
    assert (Hf : is_RInt (fun y => gain g xs (ins i y xs)) lo hi (RInt (fun y => gain g xs (ins i y xs)) lo hi)).
    { apply @RInt_correct. apply (uc1_ex lo hi Hlo k (fun l => gain g (tl l) (ins i (hd 0 l) (tl l)))); auto. apply ucont_gain_ins; auto; lia. }
    unfold birth_i.
    assert (Hf' : is_RInt (fun y => gain g xs (ins i y xs)) (W * 0 + lo) (W * 1 + lo) (RInt (fun y => gain g xs (ins i y xs)) lo hi)).
    { replace (W * 0 + lo) with lo by ring. replace (W * 1 + lo) with hi by ring. exact Hf. }
    apply (is_RInt_comp_lin (V := R_NormedModule)) in Hf'. apply (is_RInt_scal (V := R_NormedModule) _ _ _ (/ W)) in Hf'.
    eapply is_RInt_ext; [|exact Hf']. intros a _. unfold scal. cbn. unfold mult. cbn.
    replace (W * a + lo) with (lo + W * a) by ring. field. lra.
  - unfold births. rewrite (box_length k xs Hx). destruct (Nat.ltb_spec k kmax) as [E|E]; [|lia].
    assert (HN : INR (S k) <> 0) by (apply not_0_INR; lia).
    enough (G : forall l, rsum (map (fun i => g xs + birth_i g i xs) l) = INR (length l) * g xs + rsum (map (fun i => birth_i g i xs) l)).
    { rewrite G, seq_length. field. exact HN. }
    intros l. induction l as [|x l IH]; [cbn; lra|]. cbn [map length]. rewrite S_INR.
    change (g xs + birth_i g x xs + rsum (map (fun i => g xs + birth_i g i xs) l) = (INR (length l) + 1) * g xs + (birth_i g x xs + rsum (map (fun i => birth_i g i xs) l))).
    rewrite IH. ring.
Qed.
Lemma mean_deaths g k xs : (kmin < k)%nat -> box k xs -> mean_index_one k (fun i u => g (step_death xs i u)) (g xs + deaths g xs).
Proof.
  intros H1 Hx. exists (fun i => g xs + death_i g i xs). split.
  - intros i _. apply mean_decide.
  - unfold deaths. rewrite (box_length k xs Hx). destruct (Nat.ltb_spec kmin k) as [E|E]; [|lia].
    assert (HN : INR k <> 0) by (apply not_0_INR; lia).
    enough (G : forall l, rsum (map (fun i => g xs + death_i g i xs) l) = INR (length l) * g xs + rsum (map (fun i => death_i g i xs) l)).
    { rewrite G, seq_length. field. exact HN. }
    intros l. induction l as [|x l IH]; [cbn; lra|]. cbn [map length]. rewrite S_INR.
    change (g xs + death_i g x xs + rsum (map (fun i => g xs + death_i g i xs) l) = (INR (length l) + 1) * g xs + (death_i g x xs + rsum (map (fun i => death_i g i xs) l))).
    rewrite IH. ring.
Qed.
Lemma mean_kind (b d v : R) : mean_unit (fun w => if Rlt_dec (5 * w) 1 then b else if Rlt_dec (5 * w) 2 then d else v) (1 / 5 * b + 1 / 5 * d + 3 / 5 * v).
Proof.
  unfold mean_unit. replace (1 / 5 * b + 1 / 5 * d + 3 / 5 * v) with (plus ((1 / 5 - 0) * b) (plus ((2 / 5 - 1 / 5) * d) ((1 - 2 / 5) * v))) by (unfold plus; cbn; field).
  apply (is_RInt_Chasles (V := R_NormedModule)) with (1 / 5).
  { apply (is_RInt_ext (fun _ => b)); [|apply const_int]. intros w Hw. rewrite Rmin_left, Rmax_right in Hw by lra. destruct (Rlt_dec _ _); auto; lra. }
  apply (is_RInt_Chasles (V := R_NormedModule)) with (2 / 5).
  { apply (is_RInt_ext (fun _ => d)); [|apply const_int]. intros w Hw. rewrite Rmin_left, Rmax_right in Hw by lra.
    destruct (Rlt_dec _ _); [lra|]. destruct (Rlt_dec _ _); auto; lra. }
  apply (is_RInt_ext (fun _ => v)); [|apply const_int]. intros w Hw. rewrite Rmin_left, Rmax_right in Hw by lra.
  destruct (Rlt_dec _ _); [lra|]. destruct (Rlt_dec _ _); auto; lra.
Qed.
Lemma mean_next g k xs : good g -> (kmin <= k <= kmax)%nat -> box k xs ->
  mean_iteration phi kmin kmax k (g xs) (fun i a u => g (step_birth xs i a u)) (fun i u => g (step_death xs i u))
    (fun i z u => g (step lo hi sd T L xs i z u)) (next_mean g xs).
Proof.
  intros Hg H Hx. exists (g xs + births g xs), (g xs + deaths g xs), (after lo hi k sd T phi L g xs). repeat split.
  - destruct (Nat.ltb_spec k kmax) as [E|E]; [now apply mean_births|]. unfold births. rewrite (box_length k xs Hx).
    destruct (Nat.ltb_spec k kmax); [lia|ring].
  - destruct (Nat.ltb_spec kmin k) as [E|E]; [now apply mean_deaths|]. unfold deaths. rewrite (box_length k xs Hx).
    destruct (Nat.ltb_spec kmin k); [lia|ring].
  - apply (mean_draws_step lo hi Hlo k sd T Hsd F phi HF Hphi L); auto.
  - replace (next_mean g xs) with (1 / 5 * (g xs + births g xs) + 1 / 5 * (g xs + deaths g xs) + 3 / 5 * after lo hi k sd T phi L g xs); [apply mean_kind|].
    unfold next_mean, values. rewrite (box_length k xs Hx). field.
Qed.

(** * Balance *)
Definition post (k : nat) (xs : list R) : R := / W ^ k * dens xs.
Lemma Wpos k : 0 < W ^ k.
Proof. apply pow_lt. lra. Qed.
Lemma ucont_post k : (kmin <= k <= kmax)%nat -> ucont k (post k).
Proof. intros H. unfold post. apply ucont_scal; auto. apply ucont_dens; auto. Qed.
(** What flows between [k] and [k + 1] numbers at index [i]. *)
Definition link (g : list R -> R) (k i : nat) (zs : list R) : R :=
  / INR (S k) * / W ^ S k * (Rmin (dens (del i zs)) (dens zs) * (g zs - g (del i zs))).
Lemma ucont_link g k i : good g -> (kmin <= k)%nat -> (S k <= kmax)%nat -> (i <= k)%nat -> ucont (S k) (link g k i).
Proof.
  intros Hg H1 H2 Hi. unfold link. apply ucont_scal; auto. apply ucont_mult; auto.
  - apply ucont_min; [exact Hlo|apply ucont_del; auto|]; apply ucont_dens; auto; apply HL; lia.
  - apply ucont_minus; [exact Hlo|apply Hg; lia|]. apply ucont_del; auto. apply Hg; lia.
Qed.
Lemma births_flow g k : good g -> (kmin <= k)%nat -> (S k <= kmax)%nat ->
  box_int lo hi k (fun xs => post k xs * births g xs) = rsum (map (fun i => box_int lo hi (S k) (link g k i)) (seq 0 (S k))).
Proof.
  intros Hg H1 H2.
  transitivity (box_int lo hi k (fun xs => rsum (map (fun i => (RInt (fun y => link g k i (ins i y xs)) lo hi : R)) (seq 0 (S k))))).
  - apply box_int_ext; auto. intros xs Hx. unfold births. rewrite (box_length k xs Hx).
    destruct (Nat.ltb_spec k kmax) as [E|E]; [|lia].
    replace (post k xs * (rsum (map (fun i => birth_i g i xs) (seq 0 (S k))) / INR (S k))) with
      (post k xs * / INR (S k) * rsum (map (fun i => birth_i g i xs) (seq 0 (S k)))) by (unfold Rdiv; ring).
    rewrite rsum_mult. f_equal. apply map_ext_in. intros i Hi. apply in_seq in Hi.
    assert (Ex : ex_RInt (fun y => gain g xs (ins i y xs)) lo hi).
    { apply (uc1_ex lo hi Hlo k (fun l => gain g (tl l) (ins i (hd 0 l) (tl l)))); auto. apply ucont_gain_ins; auto; lia. }
    unfold birth_i. rewrite <- Rmult_assoc. rewrite <- (RInt_scal (V := R_CompleteNormedModule)) by exact Ex.
    apply RInt_in; auto. intros y Hy. unfold scal. cbn -[INR pow]. unfold mult. cbn -[INR pow]. unfold link.
    rewrite del_ins by (rewrite (box_length k xs Hx); lia). rewrite <- (dens_acc T HT L). unfold gain, post. cbn [pow].
    pose proof (Wpos k). field. repeat split; try lra. apply not_0_INR. lia.
  - rewrite (box_int_sum lo hi Hlo k (seq 0 (S k)) (fun i xs => RInt (fun y => link g k i (ins i y xs)) lo hi)).
    + f_equal. apply map_ext_in. intros i Hi. apply in_seq in Hi. apply insertion; [lia|]. apply ucont_link; auto; lia.
    + intros i Hi. apply in_seq in Hi. apply (ucont_int lo hi Hlo k (fun l => link g k i (ins i (hd 0 l) (tl l)))).
      apply ucont_ins; [lia|]. apply ucont_link; auto; lia.
Qed.
Lemma deaths_flow g k : good g -> (kmin <= k)%nat -> (S k <= kmax)%nat ->
  box_int lo hi (S k) (fun xs => post (S k) xs * deaths g xs) = - rsum (map (fun i => box_int lo hi (S k) (link g k i)) (seq 0 (S k))).
Proof.
  intros Hg H1 H2.
  assert (Hc : forall i, In i (seq 0 (S k)) -> ucont (S k) (link g k i)) by (intros i Hi; apply in_seq in Hi; apply ucont_link; auto; lia).
  rewrite <- (box_int_sum lo hi Hlo (S k) (seq 0 (S k)) (fun i => link g k i)) by auto.
  transitivity ((-1) * box_int lo hi (S k) (fun xs => rsum (map (fun i => link g k i xs) (seq 0 (S k))))); [|ring].
  rewrite <- (box_int_scal lo hi Hlo (S k) (-1) (fun xs => rsum (map (fun i => link g k i xs) (seq 0 (S k))))) by now apply ucont_sum.
  apply box_int_ext; auto. intros xs Hx. unfold deaths. rewrite (box_length (S k) xs Hx).
  destruct (Nat.ltb_spec kmin (S k)) as [E|E]; [|lia].
  replace (post (S k) xs * (rsum (map (fun i => death_i g i xs) (seq 0 (S k))) / INR (S k))) with
    (post (S k) xs * / INR (S k) * rsum (map (fun i => death_i g i xs) (seq 0 (S k)))) by (unfold Rdiv; ring).
  rewrite !rsum_mult. f_equal. apply map_ext. intros i. unfold link, death_i, gain, post.
  rewrite Rmin_comm, <- (dens_acc T HT L). ring.
Qed.
Lemma values_flow g k : good g -> (kmin <= k <= kmax)%nat -> box_int lo hi k (fun xs => post k xs * values g xs) = 0.
Proof.
  intros Hg H. assert (Ha : ucont k (after lo hi k sd T phi L g)) by (apply (ucont_after lo hi Hlo k sd T F phi HF Hphi L); auto).
  assert (Hd : ucont k dens) by (apply ucont_dens; auto).
  transitivity (/ W ^ k * (box_int lo hi k (fun xs => dens xs * after lo hi k sd T phi L g xs) + (-1) * box_int lo hi k (fun xs => dens xs * g xs))).
  - rewrite <- (box_int_scal lo hi Hlo k (-1) (fun xs => dens xs * g xs)) by (apply ucont_mult; auto).
    rewrite <- (box_int_plus lo hi Hlo k (fun xs => dens xs * after lo hi k sd T phi L g xs) (fun xs => -1 * (dens xs * g xs))).
    2:{ apply ucont_mult; auto. }
    2:{ apply ucont_scal; auto. apply ucont_mult; auto. }
    rewrite <- (box_int_scal lo hi Hlo k (/ W ^ k)).
    2:{ apply ucont_plus; [apply ucont_mult; auto|]. apply ucont_scal; auto. apply ucont_mult; auto. }
    apply box_int_ext; auto. intros xs Hx. unfold values, post. rewrite (box_length k xs Hx). ring.
  - rewrite (balance lo hi Hlo k sd T Hsd HT F phi HF Hphi L (HL k H) g) by (auto; lia). ring.
Qed.
Lemma rsum_plus (l : list nat) f g : rsum (map (fun i => f i + g i) l) = rsum (map f l) + rsum (map g l).
Proof. induction l as [|x l IH]; [cbn; lra|]. change (f x + g x + rsum (map (fun i => f i + g i) l) = f x + rsum (map f l) + (g x + rsum (map g l))). rewrite IH. ring. Qed.
Lemma rsum_zero (l : list nat) f : (forall i, In i l -> f i = 0) -> rsum (map f l) = 0.
Proof. induction l as [|x l IH]; intros H; [reflexivity|]. change (f x + rsum (map f l) = 0). rewrite IH, H; [ring|now left|intros; apply H; now right]. Qed.
Lemma rsum_app l m : rsum (l ++ m) = rsum l + rsum m.
Proof. induction l as [|x l IH]; [symmetry; apply Rplus_0_l|]. change (x + rsum (l ++ m) = x + rsum l + rsum m). rewrite IH. ring. Qed.
Lemma trans_balance g : good g ->
  rsum (map (fun k => box_int lo hi k (fun xs => post k xs * next_mean g xs)) (seq kmin (S kmax - kmin))) =
  rsum (map (fun k => box_int lo hi k (fun xs => post k xs * g xs)) (seq kmin (S kmax - kmin))).
Proof.
  intros Hg.
  set (B := fun k => box_int lo hi k (fun xs => post k xs * births g xs)).
  set (D := fun k => box_int lo hi k (fun xs => post k xs * deaths g xs)).
  set (G := fun k => box_int lo hi k (fun xs => post k xs * g xs)).
  assert (Hs : forall k, In k (seq kmin (S kmax - kmin)) -> (kmin <= k <= kmax)%nat) by (intros k Hi; apply in_seq in Hi; lia).
  transitivity (rsum (map (fun k => G k + (1 / 5 * (B k + D k))) (seq kmin (S kmax - kmin)))).
  - f_equal. apply map_ext_in. intros k Hi. apply Hs in Hi. pose proof (ucont_post k Hi) as Hp.
    assert (HB : ucont k (fun xs => post k xs * births g xs)) by (apply ucont_mult; auto; now apply ucont_births).
    assert (HD : ucont k (fun xs => post k xs * deaths g xs)) by (apply ucont_mult; auto; now apply ucont_deaths).
    assert (HV : ucont k (fun xs => post k xs * values g xs)) by (apply ucont_mult; auto; now apply ucont_values).
    assert (HG : ucont k (fun xs => post k xs * g xs)) by (apply ucont_mult; auto).
    transitivity (box_int lo hi k (fun xs => post k xs * g xs + (1 / 5 * (post k xs * births g xs + post k xs * deaths g xs) + 3 / 5 * (post k xs * values g xs)))).
    { apply box_int_ext; auto. intros xs _. unfold next_mean. ring. }
    rewrite (box_int_plus lo hi Hlo k (fun xs => post k xs * g xs)) by (auto; apply ucont_plus; apply ucont_scal; auto; now apply ucont_plus).
    rewrite (box_int_plus lo hi Hlo k (fun xs => 1 / 5 * (post k xs * births g xs + post k xs * deaths g xs))) by (apply ucont_scal; auto; now apply ucont_plus).
    rewrite (box_int_scal lo hi Hlo k (1 / 5)) by now apply ucont_plus.
    rewrite (box_int_scal lo hi Hlo k (3 / 5)) by auto. rewrite (values_flow g k Hg Hi).
    rewrite (box_int_plus lo hi Hlo k (fun xs => post k xs * births g xs)) by auto. fold (B k) (D k) (G k). ring.
  - rewrite rsum_plus, <- rsum_mult, rsum_plus.
    enough (E : rsum (map B (seq kmin (S kmax - kmin))) + rsum (map D (seq kmin (S kmax - kmin))) = 0) by (rewrite E; ring).
    assert (B0 : B kmax = 0).
    { unfold B. rewrite (box_int_ext lo hi Hlo kmax _ (fun _ => 0)); [apply box_int_zero; auto|]. intros xs Hx. unfold births. rewrite (box_length _ xs Hx), Nat.ltb_irrefl. ring. }
    assert (D0 : D kmin = 0).
    { unfold D. rewrite (box_int_ext lo hi Hlo kmin _ (fun _ => 0)); [apply box_int_zero; auto|]. intros xs Hx. unfold deaths. rewrite (box_length _ xs Hx), Nat.ltb_irrefl. ring. }
    replace (S kmax - kmin)%nat with (S (kmax - kmin)) by lia. set (m := (kmax - kmin)%nat).
    replace (rsum (map B (seq kmin (S m)))) with (rsum (map B (seq kmin m))).
    2:{ rewrite seq_S, map_app, rsum_app. replace (kmin + m)%nat with kmax by lia. change (rsum (map B [kmax])) with (B kmax + 0). rewrite B0. ring. }
    replace (rsum (map D (seq kmin (S m)))) with (rsum (map (fun k => D (S k)) (seq kmin m))).
    2:{ cbn [seq map]. change (rsum (D kmin :: map D (seq (S kmin) m))) with (D kmin + rsum (map D (seq (S kmin) m))). rewrite D0, <- seq_shift, map_map. ring. }
    rewrite <- rsum_plus. apply rsum_zero. intros k Hi. apply in_seq in Hi. unfold B, D.
    rewrite births_flow, deaths_flow by (auto; lia). ring.
Qed.
End Transd.
