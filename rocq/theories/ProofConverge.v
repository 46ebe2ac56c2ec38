(** Convergence of chains: operators that take means over one iteration shrink the range of a function. *)
From Coq Require Import FunctionalExtensionality.
From Coquelicot Require Import Coquelicot.
From Verif Require Import Base SpecWalk SpecInvariance ProofFubini ProofBox ProofInvariance.
From Verif Require SpecHier ProofLine ProofSites ProofHier.
Local Open Scope R_scope.

Section Contract.
Context {X : Type} (dom : X -> Prop) (ok : (X -> R) -> Prop) (P : (X -> R) -> X -> R) (N : nat).
Context (mu pi : (X -> R) -> R) (theta : R).
Record averages : Prop := {
  av_ok : forall g, ok g -> ok (P g);
  av_aff_ok : forall a b g, ok g -> ok (fun x => a + b * g x);
  av_aff : forall a b g x, ok g -> dom x -> P (fun x => a + b * g x) x = a + b * P g x;
  av_pos : forall g x, ok g -> (forall x, dom x -> 0 <= g x) -> dom x -> 0 <= P g x;
  av_ext : forall g h x, (forall x, dom x -> g x = h x) -> dom x -> P g x = P h x
}.
Context (HP : averages).
Context (Hmu : forall a b g, ok g -> mu (fun x => a + b * g x) = a + b * mu g).
Context (Hmin : forall g x, ok g -> (forall x, dom x -> 0 <= g x) -> dom x -> theta * mu g <= Nat.iter N P g x).
Context (Hpi_aff : forall a b g, ok g -> pi (fun x => a + b * g x) = a + b * pi g).
Context (Hpi_pos : forall g, ok g -> (forall x, dom x -> 0 <= g x) -> 0 <= pi g).
Context (Hpi : forall g, ok g -> pi (P g) = pi g).
Notation "P ^^ k" := (Nat.iter k P) (at level 30).

Lemma iter_ok k g : ok g -> ok ((P ^^ k) g).
Proof. intros H. induction k as [|k IH]; auto. cbn. now apply av_ok. Qed.
Lemma iter_ext k g h : (forall x, dom x -> g x = h x) -> forall x, dom x -> (P ^^ k) g x = (P ^^ k) h x.
Proof. intros H. induction k as [|k IH]; auto. intros x Hx. cbn. now apply av_ext. Qed.
Lemma iter_aff k a b g x : ok g -> dom x -> (P ^^ k) (fun x => a + b * g x) x = a + b * (P ^^ k) g x.
Proof.
  intros Hg. revert x. induction k as [|k IH]; intros x Hx; auto. cbn.
  rewrite (av_ext HP _ (fun x => a + b * (P ^^ k) g x)) by auto. apply av_aff; auto. now apply iter_ok.
Qed.
Lemma bounds g m M : ok g -> (forall x, dom x -> m <= g x <= M) -> forall x, dom x -> m <= P g x <= M.
Proof.
  intros Hg Hb x Hx.
  assert (A : 0 <= P (fun x => - m + 1 * g x) x).
  { apply av_pos; auto; [now apply av_aff_ok|]. intros y Hy. specialize (Hb y Hy). lra. }
  assert (B : 0 <= P (fun x => M + (-1) * g x) x).
  { apply av_pos; auto; [now apply av_aff_ok|]. intros y Hy. specialize (Hb y Hy). lra. }
  rewrite av_aff in A, B by auto. lra.
Qed.
Lemma iter_bounds k g m M : ok g -> (forall x, dom x -> m <= g x <= M) -> forall x, dom x -> m <= (P ^^ k) g x <= M.
Proof. intros Hg Hb. induction k as [|k IH]; auto. cbn. apply bounds; auto. now apply iter_ok. Qed.
Lemma shrink g m M : ok g -> (forall x, dom x -> m <= g x <= M) ->
  exists m' M', M' - m' = (M - m) * (1 - theta) /\ forall x, dom x -> m' <= (P ^^ N) g x <= M'.
Proof.
  intros Hg Hb. exists (m + theta * (mu g - m)), (M - theta * (M - mu g)). split; [ring|]. intros x Hx.
  assert (A : theta * mu (fun x => - m + 1 * g x) <= (P ^^ N) (fun x => - m + 1 * g x) x).
  { apply Hmin; auto; [now apply av_aff_ok|]. intros y Hy. specialize (Hb y Hy). lra. }
  assert (B : theta * mu (fun x => M + (-1) * g x) <= (P ^^ N) (fun x => M + (-1) * g x) x).
  { apply Hmin; auto; [now apply av_aff_ok|]. intros y Hy. specialize (Hb y Hy). lra. }
  rewrite iter_aff in A, B by auto. rewrite Hmu in A, B by auto. lra.
Qed.
Lemma iter_add j k g : (P ^^ (j + k)) g = (P ^^ j) ((P ^^ k) g).
Proof. induction j as [|j IH]; [reflexivity|]. change (P ((P ^^ (j + k)) g) = P ((P ^^ j) ((P ^^ k) g))). now rewrite IH. Qed.
Lemma blocks g m M j : ok g -> (forall x, dom x -> m <= g x <= M) ->
  exists m' M', M' - m' = (M - m) * (1 - theta) ^ j /\ forall k x, (j * N <= k)%nat -> dom x -> m' <= (P ^^ k) g x <= M'.
Proof.
  intros Hg Hb. induction j as [|j (m' & M' & E & IH)].
  - exists m, M. split; [cbn; ring|]. intros k x _. now apply iter_bounds.
  - destruct (shrink ((P ^^ (j * N)) g) m' M') as (m2 & M2 & E2 & H2); [now apply iter_ok|intros; now apply IH|].
    exists m2, M2. split; [rewrite E2, E; cbn; ring|]. intros k x Hk Hx.
    assert (Hk' : k = (k - S j * N + (N + j * N))%nat) by (cbn in *; lia). rewrite Hk', iter_add.
    apply iter_bounds; auto; [now apply iter_ok|]. intros y Hy. rewrite iter_add. now apply H2.
Qed.
Lemma pi_iter k g : ok g -> pi ((P ^^ k) g) = pi g.
Proof. intros Hg. induction k as [|k IH]; auto. cbn. rewrite Hpi; auto. now apply iter_ok. Qed.
Lemma converges g m M : ok g -> (forall x, dom x -> m <= g x <= M) -> (0 < N)%nat -> 
  forall k x, dom x -> Rabs ((P ^^ k) g x - pi g) <= (M - m) * (1 - theta) ^ (k / N).
Proof.
  intros Hg Hb HN k x Hx. destruct (blocks g m M (k / N) Hg Hb) as (m' & M' & E & H).
  assert (Hk : (k / N * N <= k)%nat) by (rewrite Nat.mul_comm; apply Nat.mul_div_le; lia).
  pose proof (H k x Hk Hx) as H1.
  assert (A : 0 <= pi (fun x => - m' + 1 * (P ^^ k) g x)).
  { apply Hpi_pos; [apply av_aff_ok; auto; now apply iter_ok|]. intros y Hy. specialize (H k y Hk Hy). lra. }
  assert (B : 0 <= pi (fun x => M' + (-1) * (P ^^ k) g x)).
  { apply Hpi_pos; [apply av_aff_ok; auto; now apply iter_ok|]. intros y Hy. specialize (H k y Hk Hy). lra. }
  rewrite Hpi_aff in A, B by now apply iter_ok. rewrite pi_iter in A, B by auto. rewrite <- E. apply Rabs_le. lra.
Qed.
End Contract.

Lemma box_int_pos lo hi (Hlo : lo < hi) m : forall f, cont_on lo hi m f -> (forall xs, in_box lo hi m xs -> 0 < f xs) -> 0 < box_int lo hi m f.
Proof.
  induction m as [|m IH]; intros f Hf Hp; cbn [box_int]; [apply Hp; split; auto; constructor|].
  assert (P : forall x, lo <= x <= hi -> 0 < box_int lo hi m (fun xs => f (x :: xs))).
  { intros x Hx. apply IH; [now apply ucont_cons|]. intros xs [Hl Hb]. apply Hp. split; [cbn; lia|now constructor]. }
  apply (ProofSites.positive_int lo hi Hlo _ lo); try lra; [now apply box_int_uc1|intros; apply Rlt_le; auto|apply P; lra].
Qed.

(** * Operators that replace each coordinate with positive density *)
Section Refresh.
Context (lo hi : R) (Hlo : lo < hi) (n : nat).
Notation box := (in_box lo hi).
Notation ucont := (cont_on lo hi).
Definition over (i : nat) (g : list R -> R) (xs : list R) : R := RInt (fun y => g (set_nth xs i y)) lo hi.
Lemma over_ex i g xs : (i < n)%nat -> ucont n g -> box n xs -> ex_RInt (fun y => g (set_nth xs i y)) lo hi.
Proof. intros Hi Hg Hx. apply (uc1_ex lo hi Hlo n (fun l => g (set_nth (tl l) i (hd 0 l)))); auto. now apply ucont_setm. Qed.
(** All coordinates are replaced in [n] steps. *)
Lemma firstn_set (xs : list R) k y : (k < length xs)%nat -> firstn (S k) (set_nth xs k y) = firstn k xs ++ [y].
Proof.
  revert k. induction xs as [|x xs IH]; intros [|k] Hk; cbn [length] in Hk; try lia; [reflexivity|].
  rewrite set_nth_cons. change (x :: firstn (S k) (set_nth xs k y) = x :: firstn k xs ++ [y]). now rewrite IH by lia.
Qed.
Definition lasts (k : nat) (g : list R -> R) (xs : list R) : R := box_int lo hi k (fun ys => g (firstn (n - k) xs ++ ys)).
Lemma box_app xs ys k : (k <= n)%nat -> box n xs -> box k ys -> box n (firstn (n - k) xs ++ ys).
Proof.
  intros Hk [Hl Hf] [Hl' Hf']. split.
  - rewrite app_length, firstn_length. lia.
  - apply Forall_app. split; auto. apply Forall_forall. intros x Hx. rewrite Forall_forall in Hf. apply Hf. revert Hx. clear. revert xs. induction (n - k)%nat as [|m IH]; intros [|a xs] H; cbn in *; try tauto. destruct H; auto.
Qed.
Context (dom : list R -> Prop) (ok : (list R -> R) -> Prop) (P : (list R -> R) -> list R -> R) (HP : averages dom ok P).
Context (Hok : forall g, ok g -> ucont n g) (kappa : R) (kappa_pos : 0 < kappa).
Context (Hlow : forall g i xs, (i < n)%nat -> ok g -> (forall xs, dom xs -> 0 <= g xs) -> box n xs -> kappa * over i g xs <= P g xs).
Lemma iter_low g : ok g -> (forall xs, dom xs -> 0 <= g xs) -> forall k xs, (k <= n)%nat -> box n xs ->
  kappa ^ k * lasts k g xs <= Nat.iter k P g xs.
Proof.
  intros Hg Hp. pose proof kappa_pos as Hdn. pose proof (Hok g Hg) as Hgc.
  assert (Hcl : forall k xs, (k <= n)%nat -> box n xs -> ucont k (fun ys => g (firstn (n - k) xs ++ ys))).
  { intros k xs Hk Hx. apply (ucont_map lo hi k n g (fun ys => firstn (n - k) xs ++ ys)); auto.
    - intros ys Hy. now apply box_app.
    - intros d ys zs Hdd _ _ Hnr. apply Forall2_app; auto. now apply near_refl. }
  induction k as [|k IH]; intros xs Hk Hx.
  - cbn. rewrite Nat.sub_0_r, app_nil_r, firstn_all2; [lra|]. destruct Hx; lia.
  - set (i := (n - S k)%nat). assert (Hi : (i < n)%nat) by (unfold i; lia).
    assert (Hokj : forall j, ok (Nat.iter j P g)) by (intros; now apply (iter_ok dom ok P HP)).
    assert (Hpos : forall j xs, dom xs -> 0 <= Nat.iter j P g xs).
    { induction j as [|j IHj]; auto. intros ys Hy. change (0 <= P (Nat.iter j P g) ys). apply (av_pos _ _ _ HP); [apply Hokj|exact IHj|exact Hy]. }
    cbn [Nat.iter]. eapply Rle_trans; [|apply (Hlow (Nat.iter k P g) i xs); auto].
    cbn [pow]. rewrite Rmult_assoc. apply Rmult_le_compat_l; [lra|].
    unfold lasts. cbn [box_int]. unfold over.
    assert (Eset : forall y, lo <= y <= hi -> lasts k g (set_nth xs i y) = box_int lo hi k (fun ys => g (firstn (n - S k) xs ++ y :: ys))).
    { intros y Hy. unfold lasts. apply box_int_ext; auto. intros ys _. f_equal. replace (n - k)%nat with (S i) by (unfold i; lia).
      rewrite firstn_set by (destruct Hx; lia). rewrite <- app_assoc. reflexivity. }
    assert (Hex : ex_RInt (fun x => box_int lo hi k (fun ys => g (firstn (n - S k) xs ++ x :: ys))) lo hi).
    { apply uc1_int; auto. apply (box_int_uc1 lo hi Hlo k (fun ys => g (firstn (n - S k) xs ++ ys))). apply Hcl; auto. }
    apply Rle_trans with (RInt (fun x => kappa ^ k * box_int lo hi k (fun ys => g (firstn (n - S k) xs ++ x :: ys))) lo hi).
    + right. symmetry. apply (RInt_scal (V := R_CompleteNormedModule)). exact Hex.
    + apply RInt_le; [lra|apply (ex_RInt_scal (V := R_NormedModule)); exact Hex|apply over_ex; auto|].
      intros y Hy. rewrite <- Eset by lra. apply IH; [lia|]. apply box_set; auto. lra.
Qed.
End Refresh.

(** * Steps on a box that replace one coordinate *)
Section Moves.
Context (lo hi : R) (Hlo : lo < hi) (n : nat) (Hn : (0 < n)%nat).
(** Density of the proposals for coordinate [i] that are accepted, and the density that is kept. *)
Context (rate : nat -> list R -> R -> R) (D : list R -> R).
Notation box := (in_box lo hi).
Notation ucont := (cont_on lo hi).
Notation over := (over lo hi).
Definition flow (g : list R -> R) (i : nat) (xs : list R) (y : R) : R := rate i xs y * (g (set_nth xs i y) - g xs).
Definition move (g : list R -> R) (i : nat) (xs : list R) : R := g xs + RInt (flow g i xs) lo hi.
(** Coordinate [i] is moved with probability [wt i]. *)
Context (wt : nat -> R) (eta : R) (Heta : 0 < eta) (Hwt : forall i, (i < n)%nat -> eta <= wt i) (Hsum : rsum (map wt (seq 0 n)) = 1).
Definition step (g : list R -> R) (xs : list R) : R := rsum (map (fun i => wt i * move g i xs) (seq 0 n)).
Context (ucont_rate : forall i, (i < n)%nat -> ucont (S n) (fun l => rate i (tl l) (hd 0 l))).
Context (rate_le : forall i xs, (i < n)%nat -> box n xs -> RInt (rate i xs) lo hi <= 1).
Context (delta : R) (Hd0 : 0 < delta) (Hd : forall i xs y, (i < n)%nat -> box n xs -> lo <= y <= hi -> delta <= rate i xs y).
Context (Hdc : ucont n D) (Hdp : forall xs, box n xs -> 0 < D xs).
Context (Hbal : forall g, ucont n g -> box_int lo hi n (fun xs => D xs * step g xs) = box_int lo hi n (fun xs => D xs * g xs)).

Definition gain (g : list R -> R) (i : nat) (xs : list R) (y : R) : R := rate i xs y * g (set_nth xs i y).
Lemma ucont_flow g i : (i < n)%nat -> ucont n g -> ucont (S n) (fun l => flow g i (tl l) (hd 0 l)).
Proof. intros Hi Hg. unfold flow. apply ucont_mult; auto. apply ucont_minus; auto using ucont_setm, ucont_tl. Qed.
Lemma ucont_move g i : (i < n)%nat -> ucont n g -> ucont n (move g i).
Proof. intros Hi Hg. unfold move. apply ucont_plus; auto. apply (ucont_int lo hi Hlo n (fun l => flow g i (tl l) (hd 0 l))). now apply ucont_flow. Qed.
Lemma ucont_step g : ucont n g -> ucont n (step g).
Proof.
  intros Hg. unfold step. apply (ucont_sum lo hi n (seq 0 n) (fun i xs => wt i * move g i xs)); auto. intros i Hi. apply in_seq in Hi. apply ucont_scal; auto. apply ucont_move; auto. lia.
Qed.
Lemma ucont_gain g i : (i < n)%nat -> ucont n g -> ucont (S n) (fun l => gain g i (tl l) (hd 0 l)).
Proof. intros Hi Hg. unfold gain. apply ucont_mult; auto using ucont_setm. Qed.
Lemma gain_ex g i xs : (i < n)%nat -> ucont n g -> box n xs -> ex_RInt (gain g i xs) lo hi.
Proof. intros. apply (uc1_ex lo hi Hlo n (fun l => gain g i (tl l) (hd 0 l))); auto. now apply ucont_gain. Qed.
Lemma flow_ex i xs : (i < n)%nat -> box n xs -> ex_RInt (rate i xs) lo hi.
Proof. intros. apply (uc1_ex lo hi Hlo n (fun l => rate i (tl l) (hd 0 l))); auto. Qed.
Lemma move_split g i xs : (i < n)%nat -> ucont n g -> box n xs ->
  move g i xs = RInt (gain g i xs) lo hi + (1 - RInt (rate i xs) lo hi) * g xs.
Proof.
  intros Hi Hg Hx. unfold move.
  assert (E : RInt (flow g i xs) lo hi = RInt (gain g i xs) lo hi - g xs * RInt (rate i xs) lo hi).
  { transitivity (RInt (fun y => minus (gain g i xs y) (scal (g xs) (rate i xs y))) lo hi).
    - apply RInt_ext. intros y _. unfold flow, gain, minus, plus, opp, scal. cbn. unfold mult. cbn. ring.
    - rewrite (RInt_minus (V := R_CompleteNormedModule)).
      + rewrite (RInt_scal (V := R_CompleteNormedModule)) by now apply flow_ex. reflexivity.
      + now apply gain_ex.
      + apply (ex_RInt_scal (V := R_NormedModule)). now apply flow_ex. }
  rewrite E. ring.
Qed.
Lemma move_low g i xs :
  (i < n)%nat -> ucont n g -> (forall xs, box n xs -> 0 <= g xs) -> box n xs -> delta * over i g xs <= move g i xs.
Proof.
  intros Hi Hg Hp Hx. rewrite move_split by auto. pose proof (rate_le i xs Hi Hx) as Hr. pose proof (Hp xs Hx) as H0.
  apply Rle_trans with (RInt (gain g i xs) lo hi); [|nra].
  apply Rle_trans with (RInt (fun y => delta * g (set_nth xs i y)) lo hi).
  - right. unfold over. symmetry. apply (RInt_scal (V := R_CompleteNormedModule)). now apply (over_ex lo hi Hlo n).
  - apply RInt_le; [lra|apply (ex_RInt_scal (V := R_NormedModule)); now apply (over_ex lo hi Hlo n)|now apply gain_ex|].
    intros y Hy. unfold gain. apply Rmult_le_compat_r; [apply Hp; apply box_set; auto; lra|]. apply (Hd i xs y); auto. lra.
Qed.
Lemma move_pos g i xs : (i < n)%nat -> ucont n g -> (forall xs, box n xs -> 0 <= g xs) -> box n xs -> 0 <= move g i xs.
Proof.
  intros Hi Hg Hp Hx. eapply Rle_trans; [|eapply move_low; eauto].
  apply Rmult_le_pos; [lra|]. apply RInt_ge_0; [lra|now apply (over_ex lo hi Hlo n)|]. intros y Hy. apply Hp. apply box_set; auto. lra.
Qed.
Lemma rsum_pos (l : list nat) f : (forall i, In i l -> 0 <= f i) -> 0 <= rsum (map f l).
Proof.
  induction l as [|x l IH]; intros H; [cbn; lra|]. change (0 <= f x + rsum (map f l)).
  pose proof (H x (or_introl eq_refl)). assert (0 <= rsum (map f l)) by (apply IH; intros; apply H; now right). lra.
Qed.
Lemma rsum_ge (l : list nat) f i : (forall i, In i l -> 0 <= f i) -> In i l -> f i <= rsum (map f l).
Proof.
  induction l as [|x l IH]; intros H Hi; [destruct Hi|]. change (f i <= f x + rsum (map f l)).
  destruct Hi as [->|Hi].
  - assert (0 <= rsum (map f l)) by (apply rsum_pos; intros; apply H; now right). lra.
  - assert (f i <= rsum (map f l)) by (apply IH; auto; intros; apply H; now right). pose proof (H x (or_introl eq_refl)). lra.
Qed.
Definition kappa : R := delta * eta.
Lemma kappa_pos : 0 < kappa.
Proof. unfold kappa. now apply Rmult_lt_0_compat. Qed.
Lemma wt_pos i : In i (seq 0 n) -> 0 < wt i.
Proof. intros Hi. apply in_seq in Hi. eapply Rlt_le_trans; [exact Heta|]. apply Hwt. lia. Qed.
Lemma step_low g i xs :
  (i < n)%nat -> ucont n g -> (forall xs, box n xs -> 0 <= g xs) -> box n xs -> kappa * over i g xs <= step g xs.
Proof.
  intros Hi Hg Hp Hx. unfold step, kappa.
  assert (Hov : 0 <= over i g xs). { apply RInt_ge_0; [lra|now apply (over_ex lo hi Hlo n)|]. intros y Hy. apply Hp. apply box_set; auto. lra. }
  apply Rle_trans with (wt i * move g i xs).
  - pose proof (move_low g i xs Hi Hg Hp Hx) as H. pose proof (Hwt i Hi) as Hw.
    apply Rle_trans with (eta * move g i xs); [|apply Rmult_le_compat_r; auto; now apply move_pos].
    rewrite (Rmult_comm delta), Rmult_assoc. apply Rmult_le_compat_l; lra.
  - apply (rsum_ge (seq 0 n) (fun i => wt i * move g i xs)); [|apply in_seq; lia].
    intros k Hk. pose proof (wt_pos k Hk). apply in_seq in Hk. apply Rmult_le_pos; [lra|]. apply move_pos; auto. lia.
Qed.
Lemma step_averages : averages (box n) (ucont n) step.
Proof.
  split.
  - intros g Hg. now apply ucont_step.
  - intros a b g Hg. apply ucont_plus; [apply ucont_const|now apply ucont_scal].
  - intros a b g xs Hg Hx. unfold step.
    rewrite (map_ext_in (fun i => wt i * move (fun x => a + b * g x) i xs) (fun i => a * wt i + b * (wt i * move g i xs))).
    + assert (E : forall l, rsum (map (fun i => a * wt i + b * (wt i * move g i xs)) l) = a * rsum (map wt l) + b * rsum (map (fun i => wt i * move g i xs) l)).
      { induction l as [|x l IH]; [cbn; ring|].
        change (a * wt x + b * (wt x * move g x xs) + rsum (map (fun i => a * wt i + b * (wt i * move g i xs)) l) = a * (wt x + rsum (map wt l)) + b * (wt x * move g x xs + rsum (map (fun i => wt i * move g i xs) l))).
        rewrite IH. ring. }
      rewrite E, Hsum. ring.
    + intros i Hi. apply in_seq in Hi.
      assert (E : move (fun x => a + b * g x) i xs = a + b * move g i xs).
      { unfold move. transitivity (a + b * g xs + b * RInt (flow g i xs) lo hi); [|ring]. f_equal.
        transitivity (RInt (fun y => b * flow g i xs y) lo hi).
        * apply RInt_in; auto. intros y _. unfold flow. ring.
        * apply (RInt_scal (V := R_CompleteNormedModule)). apply (uc1_ex lo hi Hlo n (fun l => flow g i (tl l) (hd 0 l))); auto.
          apply ucont_flow; auto. lia. }
      rewrite E. ring.
  - intros g xs Hg Hp Hx. unfold step. apply (rsum_pos (seq 0 n) (fun i => wt i * move g i xs)). intros i Hi. pose proof (wt_pos i Hi). apply in_seq in Hi.
    apply Rmult_le_pos; [lra|]. apply move_pos; auto. lia.
  - intros g h xs H Hx. unfold step. f_equal. apply map_ext_in. intros i Hi. apply in_seq in Hi. f_equal.
    unfold move. rewrite H by auto. f_equal. apply RInt_in; auto. intros y Hy. unfold flow.
    rewrite !H; auto. apply box_set; auto. lia.
Qed.
(** The uniform distribution on the box and the distribution with the density [D]. *)
Definition uni (g : list R -> R) : R := box_int lo hi n g / (hi - lo) ^ n.
Definition total : R := box_int lo hi n D.
Definition expect (g : list R -> R) : R := box_int lo hi n (fun xs => D xs * g xs) / total.
Lemma box_const m c : box_int lo hi m (fun _ => c) = (hi - lo) ^ m * c.
Proof.
  induction m as [|m IH]; cbn [box_int pow]; [ring|]. rewrite IH, RInt_const. change ((hi - lo) * ((hi - lo) ^ m * c) = (hi - lo) * (hi - lo) ^ m * c). ring.
Qed.
Lemma total_pos : 0 < total.
Proof. now apply box_int_pos. Qed.
Lemma box_aff f a b g : ucont n f -> ucont n g -> box_int lo hi n (fun xs => f xs * (a + b * g xs)) = a * box_int lo hi n f + b * box_int lo hi n (fun xs => f xs * g xs).
Proof.
  intros Hf Hg. rewrite (box_int_ext lo hi Hlo n (fun xs => f xs * (a + b * g xs)) (fun xs => a * f xs + b * (f xs * g xs))) by (intros; ring).
  rewrite (box_int_plus lo hi Hlo n (fun xs => a * f xs) (fun xs => b * (f xs * g xs))).
  - rewrite (box_int_scal lo hi Hlo n a f) by auto. rewrite (box_int_scal lo hi Hlo n b (fun xs => f xs * g xs)) by now apply ucont_mult. reflexivity.
  - now apply ucont_scal.
  - apply ucont_scal; auto. now apply ucont_mult.
Qed.
Lemma step_converges : exists rho, 0 <= rho < 1 /\ forall g B, ucont n g -> (forall xs, box n xs -> Rabs (g xs) <= B) ->
  forall k xs, box n xs -> Rabs (Nat.iter k step g xs - expect g) <= 2 * B * rho ^ (k / n).
Proof.
  pose proof kappa_pos as Hk0. pose proof total_pos as HM.
  assert (Hv : 0 < (hi - lo) ^ n) by (apply pow_lt; lra).
  set (theta := kappa ^ n * (hi - lo) ^ n).
  assert (Hth : 0 < theta). { apply Rmult_lt_0_compat; auto. now apply pow_lt. }
  assert (Hmin : forall g xs, ucont n g -> (forall xs, box n xs -> 0 <= g xs) -> box n xs -> theta * uni g <= Nat.iter n step g xs).
  { intros g xs Hg Hp Hx. eapply Rle_trans; [|apply (iter_low lo hi Hlo n (box n) (ucont n) step step_averages (fun g H => H) kappa kappa_pos (fun g i xs H1 H2 H3 H4 => step_low g i xs H1 H2 H3 H4) g Hg Hp n xs); auto]. right. unfold theta, uni, lasts.
    rewrite Nat.sub_diag. change (fun ys => g (firstn 0 xs ++ ys)) with g. field. lra. }
  assert (Hone : theta <= 1).
  { set (x0 := repeat lo n). assert (Hx0 : box n x0). { split; [apply repeat_length|]. apply Forall_forall. intros x Hx. apply repeat_spec in Hx. subst. lra. }
    pose proof (Hmin (fun _ => 1) x0 (ucont_const lo hi n 1) ltac:(intros; lra) Hx0) as H.
    assert (E : uni (fun _ => 1) = 1). { unfold uni. rewrite box_const. field. lra. }
    assert (E2 : Nat.iter n step (fun _ => 1) x0 <= 1).
    { apply (iter_bounds (box n) (ucont n) step step_averages n (fun _ => 1) 1 1); auto; [apply ucont_const|intros; lra]. }
    rewrite E in H. lra. }
  exists (1 - theta). split; [lra|]. intros g B Hg HB k xs Hx.
  replace (2 * B) with (B - - B) by ring.
  apply (converges (box n) (ucont n) step n uni expect theta step_averages); auto.
  - intros a b h Hh. unfold uni. rewrite (box_int_ext lo hi Hlo n (fun x => a + b * h x) (fun x => 1 * (a + b * h x))) by (intros; ring).
    rewrite (box_aff (fun _ => 1) a b h (ucont_const lo hi n 1) Hh). rewrite box_const.
    rewrite (box_int_ext lo hi Hlo n (fun x => 1 * h x) h) by (intros; ring). field. lra.
  - intros a b h Hh. unfold expect. rewrite box_aff by auto. fold total. field. lra.
  - intros h Hh Hp. unfold expect. apply Rmult_le_pos; [|apply Rlt_le; now apply Rinv_0_lt_compat].
    apply ProofLine.box_int_nonneg; auto; [now apply (ucont_mult lo hi Hlo n D)|]. intros ys Hy. apply Rmult_le_pos; auto. apply Rlt_le; auto.
  - intros h Hh. unfold expect. f_equal. now apply Hbal.
  - intros ys Hy. apply HB in Hy. apply Rabs_le_between in Hy. lra.
Qed.
End Moves.

(** * Values with uniform priors *)
Lemma HN n : (0 < n)%nat -> 0 < INR n. Proof. intros. apply lt_0_INR. lia. Qed.
Lemma uniform_weights n : (0 < n)%nat -> rsum (map (fun _ => / INR n) (seq 0 n)) = 1.
Proof. intros H. rewrite rsum_const, seq_length. pose proof (HN n H). field. lra. Qed.
Lemma uniform_step n (f : nat -> R) : rsum (map f (seq 0 n)) / INR n = rsum (map (fun i => / INR n * f i) (seq 0 n)).
Proof. rewrite <- rsum_mult. unfold Rdiv. ring. Qed.
Section Box.
Context (lo hi : R) (Hlo : lo < hi) (n : nat) (Hn : (0 < n)%nat) (sd T : R) (Hsd : 0 < sd) (HT : 0 < T).
Context (F phi : R -> R) (HF : normal_cdf F) (Hphi : forall z, derivable_pt_lim F z (phi z)).
Context (L : list R -> R) (HL : cont_on lo hi n L).
Notation box := (in_box lo hi).
Notation ucont := (cont_on lo hi).
Notation after := (after lo hi n sd T phi L).
Notation q := (q sd phi).
Notation acc := (acc T L).

Definition rate (i : nat) (xs : list R) (y : R) : R := q (nth i xs 0) y * acc xs (set_nth xs i y).
Lemma ucont_rate i : (i < n)%nat -> ucont (S n) (fun l => rate i (tl l) (hd 0 l)).
Proof. intros Hi. unfold rate. apply ucont_mult; auto; [eapply ucont_q; eauto|eapply ucont_acc; eauto]. Qed.
Lemma rate_ex i xs : (i < n)%nat -> box n xs -> ex_RInt (rate i xs) lo hi.
Proof. intros. apply (uc1_ex lo hi Hlo n (fun l => rate i (tl l) (hd 0 l))); auto. now apply ucont_rate. Qed.
Lemma rate_le i xs : (i < n)%nat -> box n xs -> RInt (rate i xs) lo hi <= 1.
Proof.
  intros Hi Hx. apply Rle_trans with (RInt (q (nth i xs 0)) lo hi).
  - apply RInt_le; [lra|now apply rate_ex| |].
    + eexists. eapply ProofLine.hop_int; eauto.
    + intros y _. unfold rate. pose proof (acc_range T L xs (set_nth xs i y)). pose proof (ProofLine.hop_pos sd Hsd F phi HF Hphi (nth i xs 0) y). nra.
  - rewrite (is_RInt_unique _ _ _ _ (ProofLine.hop_int sd Hsd F phi HF Hphi (nth i xs 0) lo hi)).
    pose proof (nc_range F HF ((hi - nth i xs 0) / sd)). pose proof (nc_range F HF ((lo - nth i xs 0) / sd)). lra.
Qed.
(** A bound of the rate from below. *)
Lemma rate_low : exists delta, 0 < delta /\ forall i xs y, (i < n)%nat -> box n xs -> lo <= y <= hi -> delta <= rate i xs y.
Proof.
  destruct (ucont_bounded lo hi Hlo n L HL) as (B & HB & BB). destruct (phi_bell F phi HF Hphi) as (c & Hc & Hb).
  set (w := (hi - lo) / sd).
  exists (c * bell w / sd * exp (- (2 * B / T))). split.
  - apply Rmult_lt_0_compat; [|apply exp_pos]. apply Rdiv_lt_0_compat; auto. apply Rmult_lt_0_compat; auto. apply exp_pos.
  - intros i xs y Hi Hx Hy. pose proof (box_nth lo hi n xs i Hx Hi) as Hxi. cbv beta in Hxi. unfold rate.
    assert (He : forall a b, a <= b -> exp a <= exp b) by (intros a b [H| ->]; [apply Rlt_le; now apply exp_increasing|lra]).
    apply Rmult_le_compat.
    + apply Rlt_le. apply Rdiv_lt_0_compat; auto. apply Rmult_lt_0_compat; auto. apply exp_pos.
    + apply Rlt_le, exp_pos.
    + unfold ProofInvariance.q. rewrite Hb. unfold Rdiv at 1 2. apply Rmult_le_compat_r; [apply Rlt_le; now apply Rinv_0_lt_compat|].
      apply Rmult_le_compat_l; [lra|]. unfold bell. apply He.
      assert (Hsq : (y - nth i xs 0) / sd * ((y - nth i xs 0) / sd) <= w * w).
      { unfold w. set (x := nth i xs 0) in *. assert (0 < / sd) by now apply Rinv_0_lt_compat. unfold Rdiv.
        assert (- ((hi - lo) * / sd) <= (y - x) * / sd <= (hi - lo) * / sd) by (split; nra). nra. }
      lra.
    + unfold ProofInvariance.acc. apply Rmin_glb.
      * rewrite <- exp_0. apply He. assert (0 < 2 * B / T) by (apply Rdiv_lt_0_compat; lra). lra.
      * apply He. pose proof (BB xs Hx) as B1. assert (Hy' : box n (set_nth xs i y)) by now apply box_set. pose proof (BB _ Hy') as B2.
        apply Rabs_le_between in B1. apply Rabs_le_between in B2.
        replace (- (2 * B / T)) with (- (2 * B) / T) by (field; lra). unfold Rdiv. apply Rmult_le_compat_r; [apply Rlt_le; now apply Rinv_0_lt_compat|]. lra.
Qed.
Lemma after_step : after = step lo hi n rate (fun _ => / INR n).
Proof. extensionality g. extensionality xs. exact (uniform_step n (fun i => ProofInvariance.after_i lo hi sd T phi L g i xs)). Qed.
Lemma after_averages : averages (box n) (ucont n) after.
Proof.
  destruct rate_low as (delta & Hd0 & Hd). rewrite after_step.
  apply (step_averages lo hi Hlo n Hn rate (fun _ => / INR n) (/ INR n)) with (delta := delta); auto using ucont_rate, rate_le, uniform_weights.
  - apply Rinv_0_lt_compat. now apply HN.
  - intros; lra.
Qed.
Lemma after_low : exists kap, 0 < kap /\ forall g i xs, (i < n)%nat -> ucont n g -> (forall xs, box n xs -> 0 <= g xs) -> box n xs ->
  kap * over lo hi i g xs <= after g xs.
Proof.
  destruct rate_low as (delta & Hd0 & Hd). rewrite after_step.
  assert (He : 0 < / INR n) by (apply Rinv_0_lt_compat; now apply HN).
  exists (kappa (/ INR n) delta). split; [unfold kappa; now apply Rmult_lt_0_compat|].
  intros g i xs Hi Hg Hp Hx.
  apply (step_low lo hi Hlo n Hn rate (fun _ => / INR n) (/ INR n)); auto using ucont_rate, rate_le. intros; lra.
Qed.
Definition mass : R := total lo hi n (dens T L).
Definition post (g : list R -> R) : R := expect lo hi n (dens T L) g.
Lemma mass_pos : 0 < mass.
Proof. apply total_pos; auto; [eapply ucont_dens; eauto|intros; apply exp_pos]. Qed.
Lemma box_converges : exists rho, 0 <= rho < 1 /\ forall g B, ucont n g -> (forall xs, box n xs -> Rabs (g xs) <= B) ->
  forall k xs, box n xs -> Rabs (Nat.iter k after g xs - post g) <= 2 * B * rho ^ (k / n).
Proof.
  destruct rate_low as (delta & Hd0 & Hd).
  pose proof after_step as E. rewrite E.
  refine (step_converges lo hi Hlo n Hn rate (dens T L) (fun _ => / INR n) (/ INR n) _ _ (uniform_weights n Hn) ucont_rate rate_le delta Hd0 Hd _ _ _).
  - apply Rinv_0_lt_compat. now apply HN.
  - intros; lra.
  - eapply ucont_dens; eauto.
  - intros. apply exp_pos.
  - intros g Hg. rewrite <- E. exact (balance lo hi Hlo n sd T Hsd HT F phi HF Hphi L HL g Hn Hg).
Qed.
End Box.

(** * Sites of a tessellation *)
Section Sites.
Context (lo hi : R) (Hlo : lo < hi) (n : nat) (Hn : (0 < n)%nat) (sd T : R) (Hsd : 0 < sd) (HT : 0 < T).
Context (F phi : R -> R) (HF : normal_cdf F) (Hphi : forall z, derivable_pt_lim F z (phi z)).
Context (L : list R -> R) (HL : cont_on lo hi n L).
Notation box := (in_box lo hi).
Notation ucont := (cont_on lo hi).
Notation wq := (ProofSites.wq lo hi sd F phi).
Notation wafter := (ProofSites.wafter lo hi n sd T F phi L).
Notation wdens := (ProofSites.wdens lo hi sd T F L).
Definition wrate (i : nat) (xs : list R) (y : R) : R := wq (nth i xs 0) y * acc T L xs (set_nth xs i y).
Lemma ucont_wrate i : (i < n)%nat -> ucont (S n) (fun l => wrate i (tl l) (hd 0 l)).
Proof. intros Hi. unfold wrate. apply ucont_mult; auto; [eapply ProofSites.ucont_wq; eauto|eapply ucont_acc; eauto]. Qed.
Lemma wq_ge x y : q sd phi x y <= wq x y.
Proof.
  unfold ProofSites.wq. pose proof (ProofSites.hit_pos lo hi Hlo sd Hsd F HF x) as Hp.
  pose proof (ProofLine.hop_pos sd Hsd F phi HF Hphi x y) as Hq.
  assert (H1 : hit F lo hi sd x <= 1). { unfold hit. pose proof (nc_range F HF ((hi - x) / sd)). pose proof (nc_range F HF ((lo - x) / sd)). lra. }
  replace (q sd phi x y) with (q sd phi x y * hit F lo hi sd x / hit F lo hi sd x) at 1 by (field; lra).
  unfold Rdiv. apply Rmult_le_compat_r; [apply Rlt_le; now apply Rinv_0_lt_compat|]. nra.
Qed.
Lemma wrate_le i xs : (i < n)%nat -> box n xs -> RInt (wrate i xs) lo hi <= 1.
Proof.
  intros Hi Hx. pose proof (ProofSites.wq_mass lo hi Hlo sd Hsd F phi HF Hphi (nth i xs 0)) as M.
  apply Rle_trans with (RInt (wq (nth i xs 0)) lo hi); [|rewrite (is_RInt_unique _ _ _ _ M); lra].
  apply RInt_le; [lra| |eexists; exact M|].
  - apply (uc1_ex lo hi Hlo n (fun l => wrate i (tl l) (hd 0 l))); auto. now apply ucont_wrate.
  - intros y _. unfold wrate. pose proof (acc_range T L xs (set_nth xs i y)).
    pose proof (ProofLine.hop_pos sd Hsd F phi HF Hphi (nth i xs 0) y). pose proof (wq_ge (nth i xs 0) y). nra.
Qed.
Lemma wrate_low : exists delta, 0 < delta /\ forall i xs y, (i < n)%nat -> box n xs -> lo <= y <= hi -> delta <= wrate i xs y.
Proof.
  destruct (rate_low lo hi Hlo n sd T Hsd HT F phi HF Hphi L HL) as (delta & Hd0 & Hd). exists delta. split; auto.
  intros i xs y Hi Hx Hy. eapply Rle_trans; [apply (Hd i xs y); auto|]. unfold rate, wrate.
  apply Rmult_le_compat_r; [pose proof (acc_range T L xs (set_nth xs i y)); lra|apply wq_ge].
Qed.
Definition wmass : R := total lo hi n wdens.
Definition wpost (g : list R -> R) : R := expect lo hi n wdens g.
Lemma wdens_pos xs : 0 < wdens xs.
Proof. unfold ProofSites.wdens. apply Rmult_lt_0_compat; [apply exp_pos|eapply ProofSites.stay_pos; eauto]. Qed.
Lemma ucont_wd : ucont n wdens.
Proof. exact (ProofSites.ucont_wdens lo hi Hlo n sd T Hsd F phi Hphi L HL). Qed.
Lemma wmass_pos : 0 < wmass.
Proof. apply total_pos; auto; [apply ucont_wd|intros; apply wdens_pos]. Qed.
Lemma sites_converge : exists rho, 0 <= rho < 1 /\ forall g B, ucont n g -> (forall xs, box n xs -> Rabs (g xs) <= B) ->
  forall k xs, box n xs -> Rabs (Nat.iter k wafter g xs - wpost g) <= 2 * B * rho ^ (k / n).
Proof.
  destruct wrate_low as (delta & Hd0 & Hd).
  assert (E : wafter = step lo hi n wrate (fun _ => / INR n)).
  { extensionality g. extensionality xs. exact (uniform_step n (fun i => ProofSites.wafter_i lo hi sd T F phi L g i xs)). }
  rewrite E.
  refine (step_converges lo hi Hlo n Hn wrate wdens (fun _ => / INR n) (/ INR n) _ _ (uniform_weights n Hn) ucont_wrate wrate_le delta Hd0 Hd _ _ _).
  - apply Rinv_0_lt_compat. now apply HN.
  - intros; lra.
  - apply ucont_wd.
  - intros. apply wdens_pos.
  - intros g Hg. rewrite <- E. exact (ProofSites.wbalance lo hi Hlo n sd T Hsd HT F phi HF Hphi L HL g Hn Hg).
Qed.
End Sites.

(** * Values and a noise level *)
Section Level.
Context (lo hi : R) (Hlo : lo < hi) (n : nat) (Hn : (0 < n)%nat) (sd T : R) (Hsd : 0 < sd) (HT : 0 < T).
Context (a b tau : R) (Hab : a < b) (Htau : 0 < tau) (p : R) (Hp : 0 < p < 1).
Context (F phi : R -> R) (HF : normal_cdf F) (Hphi : forall z, derivable_pt_lim F z (phi z)).
Context (Lj : R -> list R -> R) (HLj : SpecHier.joint_cont a b lo hi n Lj).
Notation box := (in_box lo hi).
Notation ucont := (cont_on lo hi).
Notation L' := (ProofHier.lifted lo hi a b Lj).
Notation tau' := (ProofHier.tau' lo hi a b tau).
Notation jafter := (ProofHier.jafter lo hi n sd T a b tau p F phi Lj).
Notation jdens := (ProofHier.jdens lo hi T a b tau F Lj).
Lemma HLl : ucont (S n) L'.
Proof. now apply ProofHier.HL'. Qed.
Lemma Ht' : 0 < tau'.
Proof. now apply ProofHier.tau'_pos. Qed.
Definition jrate (i : nat) (xs : list R) (y : R) : R :=
  match i with O => wrate lo hi tau' T F phi L' 0 xs y | S _ => rate sd T phi L' i xs y end.
Definition jwt (i : nat) : R := match i with O => 1 - p | S _ => p / INR n end.
Lemma jwt_sum : rsum (map jwt (seq 0 (S n))) = 1.
Proof.
  pose proof (HN n Hn). change (1 - p + rsum (map jwt (seq 1 n)) = 1). rewrite <- seq_shift, map_map. cbn [jwt].
  rewrite rsum_const, seq_length. field. lra.
Qed.
Lemma jafter_step : jafter = step lo hi (S n) jrate jwt.
Proof.
  extensionality G. extensionality l. unfold step. cbn [seq map]. rewrite <- seq_shift, map_map.
  change (jafter G l = jwt 0 * move lo hi jrate G 0 l + rsum (map (fun i => p / INR n * ProofInvariance.after_i lo hi sd T phi L' G (S i) l) (seq 0 n))).
  rewrite <- rsum_mult. unfold ProofHier.jafter, ProofHier.value_part.
  change (ProofHier.noise_part lo hi T a b tau F phi Lj G l) with (move lo hi jrate G 0 l). unfold jwt, Rdiv. ring.
Qed.
Lemma jdens_pos xs : 0 < jdens xs.
Proof. unfold ProofHier.jdens. apply Rmult_lt_0_compat; [apply exp_pos|]. eapply ProofSites.hit_pos; eauto. apply Ht'. Qed.
Lemma ucont_jd : ucont (S n) jdens.
Proof. eapply ProofHier.ucont_jdens; eauto. Qed.
Definition jmass : R := total lo hi (S n) jdens.
Definition jpost (g : list R -> R) : R := expect lo hi (S n) jdens g.
Lemma jmass_pos : 0 < jmass.
Proof. apply total_pos; auto; [apply ucont_jd|intros; apply jdens_pos]. Qed.
Lemma level_converges : exists rho, 0 <= rho < 1 /\ forall g B, ucont (S n) g -> (forall xs, box (S n) xs -> Rabs (g xs) <= B) ->
  forall k xs, box (S n) xs -> Rabs (Nat.iter k jafter g xs - jpost g) <= 2 * B * rho ^ (k / S n).
Proof.
  pose proof HLl as HL. pose proof Ht' as Ht. pose proof (HN n Hn) as HN.
  destruct (wrate_low lo hi Hlo (S n) tau' T Ht HT F phi HF Hphi L' HL) as (d1 & H1 & D1).
  destruct (rate_low lo hi Hlo (S n) sd T Hsd HT F phi HF Hphi L' HL) as (d2 & H2 & D2).
  assert (Hpn : 0 < p / INR n) by (apply Rdiv_lt_0_compat; lra).
  rewrite jafter_step.
  refine (step_converges lo hi Hlo (S n) (Nat.lt_0_succ n) jrate jdens jwt (Rmin (1 - p) (p / INR n)) _ _ jwt_sum _ _ (Rmin d1 d2) _ _ _ _ _).
  - apply Rmin_pos; lra.
  - intros [|i] _; [apply Rmin_l|apply Rmin_r].
  - intros [|i] Hi; [|now apply ucont_rate with (F := F)].
    exact (ucont_wrate lo hi Hlo (S n) tau' T Ht F phi HF Hphi L' HL 0 Hi).
  - intros [|i] xs Hi Hx.
    + exact (wrate_le lo hi Hlo (S n) tau' T Ht F phi HF Hphi L' HL 0 xs Hi Hx).
    + exact (rate_le lo hi Hlo (S n) sd T Hsd F phi HF Hphi L' HL (S i) xs Hi Hx).
  - now apply Rmin_pos.
  - intros [|i] xs y Hi Hx Hy; [eapply Rle_trans; [apply Rmin_l|now apply D1]|eapply Rle_trans; [apply Rmin_r|now apply D2]].
  - apply ucont_jd.
  - intros. apply jdens_pos.
  - intros g Hg. rewrite <- jafter_step. eapply ProofHier.jbalance; eauto.
Qed.
End Level.
