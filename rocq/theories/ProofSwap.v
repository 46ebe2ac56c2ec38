(** Exchanges of two tempered points: when they leave the product of the tempered densities invariant. *)
From Coquelicot Require Import Coquelicot.
From Verif Require Import Base SpecInvariance SpecSwap SpecSampler ProofFubini ProofBox ProofInvariance ProofConverge ProofMany.
From Verif Require ProofSites.
Local Open Scope R_scope.

Section Swap.
Context (lo hi : R) (Hlo : lo < hi) (n : nat).
Notation box := (in_box lo hi).
Notation bint := (box_int lo hi).
Notation ucont2 := (ucont2 lo hi n n).

Lemma pair2 f : cont_pair lo hi n f <-> ucont2 f.
Proof.
  split; intros H eps He; destruct (H eps He) as (d & Hd & Hc); exists d; (split; [exact Hd|]).
  - intros l l' Hl Hl' Hn. apply Hc; eauto using (box_firstn lo hi n n), (box_skipn lo hi n n), near_firstn, near_skipn.
  - intros xs ys xs' ys' Hx Hy Hx' Hy' Nx Ny.
    pose proof (Hc (xs ++ ys) (xs' ++ ys') (boxes_app _ _ _ _ _ _ Hx Hy) (boxes_app _ _ _ _ _ _ Hx' Hy') (near_app _ _ _ _ _ Nx Ny)) as A.
    destruct (split_app n xs ys (proj1 Hx)) as [E1 E2], (split_app n xs' ys' (proj1 Hx')) as [E3 E4]. now rewrite E1, E2, E3, E4 in A.
Qed.
Lemma both2 f : ucont2 f -> ucont2 (fun xs ys => f ys xs).
Proof. rewrite <- !pair2. intros H eps He. destruct (H eps He) as (d & Hd & Hc). exists d. split; auto. Qed.
Lemma plus2 f g : ucont2 f -> ucont2 g -> ucont2 (fun xs ys => f xs ys + g xs ys).
Proof. apply ucont_plus. Qed.
Lemma mult2 f g : ucont2 f -> ucont2 g -> ucont2 (fun xs ys => f xs ys * g xs ys).
Proof. exact (ucont_mult lo hi Hlo (n + n) (fun l => f (firstn n l) (skipn n l)) (fun l => g (firstn n l) (skipn n l))). Qed.
Lemma scal2 c f : ucont2 f -> ucont2 (fun xs ys => c * f xs ys).
Proof. exact (ucont_scal lo hi Hlo (n + n) c (fun l => f (firstn n l) (skipn n l))). Qed.
Lemma minus2 f g : ucont2 f -> ucont2 g -> ucont2 (fun xs ys => f xs ys - g xs ys).
Proof. exact (ucont_minus lo hi Hlo (n + n) (fun l => f (firstn n l) (skipn n l)) (fun l => g (firstn n l) (skipn n l))). Qed.
Lemma exp2 f : ucont2 f -> ucont2 (fun xs ys => exp (f xs ys)).
Proof. apply (ucont_comp lo hi Hlo (n + n) exp). intros. apply derivable_continuous_pt, derivable_pt_exp. Qed.
Lemma fst2 f : cont_on lo hi n f -> ucont2 (fun xs _ => f xs).
Proof. apply ucont_firstn. Qed.
Lemma snd2 f : cont_on lo hi n f -> ucont2 (fun _ ys => f ys).
Proof. apply ucont_skipn. Qed.
Lemma min2 c f : ucont2 f -> ucont2 (fun xs ys => Rmin c (f xs ys)).
Proof. intros H. apply (ucont_min lo hi Hlo (n + n) (fun _ => c)); [apply ucont_const|exact H]. Qed.

(** The integral over pairs. *)
Definition pint (f : list R -> list R -> R) : R := bint n (fun xs => bint n (fun ys => f xs ys)).
Lemma pint_is f : ucont2 f -> pair_integral lo hi n f (pint f).
Proof.
  intros H. exists (fun xs => bint n (f xs)). split.
  - intros xs Hx. apply box_int_is; auto. now apply (ucont2_at lo hi n n).
  - apply box_int_is; auto. now apply (ucont2_int lo hi Hlo n n).
Qed.
Lemma pint_ext f g : (forall xs ys, box n xs -> box n ys -> f xs ys = g xs ys) -> pint f = pint g.
Proof. intros H. apply box_int_ext; auto. intros xs Hx. apply box_int_ext; auto. Qed.
Lemma pint_plus f g : ucont2 f -> ucont2 g -> pint (fun xs ys => f xs ys + g xs ys) = pint f + pint g.
Proof.
  intros Hf Hg. unfold pint. rewrite <- (box_int_plus lo hi Hlo n); try now apply (ucont2_int lo hi Hlo n n).
  apply box_int_ext; auto. intros xs Hx. apply (box_int_plus lo hi Hlo n); now apply (ucont2_at lo hi n n).
Qed.
Lemma pint_scal c f : ucont2 f -> pint (fun xs ys => c * f xs ys) = c * pint f.
Proof.
  intros Hf. unfold pint. rewrite <- (box_int_scal lo hi Hlo n); try now apply (ucont2_int lo hi Hlo n n).
  apply box_int_ext; auto. intros xs Hx. apply (box_int_scal lo hi Hlo n); now apply (ucont2_at lo hi n n).
Qed.
Lemma pint_swap f : ucont2 f -> pint f = pint (fun xs ys => f ys xs).
Proof. intros Hf. exact (ucont2_swap lo hi Hlo n n f Hf). Qed.

(** The rule of the code: the first point at temperature [T1], the second at [T2]. *)
Context (L : list R -> R) (HL : cont_on lo hi n L).
Definition prob (T1 T2 : R) (xs ys : list R) : R := Rmin 1 (exp ((1 / T1 - 1 / T2) * ((L ys - L xs) / T1))).
Definition weight (T1 T2 : R) (xs ys : list R) : R := exp (L xs / T1) * exp (L ys / T2).
Lemma prob_range T1 T2 xs ys : 0 < prob T1 T2 xs ys <= 1.
Proof. unfold prob. pose proof (exp_pos ((1 / T1 - 1 / T2) * ((L ys - L xs) / T1))). split; [apply Rmin_glb_lt; lra|apply Rmin_l]. Qed.
Lemma prob2 T1 T2 : ucont2 (prob T1 T2).
Proof.
  unfold prob. apply min2, (exp2 (fun xs ys => (1 / T1 - 1 / T2) * ((L ys - L xs) / T1))).
  apply (scal2 _ (fun xs ys => (L ys - L xs) / T1)). unfold Rdiv.
  eapply ucont_ext; [|apply (scal2 (/ T1) (fun xs ys => L ys - L xs)), (minus2 (fun _ ys => L ys) (fun xs _ => L xs)); [now apply snd2|now apply fst2]].
  intros; cbn beta; ring.
Qed.
Lemma over2 T : cont_on lo hi n (fun xs => L xs / T).
Proof. apply (ucont_ext lo hi n (fun xs => / T * L xs)); [intros; unfold Rdiv; ring|now apply ucont_scal]. Qed.
Lemma weight2 T1 T2 : ucont2 (weight T1 T2).
Proof.
  unfold weight. apply (mult2 (fun xs _ => exp (L xs / T1)) (fun _ ys => exp (L ys / T2))).
  - apply (exp2 (fun xs _ => L xs / T1)). apply (fst2 (fun xs => L xs / T1)), over2.
  - apply (exp2 (fun _ ys => L ys / T2)). apply (snd2 (fun ys => L ys / T2)), over2.
Qed.
Definition after_mean (T1 T2 : R) (G : list R -> list R -> R) (xs ys : list R) : R :=
  G xs ys + prob T1 T2 xs ys * (G ys xs - G xs ys).
(** The mean over the uniform number. *)
Lemma mean_unit_swap T1 T2 xs ys a b : mean_unit (fun u => if Rlt_dec (ln u) ((1 / T1 - 1 / T2) * ((L ys - L xs) / T1)) then a else b)
  (b + prob T1 T2 xs ys * (a - b)).
Proof.
  unfold mean_unit. pose proof (prob_range T1 T2 xs ys) as Hp. 
  assert (HE : forall u, 0 < u < 1 -> (ln u < (1 / T1 - 1 / T2) * ((L ys - L xs) / T1) <-> u < prob T1 T2 xs ys)).
  { intros u Hu. unfold prob. split; intros H.
    - apply Rmin_glb_lt; [lra|]. rewrite <- (exp_ln u) by lra. now apply exp_increasing.
    - apply exp_lt_inv. rewrite exp_ln by lra. eapply Rlt_le_trans; [exact H|apply Rmin_r]. }
  set (p := prob T1 T2 xs ys) in *.
  replace (b + p * (a - b)) with (plus ((p - 0) * a) ((1 - p) * b)) by (unfold plus; cbn; ring).
  apply (is_RInt_Chasles (V := R_NormedModule)) with p.
  - apply (is_RInt_ext (fun _ => a)); [|apply const_int]. intros u Hu. rewrite Rmin_left, Rmax_right in Hu by lra.
    destruct (Rlt_dec _ _) as [|Hn]; auto. exfalso. apply Hn. apply HE; lra.
  - apply (is_RInt_ext (fun _ => b)); [|apply const_int]. intros u Hu. rewrite Rmin_left, Rmax_right in Hu by lra.
    destruct (Rlt_dec _ _) as [Hn|]; auto. apply HE in Hn; lra.
Qed.
Lemma after2 T1 T2 G : ucont2 G -> ucont2 (after_mean T1 T2 G).
Proof.
  intros HG. apply plus2; auto. apply (mult2 (prob T1 T2) (fun xs ys => G ys xs - G xs ys)); [apply prob2|].
  apply (minus2 (fun xs ys => G ys xs) G); auto. now apply both2.
Qed.
(** Flow between a pair and the exchanged pair. *)
Definition flow (T1 T2 : R) (G : list R -> list R -> R) (xs ys : list R) : R := weight T1 T2 xs ys * prob T1 T2 xs ys * (G ys xs - G xs ys).
Lemma flow_cont T1 T2 G : ucont2 G -> ucont2 (flow T1 T2 G).
Proof.
  intros HG. apply (mult2 (fun xs ys => weight T1 T2 xs ys * prob T1 T2 xs ys) (fun xs ys => G ys xs - G xs ys)).
  - apply mult2; [apply weight2|apply prob2].
  - apply (minus2 (fun xs ys => G ys xs) G); auto. now apply both2.
Qed.
Lemma after_flow T1 T2 G : ucont2 G ->
  pint (fun xs ys => weight T1 T2 xs ys * after_mean T1 T2 G xs ys) = pint (fun xs ys => weight T1 T2 xs ys * G xs ys) + pint (flow T1 T2 G).
Proof.
  intros HG. rewrite <- pint_plus.
  - apply pint_ext. intros. unfold after_mean, flow. ring.
  - apply mult2; auto. apply weight2.
  - now apply flow_cont.
Qed.
(** Half the flow both ways. *)
Lemma flow_half T1 T2 G : ucont2 G -> pint (flow T1 T2 G) =
  / 2 * pint (fun xs ys => (weight T1 T2 xs ys * prob T1 T2 xs ys - weight T1 T2 ys xs * prob T1 T2 ys xs) * (G ys xs - G xs ys)).
Proof.
  intros HG. pose proof (flow_cont T1 T2 G HG) as C.
  assert (E : pint (fun xs ys => (weight T1 T2 xs ys * prob T1 T2 xs ys - weight T1 T2 ys xs * prob T1 T2 ys xs) * (G ys xs - G xs ys)) =
    pint (flow T1 T2 G) + pint (fun xs ys => flow T1 T2 G ys xs)).
  { rewrite <- pint_plus; auto using both2. apply pint_ext. intros. unfold flow. ring. }
  rewrite E, <- (pint_swap (flow T1 T2 G) C). lra.
Qed.
Lemma balanced_swap T1 T2 G : 0 < T1 -> 0 < T2 -> T1 = 1 \/ T1 = T2 -> ucont2 G -> pint (flow T1 T2 G) = 0.
Proof.
  intros H1 H2 HT HG. rewrite flow_half by auto.
  assert (B : forall xs ys, weight T1 T2 xs ys * prob T1 T2 xs ys = weight T1 T2 ys xs * prob T1 T2 ys xs).
  { intros xs ys. unfold weight, prob.
    assert (Hmin : forall y, Rmin 1 (exp y) = exp (Rmin 0 y)).
    { intros y. unfold Rmin. destruct (Rle_dec 1 (exp y)) as [A|A], (Rle_dec 0 y) as [A'|A']; rewrite ?exp_0; auto.
      - exfalso. assert (exp y < exp 0) by (apply exp_increasing; lra). rewrite exp_0 in H. lra.
      - exfalso. assert (exp 0 <= exp y) by (destruct A' as [A'| <-]; [left; now apply exp_increasing|right; auto]). rewrite exp_0 in H. lra. }
    rewrite !Hmin, <- !exp_plus. f_equal.
    destruct HT as [->| ->].
    - set (x := (1 / 1 - 1 / T2) * ((L ys - L xs) / 1)). replace ((1 / 1 - 1 / T2) * ((L xs - L ys) / 1)) with (- x) by (unfold x; field; lra).
      replace (L ys / 1 + L xs / T2) with (L xs / 1 + L ys / T2 + x) by (unfold x; field; lra).
      unfold Rmin. destruct (Rle_dec 0 x), (Rle_dec 0 (- x)); lra.
    - replace (1 / T2 - 1 / T2) with 0 by lra. rewrite !Rmult_0_l. lra. }
  rewrite (pint_ext _ (fun _ _ => 0 * 0)).
  - rewrite (pint_scal 0 (fun _ _ => 0)); [lra|exact (ucont_const lo hi (n + n) 0)].
  - intros xs ys _ _. rewrite (B xs ys). ring.
Qed.
End Swap.

(** * A case without balance *)
(** Log likelihood -x on the unit interval; the first point at temperature 2, the second at 1: the mean of the
    second point grows. *)
Definition slope (xs : list R) : R := - nth 0 xs 0.
Lemma slope_cont : cont_on 0 1 1 slope.
Proof. apply (ucont_ext 0 1 1 (fun xs => (-1) * nth 0 xs 0)); [intros; unfold slope; lra|]. apply ucont_scal; [lra|apply ucont_nth]. Qed.
Lemma warm_first s : 0 < pint 0 1 1 (flow slope 2 1 (fun _ ys => s + nth 0 ys 0)).
Proof.
  assert (H01 : 0 < 1) by lra.
  assert (CG : ucont2 0 1 1 1 (fun _ ys => s + nth 0 ys 0)).
  { apply (snd2 0 1 1 (fun ys => s + nth 0 ys 0)). apply ucont_plus; [apply ucont_const|apply ucont_nth]. }
  rewrite (flow_half 0 1 H01 1 slope slope_cont 2 1 _ CG). apply Rmult_lt_0_compat; [lra|].
  set (D := fun xs ys : list R => (weight slope 2 1 xs ys * prob slope 2 1 xs ys - weight slope 2 1 ys xs * prob slope 2 1 ys xs) *
     (s + nth 0 xs 0 - (s + nth 0 ys 0))).
  assert (CD : ucont2 0 1 1 1 D).
  { apply (mult2 0 1 H01 1 (fun xs ys => weight slope 2 1 xs ys * prob slope 2 1 xs ys - weight slope 2 1 ys xs * prob slope 2 1 ys xs) (fun xs ys => s + nth 0 xs 0 - (s + nth 0 ys 0))).
    - apply (minus2 0 1 H01 1 (fun xs ys => weight slope 2 1 xs ys * prob slope 2 1 xs ys) (fun xs ys => weight slope 2 1 ys xs * prob slope 2 1 ys xs)).
      + apply mult2; auto; [apply weight2|apply prob2]; auto using slope_cont.
      + apply (both2 0 1 1 (fun xs ys => weight slope 2 1 xs ys * prob slope 2 1 xs ys)). apply mult2; auto; [apply weight2|apply prob2]; auto using slope_cont.
    - apply (minus2 0 1 H01 1 (fun xs _ => s + nth 0 xs 0) (fun _ ys => s + nth 0 ys 0)); auto. now apply (both2 0 1 1 (fun _ ys => s + nth 0 ys 0)). }
  assert (Hmin : forall y, y <= 0 -> Rmin 1 (exp y) = exp y).
  { intros y Hy. apply Rmin_right. rewrite <- exp_0. destruct Hy as [Hy| ->]; [left; now apply exp_increasing|right; auto]. }
  assert (Hmin' : forall y, 0 <= y -> Rmin 1 (exp y) = 1).
  { intros y Hy. apply Rmin_left. rewrite <- exp_0. destruct Hy as [Hy| <-]; [left; now apply exp_increasing|right; auto]. }
  assert (P : forall x y, y < x -> 0 < D [x] [y]).
  { intros x y Hxy. unfold D, weight, prob, slope. cbn [nth]. apply Rmult_lt_0_compat; [|lra].
    rewrite (Hmin ((1 / 2 - 1 / 1) * ((- y - - x) / 2))) by lra. rewrite (Hmin' ((1 / 2 - 1 / 1) * ((- x - - y) / 2))) by lra.
    rewrite Rmult_1_r, <- !exp_plus. apply Rlt_Rminus, exp_increasing. lra. }
  assert (S : forall x y, D [x] [y] = D [y] [x]) by (intros; unfold D; cbn [nth]; ring).
  assert (P' : forall x y, y <> x -> 0 < D [x] [y]).
  { intros x y Hn. destruct (Rlt_le_dec y x); [now apply P|]. rewrite S. apply P. lra. }
  unfold pint. apply (box_int_pos 0 1 H01 1).
  - exact (ucont2_int 0 1 H01 1 1 D CD).
  - intros xs Hx. destruct xs as [|x [|? ?]]; try (now destruct Hx). cbn [box_int].
    assert (Z : forall y, 0 <= D [x] [y]).
    { intros y. destruct (Req_dec y x) as [->|Hn]; [unfold D; right; ring|left; now apply P']. }
    assert (Hy : exists y, 0 <= y <= 1 /\ y <> x) by (destruct (Req_dec 0 x); [exists 1|exists 0]; lra). destruct Hy as (y & Hy & Hn).
    apply (ProofSites.positive_int 0 1 H01 (fun y => D [x] [y]) y); auto.
    apply (ucont_head 0 1 0 (fun ys => D [x] ys) []); [|split; auto; constructor]. exact (ucont2_at 0 1 1 1 D [x] CD Hx).
Qed.
