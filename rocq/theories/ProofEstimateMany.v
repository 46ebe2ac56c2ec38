(** Estimates for several numbers with ranges of their own. *)
From Coq Require Import FunctionalExtensionality.
From Coquelicot Require Import Coquelicot.
From Verif Require Import Base SpecWalk SpecInvariance SpecMany SpecEstimate ProofFubini ProofBox ProofInvariance ProofConverge ProofMany ProofRanges ProofEstimate.
Local Open Scope R_scope.

Lemma together_plus lo hi (Hlo : lo < hi) T F phi (HF : normal_cdf F) (Hphi : forall z, derivable_pt_lim F z (phi z)) ss (Hss : Forall (fun s => 0 < s) ss)
    L (HL : cont_on lo hi (length ss) L) f g xs : cont_on lo hi (length ss) f -> cont_on lo hi (length ss) g -> in_box lo hi (length ss) xs ->
  together lo hi T phi ss L (fun x => f x + g x) xs = together lo hi T phi ss L f xs + together lo hi T phi ss L g xs.
Proof.
  intros Hf Hg Hx. unfold together.
  pose proof (ucont2_at lo hi (length ss) (length ss) _ xs (flow2 lo hi Hlo T F phi HF Hphi ss Hss L HL f Hf) Hx) as Cf.
  pose proof (ucont2_at lo hi (length ss) (length ss) _ xs (flow2 lo hi Hlo T F phi HF Hphi ss Hss L HL g Hg) Hx) as Cg.
  rewrite (box_int_ext lo hi Hlo (length ss) (fun ys => kern T phi ss L xs ys * (f ys + g ys - (f xs + g xs)))
    (fun ys => kern T phi ss L xs ys * (f ys - f xs) + kern T phi ss L xs ys * (g ys - g xs))) by (intros; ring).
  rewrite (box_int_plus lo hi Hlo (length ss) _ _ Cf Cg). ring.
Qed.

Section Ranges.
Context (rs : list (R * R)) (Hrs : proper rs) (sds : list R) (Hlen : length sds = length rs) (Hsds : Forall (fun s => 0 < s) sds).
Context (T : R) (HT : 0 < T).
Context (F phi : R -> R) (HF : normal_cdf F) (Hphi : forall z, derivable_pt_lim F z (phi z)).
Context (L : list R -> R) (HL : cont_ranges rs L).
Notation d := (length rs).
Notation ss := (unit_sds rs sds).
Notation L1 := (fun us => L (scale rs us)).
Notation P1 := (together 0 1 T phi ss L1).
Lemma cont_from f : cont_on 0 1 d (fun us => f (scale rs us)) -> cont_ranges rs f.
Proof.
  intros H eps He. destruct (cont_unscale rs _ Hrs H eps He) as (e & He' & H'). exists e. split; auto. intros xs ys Hx Hy Hn.
  specialize (H' xs ys Hx Hy Hn). cbn beta in H'. rewrite !scale_unscale in H'; auto using ranges_length.
Qed.
Lemma cont_ranges_plus f g : cont_ranges rs f -> cont_ranges rs g -> cont_ranges rs (fun xs => f xs + g xs).
Proof. intros Hf Hg. apply cont_from. apply (ucont_plus 0 1 d (fun us => f (scale rs us))); now apply cont_scale. Qed.
Lemma cont_ranges_mult f g : cont_ranges rs f -> cont_ranges rs g -> cont_ranges rs (fun xs => f xs * g xs).
Proof. intros Hf Hg. apply cont_from. apply (ucont_mult 0 1 ltac:(lra) d (fun us => f (scale rs us))); now apply cont_scale. Qed.
Definition roams (g : list R -> R) (xs : list R) : R := P1 (fun us => g (scale rs us)) (unscale rs xs).
Lemma ss_length : length ss = d. Proof. exact (unit_length rs Hrs sds Hlen Hsds). Qed.
Lemma ss_pos : Forall (fun s => 0 < s) ss. Proof. exact (unit_pos rs Hrs sds Hlen Hsds). Qed.
Lemma like_cont : cont_on 0 1 (length ss) L1. Proof. rewrite ss_length. now apply cont_scale. Qed.
Lemma unit_averages : averages (in_box 0 1 d) (cont_on 0 1 d) P1.
Proof. pose proof (together_averages 0 1 ltac:(lra) T HT F phi HF Hphi ss ss_pos L1 like_cont) as H. now rewrite ss_length in H. Qed.
Lemma roams_averages : averages (in_ranges rs) (cont_ranges rs) roams.
Proof.
  split.
  - intros g Hg. apply cont_unscale; auto. apply (av_ok _ _ _ unit_averages). now apply cont_scale.
  - intros a b g Hg. apply cont_from. apply (av_aff_ok _ _ _ unit_averages a b (fun us => g (scale rs us))). now apply cont_scale.
  - intros a b g x Hg Hx. apply (av_aff _ _ _ unit_averages a b (fun us => g (scale rs us))); auto using cont_scale, unscale_in.
  - intros g x Hg Hp Hx. apply (av_pos _ _ _ unit_averages); auto using cont_scale, unscale_in. intros us Hu. apply Hp. now apply scale_in.
  - intros g h x E Hx. apply (av_ext _ _ _ unit_averages); auto using unscale_in. intros us Hu. apply E. now apply scale_in.
Qed.
Lemma roams_plus f g xs : cont_ranges rs f -> cont_ranges rs g -> in_ranges rs xs -> roams (fun x => f x + g x) xs = roams f xs + roams g xs.
Proof.
  intros Hf Hg Hx. unfold roams.
  apply (together_plus 0 1 ltac:(lra) T F phi HF Hphi ss ss_pos L1 like_cont (fun us => f (scale rs us)) (fun us => g (scale rs us))); rewrite ss_length; auto using cont_scale, unscale_in.
Qed.
Lemma roams_step g xs : cont_ranges rs g -> in_ranges rs xs -> mean_many phi d (fun zs u => g (roam rs sds T L xs zs u)) (roams g xs).
Proof.
  intros Hg Hx. pose proof (later_step rs Hrs sds Hlen Hsds T F phi HF Hphi L HL g 0 xs Hg Hx) as H.
  eapply mean_many_ext; [|exact H]. intros zs u Hz _. cbn beta. apply later_O; auto. apply roam_inside; auto.
Qed.
Lemma roams_later g k : cont_ranges rs g -> forall xs, in_ranges rs xs -> Nat.iter k roams g xs = later rs sds T phi L g k xs.
Proof.
  intros Hg. induction k as [|k IH]; intros xs Hx; [symmetry; now apply later_O|].
  change (roams (Nat.iter k roams g) xs = P1 (Nat.iter k P1 (fun us => g (scale rs us))) (unscale rs xs)). unfold roams at 1.
  apply (av_ext _ _ _ unit_averages); auto using unscale_in. intros us Hu. rewrite IH by now apply scale_in. unfold later.
  rewrite unscale_scale; auto. apply Hu.
Qed.
Definition one (k : list R * R -> R) (m : R) : Prop := mean_many phi d (fun zs u => k (zs, u)) m.
Definition draws (z : list R * R) : Prop := length (fst z) = d /\ 0 < snd z < 1.
Lemma roams_estimate : exists C, 0 <= C /\ forall g B, cont_ranges rs g -> (forall xs, in_ranges rs xs -> Rabs (g xs) <= B) ->
  forall burnin every n xs, in_ranges rs xs -> (0 < every)%nat -> (0 < (n - burnin) / every)%nat ->
  exists m, mean_rounds one draws n (fun ds => (average (map g (scheduled burnin every 0 (visited (fun x z => roam rs sds T L x (fst z) (snd z)) xs ds))) - level rs T L g / norm rs T L) ^ 2) m /\
    m <= C * (B * B) / INR ((n - burnin) / every).
Proof.
  destruct (later_converges rs Hrs sds Hlen Hsds T HT F phi HF Hphi L HL) as (rho & Hrho & H).
  exists (4 * (1 + 2 * (1 / (1 - rho)))). split.
  { assert (0 < 1 / (1 - rho)) by (apply Rdiv_lt_0_compat; lra). lra. }
  intros g B Hg HB burnin every n xs Hx He HN.
  destruct (estimate (in_ranges rs) (cont_ranges rs) roams roams_averages cont_ranges_plus cont_ranges_mult roams_plus
    (fun x z => roam rs sds T L x (fst z) (snd z)) (fun _ => one) (fun _ => draws)) with (q := fun k => rho ^ k) (Q := 1 / (1 - rho)) (g := g) (B := B)
    (mu := level rs T L g / norm rs T L) (burnin := burnin) (every := every) (n := n) (x := xs) as (m & Hm & Hle); auto.
  - intros h x Hh Hxx. unfold one. cbn [fst snd]. now apply roams_step.
  - intros x z Hxx [Hz _]. now apply roam_inside.
  - intros m. now apply geometric_sum.
  - intros k y Hy. rewrite roams_later by auto. now apply H.
  - intros y Hy. pose proof (H g B Hg HB O y Hy) as H0. rewrite later_O in H0 by auto. cbn [pow] in H0. now rewrite Rmult_1_r in H0.
  - exists m. split; auto. eapply path_rounds; exact Hm.
Qed.
End Ranges.
