(** Properties C12, C13 of the priors. *)
From Verif Require Import Base ModelUtils1D ModelPrior SpecUtils1D SpecPrior ProofUtils1D
  ProofUtils1DB PropUtils1D ProofChain.
Local Open Scope R_scope.

(** * Hyper-parameters *)
Lemma linear_value_interp x y q v :
  x <> [] -> sortedR x -> length y = length x ->
  linear_value x y q v <-> interp_linear q x y = Ok v.
Proof.
  intros Hx Hs Hl. destruct (C45_interpolate_linear x y q Hx Hs Hl) as (w & Hw & H1 & H2 & H3).
  destruct (nth_error_lt x 0) as (a & Ha); [destruct x; [easy|cbn; lia]|].
  destruct (nth_error_lt x (length x - 1)) as (z & Hz); [destruct x; [easy|cbn; lia]|].
  split.
  - intros H. rewrite Hw. f_equal.
    destruct H as [(b & Hb & Hq & Hv)|[(b & z' & Hb & Hq & Hz' & Hzq & Hv)|H]].
    + specialize (H1 b Hb Hq). congruence.
    + specialize (H2 b z' Hb Hq Hz' Hzq). congruence.
    + destruct H as (i & c & d & u & t & z' & Hc & Hd & Hu & Ht & Hz' & Hqz & Hcd & Hv).
      destruct (H3 i c d u t z' Hc Hd Hu Ht Hz' Hqz Hcd) as [E _].
      rewrite E, Hv. unfold Rdiv. ring.
  - intros H. rewrite Hw in H. injection H as <-. unfold linear_value.
    destruct (Rle_or_lt q a) as [Hq|Hq]; [left; exists a; repeat split; eauto|].
    destruct (Rle_or_lt z q) as [Hzq|Hzq]; [right; left; exists a, z; repeat split; eauto|].
    right; right.
    (* find the bracket by induction *)
    assert (HB : forall n, (n < length x)%nat -> (exists b, nth_error x n = Some b /\ q <= b) ->
       exists i c d, nth_error x i = Some c /\ nth_error x (S i) = Some d /\ c < q <= d).
    { induction n as [|n IH]; intros Hn (b & Hb & Hqb).
      - rewrite Ha in Hb. injection Hb as <-. lra.
      - destruct (nth_error_lt x n) as (c & Hc); [lia|].
        destruct (Rlt_or_le c q) as [Hcq|Hcq].
        + exists n, c, b. auto.
        + apply IH; [lia|]. exists c. auto. }
    destruct (HB (length x - 1)%nat) as (i & c & d & Hc & Hd & Hcd).
    { destruct x; [easy|cbn; lia]. }
    { exists z. split; auto. lra. }
    destruct (nth_error_lt y i) as (u & Hu).
    { rewrite Hl. eapply nth_error_some_lt; eauto. }
    destruct (nth_error_lt y (S i)) as (t & Ht).
    { rewrite Hl. eapply nth_error_some_lt; eauto. }
    exists i, c, d, u, t, z. repeat (split; [assumption|]).
    destruct (H3 i c d u t z Hc Hd Hu Ht Hz Hzq Hcd) as [E _]. rewrite E. unfold Rdiv. ring.
Qed.

(** The value used for a hyper-parameter is the one it has at the position: a constant, the
    piecewise-linear interpolation of the given nodes, or the value of the interpolator. *)
Theorem C12_hyper_parameters h at_ r : hyper_ok h ->
  (hyper_is h at_ r <-> get_hyper h at_ = Ok r).
Proof.
  intros Hok. destruct h as [c|x y|f]; cbn [hyper_is get_hyper].
  - split; [now intros ->|now intros [= ->]].
  - destruct Hok as (Hx & Hs & Hl).
    destruct at_ as [[q|v]|].
    + rewrite <- linear_value_interp by assumption. split.
      * intros (q' & [= <-] & H). exact H.
      * intros H. exists q. auto.
    + split; [intros (q' & [=] & _)|discriminate].
    + split; [intros (q' & [=] & _)|discriminate].
  - destruct at_ as [[q|v]|].
    + split; [intros (q' & [=] & _)|discriminate].
    + destruct (f v) eqn:E.
      * split; [intros (v' & [= <-] & H); congruence|]. intros [= <-]. exists v. auto.
      * split; [intros (v' & [= <-] & H); congruence|discriminate].
    + split; [intros (q' & [=] & _)|discriminate].
Qed.
Lemma hyper_get h at_ r : hyper_ok h -> hyper_is h at_ r -> get_hyper h at_ = Ok r.
Proof. intros H. apply C12_hyper_parameters. exact H. Qed.

(** * Log densities *)
Lemma ln_gauss mu sd v : 0 < sd ->
  ln (gauss_pdf mu sd v) =
  - (1/2) * ln (2 * PI) - ln sd - (1/2) * ((v - mu) / sd) ^ 2.
Proof.
  intros Hs. assert (HP : 0 < 2 * PI) by (pose proof PI_RGT_0; lra).
  assert (Hsq : 0 < sqrt (2 * PI)) by now apply sqrt_lt_R0.
  unfold gauss_pdf, Rdiv. rewrite ln_mult; [|apply exp_pos|].
  2:{ apply Rinv_0_lt_compat. apply Rmult_lt_0_compat; assumption. }
  rewrite ln_exp, ln_Rinv by (apply Rmult_lt_0_compat; assumption).
  rewrite ln_mult by assumption.
  assert (E : ln (2 * PI) = ln (sqrt (2 * PI)) + ln (sqrt (2 * PI))).
  { rewrite <- ln_mult by assumption. f_equal. symmetry. apply sqrt_sqrt. lra. }
  rewrite E. field. lra.
Qed.
Lemma gauss_pos mu sd v : 0 < sd -> 0 < gauss_pdf mu sd v.
Proof.
  intros Hs. assert (HP : 0 < 2 * PI) by (pose proof PI_RGT_0; lra).
  unfold gauss_pdf. apply Rmult_lt_0_compat; [apply exp_pos|].
  apply Rinv_0_lt_compat. apply Rmult_lt_0_compat; auto. now apply sqrt_lt_R0.
Qed.
Lemma ln_laplace mu b v : 0 < b ->
  ln (laplace_pdf mu b v) = - ln 2 - ln b - Rabs (v - mu) / b.
Proof.
  intros Hb. unfold laplace_pdf. unfold Rdiv at 1.
  rewrite ln_mult; [|apply exp_pos|apply Rinv_0_lt_compat; lra].
  rewrite ln_exp, ln_Rinv, ln_mult by lra. field. lra.
Qed.
Lemma laplace_pos mu b v : 0 < b -> 0 < laplace_pdf mu b v.
Proof.
  intros Hb. unfold laplace_pdf. apply Rmult_lt_0_compat; [apply exp_pos|].
  apply Rinv_0_lt_compat. lra.
Qed.

(** log_prior is the logarithm of the density. *)
Theorem C12_log_prior p v at_ f :
  dist_ok (p_dist p) -> has_density (p_dist p) at_ v f ->
  exists l, p_log_prior p v at_ = Ok l /\ log_density f l.
Proof.
  intros Hok H. unfold p_log_prior.
  destruct H as [a b lo hi E Ha Hb Hlh Hin|a b lo hi E Ha Hb Hlh Hin|m s mu sd E Hm Hs Hpos|m s mu sd E Hm Hs Hpos];
    rewrite E in *; cbn in Hok; destruct Hok as [Hoa Hob].
  - rewrite (hyper_get _ _ _ Hoa Ha), (hyper_get _ _ _ Hob Hb). cbn [rbind].
    destruct Hin as [H1 H2]. rewrite (proj2 (Rleb_true lo v)), (proj2 (Rleb_true v hi)) by lra.
    cbn [andb]. unfold py_log. rewrite (proj2 (Rltb_true 0 (hi - lo))) by lra. cbn [rbind].
    eexists. split; [reflexivity|]. right.
    split; [apply Rinv_0_lt_compat; lra|]. now rewrite ln_Rinv by lra.
  - rewrite (hyper_get _ _ _ Hoa Ha), (hyper_get _ _ _ Hob Hb). cbn [rbind].
    destruct (Rleb lo v && Rleb v hi)%bool eqn:B.
    + apply andb_true_iff in B. destruct B as [B1 B2].
      apply Rleb_true in B1. apply Rleb_true in B2. exfalso. apply Hin. split; assumption.
    + exists MInf. split; auto. left. auto.
  - rewrite (hyper_get _ _ _ Hoa Hm), (hyper_get _ _ _ Hob Hs). cbn [rbind].
    unfold py_div. rewrite (proj2 (Reqb_false sd 0)) by lra. cbn [rbind].
    unfold np_log. rewrite (proj2 (Rltb_true 0 sd)) by lra. cbn [esub eadd eneg].
    eexists. split; [reflexivity|]. right. split; [now apply gauss_pos|].
    rewrite ln_gauss by assumption. f_equal.
  - rewrite (hyper_get _ _ _ Hoa Hm), (hyper_get _ _ _ Hob Hs). cbn [rbind].
    unfold py_log. rewrite (proj2 (Rltb_true 0 2)), (proj2 (Rltb_true 0 sd)) by lra. cbn [rbind].
    unfold py_div. rewrite (proj2 (Reqb_false sd 0)) by lra. cbn [rbind].
    eexists. split; [reflexivity|]. right. split; [now apply laplace_pos|].
    now rewrite ln_laplace by assumption.
Qed.

(** * The perturbation of a value *)
Lemma normal_inv mu s tr d tr' :
  normal mu s tr = Ret d tr' -> exists z, tr = DZ z :: tr' /\ d = mu + z * s.
Proof.
  unfold normal. intros H. apply bind_ret_inv in H. destruct H as (z & t & H1 & H2).
  unfold drawZ in H1. destruct tr as [|[| |w| | |] tr]; try discriminate.
  injection H1 as -> ->. unfold ret in H2. injection H2 as <- ->. exists z. auto.
Qed.

(** For Uniform, Gaussian and Laplace priors, and any standard normal deviate [z], the
    perturbation of a value of positive density moves it by [z] standard deviations (those
    for births when so asked, at the position), and reports exactly the logarithm of the
    ratio of the densities: -inf when and only when the new value has left the support. *)
Theorem C12_value_ratio p v at_ (birth : bool) z tr sd f f' :
  dist_ok (p_dist p) ->
  get_hyper (if birth then p_stdb p else p_std p) at_ = Ok sd ->
  has_density (p_dist p) at_ v f -> 0 < f ->
  has_density (p_dist p) at_ (v + z * sd) f' ->
  exists r, p_perturb p v at_ birth (DZ z :: tr) = Ret (v + z * sd, r) tr /\
    log_density (f' / f) r /\ (r = MInf <-> f' = 0).
Proof.
  intros Hok Hsd H Hf H'.
  assert (HN : forall g, log_density g MInf -> g = 0).
  { intros g [[-> _]|[_ Hg]]; [auto|discriminate]. }
  assert (Hpos : 0 <= f').
  { destruct H' as [a b lo hi E Ha Hb Hlh Hin|a b lo hi E Ha Hb Hlh Hin|m s mu s' E Hm Hs Hp|m s mu s' E Hm Hs Hp].
    - left. apply Rinv_0_lt_compat. lra.
    - lra.
    - left. now apply gauss_pos.
    - left. now apply laplace_pos. }
  assert (HR : forall r, (exists l l', p_log_prior p v at_ = Ok l /\ log_density f l /\
       p_log_prior p (v + z * sd) at_ = Ok l' /\ log_density f' l' /\ r = esub l' l) ->
       log_density (f' / f) r /\ (r = MInf <-> f' = 0)).
  { intros r (l & l' & _ & Hl & _ & Hl' & ->).
    destruct Hl as [[? _]|[_ ->]]; [lra|].
    destruct Hl' as [[-> ->]|[Hf' ->]]; cbn [esub eadd eneg].
    - split; [left; split; [field; lra|auto]|easy].
    - split; [right; split|].
      + apply Rmult_lt_0_compat; [lra|]. apply Rinv_0_lt_compat. lra.
      + f_equal. unfold Rdiv. rewrite ln_mult, ln_Rinv by (try apply Rinv_0_lt_compat; lra). ring.
      + split; [discriminate|lra]. }
  destruct (C12_log_prior p v at_ f Hok H) as (l & El & Hl).
  destruct (C12_log_prior p (v + z * sd) at_ f' Hok H') as (l' & El' & Hl').
  assert (K : p_perturb p v at_ birth (DZ z :: tr) = Ret (v + z * sd, esub l' l) tr).
  { clear HR HN Hl Hl'. revert El El'. unfold p_log_prior, p_perturb, perturb_std_of.
    rewrite Hsd. cbn [lift].
    destruct H as [a b lo hi E Ha Hb Hlh Hin|a b lo hi E Ha Hb Hlh Hin|m s mu s1 E Hm Hs Hp|m s mu s1 E Hm Hs Hp];
      rewrite E in *; cbn in Hok; destruct Hok as [Hoa Hob].
    - rewrite (hyper_get _ _ _ Hoa Ha), (hyper_get _ _ _ Hob Hb). cbn [rbind].
      destruct Hin as [H1 H2]. rewrite (proj2 (Rleb_true lo v)), (proj2 (Rleb_true v hi)) by lra.
      cbn [andb]. unfold py_log. rewrite (proj2 (Rltb_true 0 (hi - lo))) by lra. cbn [rbind].
      intros [= <-]. cbn. replace (0 + z * sd) with (z * sd) by ring.
      destruct (Rleb lo (v + z * sd) && Rleb (v + z * sd) hi)%bool; intros [= <-]; unfold ret; cbn.
      + do 3 f_equal. ring.
      + reflexivity.
    - lra.
    - rewrite (hyper_get _ _ _ Hoa Hm), (hyper_get _ _ _ Hob Hs). cbn [rbind].
      unfold py_div. rewrite (proj2 (Reqb_false s1 0)) by lra. cbn [rbind].
      unfold np_log. rewrite (proj2 (Rltb_true 0 s1)) by lra. cbn [esub eadd eneg].
      assert (Hne : 2 * s1 ^ 2 <> 0) by (apply Rgt_not_eq; nra).
      apply Reqb_false in Hne. intros [= <-] [= <-].
      unfold normal, bind, drawZ, ret, lift, ret. rewrite Hne.
      replace (v + (0 + z * sd)) with (v + z * sd) by ring.
      do 2 f_equal. unfold esub, eneg, eadd. f_equal. field. lra.
    - rewrite (hyper_get _ _ _ Hoa Hm), (hyper_get _ _ _ Hob Hs). cbn [rbind].
      unfold py_log. rewrite (proj2 (Rltb_true 0 2)), (proj2 (Rltb_true 0 s1)) by lra. cbn [rbind].
      unfold py_div. rewrite (proj2 (Reqb_false s1 0)) by lra. cbn [rbind].
      intros [= <-] [= <-].
      unfold normal, bind, drawZ, ret, lift, ret.
      rewrite (proj2 (Reqb_false s1 0)) by lra.
      replace (v + (0 + z * sd)) with (v + z * sd) by ring.
      do 2 f_equal. unfold esub, eneg, eadd. f_equal. field. lra. }
  exists (esub l' l). split; [exact K|]. apply HR. exists l, l'. auto.
Qed.

(** The same as a statement about the two methods: the ratio is the difference of
    log_prior at the new and at the old value. *)
Theorem C12_ratio_is_difference p v at_ (birth : bool) z tr sd f f' l l' :
  dist_ok (p_dist p) ->
  get_hyper (if birth then p_stdb p else p_std p) at_ = Ok sd ->
  has_density (p_dist p) at_ v f -> 0 < f ->
  has_density (p_dist p) at_ (v + z * sd) f' ->
  p_log_prior p v at_ = Ok l -> p_log_prior p (v + z * sd) at_ = Ok l' ->
  p_perturb p v at_ birth (DZ z :: tr) = Ret (v + z * sd, esub l' l) tr.
Proof.
  intros Hok Hsd H Hf H' El El'.
  destruct (C12_value_ratio p v at_ birth z tr sd f f' Hok Hsd H Hf H') as (r & E & Hr & _).
  rewrite E. do 2 f_equal.
  destruct (C12_log_prior p v at_ f Hok H) as (k & Ek & Hk).
  destruct (C12_log_prior p (v + z * sd) at_ f' Hok H') as (k' & Ek' & Hk').
  rewrite El in Ek. rewrite El' in Ek'. injection Ek as <-. injection Ek' as <-.
  destruct Hk as [[? _]|[_ ->]]; [lra|].
  destruct Hk' as [[-> ->]|[Hf' ->]]; destruct Hr as [[Hr ->]|[Hr ->]]; cbn; auto.
  - exfalso. unfold Rdiv in Hr. rewrite Rmult_0_l in Hr. lra.
  - exfalso. apply Rmult_integral in Hr. destruct Hr as [Hr|Hr]; [lra|].
    revert Hr. apply Rinv_neq_0_compat. lra.
  - f_equal. unfold Rdiv. rewrite ln_mult, ln_Rinv by (try apply Rinv_0_lt_compat; lra). ring.
Qed.

(** Case: a Gaussian prior whose mean depends on the position. *)
Definition gauss_case : prior :=
  mkPrior "vs" true (Gauss (HI [0; 10] [1; 3]) (HS 2)) (HS (1/2)) (HS (1/4)).
Example C12_case : forall z tr, exists r,
  p_perturb gauss_case 3 (Some (P1 5)) false (DZ z :: tr) = Ret (3 + z * (1/2), r) tr /\
  log_density (gauss_pdf 2 2 (3 + z * (1/2)) / gauss_pdf 2 2 3) r.
Proof.
  intros z tr.
  assert (Hok : dist_ok (p_dist gauss_case)).
  { cbn. split; [|exact I]. split; [discriminate|]. split; [|reflexivity].
    intros [|[|i]] [|[|j]] a b Hij Ha Hb; cbn in *; try lia;
      repeat match goal with H : Some _ = Some _ |- _ => injection H as <- end;
      try (destruct i; discriminate); try (destruct j; discriminate); lra. }
  assert (Hm : hyper_is (HI [0; 10] [1; 3]) (Some (P1 5)) 2).
  { exists 5. split; [reflexivity|]. right; right.
    exists 0%nat, 0, 10, 1, 3, 10. cbn. repeat split; try lra. }
  destruct (C12_value_ratio gauss_case 3 (Some (P1 5)) false z tr (1/2)
              (gauss_pdf 2 2 3) (gauss_pdf 2 2 (3 + z * (1/2)))) as (r & E & Hr & _); auto.
  - eapply HD_gauss; [reflexivity|exact Hm|reflexivity|lra].
  - apply gauss_pos. lra.
  - eapply HD_gauss; [reflexivity|exact Hm|reflexivity|lra].
  - eauto.
Qed.

(** * CustomPrior *)
(** Perturbing a value of any CustomPrior outside a birth raises UnboundLocalError. *)
Theorem C13_custom_prior_refuted p samp f2 f1 v at_ tr :
  p_dist p = Custom samp f2 f1 -> p_perturb p v at_ false tr = Err EUnbound tr.
Proof. unfold p_perturb. now intros ->. Qed.

(** What the property demands, and what is true in births only: the new value is the old one
    moved by [z] standard deviations, the ratio the difference of the log densities. *)
Theorem C13_custom_prior_partial p samp f2 f1 v at_ z tr sd l l' :
  p_dist p = Custom samp f2 f1 -> get_hyper (p_stdb p) at_ = Ok sd ->
  f2 v at_ = Ok l -> f2 (v + z * sd) at_ = Ok l' ->
  p_perturb p v at_ true (DZ z :: tr) = Ret (v + z * sd, esub l' l) tr.
Proof.
  intros Hd Hsd Hl Hl'. unfold p_perturb, p_log_prior, perturb_std_of.
  rewrite Hd, Hsd. cbn. replace (v + (0 + z * sd)) with (v + z * sd) by ring.
  rewrite Hl, Hl'. reflexivity.
Qed.
Definition custom_case : prior :=
  mkPrior "c" false (Custom (fun _ => drawVal) (fun v _ => Ok (Fin (- v))) (fun v => Ok (Fin (- v))))
    (HS 1) (HS 1).
Example C13_case : forall tr,
  p_perturb custom_case 2 None false tr = Err EUnbound tr /\
  p_perturb custom_case 2 None true (DZ 1 :: tr) =
    Ret (2 + 1 * 1, esub (Fin (- (2 + 1 * 1))) (Fin (- 2))) tr.
Proof.
  intros tr. split.
  - now apply (C13_custom_prior_refuted custom_case _ _ _ 2 None tr eq_refl).
  - now apply (C13_custom_prior_partial custom_case _ _ _ 2 None 1 tr 1 (Fin (- 2)) (Fin (- (2 + 1 * 1))) eq_refl).
Qed.
