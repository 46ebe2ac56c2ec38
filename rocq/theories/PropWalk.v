(** C53: bounded random walks (noise parameters, Voronoi sites) do not report the ratio of
    their proposal densities. *)
From Coq Require Import Permutation.
From Verif Require Import Base ModelPrior ModelState ModelSpace ModelPerturb ModelLikelihood SpecState SpecSpace SpecWalk ExampleWalk
  ProofUtils1D ProofChain ProofState ProofSpace ProofSpaceB ProofSpaceC ProofSpaceE ProofRun ProofInversion ExampleRun PropSpace PropState.
Local Open Scope string_scope.
Local Open Scope list_scope.
Local Open Scope R_scope.

(** * Distribution functions *)
Lemma bell_pos u : 0 < bell u.
Proof. apply exp_pos. Qed.

Section Walk.
Variables (F : R -> R) (c0 : R).
Hypothesis Hc0 : 0 < c0.
Definition gauss_density (u : R) : R := c0 * bell u.
Hypothesis HF : forall u, derivable_pt_lim F u (gauss_density u).

Lemma density_pos u : 0 < gauss_density u.
Proof. unfold gauss_density. apply Rmult_lt_0_compat; [exact Hc0|apply bell_pos]. Qed.
Lemma density_even u : gauss_density (- u) = gauss_density u.
Proof. unfold gauss_density, bell. replace (- u * - u) with (u * u) by ring. reflexivity. Qed.
Lemma density_order u v : u * u < v * v -> gauss_density v < gauss_density u.
Proof.
  intros H. unfold gauss_density, bell. apply Rmult_lt_compat_l; [exact Hc0|]. apply exp_increasing. lra.
Qed.

Lemma cdf_increasing u v : u < v -> F u < F v.
Proof.
  intros H. destruct (MVT_cor2 F gauss_density u v H) as (c & Hc & _); [intros; apply HF|].
  pose proof (density_pos c). assert (0 < gauss_density c * (v - u)) by (apply Rmult_lt_0_compat; lra). lra.
Qed.
Lemma cdf_mirror u v : F (- u) + F u = F (- v) + F v.
Proof.
  assert (HD : forall x, derivable_pt_lim (fun x => F (- x) + F x) x 0).
  { intros x. replace 0 with (gauss_density (- x) * -1 + gauss_density x) by (rewrite density_even; ring).
    apply (derivable_pt_lim_plus (fun x => F (- x)) F); [|apply HF].
    apply (derivable_pt_lim_comp (fun x => - x) F x (-1)); [|apply HF].
    apply (derivable_pt_lim_opp id x 1). apply derivable_pt_lim_id. }
  destruct (Rtotal_order u v) as [H|[->|H]]; [| reflexivity |].
  - destruct (MVT_cor2 (fun x => F (- x) + F x) (fun _ => 0) u v H) as (c & Hc & _); [auto|]. lra.
  - destruct (MVT_cor2 (fun x => F (- x) + F x) (fun _ => 0) v u H) as (c & Hc & _); [auto|]. lra.
Qed.

Variables lo hi sd : R.
Hypothesis Hsd : 0 < sd.
Hypothesis Hlim : lo < hi.

Lemma hit_pos x : 0 < hit F lo hi sd x.
Proof.
  unfold hit. assert (F ((lo - x) / sd) < F ((hi - x) / sd)); [|lra]. apply cdf_increasing.
  apply Rmult_lt_compat_r; [now apply Rinv_0_lt_compat|lra].
Qed.

(** The probability of staying within the limits depends on the distance to their middle. *)
Let mid := (lo + hi) / 2.
Let half := (hi - lo) / 2.
Let H (d : R) : R := F ((half - d) / sd) + F ((half + d) / sd) - (F (- 0) + F 0).
Lemma hit_H x : hit F lo hi sd x = H (Rabs (x - mid)).
Proof.
  assert (E : forall d, H (- d) = H d).
  { intros d. unfold H. replace (half - - d) with (half + d) by ring. replace (half + - d) with (half - d) by ring. ring. }
  assert (E1 : hit F lo hi sd x = H (x - mid)).
  { unfold hit, H. replace ((hi - x) / sd) with ((half - (x - mid)) / sd) by (unfold half, mid; field; lra).
    replace ((lo - x) / sd) with (- ((half + (x - mid)) / sd)) by (unfold half, mid; field; lra).
    rewrite (cdf_mirror 0 ((half + (x - mid)) / sd)). lra. }
  rewrite E1. unfold Rabs. destruct (Rcase_abs (x - mid)); [now rewrite <- E|reflexivity].
Qed.
Lemma H_decreasing d e : 0 <= d -> d < e -> H e < H d.
Proof.
  intros Hd Hde.
  set (g := fun x => gauss_density ((half - x) / sd) * (- / sd) + gauss_density ((half + x) / sd) * / sd).
  assert (HD : forall x, derivable_pt_lim H x (g x)).
  { intros x. unfold H. replace (g x) with (g x - 0) by ring. unfold g.
    apply (derivable_pt_lim_minus (fun x => F ((half - x) / sd) + F ((half + x) / sd)) (fun _ => F (- 0) + F 0)).
    2:{ apply derivable_pt_lim_const. }
    apply (derivable_pt_lim_plus (fun x => F ((half - x) / sd)) (fun x => F ((half + x) / sd))).
    - apply (derivable_pt_lim_comp (fun x => (half - x) / sd) F x (- / sd)); [|apply HF].
      replace (- / sd) with ((0 - 1) * / sd + (half - x) * 0) by ring.
      apply (derivable_pt_lim_mult (fun x => half - x) (fun _ => / sd)); [|apply derivable_pt_lim_const].
      apply (derivable_pt_lim_minus (fun _ => half) id); [apply derivable_pt_lim_const|apply derivable_pt_lim_id].
    - apply (derivable_pt_lim_comp (fun x => (half + x) / sd) F x (/ sd)); [|apply HF].
      replace (/ sd) with ((0 + 1) * / sd + (half + x) * 0) by ring.
      apply (derivable_pt_lim_mult (fun x => half + x) (fun _ => / sd)); [|apply derivable_pt_lim_const].
      apply (derivable_pt_lim_plus (fun _ => half) id); [apply derivable_pt_lim_const|apply derivable_pt_lim_id]. }
  destruct (MVT_cor2 H g d e Hde) as (c & Hc & Hcr); [auto|].
  assert (Hg : g c < 0).
  { unfold g. assert (Hi : 0 < / sd) by (now apply Rinv_0_lt_compat).
    assert (G : gauss_density ((half + c) / sd) < gauss_density ((half - c) / sd)).
    { apply density_order. unfold half, Rdiv.
      assert (K : 0 < ((hi - lo) * c) * 2 * (/ sd * / sd)).
      { apply Rmult_lt_0_compat; [apply Rmult_lt_0_compat; [apply Rmult_lt_0_compat; lra|lra]|apply Rmult_lt_0_compat; lra]. }
      lra || nra. }
    assert (0 < (gauss_density ((half - c) / sd) - gauss_density ((half + c) / sd)) * / sd) by (apply Rmult_lt_0_compat; lra).
    lra. }
  assert (g c * (e - d) < 0) by nra. lra.
Qed.
Lemma hit_equal x y : hit F lo hi sd x = hit F lo hi sd y <-> Rabs (x - mid) = Rabs (y - mid).
Proof.
  rewrite !hit_H. split; [|now intros ->]. intros E.
  pose proof (Rabs_pos (x - mid)). pose proof (Rabs_pos (y - mid)).
  destruct (Rtotal_order (Rabs (x - mid)) (Rabs (y - mid))) as [L|[L|L]]; auto; exfalso.
  - apply H_decreasing in L; [|assumption]. lra.
  - apply H_decreasing in L; [|assumption]. lra.
Qed.

(** The density of the value at which the walk ends. *)
Definition walk_q (x y : R) : R := gauss_density ((y - x) / sd) / sd / hit F lo hi sd x.
Lemma walk_q_pos x y : 0 < walk_q x y.
Proof.
  unfold walk_q. apply Rdiv_lt_0_compat; [|apply hit_pos]. apply Rdiv_lt_0_compat; [apply density_pos|exact Hsd].
Qed.
Lemma walk_q_ratio x y : walk_q y x / walk_q x y = hit F lo hi sd x / hit F lo hi sd y.
Proof.
  unfold walk_q. replace ((x - y) / sd) with (- ((y - x) / sd)) by (field; lra). rewrite density_even.
  pose proof (density_pos ((y - x) / sd)). pose proof (hit_pos x). pose proof (hit_pos y). field. repeat split; lra.
Qed.

Hypothesis Hprob : forall u, 0 < F u < 1.
Lemma hit_prob x : 0 < hit F lo hi sd x < 1.
Proof. split; [apply hit_pos|]. unfold hit. pose proof (Hprob ((hi - x) / sd)). pose proof (Hprob ((lo - x) / sd)). lra. Qed.
Lemma walk_has_density x : walk_density F lo hi sd x (walk_q x).
Proof.
  pose proof (hit_prob x) as Hh.
  exists (fun y => (F ((y - x) / sd) - F ((lo - x) / sd)) / hit F lo hi sd x). split.
  - intros y Hy. set (p := hit F lo hi sd x) in *. set (a := F ((y - x) / sd) - F ((lo - x) / sd)).
    assert (G : Pser (fun _ => 1) (1 - p) (/ (1 - (1 - p)))) by (apply GP_infinite; rewrite Rabs_right; lra).
    replace (1 - (1 - p)) with p in G by ring.
    intros eps He. assert (Ha : 0 <= a).
    { unfold a. destruct (proj1 Hy) as [L| ->]; [|lra].
      assert (F ((lo - x) / sd) < F ((y - x) / sd)); [|lra]. apply cdf_increasing.
      apply Rmult_lt_compat_r; [now apply Rinv_0_lt_compat|lra]. }
    destruct (G (eps / (a + 1))) as [N HN]; [apply Rdiv_lt_0_compat; lra|].
    exists N. intros n Hn. specialize (HN n Hn). unfold R_dist in *.
    assert (S : sum_f_R0 (after F lo hi sd x y) n = a * sum_f_R0 (fun n => 1 * (1 - p) ^ n) n).
    { rewrite scal_sum. apply sum_eq. intros i _. unfold after. fold p. fold a. ring. }
    rewrite S. replace (a * sum_f_R0 (fun n0 => 1 * (1 - p) ^ n0) n - a / p)
      with (a * (sum_f_R0 (fun n0 => 1 * (1 - p) ^ n0) n - / p)) by (unfold Rdiv; ring).
    rewrite Rabs_mult, (Rabs_right a) by lra.
    apply Rle_lt_trans with (a * (eps / (a + 1))); [apply Rmult_le_compat_l; lra|].
    apply Rmult_lt_reg_r with (a + 1); [lra|]. unfold Rdiv. rewrite Rmult_assoc, Rmult_assoc, Rinv_l by lra. nra.
  - intros y _. unfold walk_q.
    assert (D : derivable_pt_lim (fun y => (F ((y - x) / sd) - F ((lo - x) / sd)) * / hit F lo hi sd x) y
      ((gauss_density ((y - x) / sd) * / sd - 0) * / hit F lo hi sd x + (F ((y - x) / sd) - F ((lo - x) / sd)) * 0)).
    { apply (derivable_pt_lim_mult (fun y => F ((y - x) / sd) - F ((lo - x) / sd)) (fun _ => / hit F lo hi sd x));
        [|apply derivable_pt_lim_const].
      apply (derivable_pt_lim_minus (fun y => F ((y - x) / sd)) (fun _ => F ((lo - x) / sd))); [|apply derivable_pt_lim_const].
      apply (derivable_pt_lim_comp (fun y => (y - x) / sd) F y (/ sd)); [|apply HF].
      replace (/ sd) with ((1 - 0) * / sd + (y - x) * 0) by ring.
      apply (derivable_pt_lim_mult (fun y => y - x) (fun _ => / sd)); [|apply derivable_pt_lim_const].
      apply (derivable_pt_lim_minus id (fun _ => x)); [apply derivable_pt_lim_id|apply derivable_pt_lim_const]. }
    unfold Rdiv in *. replace (gauss_density ((y - x) * / sd) * / sd * / hit F lo hi sd x) with
      ((gauss_density ((y - x) * / sd) * / sd - 0) * / hit F lo hi sd x + (F ((y - x) * / sd) - F ((lo - x) * / sd)) * 0) by ring.
    exact D.
Qed.
Lemma density_unique x q y : walk_density F lo hi sd x q -> lo < y < hi -> q y = walk_q x y.
Proof.
  intros (C & HC & HD) Hy. destruct (walk_has_density x) as (C' & HC' & HD').
  assert (E : forall z, lo <= z <= hi -> C z = C' z).
  { intros z Hz. eapply uniqueness_sum; [apply HC|apply HC']; auto. }
  apply (uniqueness_limite C' y); [|apply HD'; lra].
  intros eps He. destruct (HD y ltac:(lra) eps He) as [del Hdel].
  assert (Hr : 0 < Rmin del (Rmin (y - lo) (hi - y))).
  { apply Rmin_pos; [apply cond_pos|]. apply Rmin_pos; lra. }
  exists (mkposreal _ Hr). intros h Hh Hlt. cbn in Hlt.
  pose proof (Rmin_l del (Rmin (y - lo) (hi - y))). pose proof (Rmin_r del (Rmin (y - lo) (hi - y))).
  pose proof (Rmin_l (y - lo) (hi - y)). pose proof (Rmin_r (y - lo) (hi - y)).
  pose proof (Rabs_def2 h (hi - y) ltac:(lra)).
  pose proof (Rabs_def2 h (y - lo) ltac:(lra)).
  rewrite <- !E by lra. apply Hdel; [exact Hh|lra].
Qed.
End Walk.

(** * The densities of the walks
    They exist, they are determined by the steps, and their log ratio is that of the
    probabilities of staying within the limits: it is 0 only for two values at the same
    distance from the middle. *)
Theorem C53_density_exists F lo hi sd : normal_cdf F -> 0 < sd -> lo < hi -> exists q, walks F lo hi sd q.
Proof.
  intros [(c & Hc & HF) Hr _ _] Hsd Hlim. exists (walk_q F c lo hi sd). intros x _.
  now apply (walk_has_density F c Hc HF).
Qed.
Theorem C53_density_unique F lo hi sd q q' : normal_cdf F -> 0 < sd -> lo < hi ->
  walks F lo hi sd q -> walks F lo hi sd q' -> forall x y, lo <= x <= hi -> lo < y < hi -> q x y = q' x y /\ 0 < q x y.
Proof.
  intros [(c & Hc & HF) Hr _ _] Hsd Hlim Hq Hq' x y Hx Hy.
  rewrite (density_unique F c Hc HF lo hi sd Hsd Hlim Hr x (q x) y (Hq x Hx) Hy).
  rewrite (density_unique F c Hc HF lo hi sd Hsd Hlim Hr x (q' x) y (Hq' x Hx) Hy).
  split; [reflexivity|]. now apply walk_q_pos.
Qed.
Theorem C53_log_ratio F lo hi sd q x y : normal_cdf F -> 0 < sd -> walks F lo hi sd q ->
  lo < x < hi -> lo < y < hi ->
  log_proposal_ratio q x y = ln (hit F lo hi sd x / hit F lo hi sd y) /\
  (log_proposal_ratio q x y = 0 <-> Rabs (x - (lo + hi) / 2) = Rabs (y - (lo + hi) / 2)).
Proof.
  intros [(c & Hc & HF) Hr _ _] Hsd Hq Hx Hy. assert (Hlim : lo < hi) by lra.
  assert (E : log_proposal_ratio q x y = ln (hit F lo hi sd x / hit F lo hi sd y)).
  { unfold log_proposal_ratio.
    rewrite (density_unique F c Hc HF lo hi sd Hsd Hlim Hr x (q x) y) by (auto; apply Hq; lra).
    rewrite (density_unique F c Hc HF lo hi sd Hsd Hlim Hr y (q y) x) by (auto; apply Hq; lra).
    f_equal. now apply walk_q_ratio. }
  split; [exact E|]. rewrite E, <- (hit_equal F c Hc HF lo hi sd Hsd Hlim x y).
  pose proof (hit_pos F c Hc HF lo hi sd Hsd Hlim x) as Px. pose proof (hit_pos F c Hc HF lo hi sd Hsd Hlim y) as Py.
  split; intros L.
  - rewrite <- ln_1 in L. apply ln_inv in L; [|now apply Rdiv_lt_0_compat|lra].
    apply (Rmult_eq_reg_r (/ hit F lo hi sd y)); [|apply Rinv_neq_0_compat; lra].
    fold (hit F lo hi sd x / hit F lo hi sd y). rewrite L. field. lra.
  - rewrite L. replace (hit F lo hi sd y / hit F lo hi sd y) with 1 by (field; lra). apply ln_1.
Qed.
(** With the ratio taken to be 0, the walks keep, not the uniform law, but the law whose
    density is proportional to the probability of staying within the limits. *)
Theorem C53_kept_law F lo hi sd q x y : normal_cdf F -> 0 < sd -> walks F lo hi sd q ->
  lo < x < hi -> lo < y < hi -> hit F lo hi sd x * q x y = hit F lo hi sd y * q y x.
Proof.
  intros [(c & Hc & HF) Hr _ _] Hsd Hq Hx Hy. assert (Hlim : lo < hi) by lra.
  rewrite (density_unique F c Hc HF lo hi sd Hsd Hlim Hr x (q x) y) by (auto; apply Hq; lra).
  rewrite (density_unique F c Hc HF lo hi sd Hsd Hlim Hr y (q y) x) by (auto; apply Hq; lra).
  pose proof (walk_q_ratio F c Hc HF lo hi sd Hsd Hlim x y) as E.
  pose proof (walk_q_pos F c Hc HF lo hi sd Hsd Hlim x y) as P.
  pose proof (hit_pos F c Hc HF lo hi sd Hsd Hlim x) as Px. pose proof (hit_pos F c Hc HF lo hi sd Hsd Hlim y) as Py.
  apply (Rmult_eq_reg_r (/ (walk_q F c lo hi sd x y * hit F lo hi sd y))).
  2:{ apply Rinv_neq_0_compat. apply Rmult_integral_contrapositive_currified; lra. }
  transitivity (hit F lo hi sd x / hit F lo hi sd y); [field; split; lra|]. rewrite <- E. field. split; lra.
Qed.
(** A walk between 0 and 10, from the middle and close to the upper limit. *)
Example C53_density_case : exists F q, normal_cdf F /\ walks F 0 10 1 q /\ log_proposal_ratio q 5 9 <> 0 /\
  log_proposal_ratio q 9 1 = 0.
Proof.
  destruct ExampleWalk.normal_cdf_exists as [F HF]. destruct (C53_density_exists F 0 10 1 HF) as [q Hq]; try lra.
  exists F, q. split; auto. split; auto. split.
  - intros E. apply (C53_log_ratio F 0 10 1 q 5 9) in E; auto; try lra. revert E.
    rewrite (Rabs_right (9 - _)) by lra. replace (5 - (0 + 10) / 2) with 0 by field. rewrite Rabs_R0. lra.
  - apply (C53_log_ratio F 0 10 1 q 9 1); auto; try lra.
    rewrite (Rabs_right (9 - _)), (Rabs_left (1 - _)) by lra. lra.
Qed.

(** * The code draws the walks *)
Lemma until_draws (m : M R) (f : R -> R) ok :
  (forall tr y tr', m tr = Ret y tr' <-> exists z, tr = DZ z :: tr' /\ y = f z) ->
  forall tr y tr', until m ok tr = Ret y tr' <->
    exists zs z, tr = map DZ zs ++ DZ z :: tr' /\ y = f z /\ ok y = true /\ Forall (fun z' => ok (f z') = false) zs.
Proof.
  intros Hm tr y tr'. unfold until.
  assert (G : forall fuel tr, until_loop fuel m ok tr = Ret y tr' ->
    exists zs z, tr = map DZ zs ++ DZ z :: tr' /\ y = f z /\ ok y = true /\ Forall (fun z' => ok (f z') = false) zs).
  { induction fuel as [|n IH]; intros t H; cbn in H; [discriminate|].
    destruct (m t) as [b t'|e t'| |] eqn:E; try discriminate. apply Hm in E. destruct E as (z & -> & ->).
    destruct (ok (f z)) eqn:Eo.
    - injection H as <- <-. exists [], z. auto.
    - apply IH in H. destruct H as (zs & z' & -> & -> & Ho & Hf). exists (z :: zs), z'. auto. }
  split; [apply G|]. intros (zs & z & -> & -> & Ho & Hf).
  assert (Hn : (length zs < S (length (map DZ zs ++ DZ z :: tr')))%nat).
  { rewrite app_length, map_length. cbn. lia. }
  revert Hn. generalize (S (length (map DZ zs ++ DZ z :: tr'))) as fuel. intros fuel Hn. revert fuel Hn.
  induction Hf as [|z0 zs H0 Hf IH]; intros fuel Hn; (destruct fuel as [|n]; [cbn in Hn; lia|]); cbn [until_loop map app].
  - replace (m (DZ z :: tr')) with (Ret (f z) tr') by (symmetry; apply Hm; eauto). now rewrite Ho.
  - replace (m (DZ z0 :: map DZ zs ++ DZ z :: tr')) with (Ret (f z0) (map DZ zs ++ DZ z :: tr')) by (symmetry; apply Hm; eauto).
    rewrite H0. apply IH. cbn in Hn. lia.
Qed.
Theorem C53_noise_draws lo hi sd old tr y tr' :
  perturb_noise_value lo hi sd old tr = Ret y tr' <->
  exists zs z, tr = map DZ zs ++ DZ z :: tr' /\ first_try lo hi sd old zs z y.
Proof.
  unfold perturb_noise_value. rewrite (until_draws _ (fun z => old + z * sd)).
  2:{ intros t a t'. unfold normal, bind, drawZ, ret. destruct t as [|[] t]; split; try discriminate;
      try (intros (z0 & E0 & _); discriminate E0).
      - intros [= <- <-]. eauto.
      - intros (w & E0 & ->). injection E0 as -> ->. reflexivity. }
  assert (B : forall x, negb (Rltb x lo || Rltb hi x) = true <-> lo <= x <= hi).
  { intros x. rewrite Bool.negb_true_iff, Bool.orb_false_iff. unfold Rltb.
    destruct (Rlt_dec x lo), (Rlt_dec hi x); split; try discriminate; try (intros [? ?]; discriminate); try lra; auto. }
  unfold first_try. split; intros (zs & z & -> & -> & Ho & Hf); exists zs, z; (split; [reflexivity|]); (split; [reflexivity|]);
    (split; [now apply B|]); (eapply Forall_impl; [|exact Hf]); cbn beta; intros z' Hz.
  - intros Q. apply B in Q. congruence.
  - apply Bool.not_true_is_false. intros Q. apply Hz. now apply B.
Qed.
Theorem C53_site_draws lo hi sd fp x tr y tr' :
  perturb_site (Vor1 lo hi sd fp) (P1 x) tr = Ret (P1 y) tr' <->
  exists zs z, tr = map DZ zs ++ DZ z :: tr' /\ first_try lo hi sd x zs z y.
Proof.
  assert (E : perturb_site (Vor1 lo hi sd fp) (P1 x) tr = Ret (P1 y) tr' <->
    until (d <- normal 0 sd ;; ret (x + d)) (fun y => Rleb lo y && Rleb y hi)%bool tr = Ret y tr').
  { unfold perturb_site, bind at 1, ret at 2. destruct (until _ _ tr); split; try discriminate; congruence. }
  rewrite E, (until_draws _ (fun z => x + z * sd)).
  2:{ intros t a t'. unfold normal, bind, drawZ, ret. destruct t as [|[] t]; split; try discriminate;
      try (intros (z0 & E0 & _); discriminate E0).
      - intros [= <- <-]. eexists. split; [reflexivity|]. lra.
      - intros (w & E0 & ->). injection E0 as -> ->. f_equal. lra. }
  assert (B : forall x, (Rleb lo x && Rleb x hi)%bool = true <-> lo <= x <= hi).
  { intros a. rewrite Bool.andb_true_iff. unfold Rleb.
    destruct (Rle_dec lo a), (Rle_dec a hi); split; try (intros [? ?]; discriminate); try lra; auto. }
  unfold first_try. split; intros (zs & z & -> & -> & Ho & Hf); exists zs, z; (split; [reflexivity|]); (split; [reflexivity|]);
    (split; [now apply B|]); (eapply Forall_impl; [|exact Hf]); cbn beta; intros z' Hz.
  - intros Q. apply B in Q. congruence.
  - apply Bool.not_true_is_false. intros Q. apply Hz. now apply B.
Qed.
(** The second try is within the limits. *)
Example C53_draws_case : perturb_noise_value 1 2 (1/10) (3/2) [DZ 6; DZ 2] = Ret (17/10) [] /\
  perturb_site (Vor1 0 10 1 true) (P1 5) [DZ 6; DZ 4] = Ret (P1 9) [].
Proof.
  split.
  - apply C53_noise_draws. exists [6], 2. split; [reflexivity|]. split; [lra|]. split; [lra|]. constructor; [lra|constructor].
  - apply C53_site_draws. exists [6], 4. split; [reflexivity|]. split; [lra|]. split; [lra|]. constructor; [lra|constructor].
Qed.

(** * What the moves report
    The full claim is: the reported log ratio contains the log ratio of the proposal
    densities.  The moves of noise levels and of sites report none; this is right exactly for
    moves between values equally far from the middle of their limits. *)
Definition equidistant (lo hi x y : R) : Prop := Rabs (x - (lo + hi) / 2) = Rabs (y - (lo + hi) / 2).
Theorem C53_noise_partial t s tr s' r tr' : t_corr t = false -> 0 < t_std_step t ->
  noise_perturb [t] s tr = Ret (s', r) tr' ->
  exists d d' zs z,
    st_get (t_name t) s = Some (ENoise d) /\ st_get (t_name t) s' = Some (ENoise d') /\
    tr = map DZ zs ++ DZ z :: tr' /\
    first_try (t_std_min t) (t_std_max t) (t_std_step t) (dn_std d) zs z (dn_std d') /\
    forall F q, normal_cdf F -> walks F (t_std_min t) (t_std_max t) (t_std_step t) q ->
      t_std_min t < dn_std d < t_std_max t -> t_std_min t < dn_std d' < t_std_max t ->
      (r = Fin (log_proposal_ratio q (dn_std d) (dn_std d')) <->
       equidistant (t_std_min t) (t_std_max t) (dn_std d) (dn_std d')).
Proof.
  intros Hc Hstep H. unfold noise_perturb in H. mb H as new En. mb H as s1 Ec. mr H. injection H as <- <-.
  cbn [perturb_targets] in En. mb En as d Ed. mb En as d' Ed'. mr En.
  unfold perturb_target in Ed'. mb Ed' as std Es. rewrite Hc in Ed'. mr Ed'.
  apply C53_noise_draws in Es. destruct Es as (zs & z & Ht & Hf).
  exists d, (mkNoise std None), zs, z.
  split. { unfold noise_of in Ed. destruct (st_get (t_name t) s) as [[]|]; try discriminate. congruence. }
  split. { unfold st_get, st_update_vals. cbn [st_vals dupdate fold_left dset fst snd]. apply dget_dset_same. }
  split; [assumption|]. split; [exact Hf|]. cbn [dn_std]. intros F q HF Hq H1 H2.
  destruct (C53_log_ratio F _ _ _ q (dn_std d) std HF Hstep Hq H1 H2) as [_ E]. unfold equidistant. rewrite <- E.
  split; [intros [= X]; symmetry; exact X|]. intros ->. reflexivity.
Qed.

Lemma no_terms old i x x' params cs : Forall2 (move_term old i x x') params cs ->
  (forall k p, In (k, PPrior p) params -> p_pos p = false) -> esum (Fin 0) cs = Fin 0.
Proof.
  intros H. induction H as [|[k pr] c ps cs Hc _ IH]; intros Hp; [reflexivity|].
  assert (c = Fin 0) as ->.
  { unfold move_term in Hc. cbn [snd] in Hc. destruct pr as [p|]; [|exact Hc].
    rewrite (Hp k p) in Hc by (left; reflexivity). exact Hc. }
  change (esum (Fin 0) (Fin 0 :: cs)) with (esum (eadd (Fin 0) (Fin 0)) cs). rewrite eadd_0_r. apply IH.
  intros k' p' Hin. apply (Hp k'). now right.
Qed.
Lemma pick_perm (l l' : list R) is : pick l is = Ok l' -> Permutation is (seq 0 (length l)) -> Permutation l' l.
Proof.
  intros H Hp. assert (E : forall js m, pick l js = Ok m -> m = map (fun j => nth j l 0) js).
  { intros js m Hm. apply pick_ok in Hm. induction Hm as [|j a js m Ha Hm IH]; [reflexivity|].
    cbn. f_equal; [|exact IH]. symmetry. now apply nth_error_nth. }
  rewrite (E _ _ H), Hp, <- (E _ _ (pick_seq l)). reflexivity.
Qed.
Theorem C53_site_partial s lo hi sd fp n old tr q r tr' : valid s -> sp_cls s = Vor1 lo hi sd fp ->
  (forall k p, In (k, PPrior p) (sp_params s) -> p_pos p = false) -> wf s old -> 0 < sd ->
  elem_perturb (EParam n [PSpace s]) old tr = Ret (q, r) tr' ->
  exists i zs z x y l l',
    tr = DInt i :: map DZ zs ++ DZ z :: tr' /\ first_try lo hi sd x zs z y /\
    ps_get "discretization" old = Some (Arr l) /\ nth_error l i = Some x /\
    ps_get "discretization" q = Some (Arr l') /\ Permutation l' (set_nth l i y) /\
    forall F w, normal_cdf F -> walks F lo hi sd w -> lo < x < hi -> lo < y < hi ->
      (r = Fin (log_proposal_ratio w x y) <-> equidistant lo hi x y).
Proof.
  intros Hv Hcls Hpos Hwf Hsd H. assert (Hd : is_disc s = true) by (unfold is_disc; now rewrite Hcls).
  cbn [elem_perturb] in H. unfold param_perturb in H. mb H as i Ei. cbn [perturb_params] in H. rewrite Hd in H.
  pose proof (valid_here _ Hv) as (_ & _ & _ & Hnd & Hdk & _).
  unfold perturb_value in H. mb H as x Ex. mb H as x' Ex'. mb H as [vals l] Ev. mb H as q0 Eq0.
  mb H as q1 Ekd. mr H. injection H as -> ->. apply add_kdtree_ok in Ekd. destruct Ekd as (_ & K2 & _).
  destruct (wf_inv _ _ Hnd Hwf) as (_ & Hsites & _ & _ & _). unfold sites_ok in Hsites. rewrite Hcls in Hsites.
  destruct Hsites as (sites & Es & _). rewrite Es in *. cbn in Ex. apply idx_ok in Ex. rewrite nth_error_map in Ex.
  destruct (nth_error sites i) as [x0|] eqn:Ex0; [|discriminate]. injection Ex as <-. rewrite Hcls in Ex'.
  assert (Hx' : exists y, x' = P1 y).
  { revert Ex'. unfold perturb_site, bind at 1, ret at 2. destruct (until _ _ _); try discriminate. intros [= <- _]. eauto. }
  destruct Hx' as [y ->]. apply C53_site_draws in Ex'. destruct Ex' as (zs & z & Et & Hf).
  apply rbind_ok in Ev. destruct Ev as (sites2 & E2 & Ev).
  apply perturb_loop_spec in Ev; [|apply disc_first; auto]. destruct Ev as ((cs & -> & Hcs) & new & -> & Hnew).
  assert (Hnk : dkeys new = dkeys (sp_params s)).
  { unfold dkeys. symmetry. eapply Forall2_map_eq; [exact Hnew|]. intros a b _ [E _]. exact E. }
  assert (Hndv : NoDup (dkeys ([(disc_key, Arr sites2)] ++ new))).
  { cbn [app dkeys map fst]. change (map fst new) with (dkeys new). rewrite Hnk. constructor; auto. }
  destruct (mk_ps_ok _ _ _ Hndv Eq0) as [-> _]. cbn [ps_vals] in K2.
  exists i, zs, z, x0, y, sites, sites2.
  split. { apply randint_below_inv in Ei. destruct Ei as [_ ->]. f_equal. exact Et. }
  split; [exact Hf|]. split; [exact Es|]. split; [exact Ex0|].
  split; [unfold ps_get; now rewrite K2|].
  split; [apply (pick_perm _ _ _ E2); apply argsort_perm|].
  intros F w HF Hw H1 H2. rewrite (no_terms _ _ _ _ _ _ Hcs Hpos).
  destruct (C53_log_ratio F _ _ _ w x0 y HF Hsd Hw H1 H2) as [_ E]. unfold equidistant. rewrite <- E.
  split; [intros [= X]; symmetry; exact X|]. intros ->. reflexivity.
Qed.

Example C53_site_case : exists q, valid ex_vor /\ sp_cls ex_vor = Vor1 0 10 1 true /\
  (forall k p, In (k, PPrior p) (sp_params ex_vor) -> p_pos p = false) /\ wf ex_vor ex_p1 /\
  elem_perturb (EParam "vor" [PSpace ex_vor]) ex_p1 [DInt 0; DZ 4] = Ret (q, Fin 0) [].
Proof.
  destruct C07_case as (A & _ & B & q & C & _). exists q. split; auto. split; [reflexivity|]. split; auto.
  intros k p [H|[H|[]]]; inversion H. reflexivity.
Qed.
(** The site 5 between 0 and 10 moves to 9. *)
Theorem C53_site_refuted : exists s lo hi sd fp old tr q r, valid s /\ sp_cls s = Vor1 lo hi sd fp /\ wf s old /\
  (forall k p, In (k, PPrior p) (sp_params s) -> p_pos p = false) /\
  elem_perturb (EParam (sp_name s) [PSpace s]) old tr = Ret (q, r) [] /\
  exists F w x y l l', normal_cdf F /\ walks F lo hi sd w /\ lo < x < hi /\ lo < y < hi /\
    ps_get "discretization" old = Some (Arr (x :: l)) /\ ps_get "discretization" q = Some (Arr l') /\
    Permutation l' (y :: l) /\ r <> Fin (log_proposal_ratio w x y).
Proof.
  destruct C07_case as (A & _ & B & q & C & D & _). destruct C53_density_case as (F & w & HF & Hw & Hne & _).
  exists ex_vor, 0, 10, 1, true, ex_p1, [DInt 0; DZ 4], q, (Fin 0). split; auto. split; [reflexivity|]. split; auto.
  split. { intros k p [H|[H|[]]]; inversion H. reflexivity. }
  split; [exact C|]. exists F, w, 5, 9, [8], [8; 9]. split; auto. split; auto. split; [lra|]. split; [lra|].
  split; [reflexivity|]. split; [exact D|]. split; [apply perm_swap|]. intros [= E]. congruence.
Qed.
(** An uncorrelated noise level between 1 and 2 moves from the middle to 17/10. *)
Definition ex_tu : target := mkTarget "d" [1; 2; 3] None false 1 2 (1/10) 0 (1/2) (1/10).
Definition ex_su (x : R) : state := mkState [("d", ENoise (mkNoise x None))] [("d", ENoise (mkNoise x None))] 1 [] [].
Lemma ex_noise_move : exists s', noise_perturb [ex_tu] (ex_su (3/2)) [DZ 6; DZ 2] = Ret (s', Fin 0) [] /\
  st_get "d" s' = Some (ENoise (mkNoise (17/10) None)).
Proof.
  eexists. split.
  - unfold noise_perturb. cbn [perturb_targets].
    change (noise_of ex_tu (ex_su (3/2))) with (Ok (mkNoise (3/2) None)). cbn [lift]. unfold bind at 1 2, ret at 1.
    assert (T : perturb_target ex_tu (mkNoise (3/2) None) [DZ 6; DZ 2] = Ret (mkNoise (17/10) None) []).
    { unfold perturb_target. cbn [dn_std]. rewrite (bind_ret _ _ _ _ _ (proj1 C53_draws_case)). reflexivity. }
    rewrite (bind_ret _ _ _ _ _ T). unfold ret at 1, bind at 1. reflexivity.
  - reflexivity.
Qed.
Example C53_noise_case : exists s', t_corr ex_tu = false /\ 0 < t_std_step ex_tu /\
  noise_perturb [ex_tu] (ex_su (3/2)) [DZ 6; DZ 2] = Ret (s', Fin 0) [].
Proof. destruct ex_noise_move as (s' & H & _). exists s'. split; [reflexivity|]. split; [cbn; lra|exact H]. Qed.
Theorem C53_noise_refuted : exists t s tr s' r d d', target_init t = Ok t /\ t_corr t = false /\
  noise_perturb [t] s tr = Ret (s', r) [] /\
  st_get (t_name t) s = Some (ENoise d) /\ st_get (t_name t) s' = Some (ENoise d') /\
  exists F q, normal_cdf F /\ walks F (t_std_min t) (t_std_max t) (t_std_step t) q /\
    t_std_min t < dn_std d < t_std_max t /\ t_std_min t < dn_std d' < t_std_max t /\
    r <> Fin (log_proposal_ratio q (dn_std d) (dn_std d')).
Proof.
  destruct ex_noise_move as (s' & H & Hd). destruct ExampleWalk.normal_cdf_exists as [F HF].
  destruct (C53_density_exists F 1 2 (1/10) HF) as [q Hq]; try lra.
  exists ex_tu, (ex_su (3/2)), [DZ 6; DZ 2], s', (Fin 0), (mkNoise (3/2) None), (mkNoise (17/10) None).
  split. { unfold target_init. cbn [t_std_min t_std_max t_cor_min t_cor_max ex_tu]. rewrite !Rleb_t by lra. reflexivity. }
  split; [reflexivity|]. split; [exact H|]. split; [reflexivity|]. split; [exact Hd|].
  exists F, q. split; auto. split; [exact Hq|]. cbn [ex_tu t_std_min t_std_max dn_std]. split; [lra|]. split; [lra|].
  intros [= E]. symmetry in E. apply (C53_log_ratio F 1 2 (1/10) q (3/2) (17/10)) in E; auto; try lra. revert E.
  rewrite (Rabs_right (17/10 - _)) by lra. replace (3/2 - (1 + 2) / 2) with 0 by field. rewrite Rabs_R0. lra.
Qed.
