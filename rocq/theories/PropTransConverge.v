(** C87: from whatever values the chain of a trans-dimensional inversion starts, the distribution of the number of
    values and of the values converges to the tempered posterior distribution, geometrically. *)
From Coquelicot Require Import Coquelicot.
From Verif Require Import Base ModelPrior ModelState ModelSpace ModelPerturb ModelChain ModelLikelihood SpecWalk SpecInvariance SpecTransd SpecLikelihood.
From Verif Require Import ProofBox ProofInvariance ProofTransd ProofConverge ProofTransConverge PropInvariance PropInvarianceLike PropTransd PropTransdLike PropConverge.
Local Open Scope R_scope.

(** [e j xs] is the mean of [g] after [j] iterations that start from the values [xs]. *)
Definition trans_means (phi : R -> R) (kmin kmax : nat) (lo hi : R) (born : list R -> nat -> R -> R -> list R)
    (died : list R -> nat -> R -> list R) (moved_to : list R -> nat -> R -> R -> list R) (g : list R -> R) (e : nat -> list R -> R) : Prop :=
  (forall xs, e O xs = g xs) /\
  forall j k xs, (kmin <= k <= kmax)%nat -> in_box lo hi k xs ->
    mean_iteration phi kmin kmax k (e j xs) (fun i a u => e j (born xs i a u)) (fun i u => e j (died xs i u))
      (fun i z u => e j (moved_to xs i z u)) (e (S j) xs).

(** [Z] normalises the posterior density; [v / Z] is the posterior mean of [g]. The rate [rho] does not depend on
    [g] or on the start. *)
Theorem C87_converges kmin kmax range lo hi sd T ll L kept save F phi born died moved_to :
  (1 <= kmin <= kmax)%nat -> lo < hi -> 0 < sd -> 0 < T -> normal_cdf F -> (forall z, derivable_pt_lim F z (phi z)) ->
  (forall k, (kmin <= k <= kmax)%nat -> cont_on lo hi k L) -> evaluates_all kmin kmax lo hi T ll L kept ->
  follows_all (inversion_env [numbers_space kmin kmax range lo hi sd] ll save) kmin kmax lo hi T kept born died moved_to ->
  exists Z rho, 0 < Z /\ trans_integral lo hi kmin kmax (posterior lo hi T L) Z /\ 0 <= rho < 1 /\
    forall g B, (forall k, (kmin <= k <= kmax)%nat -> cont_on lo hi k g) ->
    (forall k xs, (kmin <= k <= kmax)%nat -> in_box lo hi k xs -> Rabs (g xs) <= B) ->
    exists e v, trans_means phi kmin kmax lo hi born died moved_to g e /\
      trans_integral lo hi kmin kmax (fun xs => posterior lo hi T L xs * g xs) v /\
      forall j k xs, (kmin <= k <= kmax)%nat -> in_box lo hi k xs -> Rabs (e j xs - v / Z) <= 2 * B * rho ^ (j / kmax).
Proof.
  intros Hk Hlo Hsd HT HF Hphi HL Hev Hf.
  destruct (trans_converges lo hi Hlo kmin kmax Hk sd T Hsd HT F phi HF Hphi L HL) as (rho & Hrho & H).
  exists (trans_mass lo hi kmin kmax T L), rho. split; [apply trans_mass_pos; auto|]. split; [|split; auto].
  - assert (Hone : forall k, (kmin <= k <= kmax)%nat -> cont_on lo hi k (fun _ => 1)) by (intros; apply ucont_const).
    destruct (posterior_integral kmin kmax lo hi T L (fun _ => 1) Hlo HT HL Hone) as (h & Hh & Eh).
    exists h. split.
    + intros k Hkk. pose proof (Hh k Hkk) as Hi. replace (posterior lo hi T L) with (fun xs => posterior lo hi T L xs * 1); auto.
      apply FunctionalExtensionality.functional_extensionality. intros xs. ring.
    + rewrite <- Eh. unfold trans_mass. f_equal. apply map_ext. intros k. apply box_int_ext; auto. intros; ring.
  - intros g B Hg HB. set (P := next_mean lo hi kmin kmax sd T phi L).
    assert (Hc : forall n k, (kmin <= k <= kmax)%nat -> cont_on lo hi k (Nat.iter n P g)).
    { induction n as [|n IH]; auto. exact (good_next lo hi Hlo kmin kmax Hk sd T F phi HF Hphi L HL _ IH). }
    exists (fun n => Nat.iter n P g), (rsum (map (fun k => box_int lo hi k (fun xs => ProofTransd.post lo hi T L k xs * g xs)) (seq kmin (S kmax - kmin)))).
    split; [split; [reflexivity|]|split; [now apply posterior_integral|]].
    + intros n k xs Hkk Hx. destruct (follows_only kmin kmax range lo hi sd T ll L kept save Hev Hlo Hk born died moved_to Hf k xs Hkk Hx) as (E1 & E2 & E3).
      eapply mean_iteration_ext; [| | |exact (mean_next lo hi Hlo kmin kmax Hk sd T Hsd F phi HF Hphi L HL (Nat.iter n P g) k xs (Hc n) Hkk Hx)].
      * intros i a u A1 A2 A3 A4. cbn beta. now rewrite E1.
      * intros i u A1 A2 A3. cbn beta. now rewrite E2.
      * intros i z u A1 A2. cbn beta. now rewrite E3.
    + intros j k xs Hkk Hx. apply (H g B Hg); [|now exists k]. intros ys (k' & Hk' & Hy). now apply (HB k').
Qed.
(** Gaussian data and forward functions. *)
Theorem C87_posterior kmin kmax range lo hi sd T ts fs K P G ll save F phi :
  (1 <= kmin <= kmax)%nat -> lo < hi -> 0 < sd -> 0 < T -> normal_cdf F -> (forall z, derivable_pt_lim F z (phi z)) ->
  (forall k, (kmin <= k <= kmax)%nat -> gaussian_data k lo hi ts fs K P G) ->
  (forall k t i, (kmin <= k <= kmax)%nat -> In t ts -> cont_on lo hi k (fun xs => nth i (G t xs) 0)) ->
  loglike_init (Some (map ATarget ts)) (Some (map AFwd fs)) None None = Ok ll ->
  exists born died moved_to Z rho,
    follows_all (inversion_env [numbers_space kmin kmax range lo hi sd] ll save) kmin kmax lo hi T
      (own_predictions_all kmin kmax lo hi ts G) born died moved_to /\
    0 < Z /\ trans_integral lo hi kmin kmax (posterior lo hi T (data_logpdf K P G ts)) Z /\ 0 <= rho < 1 /\
    forall g B, (forall k, (kmin <= k <= kmax)%nat -> cont_on lo hi k g) ->
    (forall k xs, (kmin <= k <= kmax)%nat -> in_box lo hi k xs -> Rabs (g xs) <= B) ->
    exists e v, trans_means phi kmin kmax lo hi born died moved_to g e /\
      trans_integral lo hi kmin kmax (fun xs => posterior lo hi T (data_logpdf K P G ts) xs * g xs) v /\
      forall j k xs, (kmin <= k <= kmax)%nat -> in_box lo hi k xs -> Rabs (e j xs - v / Z) <= 2 * B * rho ^ (j / kmax).
Proof.
  intros Hk Hlo Hsd HT HF Hphi Hgd HG Hll. pose proof (C77_gaussian_data kmin kmax lo hi T ts fs K P G ll HT Hk Hgd Hll) as Hev.
  destruct (C77_iteration kmin kmax range lo hi sd T ll _ _ save Hk Hlo HT Hev) as (born & died & moved_to & Hf & _).
  assert (HL : forall k, (kmin <= k <= kmax)%nat -> cont_on lo hi k (data_logpdf K P G ts)) by (intros k Hkk; apply C73_continuous; auto).
  destruct (C87_converges kmin kmax range lo hi sd T ll _ _ save F phi born died moved_to Hk Hlo Hsd HT HF Hphi HL Hev Hf) as (Z & rho & H).
  exists born, died, moved_to, Z, rho. split; auto.
Qed.
(** With a likelihood that does not depend on the values, all numbers of values from [kmin] to [kmax] become
    equally frequent, whatever the start. *)
Lemma box_constant lo hi m c : box_int lo hi m (fun _ => c) = (hi - lo) ^ m * c.
Proof.
  induction m as [|m IH]; cbn [box_int pow]; [ring|]. rewrite IH, RInt_const. change ((hi - lo) * ((hi - lo) ^ m * c) = (hi - lo) * (hi - lo) ^ m * c). ring.
Qed.
Theorem C87_numbers kmin kmax range lo hi sd T ll c kept save F phi born died moved_to :
  (1 <= kmin <= kmax)%nat -> lo < hi -> 0 < sd -> 0 < T -> normal_cdf F -> (forall z, derivable_pt_lim F z (phi z)) ->
  evaluates_all kmin kmax lo hi T ll (fun _ => c) kept ->
  follows_all (inversion_env [numbers_space kmin kmax range lo hi sd] ll save) kmin kmax lo hi T kept born died moved_to ->
  exists rho, 0 <= rho < 1 /\ forall m, (kmin <= m <= kmax)%nat ->
    exists e, trans_means phi kmin kmax lo hi born died moved_to (fun xs => if (length xs =? m)%nat then 1 else 0) e /\
      forall j k xs, (kmin <= k <= kmax)%nat -> in_box lo hi k xs -> Rabs (e j xs - / INR (S kmax - kmin)) <= 2 * rho ^ (j / kmax).
Proof.
  intros Hk Hlo Hsd HT HF Hphi Hev Hf.
  destruct (C87_converges kmin kmax range lo hi sd T ll _ _ save F phi born died moved_to Hk Hlo Hsd HT HF Hphi (fun k _ => ucont_const lo hi k c) Hev Hf) as (Z & rho & HZ & IZ & Hrho & H).
  exists rho. split; auto. intros m Hm. set (g := fun xs : list R => if (length xs =? m)%nat then 1 else 0).
  assert (Hg : forall k, cont_on lo hi k g).
  { intros k. apply (ucont_ext lo hi k (fun _ => if (k =? m)%nat then 1 else 0)); [|apply ucont_const]. intros xs [Hl _]. unfold g. now rewrite Hl. }
  destruct (H g 1 (fun k _ => Hg k)) as (e & v & He & Iv & Hc).
  { intros k xs _ _. unfold g. destruct (length xs =? m)%nat; rewrite Rabs_right; lra. }
  exists e. split; auto. intros j k xs Hkk Hx. replace (2 * rho ^ (j / kmax)) with (2 * 1 * rho ^ (j / kmax)) by ring.
  replace (/ INR (S kmax - kmin)) with (v / Z); [now apply (Hc j k)|]. clear Hc He.
  assert (Ek : forall k f w, (forall xs, in_box lo hi k xs -> f xs = w / (hi - lo) ^ k) -> forall r, box_integral lo hi k f r -> r = w).
  { intros k0 f w Ef r Hr. assert (Hw : 0 < (hi - lo) ^ k0) by (apply pow_lt; lra).
    assert (Hcf : cont_on lo hi k0 f) by (apply (ucont_ext lo hi k0 (fun _ => w / (hi - lo) ^ k0)); [intros; symmetry; auto|apply ucont_const]).
    rewrite (box_integral_unique lo hi Hlo k0 f r (box_int lo hi k0 f) Hr (box_int_is lo hi Hlo k0 f Hcf)).
    rewrite (box_int_ext lo hi Hlo k0 f (fun _ => w / (hi - lo) ^ k0)) by auto. rewrite box_constant. field. lra. }
  set (w := exp (c / T)). assert (Hw : 0 < w) by apply exp_pos.
  destruct IZ as (h & Hh & EZ). destruct Iv as (h' & Hh' & Ev).
  assert (E1 : Z = INR (S kmax - kmin) * w).
  { rewrite EZ. rewrite (map_ext_in h (fun _ => w)); [rewrite rsum_const, seq_length; reflexivity|].
    intros i Hi. apply in_seq in Hi. apply (Ek i (posterior lo hi T (fun _ => c)) w); [|apply Hh; lia]. intros ys [Hl _]. unfold posterior. now rewrite Hl. }
  assert (E2 : v = w).
  { rewrite Ev. rewrite (map_ext_in h' (fun i => if (i =? m)%nat then w else 0)).
    - assert (G : forall n a, (a <= m < a + n)%nat -> rsum (map (fun i => if (i =? m)%nat then w else 0) (seq a n)) = w).
      { assert (G0 : forall n a, (m < a)%nat -> rsum (map (fun i => if (i =? m)%nat then w else 0) (seq a n)) = 0).
        { induction n as [|n IH]; intros a Ha; [reflexivity|]. cbn [seq map]. unfold rsum in *. cbn [fold_right]. rewrite IH by lia. destruct (Nat.eqb_spec a m); [lia|ring]. }
        induction n as [|n IH]; intros a Ha; [lia|]. cbn [seq map]. unfold rsum in *. cbn [fold_right]. destruct (Nat.eqb_spec a m) as [->|Ne].
        - rewrite G0 by lia. ring.
        - rewrite IH by lia. ring. }
      apply G. lia.
    - intros i Hi. apply in_seq in Hi. apply (Ek i (fun xs => posterior lo hi T (fun _ => c) xs * g xs)); [|apply Hh'; lia]. intros ys [Hl _]. unfold posterior, g. rewrite Hl.
      change (exp (c / T)) with w. clearbody w. destruct (i =? m)%nat; unfold Rdiv; ring. }
  rewrite E1, E2. assert (INR (S kmax - kmin) <> 0) by (apply not_0_INR; lia). field. split; auto; lra.
Qed.
(** The hypotheses meet: one to three numbers in [0, 1], log likelihood minus their sum, and a constant one. *)
Example C87_case : exists ll F phi born died moved_to,
  normal_cdf F /\ (forall z, derivable_pt_lim F z (phi z)) /\
  (forall k, (1 <= k <= 3)%nat -> cont_on 0 1 k (fun xs => - rsum xs)) /\
  evaluates_all 1 3 0 1 2 ll (fun xs => - rsum xs) (fun _ => True) /\
  follows_all (inversion_env [numbers_space 1 3 (1 / 2) 0 1 (1 / 10)] ll true) 1 3 0 1 2 (fun _ => True) born died moved_to /\
  (forall k, (1 <= k <= 3)%nat -> cont_on 0 1 k rsum) /\
  (forall k xs, (1 <= k <= 3)%nat -> in_box 0 1 k xs -> Rabs (rsum xs) <= 3).
Proof.
  destruct C77_run_case as (ll & F & phi & b & d & m & H1 & H2 & H3 & H4 & H5 & H6). exists ll, F, phi, b, d, m. repeat (split; [assumption|]).
  intros k xs Hk [Hl Hb]. enough (H : 0 <= rsum xs <= INR (length xs)).
  { rewrite Rabs_right by lra. assert (INR (length xs) <= INR 3) by (apply le_INR; lia). cbn in *. lra. }
  clear - Hb. induction Hb as [|x xs Hx Hb IH]; [cbn; lra|]. cbn [length]. rewrite S_INR. change (0 <= x + rsum xs <= INR (length xs) + 1). lra.
Qed.
Example C87_numbers_case : exists ll F phi born died moved_to,
  normal_cdf F /\ (forall z, derivable_pt_lim F z (phi z)) /\
  evaluates_all 1 3 0 1 2 ll (fun _ => 5) (fun _ => True) /\
  follows_all (inversion_env [numbers_space 1 3 (1 / 2) 0 1 (1 / 10)] ll true) 1 3 0 1 2 (fun _ => True) born died moved_to.
Proof.
  destruct C77_posterior_case as (_ & F & phi & HF & Hphi & _).
  destruct (loglike_init None None None (Some (fun _ => ret (Fin 5)))) as [ll| |] eqn:Hll; [|discriminate|discriminate].
  assert (Hc : forall k, (1 <= k <= 3)%nat -> computes k 0 1 (fun _ => ret (Fin 5)) (fun _ => 5)) by (intros k _ s xs tr _ _; reflexivity).
  assert (Hev : evaluates_all 1 3 0 1 2 ll (fun _ => 5) (fun _ => True)) by (eapply C77_function; eauto; lra).
  destruct (C77_iteration 1 3 (1 / 2) 0 1 (1 / 10) 2 ll _ _ true ltac:(lia) ltac:(lra) ltac:(lra) Hev) as (b & d & m & Hf & _).
  exists ll, F, phi, b, d, m. auto.
Qed.
