(** C85: from whatever values the chain of an inversion for numbers with uniform priors starts, the distribution
    of its values converges to the tempered posterior distribution, geometrically. *)
From Coquelicot Require Import Coquelicot.
From Verif Require Import Base ModelPrior ModelState ModelSpace ModelPerturb ModelChain ModelLikelihood SpecWalk SpecInvariance SpecLikelihood.
From Verif Require Import ProofBox ProofInvariance ProofConverge PropInvariance PropInvarianceLike.
From Verif Require ExampleWalk.
Local Open Scope R_scope.

(** [e k xs] is the mean of [g] after [k] iterations that start from the values [xs]. *)
Definition means_after (phi : R -> R) (n : nat) (lo hi : R) (next : list R -> nat -> R -> R -> list R)
    (g : list R -> R) (e : nat -> list R -> R) : Prop :=
  (forall xs, e O xs = g xs) /\
  forall k xs, in_box lo hi n xs -> mean_draws phi n (fun i z u => e k (next xs i z u)) (e (S k) xs).

(** [Z] normalises the density exp(L/T); [v / Z] is the posterior mean of [g]. The rate [rho] does not depend on
    [g] or on the start. *)
Theorem C85_converges n lo hi sd T ll L kept save F phi next :
  (0 < n)%nat -> lo < hi -> 0 < sd -> 0 < T -> normal_cdf F -> (forall z, derivable_pt_lim F z (phi z)) ->
  cont_on lo hi n L -> evaluates n lo hi T ll L kept ->
  follows (inversion_env [number_space n lo hi sd] ll save) n lo hi T kept next ->
  exists Z rho, 0 < Z /\ box_integral lo hi n (fun xs => exp (L xs / T)) Z /\ 0 <= rho < 1 /\
    forall g B, cont_on lo hi n g -> (forall xs, in_box lo hi n xs -> Rabs (g xs) <= B) ->
    exists e v, means_after phi n lo hi next g e /\
      box_integral lo hi n (fun xs => exp (L xs / T) * g xs) v /\
      forall k xs, in_box lo hi n xs -> Rabs (e k xs - v / Z) <= 2 * B * rho ^ (k / n).
Proof.
  intros Hn Hlo Hsd HT HF Hphi HL Hev Hnext.
  assert (Hd : cont_on lo hi n (dens T L)) by (eapply ucont_dens; eauto).
  destruct (box_converges lo hi Hlo n Hn sd T Hsd HT F phi HF Hphi L HL) as (rho & Hrho & H).
  exists (mass lo hi n T L), rho. split; [apply mass_pos; auto|]. split; [apply box_int_is; auto|]. split; auto.
  intros g B Hg HB. set (P := after lo hi n sd T phi L).
  exists (fun k => Nat.iter k P g), (box_int lo hi n (fun xs => exp (L xs / T) * g xs)).
  assert (Hc : forall k, cont_on lo hi n (Nat.iter k P g)).
  { induction k as [|k IH]; auto. cbn. eapply ucont_after; eauto. }
  split; [split; [reflexivity|]|split].
  - intros k xs Hx. eapply mean_draws_ext; [|eapply mean_draws_step; eauto].
    intros i z u Hi Hu. cbn beta. rewrite (follows_step n lo hi sd T ll L kept save Hev next Hnext xs i z u); auto.
  - apply box_int_is; auto. apply (ucont_mult lo hi Hlo n (dens T L)); auto.
  - intros k xs Hx. exact (H g B Hg HB k xs Hx).
Qed.
(** The means are determined by the chain. *)
Lemma mean_deviate_unique phi h h' m m' : (forall z, h z = h' z) -> mean_deviate phi h m -> mean_deviate phi h' m' -> m = m'.
Proof.
  intros E (p & H1 & L1) (p' & H2 & L2).
  assert (Ep : forall t, 0 < t -> p t = p' t).
  { intros t Ht. pose proof (is_RInt_unique _ _ _ _ (H1 t Ht)) as U1. pose proof (is_RInt_unique _ _ _ _ (H2 t Ht)) as U2. rewrite <- U1, <- U2.
    apply RInt_ext. intros z _. now rewrite E. }
  assert (L2' : is_lim p p_infty m'). { apply (is_lim_ext_loc p'); auto. exists 0. intros t Ht. symmetry. auto. }
  apply is_lim_unique in L1. apply is_lim_unique in L2'. rewrite L1 in L2'. now injection L2'.
Qed.
Lemma mean_draws_unique phi n h h' m m' : (forall i z u, (i < n)%nat -> 0 < u < 1 -> h i z u = h' i z u) ->
  mean_draws phi n h m -> mean_draws phi n h' m' -> m = m'.
Proof.
  intros E (hz & hm & A1 & A2 & ->) (hz' & hm' & B1 & B2 & ->). f_equal. f_equal. apply map_ext_in. intros i Hi. apply in_seq in Hi.
  assert (Hin : (i < n)%nat) by lia.
  apply (mean_deviate_unique phi (hz i) (hz' i)); auto. intros z.
  pose proof (is_RInt_unique _ _ _ _ (A1 i z Hin)) as U1. pose proof (is_RInt_unique _ _ _ _ (B1 i z Hin)) as U2. rewrite <- U1, <- U2.
  apply RInt_ext. intros u Hu. rewrite Rmin_left, Rmax_right in Hu by lra. now apply E.
Qed.
Theorem C85_means_unique n lo hi sd T ll L kept save phi next g e e' :
  (0 < n)%nat -> 0 < T -> evaluates n lo hi T ll L kept ->
  follows (inversion_env [number_space n lo hi sd] ll save) n lo hi T kept next ->
  means_after phi n lo hi next g e -> means_after phi n lo hi next g e' -> forall k xs, in_box lo hi n xs -> e k xs = e' k xs.
Proof.
  intros Hn HT Hev Hnext [H0 H] [H0' H']. induction k as [|k IH]; intros xs Hx; [now rewrite H0, H0'|].
  eapply (mean_draws_unique phi n _ _ _ _ _ (H k xs Hx) (H' k xs Hx)). Unshelve. intros i z u Hi Hu. cbn beta.
  rewrite !(follows_step n lo hi sd T ll L kept save Hev next Hnext xs i z u) by auto. apply IH. now apply step_inside.
Qed.
(** Hence no other continuous density is kept: if [h] has integral 1 and the integrals of all continuous functions
    against it stay the same in one iteration, these integrals are those of the posterior distribution. *)
Theorem C85_only n lo hi sd T ll L kept save F phi next h :
  (0 < n)%nat -> lo < hi -> 0 < sd -> 0 < T -> normal_cdf F -> (forall z, derivable_pt_lim F z (phi z)) ->
  cont_on lo hi n L -> evaluates n lo hi T ll L kept ->
  follows (inversion_env [number_space n lo hi sd] ll save) n lo hi T kept next ->
  cont_on lo hi n h -> box_integral lo hi n h 1 ->
  (forall g e v w, cont_on lo hi n g -> cont_on lo hi n e ->
     (forall xs, in_box lo hi n xs -> mean_draws phi n (fun i z u => g (next xs i z u)) (e xs)) ->
     box_integral lo hi n (fun xs => h xs * g xs) v -> box_integral lo hi n (fun xs => h xs * e xs) w -> v = w) ->
  forall g v Z w, cont_on lo hi n g -> box_integral lo hi n (fun xs => h xs * g xs) v ->
    box_integral lo hi n (fun xs => exp (L xs / T)) Z -> box_integral lo hi n (fun xs => exp (L xs / T) * g xs) w -> v = w / Z.
Proof.
  intros Hn Hlo Hsd HT HF Hphi HL Hev Hnext Hh H1 Hkeep g v Z w Hg Hv HZ Hw.
  assert (Hd : cont_on lo hi n (dens T L)) by (eapply ucont_dens; eauto).
  destruct (box_converges lo hi Hlo n Hn sd T Hsd HT F phi HF Hphi L HL) as (rho & Hrho & Hc).
  set (P := after lo hi n sd T phi L) in *.
  assert (Hcont : forall k, cont_on lo hi n (Nat.iter k P g)).
  { induction k as [|k IH]; auto. cbn. eapply ucont_after; eauto. }
  assert (EZ : Z = mass lo hi n T L) by (eapply (box_integral_unique lo hi Hlo); [exact HZ|apply box_int_is; auto]).
  assert (Ew : w = box_int lo hi n (fun xs => dens T L xs * g xs)).
  { eapply (box_integral_unique lo hi Hlo); [exact Hw|]. apply box_int_is; auto. now apply (ucont_mult lo hi Hlo n (dens T L)). }
  assert (Ep : w / Z = post lo hi n T L g) by (unfold post; now rewrite EZ, Ew).
  assert (Eh1 : box_int lo hi n h = 1) by (eapply (box_integral_unique lo hi Hlo); [apply box_int_is; auto|exact H1]).
  assert (Ek : forall k, box_int lo hi n (fun xs => h xs * Nat.iter k P g xs) = v).
  { induction k as [|k IH].
    - eapply (box_integral_unique lo hi Hlo); [|exact Hv]. apply box_int_is; auto. now apply (ucont_mult lo hi Hlo n h).
    - rewrite <- IH. symmetry. apply (Hkeep (Nat.iter k P g) (Nat.iter (S k) P g)); auto.
      + intros xs Hx. eapply mean_draws_ext; [|eapply mean_draws_step; eauto].
        intros i z u Hi Hu. cbn beta. rewrite (follows_step n lo hi sd T ll L kept save Hev next Hnext xs i z u); auto.
      + apply box_int_is; auto. now apply (ucont_mult lo hi Hlo n h).
      + apply box_int_is; auto. now apply (ucont_mult lo hi Hlo n h). }
  destruct (ucont_bounded lo hi Hlo n g Hg) as (B & HB & BB). destruct (ucont_bounded lo hi Hlo n h Hh) as (A & HA & BA).
  rewrite Ep. set (m := post lo hi n T L g) in *. set (V := (hi - lo) ^ n). assert (HV : 0 < V) by (apply pow_lt; lra).
  assert (Hb : forall k, Rabs (v - m) <= A * (2 * B * rho ^ k) * V).
  { intros k. rewrite <- (Ek (k * n)%nat).
    replace m with (box_int lo hi n (fun xs => m * h xs)) by (rewrite (box_int_scal lo hi Hlo n m h) by auto; rewrite Eh1; ring).
    apply box_int_close; auto; [now apply (ucont_mult lo hi Hlo n h)|now apply ucont_scal|].
    intros xs Hx. replace (h xs * Nat.iter (k * n) P g xs - m * h xs) with (h xs * (Nat.iter (k * n) P g xs - m)) by ring.
    rewrite Rabs_mult. apply Rmult_le_compat; [apply Rabs_pos|apply Rabs_pos|auto|].
    eapply Rle_trans; [apply (Hc g B Hg BB (k * n)%nat xs Hx)|]. rewrite Nat.div_mul by lia. lra. }
  destruct (Req_dec v m) as [|Hne]; auto. exfalso.
  assert (Hp : 0 < Rabs (v - m)) by (apply Rabs_pos_lt; lra).
  set (K := A * (2 * B) * V). assert (HK : 0 < K) by (unfold K; repeat apply Rmult_lt_0_compat; lra).
  destruct (pow_lt_1_zero rho ltac:(rewrite Rabs_right; lra) (Rabs (v - m) / K) ltac:(now apply Rdiv_lt_0_compat)) as (k & Hk).
  specialize (Hk k ltac:(lia)). specialize (Hb k). rewrite Rabs_right in Hk by (apply Rle_ge, pow_le; lra).
  assert (K * rho ^ k < Rabs (v - m)). { replace (Rabs (v - m)) with (K * (Rabs (v - m) / K)) by (field; lra). now apply Rmult_lt_compat_l. }
  unfold K in *. lra.
Qed.
(** Gaussian data and forward functions. *)
Theorem C85_posterior n lo hi sd T ts fs K P G ll save F phi :
  (0 < n)%nat -> lo < hi -> 0 < sd -> 0 < T -> normal_cdf F -> (forall z, derivable_pt_lim F z (phi z)) ->
  gaussian_data n lo hi ts fs K P G -> (forall t i, In t ts -> cont_on lo hi n (fun xs => nth i (G t xs) 0)) ->
  loglike_init (Some (map ATarget ts)) (Some (map AFwd fs)) None None = Ok ll ->
  exists next Z rho, follows (inversion_env [number_space n lo hi sd] ll save) n lo hi T (own_predictions n lo hi ts G) next /\
    0 < Z /\ box_integral lo hi n (fun xs => exp (data_logpdf K P G ts xs / T)) Z /\ 0 <= rho < 1 /\
    forall g B, cont_on lo hi n g -> (forall xs, in_box lo hi n xs -> Rabs (g xs) <= B) ->
    exists e v, means_after phi n lo hi next g e /\
      box_integral lo hi n (fun xs => exp (data_logpdf K P G ts xs / T) * g xs) v /\
      forall k xs, in_box lo hi n xs -> Rabs (e k xs - v / Z) <= 2 * B * rho ^ (k / n).
Proof.
  intros Hn Hlo Hsd HT HF Hphi Hgd HG Hll. pose proof (C73_gaussian_data n lo hi T ts fs K P G ll HT Hgd Hll) as Hev.
  destruct (C73_iteration n lo hi sd T ll _ _ save HT Hev) as (next & Hnext & _).
  destruct (C85_converges n lo hi sd T ll _ _ save F phi next Hn Hlo Hsd HT HF Hphi (C73_continuous n lo hi K P G ts Hlo HG) Hev Hnext) as (Z & rho & H).
  exists next, Z, rho. split; auto.
Qed.
(** The hypotheses hold for two numbers in [0, 1] whose sum is observed. *)
Example C85_case : exists ll next F phi,
  normal_cdf F /\ (forall z, derivable_pt_lim F z (phi z)) /\
  evaluates 2 0 1 1 ll (data_logpdf cv_K cv_P cv_G [cv_target]) (own_predictions 2 0 1 [cv_target] cv_G) /\
  cont_on 0 1 2 (data_logpdf cv_K cv_P cv_G [cv_target]) /\
  follows (inversion_env [number_space 2 0 1 (/ 2)] ll false) 2 0 1 1 (own_predictions 2 0 1 [cv_target] cv_G) next.
Proof.
  destruct C73_posterior_case as (ll & F & phi & HF & Hphi & Hgd & HG & Hll).
  pose proof (C73_gaussian_data 2 0 1 1 _ _ _ _ _ ll ltac:(lra) Hgd Hll) as Hev.
  destruct (C73_iteration 2 0 1 (/ 2) 1 ll _ _ false ltac:(lra) Hev) as (next & Hnext & _).
  exists ll, next, F, phi. repeat (split; auto). apply C73_continuous; auto. lra.
Qed.
