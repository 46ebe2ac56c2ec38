(** C88 for data with Gaussian noise of known covariance. *)
From Coquelicot Require Import Coquelicot.
From Verif Require Import Base ModelPrior ModelState ModelSpace ModelPerturb ModelChain ModelLikelihood SpecWalk SpecInvariance SpecMany SpecUtils1D SpecLikelihood.
From Verif Require Import ProofChain ProofBox ProofConverge ProofRanges PropMany.
From Verif Require ExampleWalk PropLikelihood PropPredictions ProofRun ProofUtils1DB PropInvarianceLike.
Local Open Scope string_scope.
Local Open Scope list_scope.
Local Open Scope R_scope.
Notation not_zero := PropInvarianceLike.not_zero.
Notation misfit_known := PropInvarianceLike.misfit_known.
Notation data_logpdf := PropInvarianceLike.data_logpdf.
Notation C73_continuous := PropInvarianceLike.C73_continuous.

(** The observed data [t_dobs t] are [G t xs] plus noise of covariance [K t]; the inverse
    [P t] of the covariance is given to the Target, the forward functions compute [G]. *)
Record gaussian_data (ns : list number) (ts : list target) (fs : list fwd)
    (K P : target -> nat -> nat -> R) (G : target -> list R -> list R) : Prop := {
  gd_names : NoDup (map t_name ts);
  gd_noise : forall t, In t ts -> (1 <= length (t_dobs t))%nat /\ inverse (length (t_dobs t)) (K t) (P t) /\
    exists v, t_cov t = Some v /\ given_precision v (length (t_dobs t)) (P t);
  gd_length : forall t xs, In t ts -> in_ranges (ranges ns) xs -> length (G t xs) = length (t_dobs t);
  gd_fwd : forall t f s xs tr, In (t, f) (combine ts fs) -> holds ns s xs -> in_ranges (ranges ns) xs -> f_fun f s tr = Ret (G t xs) tr
}.
(** The cache holds predictions of the state's own values, if any. *)
Definition own_predictions (ns : list number) (ts : list target) (G : target -> list R -> list R) (s : state) : Prop :=
  forall xs t c, holds ns s xs -> in_ranges (ranges ns) xs -> In t ts -> dget (dpred_key t) (st_cache s) = Some c -> c = CPred (G t xs).

Section Data.
Context (ns : list number) (K P : target -> nat -> nat -> R) (G : target -> list R -> list R).

Lemma holds_same s s' xs : ProofRun.same_values s s' -> holds ns s xs -> holds ns s' xs.
Proof. intros (V & A & B & C) (Hl & (a & b & E) & X). split; [exact Hl|]. split; [exists a, b; congruence|congruence]. Qed.
Lemma holds_inj s xs ys : holds ns s xs -> holds ns s ys -> xs = ys.
Proof. intros (H1 & (a & b & E1) & _) (H2 & (a' & b' & E2) & _). rewrite E1 in E2. injection E2 as E2 _ _. now apply (values_inj ns). Qed.

(** The loop over the targets. *)
Lemma loop_data ts fs : gaussian_data ns ts fs K P G -> length fs = length ts ->
  forall s xs m d tr, holds ns s xs -> in_ranges (ranges ns) xs -> own_predictions ns ts G s ->
  exists s', misfit_loop (combine ts (map preprocess_fwd fs)) s m d tr =
      Ret (s', inl (m + rsum (map (fun t => quad (length (t_dobs t)) (P t) (fun i => nth i (G t xs) 0 - nth i (t_dobs t) 0)) ts), d)) tr /\
    ProofRun.same_values s s' /\ own_predictions ns ts G s' /\
    forall k, (forall t, In t ts -> k <> dpred_key t) -> dget k (st_cache s') = dget k (st_cache s).
Proof.
  revert fs. induction ts as [|t ts IH]; intros [|f fs] Hgd Hl s xs m d tr Hs Hb Ho; try discriminate.
  - exists s. cbn. split; [now rewrite Rplus_0_r|]. split; [apply ProofRun.same_values_refl|]. split; auto.
  - assert (Hgd' : gaussian_data ns ts fs K P G).
    { destruct Hgd as [N1 N2 N3 N4]. inversion N1; subst. constructor; auto.
      - intros. apply N2. now right.
      - intros. apply N3; auto. now right.
      - intros. eapply N4; eauto. now right. }
    destruct (gd_noise _ _ _ _ _ _ Hgd t (or_introl eq_refl)) as (Hn & Hi & Hv).
    pose proof (gd_length _ _ _ _ _ _ Hgd t xs (or_introl eq_refl) Hb) as Hlen.
    assert (Hnt : ~ In (t_name t) (map t_name ts)) by (pose proof (gd_names _ _ _ _ _ _ Hgd) as N; inversion N; auto).
    assert (Hget : exists s1, get_dpred t (preprocess_fwd f) s tr = Ret (s1, inl (G t xs)) tr /\ ProofRun.same_values s s1 /\
      own_predictions ns (t :: ts) G s1 /\ dget (dpred_key t) (st_cache s1) = Some (CPred (G t xs)) /\
      forall k, k <> dpred_key t -> dget k (st_cache s1) = dget k (st_cache s)).
    { unfold get_dpred. destruct (dget (dpred_key t) (st_cache s)) as [c|] eqn:Ec.
      - pose proof (Ho xs t c Hs Hb (or_introl eq_refl) Ec) as ->. exists s. split; [reflexivity|]. split; [apply ProofRun.same_values_refl|auto].
      - pose proof (gd_fwd _ _ _ _ _ _ Hgd t f s xs tr (or_introl eq_refl) Hs Hb) as Ef.
        assert (Ec' : call_fwd (preprocess_fwd f) s tr = Ret (G t xs) tr) by exact Ef.
        unfold bind, try. rewrite Ec'.
        exists (st_save_cache (dpred_key t) (CPred (G t xs)) s). split; [reflexivity|].
        split; [repeat split|]. cbn [st_cache st_save_cache]. split; [|split].
        + intros ys t' c Hs' Hb' Hin Hc. cbn [st_cache st_save_cache] in Hc.
          assert (ys = xs) by (apply (holds_inj s); auto). subst ys.
          destruct (string_dec (dpred_key t') (dpred_key t)) as [E|Hne].
          * rewrite E, dget_dset_same in Hc. injection Hc as <-. destruct Hin as [<-|Hin]; auto.
            exfalso. apply Hnt. apply PropLikelihood.dpred_key_inj in E. rewrite <- E. now apply in_map.
          * rewrite dget_dset_other in Hc by auto. eapply Ho; eauto.
        + apply dget_dset_same.
        + intros k Hk. now apply dget_dset_other. }
    destruct Hget as (s1 & E1 & V1 & O1 & D1 & C1).
    assert (O1' : own_predictions ns ts G s1) by (intros ys t' c A B C; apply O1; auto; now right).
    pose proof (holds_same _ _ _ V1 Hs) as Hs1.
    destruct (IH fs Hgd' ltac:(now injection Hl) s1 xs (m + quad (length (t_dobs t)) (P t) (fun i => nth i (G t xs) 0 - nth i (t_dobs t) 0)) (d + 0) tr Hs1 Hb O1')
      as (s' & E' & V' & O' & C').
    exists s'. cbn [combine map misfit_loop]. unfold bind at 1. rewrite E1.
    rewrite (misfit_known K P t s1 (G t xs) Hn Hi Hv Hlen). rewrite E'. cbn [map]. change (rsum (?a :: ?l)) with (a + rsum l).
    rewrite Rplus_0_r, Rplus_assoc. split; [reflexivity|]. split; [|split].
    + destruct V1 as (A1 & A2 & A3 & A4), V' as (B1 & B2 & B3 & B4). repeat split; congruence.
    + intros ys t' c A B [<-|Hin] Hc; [|eapply O'; eauto].
      assert (ys = xs) by (apply (holds_inj s'); auto; eapply holds_same; eauto). subst ys.
      rewrite C' in Hc; [congruence|]. intros t' Hin E. apply Hnt. apply PropLikelihood.dpred_key_inj in E. rewrite E. now apply in_map.
    + intros k Hk. rewrite C' by (intros t' Ht'; apply Hk; now right). apply C1. apply Hk. now left.
Qed.
End Data.

(** The ratios of LogLikelihood(targets, fwd_functions) are those of the density of the
    data, and the predictions kept in the caches stay those of the states' values. *)
Theorem C88_gaussian_data ns T ts fs K P G ll : 0 < T -> gaussian_data ns ts fs K P G ->
  loglike_init (Some (map ATarget ts)) (Some (map AFwd fs)) None None = Ok ll ->
  evaluates ns T ll (data_logpdf K P G ts) (own_predictions ns ts G).
Proof.
  intros HT Hgd H.
  assert (Et : only_targets (map ATarget ts) = Some ts) by (clear; induction ts as [|t l IH]; cbn; auto; now rewrite IH).
  assert (Ef : only_fwds (map AFwd fs) = Some fs) by (clear; induction fs as [|t l IH]; cbn; auto; now rewrite IH).
  unfold loglike_init, extend_targets in H. rewrite Et, Ef in H. cbn [set_lists set_hier ll_targets ll_fwds ll_hier app] in H.
  destruct (dup_name (map t_name ts)); [discriminate|]. cbn [set_lists set_hier ll_targets ll_fwds ll_hier app] in H.
  assert (Hh : filter is_hier ts = []).
  { pose proof (gd_noise _ _ _ _ _ _ Hgd) as N. clear - N. induction ts as [|t l IH]; auto. cbn.
    destruct (N t (or_introl eq_refl)) as (_ & _ & v & Ev & _). unfold is_hier at 1. rewrite Ev. apply IH. intros. apply N. now right. }
  rewrite Hh in H.
  assert (Hll : ll = mkLL ts (map preprocess_fwd fs) None None MTargets [] /\ length fs = length ts).
  { destruct ts; [discriminate|]. destruct fs; [discriminate|]. destruct (Nat.eqb_spec (length (f :: fs)) (length (t :: ts))); [|discriminate].
    now injection H as <-. }
  destruct Hll as [-> Hl]. clear H. constructor.
  - reflexivity.
  - intros s xs Hs Ec ys t c _ _ _ Hc. rewrite Ec in Hc. discriminate.
  - intros old new xs ys tr Ho Hx Ko Hn Hy Hf.
    assert (Kn : own_predictions ns ts G new).
    { intros zs t c _ _ _ Hc. destruct Hf as (nm & Hf). rewrite Hf in Hc. cbn [dget] in Hc. destruct (String.eqb_spec (dpred_key t) "perturb_stats") as [E|E]; [|discriminate].
      exfalso. eapply PropPredictions.dpred_not_stats. symmetry. exact E. }
    destruct (loop_data ns K P G ts fs Hgd Hl old xs 0 0 tr Ho Hx Ko) as (old' & E1 & V1 & K1 & _).
    destruct (loop_data ns K P G ts fs Hgd Hl new ys 0 0 tr Hn Hy Kn) as (new' & E2 & V2 & K2 & C2).
    exists old', new'. split; [|split; [eapply holds_same; eauto|split; [auto|split; [eapply holds_same; eauto|split; [auto|]]]]].
    + unfold log_likelihood_ratio. rewrite (not_zero T HT). cbn [raw_ratio ll_mode]. unfold ratio_from_targets. cbn [ll_targets ll_fwds].
      unfold bind. rewrite E1, E2. unfold ret. cbn [ediv]. do 4 f_equal. unfold data_logpdf.
      assert (Hs : forall zs, rsum (map (fun t => normal_logpdf (length (t_dobs t)) (K t) (P t) (fun i => nth i (G t zs) 0 - nth i (t_dobs t) 0)) ts) =
        rsum (map (fun t => - (INR (length (t_dobs t)) / 2) * ln (2 * PI) - / 2 * ln (det (length (t_dobs t)) (K t))) ts) -
        / 2 * rsum (map (fun t => quad (length (t_dobs t)) (P t) (fun i => nth i (G t zs) 0 - nth i (t_dobs t) 0)) ts)).
      { intros zs. clear. induction ts as [|t l IH]; cbn [map]; [cbn; lra|]. change (rsum (?a :: ?l)) with (a + rsum l). rewrite IH.
        unfold normal_logpdf at 1. lra. }
      rewrite !Hs. unfold Rdiv. f_equal. lra.
    + apply C2. intros t _. apply PropPredictions.dpred_not_stats.
Qed.

Theorem C88_continuous ns K P G ts : ranged ns ->
  (forall t i, In t ts -> cont_ranges (ranges ns) (fun xs => nth i (G t xs) 0)) -> cont_ranges (ranges ns) (data_logpdf K P G ts).
Proof.
  intros Hr HG. pose proof (ranged_proper ns Hr) as Hp. set (rs := ranges ns) in *.
  assert (Hc : cont_on 0 1 (length rs) (data_logpdf K P (fun t us => G t (scale rs us)) ts)).
  { apply C73_continuous; [lra|]. intros t i Ht. apply (cont_scale rs (fun xs => nth i (G t xs) 0)); auto. }
  intros eps He. destruct (cont_unscale rs _ Hp Hc eps He) as (d & Hd & H). exists d. split; auto. intros xs ys Hx Hy Hn.
  pose proof (H xs ys Hx Hy Hn) as E. unfold data_logpdf in E |- *. cbn beta in E.
  rewrite !(scale_unscale rs Hp) in E by now apply ranges_length. exact E.
Qed.
(** Whatever numbers the chain starts from, it converges to the tempered posterior distribution given the data. *)
Theorem C88_posterior ns T ts fs K P G ll save F phi :
  named ns -> ns <> [] -> ranged ns -> 0 < T -> normal_cdf F -> (forall z, derivable_pt_lim F z (phi z)) ->
  gaussian_data ns ts fs K P G -> (forall t i, In t ts -> cont_ranges (ranges ns) (fun xs => nth i (G t xs) 0)) ->
  loglike_init (Some (map ATarget ts)) (Some (map AFwd fs)) None None = Ok ll ->
  let L := data_logpdf K P G ts in
  exists next Z rho, follows (inversion_env [many_space ns] ll save) ns T (own_predictions ns ts G) next /\
    0 < Z /\ ranges_integral (ranges ns) (fun xs => exp (L xs / T)) Z /\ 0 <= rho < 1 /\
    forall g B, cont_ranges (ranges ns) g -> (forall xs, in_ranges (ranges ns) xs -> Rabs (g xs) <= B) ->
    exists e v, means_after phi ns next g e /\
      (forall k, ranges_integral (ranges ns) (fun xs => exp (L xs / T) * e k xs) v) /\
      ranges_integral (ranges ns) (fun xs => exp (L xs / T) * g xs) v /\
      forall k xs, in_ranges (ranges ns) xs -> Rabs (e k xs - v / Z) <= 2 * B * rho ^ k.
Proof.
  intros Hn Hne Hr HT HF Hphi Hgd HG Hll. pose proof (C88_gaussian_data ns T ts fs K P G ll HT Hgd Hll) as Hev.
  destruct (C88_iteration ns T ll _ _ save Hn Hne HT Hev) as (next & Hnext & _).
  destruct (C88_converges ns T ll _ _ save F phi next Hn Hne Hr HT HF Hphi (C88_continuous ns K P G ts Hr HG) Hev Hnext) as (Z & rho & H).
  exists next, Z, rho. split; auto.
Qed.

(** * A case *)
(** The straight line m0 + m1 x is fitted to data at x = 0, 1 and 2 with a standard deviation of 1/2. *)
Definition line_numbers : list number := [mkNumber "m0" (-10) 10 1; mkNumber "m1" 0 5 (/ 4)].
Definition line_target : target := mkTarget "d" [1; 2; 4] (Some (CScalar 4)) false 0 1 1 0 1 1.
Definition line_at (a b : R) : list R := [a; a + b; a + 2 * b].
Definition line_fwd : fwd := mkFwd (fun s =>
  match st_get "m" s with
  | Some (EPS p) => match ps_get "m0" p, ps_get "m1" p with Some (Arr [a]), Some (Arr [b]) => ret (line_at a b) | _, _ => err EAttr end
  | _ => err EAttr
  end) false.
Definition line_G (t : target) (xs : list R) : list R := line_at (nth 0 xs 0) (nth 1 xs 0).
Definition line_K (t : target) (i j : nat) : R := if (i =? j)%nat then / 4 else 0.
Definition line_P (t : target) (i j : nat) : R := if (i =? j)%nat then 4 else 0.
Lemma cont_nth rs i : cont_ranges rs (fun xs => nth i xs 0).
Proof. intros eps He. exists eps. split; auto. intros. now apply near_nth. Qed.
Lemma cont_add rs f g c : cont_ranges rs f -> cont_ranges rs g -> 0 < c -> cont_ranges rs (fun xs => f xs + c * g xs).
Proof.
  intros Hf Hg Hc eps He. destruct (Hf (eps / 2) ltac:(lra)) as (d1 & Hd1 & H1).
  destruct (Hg (eps / 2 / c) ltac:(apply Rdiv_lt_0_compat; lra)) as (d2 & Hd2 & H2).
  exists (Rmin d1 d2). split; [now apply Rmin_pos|]. intros xs ys Hx Hy Hn.
  pose proof (H1 xs ys Hx Hy (near_mono _ _ _ _ (Rmin_l d1 d2) Hn)) as A. pose proof (H2 xs ys Hx Hy (near_mono _ _ _ _ (Rmin_r d1 d2) Hn)) as B.
  replace (f xs + c * g xs - (f ys + c * g ys)) with ((f xs - f ys) + c * (g xs - g ys)) by ring.
  eapply Rle_lt_trans; [apply Rabs_triang|]. rewrite (Rabs_mult c), (Rabs_pos_eq c) by lra.
  assert (c * Rabs (g xs - g ys) < c * (eps / 2 / c)) by now apply Rmult_lt_compat_l. replace (c * (eps / 2 / c)) with (eps / 2) in H by (field; lra). lra.
Qed.
Example C88_posterior_case : exists ll F phi,
  named line_numbers /\ ranged line_numbers /\ normal_cdf F /\ (forall z, derivable_pt_lim F z (phi z)) /\
  gaussian_data line_numbers [line_target] [line_fwd] line_K line_P line_G /\
  (forall t i, In t [line_target] -> cont_ranges (ranges line_numbers) (fun xs => nth i (line_G t xs) 0)) /\
  loglike_init (Some (map ATarget [line_target])) (Some (map AFwd [line_fwd])) None None = Ok ll.
Proof.
  destruct ExampleWalk.normal_cdf_exists as (F & HF). eexists _, F. destruct (nc_density F HF) as (c & Hc & Hd). exists (fun z => c * bell z).
  split. { split; [|repeat constructor; discriminate]. cbn. repeat constructor; cbn; intuition discriminate. }
  split; [repeat constructor; cbn; lra|]. split; [exact HF|]. split; [exact Hd|]. split; [|split; [|reflexivity]].
  - constructor.
    + repeat constructor. auto.
    + intros t [<-|[]]. split; [cbn; lia|]. split.
      * intros i k Hi Hk. cbn in Hi, Hk. assert (Hi' : i = 0%nat \/ i = 1%nat \/ i = 2%nat) by lia. assert (Hk' : k = 0%nat \/ k = 1%nat \/ k = 2%nat) by lia.
        destruct Hi' as [-> | [-> | ->]], Hk' as [-> | [-> | ->]]; cbn; unfold line_K, line_P; cbn; split; lra.
      * eexists. split; [reflexivity|]. intros i j. reflexivity.
    + intros t xs [<-|[]] _. reflexivity.
    + intros t f s xs tr [E|[]] (Hl & (at_ & ca & Hs) & _) _. injection E as <- <-. destruct xs as [|a [|b [|]]]; try discriminate.
      cbn [f_fun line_fwd]. unfold st_get. rewrite Hs. reflexivity.
  - intros t i [<-|[]]. unfold line_G, line_at. destruct i as [|[|[|i]]]; cbn [nth].
    + apply cont_nth.
    + pose proof (cont_add (ranges line_numbers) _ _ 1 (cont_nth _ 0) (cont_nth _ 1) ltac:(lra)) as H. intros eps He. destruct (H eps He) as (d & Hd' & H').
      exists d. split; auto. intros xs ys Hx Hy Hn. specialize (H' xs ys Hx Hy Hn). cbn beta in H'. rewrite !Rmult_1_l in H'. exact H'.
    + apply cont_add; [apply cont_nth|apply cont_nth|lra].
    + intros eps He. exists 1. split; [lra|]. intros. destruct i; replace (0 - 0) with 0 by lra; now rewrite Rabs_R0.
Qed.
