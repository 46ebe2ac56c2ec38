(** C73 for the likelihoods a user can give: a function, a function for ratios, and data with
    Gaussian noise of known covariance. *)
From Coquelicot Require Import Coquelicot.
From Verif Require Import Base ModelPrior ModelState ModelSpace ModelPerturb ModelChain ModelLikelihood SpecWalk SpecInvariance.
From Verif Require Import SpecUtils1D SpecLikelihood ProofChain ProofBox ProofInvariance PropInvariance.
From Verif Require ExampleWalk PropLikelihood PropPredictions ProofRun ProofUtils1DB.
Local Open Scope string_scope.
Local Open Scope list_scope.
Local Open Scope R_scope.

Lemma not_zero T : 0 < T -> Reqb T 0 = false.
Proof. intros H. unfold Reqb. destruct (Req_EM_T T 0); auto. lra. Qed.

(** * A log likelihood function *)
Definition computes (n : nat) (lo hi : R) (f : state -> M ext) (L : list R -> R) : Prop :=
  forall s xs tr, holds n s xs -> in_box lo hi n xs -> f s tr = Ret (Fin (L xs)) tr.
Theorem C73_function n lo hi T f L ll : 0 < T -> computes n lo hi f L ->
  loglike_init None None None (Some f) = Ok ll -> evaluates n lo hi T ll L (fun _ => True).
Proof.
  intros HT Hf H. injection H as <-. constructor; auto.
  intros old new xs ys tr Ho Hx _ Hn Hy _. exists old, new. repeat split; auto; try apply Ho; try apply Hn.
  unfold log_likelihood_ratio. rewrite (not_zero T HT). cbn [raw_ratio ll_mode ll_func].
  unfold bind, ratio_from_like, wrapped, bind, try. rewrite (Hf old xs tr Ho Hx). cbn [ret]. rewrite (Hf new ys tr Hn Hy). reflexivity.
Qed.

(** * A function for ratios *)
Theorem C73_ratio_function n lo hi T f L ll : 0 < T ->
  (forall s s' xs ys tr, holds n s xs -> in_box lo hi n xs -> holds n s' ys -> in_box lo hi n ys ->
     f s s' tr = Ret (Fin (L ys - L xs)) tr) ->
  loglike_init None None (Some f) None = Ok ll -> evaluates n lo hi T ll L (fun _ => True).
Proof.
  intros HT Hf H. injection H as <-. constructor; auto.
  intros old new xs ys tr Ho Hx _ Hn Hy _. exists old, new. repeat split; auto; try apply Ho; try apply Hn.
  unfold log_likelihood_ratio. rewrite (not_zero T HT). cbn [raw_ratio ll_mode ll_ratio].
  unfold bind, wrapped, bind, try. rewrite (Hf _ _ _ _ _ Ho Hx Hn Hy). reflexivity.
Qed.

(** * Gaussian data *)
(** The observed data [t_dobs t] are [G t xs] plus noise of covariance [K t]; the inverse
    [P t] of the covariance is given to the Target, the forward functions compute [G]. *)
Record gaussian_data (n : nat) (lo hi : R) (ts : list target) (fs : list fwd)
    (K P : target -> nat -> nat -> R) (G : target -> list R -> list R) : Prop := {
  gd_names : NoDup (map t_name ts);
  gd_noise : forall t, In t ts -> (1 <= length (t_dobs t))%nat /\ inverse (length (t_dobs t)) (K t) (P t) /\
    exists v, t_cov t = Some v /\ given_precision v (length (t_dobs t)) (P t);
  gd_length : forall t xs, In t ts -> in_box lo hi n xs -> length (G t xs) = length (t_dobs t);
  gd_fwd : forall t f s xs tr, In (t, f) (combine ts fs) -> holds n s xs -> in_box lo hi n xs -> f_fun f s tr = Ret (G t xs) tr
}.
(** The log density of the data. *)
Definition data_logpdf (K P : target -> nat -> nat -> R) (G : target -> list R -> list R) (ts : list target) (xs : list R) : R :=
  rsum (map (fun t => normal_logpdf (length (t_dobs t)) (K t) (P t) (fun i => nth i (G t xs) 0 - nth i (t_dobs t) 0)) ts).
(** The cache holds predictions of the state's own values, if any. *)
Definition own_predictions (n : nat) (lo hi : R) (ts : list target) (G : target -> list R -> list R) (s : state) : Prop :=
  forall xs t c, holds n s xs -> in_box lo hi n xs -> In t ts -> dget (dpred_key t) (st_cache s) = Some c -> c = CPred (G t xs).

Section Data.
Context (n : nat) (lo hi : R) (K P : target -> nat -> nat -> R) (G : target -> list R -> list R).

Lemma holds_same s s' xs : ProofRun.same_values s s' -> holds n s xs -> holds n s' xs.
Proof. intros (V & A & B & C) [(a & b & E) X]. split; [exists a, b; congruence|congruence]. Qed.

Lemma misfit_known t s d : (1 <= length (t_dobs t))%nat -> inverse (length (t_dobs t)) (K t) (P t) ->
  (exists v, t_cov t = Some v /\ given_precision v (length (t_dobs t)) (P t)) -> length d = length (t_dobs t) ->
  target_misfit t s d = Ok (quad (length (t_dobs t)) (P t) (fun i => nth i d 0 - nth i (t_dobs t) 0), 0).
Proof.
  intros Hn Hi (v & Ec & Hv) Hd.
  assert (Hok : exists m, target_misfit t s d = Ok (m, 0)).
  { unfold target_misfit, vop, is_hier. rewrite Hd, Nat.eqb_refl. cbn [rbind]. set (r := map _ (combine d (t_dobs t))).
    assert (Hr : length r = length (t_dobs t)) by (unfold r; rewrite map_length, combine_length, Hd; apply Nat.min_id).
    rewrite Ec. cbn [rbind].
    assert (Hw : exists w, inv_cov_times t s r = Ok w /\ length w = length r).
    { unfold inv_cov_times. rewrite Ec. destruct v as [c|w|m].
      - eexists. split; [reflexivity|apply map_length].
      - destruct Hv as [Hl _]. unfold vop. rewrite Hl, Hr, Nat.eqb_refl. eexists. split; [reflexivity|].
        rewrite map_length, combine_length, Hl, Hr. apply Nat.min_id.
      - destruct Hv as [(Hl & Hrow) _]. rewrite Hr, <- Hl. clear Hl Ec. unfold matvec.
        induction m as [|row m IH]; [exists []; auto|]. inversion Hrow; subst. destruct (IH H2) as (w & Ew & Lw).
        cbn [rmap]. unfold dot at 1. rewrite Hr, H1, Nat.eqb_refl. cbn [rbind]. rewrite Ew. eexists. split; [reflexivity|]. cbn. now rewrite Lw. }
    destruct Hw as (w & -> & Lw). cbn [rbind]. unfold dot. rewrite Lw, Nat.eqb_refl. cbn [rbind]. eexists. reflexivity. }
  destruct Hok as (m & Hm). rewrite Hm. f_equal. f_equal.
  assert (HK : known_ok K t) by (unfold known_ok; rewrite Ec; exists (P t); auto).
  destruct (PropLikelihood.misfit_ok K t s d m 0 HK Hn Hd Hm) as (c & p & [_ Hc] & -> & _). rewrite Ec in Hc. destruct Hc as [_ Hp].
  assert (Ep : forall i j, p i j = P t i j).
  { intros i j. destruct v; cbn in Hp, Hv; [now rewrite Hp, Hv|destruct Hp as [_ Hp], Hv as [_ Hv]; now rewrite Hp, Hv..]. }
  unfold quad. apply ProofUtils1DB.sum_ext. intros i Hi'. f_equal. apply ProofUtils1DB.sum_ext. intros j Hj. now rewrite Ep.
Qed.

(** The loop over the targets. *)
Lemma loop_data ts fs : gaussian_data n lo hi ts fs K P G -> length fs = length ts ->
  forall s xs m d tr, holds n s xs -> in_box lo hi n xs -> own_predictions n lo hi ts G s ->
  exists s', misfit_loop (combine ts (map preprocess_fwd fs)) s m d tr =
      Ret (s', inl (m + rsum (map (fun t => quad (length (t_dobs t)) (P t) (fun i => nth i (G t xs) 0 - nth i (t_dobs t) 0)) ts), d)) tr /\
    ProofRun.same_values s s' /\ own_predictions n lo hi ts G s' /\
    forall k, (forall t, In t ts -> k <> dpred_key t) -> dget k (st_cache s') = dget k (st_cache s).
Proof.
  revert fs. induction ts as [|t ts IH]; intros [|f fs] Hgd Hl s xs m d tr Hs Hb Ho; try discriminate.
  - exists s. cbn. split; [now rewrite Rplus_0_r|]. split; [apply ProofRun.same_values_refl|]. split; auto.
  - assert (Hgd' : gaussian_data n lo hi ts fs K P G).
    { destruct Hgd as [N1 N2 N3 N4]. inversion N1; subst. constructor; auto.
      - intros. apply N2. now right.
      - intros. apply N3; auto. now right.
      - intros. eapply N4; eauto. now right. }
    destruct (gd_noise _ _ _ _ _ _ _ _ Hgd t (or_introl eq_refl)) as (Hn & Hi & Hv).
    pose proof (gd_length _ _ _ _ _ _ _ _ Hgd t xs (or_introl eq_refl) Hb) as Hlen.
    assert (Hnt : ~ In (t_name t) (map t_name ts)) by (pose proof (gd_names _ _ _ _ _ _ _ _ Hgd) as N; inversion N; auto).
    assert (Hget : exists s1, get_dpred t (preprocess_fwd f) s tr = Ret (s1, inl (G t xs)) tr /\ ProofRun.same_values s s1 /\
      own_predictions n lo hi (t :: ts) G s1 /\ dget (dpred_key t) (st_cache s1) = Some (CPred (G t xs)) /\
      forall k, k <> dpred_key t -> dget k (st_cache s1) = dget k (st_cache s)).
    { unfold get_dpred. destruct (dget (dpred_key t) (st_cache s)) as [c|] eqn:Ec.
      - pose proof (Ho xs t c Hs Hb (or_introl eq_refl) Ec) as ->. exists s. split; [reflexivity|]. split; [apply ProofRun.same_values_refl|auto].
      - pose proof (gd_fwd _ _ _ _ _ _ _ _ Hgd t f s xs tr (or_introl eq_refl) Hs Hb) as Ef.
        assert (Ec' : call_fwd (preprocess_fwd f) s tr = Ret (G t xs) tr) by exact Ef.
        unfold bind, try. rewrite Ec'.
        exists (st_save_cache (dpred_key t) (CPred (G t xs)) s). split; [reflexivity|].
        split; [repeat split|]. cbn [st_cache st_save_cache]. split; [|split].
        + intros ys t' c Hs' Hb' Hin Hc. cbn [st_cache st_save_cache] in Hc.
          assert (ys = xs) by (apply (holds_inj n s); auto). subst ys.
          destruct (string_dec (dpred_key t') (dpred_key t)) as [E|Hne].
          * rewrite E, dget_dset_same in Hc. injection Hc as <-. destruct Hin as [<-|Hin]; auto.
            exfalso. apply Hnt. apply PropLikelihood.dpred_key_inj in E. rewrite <- E. now apply in_map.
          * rewrite dget_dset_other in Hc by auto. eapply Ho; eauto.
        + apply dget_dset_same.
        + intros k Hk. now apply dget_dset_other. }
    destruct Hget as (s1 & E1 & V1 & O1 & D1 & C1).
    assert (O1' : own_predictions n lo hi ts G s1) by (intros ys t' c A B C; apply O1; auto; now right).
    pose proof (holds_same _ _ _ V1 Hs) as Hs1.
    destruct (IH fs Hgd' ltac:(now injection Hl) s1 xs (m + quad (length (t_dobs t)) (P t) (fun i => nth i (G t xs) 0 - nth i (t_dobs t) 0)) (d + 0) tr Hs1 Hb O1')
      as (s' & E' & V' & O' & C').
    exists s'. cbn [combine map misfit_loop]. unfold bind at 1. rewrite E1.
    rewrite (misfit_known t s1 (G t xs) Hn Hi Hv Hlen). rewrite E'. cbn [map]. change (rsum (?a :: ?l)) with (a + rsum l).
    rewrite Rplus_0_r, Rplus_assoc. split; [reflexivity|]. split; [|split].
    + destruct V1 as (A1 & A2 & A3 & A4), V' as (B1 & B2 & B3 & B4). repeat split; congruence.
    + intros ys t' c A B [<-|Hin] Hc; [|eapply O'; eauto].
      assert (ys = xs) by (apply (holds_inj n s'); auto; eapply holds_same; eauto). subst ys.
      rewrite C' in Hc; [congruence|]. intros t' Hin E. apply Hnt. apply PropLikelihood.dpred_key_inj in E. rewrite E. now apply in_map.
    + intros k Hk. rewrite C' by (intros t' Ht'; apply Hk; now right). apply C1. apply Hk. now left.
Qed.
End Data.

(** The ratios of LogLikelihood(targets, fwd_functions) are those of the density of the
    data, and the predictions kept in the caches stay those of the states' values. *)
Theorem C73_gaussian_data n lo hi T ts fs K P G ll : 0 < T -> gaussian_data n lo hi ts fs K P G ->
  loglike_init (Some (map ATarget ts)) (Some (map AFwd fs)) None None = Ok ll ->
  evaluates n lo hi T ll (data_logpdf K P G ts) (own_predictions n lo hi ts G).
Proof.
  intros HT Hgd H.
  assert (Et : only_targets (map ATarget ts) = Some ts) by (clear; induction ts as [|t l IH]; cbn; auto; now rewrite IH).
  assert (Ef : only_fwds (map AFwd fs) = Some fs) by (clear; induction fs as [|t l IH]; cbn; auto; now rewrite IH).
  unfold loglike_init, extend_targets in H. rewrite Et, Ef in H. cbn [set_lists set_hier ll_targets ll_fwds ll_hier app] in H.
  destruct (dup_name (map t_name ts)); [discriminate|]. cbn [set_lists set_hier ll_targets ll_fwds ll_hier app] in H.
  assert (Hh : filter is_hier ts = []).
  { pose proof (gd_noise _ _ _ _ _ _ _ _ Hgd) as N. clear - N. induction ts as [|t l IH]; auto. cbn.
    destruct (N t (or_introl eq_refl)) as (_ & _ & v & Ev & _). unfold is_hier at 1. rewrite Ev. apply IH. intros. apply N. now right. }
  rewrite Hh in H.
  assert (Hll : ll = mkLL ts (map preprocess_fwd fs) None None MTargets [] /\ length fs = length ts).
  { destruct ts; [discriminate|]. destruct fs; [discriminate|]. destruct (Nat.eqb_spec (length (f :: fs)) (length (t :: ts))); [|discriminate].
    now injection H as <-. }
  destruct Hll as [-> Hl]. clear H. constructor.
  - reflexivity.
  - intros s xs Hs Ec ys t c _ _ _ Hc. rewrite Ec in Hc. discriminate.
  - intros old new xs ys tr Ho Hx Ko Hn Hy Hf.
    assert (Kn : own_predictions n lo hi ts G new).
    { intros zs t c _ _ _ Hc. rewrite Hf in Hc. cbn [dget] in Hc. destruct (String.eqb_spec (dpred_key t) "perturb_stats") as [E|E]; [|discriminate].
      exfalso. eapply PropPredictions.dpred_not_stats. symmetry. exact E. }
    destruct (loop_data n lo hi K P G ts fs Hgd Hl old xs 0 0 tr Ho Hx Ko) as (old' & E1 & V1 & K1 & _).
    destruct (loop_data n lo hi K P G ts fs Hgd Hl new ys 0 0 tr Hn Hy Kn) as (new' & E2 & V2 & K2 & C2).
    exists old', new'. split; [|split; [eapply holds_same; eauto|split; [auto|split; [eapply holds_same; eauto|split; [auto|]]]]].
    + unfold log_likelihood_ratio. rewrite (not_zero T HT). cbn [raw_ratio ll_mode]. unfold ratio_from_targets. cbn [ll_targets ll_fwds].
      unfold bind. rewrite E1, E2. unfold ret. cbn [ediv]. do 4 f_equal. unfold data_logpdf.
      assert (Hs : forall zs, rsum (map (fun t => normal_logpdf (length (t_dobs t)) (K t) (P t) (fun i => nth i (G t zs) 0 - nth i (t_dobs t) 0)) ts) =
        rsum (map (fun t => - (INR (length (t_dobs t)) / 2) * ln (2 * PI) - / 2 * ln (det (length (t_dobs t)) (K t))) ts) -
        / 2 * rsum (map (fun t => quad (length (t_dobs t)) (P t) (fun i => nth i (G t zs) 0 - nth i (t_dobs t) 0)) ts)).
      { intros zs. clear. induction ts as [|t l IH]; cbn [map]; [cbn; lra|]. change (rsum (?a :: ?l)) with (a + rsum l). rewrite IH.
        unfold normal_logpdf at 1. lra. }
      rewrite !Hs. unfold Rdiv. f_equal. lra.
    + apply C2. intros t _. apply PropPredictions.dpred_not_stats.
Qed.
(** The log density of the data is continuous if the predictions are. *)
Theorem C73_continuous n lo hi K P G ts : lo < hi ->
  (forall t i, In t ts -> cont_on lo hi n (fun xs => nth i (G t xs) 0)) -> cont_on lo hi n (data_logpdf K P G ts).
Proof.
  intros Hlo HG. unfold data_logpdf. induction ts as [|t ts IH]; cbn [map]; [apply ucont_const|].
  change (rsum (?a :: ?l)) with (a + rsum l). apply ucont_plus; [|apply IH; intros; apply HG; now right].
  assert (HS : forall m (f : nat -> list R -> R), (forall i, cont_on lo hi n (f i)) -> cont_on lo hi n (fun xs => sum (fun i => f i xs) m)).
  { induction m as [|m IHm]; intros f Hf; cbn [sum]; [apply ucont_const|]. apply (ucont_plus lo hi n (fun xs => sum (fun i => f i xs) m) (f m)); auto. }
  unfold normal_logpdf, quad. apply (ucont_minus lo hi Hlo n (fun _ => _)); [apply ucont_const|].
  apply ucont_scal; auto.
  assert (Hr : forall i, cont_on lo hi n (fun xs => nth i (G t xs) 0 - nth i (t_dobs t) 0)).
  { intros i. apply (ucont_minus lo hi Hlo n (fun xs => nth i (G t xs) 0) (fun _ => nth i (t_dobs t) 0)); [apply HG; now left|apply ucont_const]. }
  apply (HS _ (fun i xs => (nth i (G t xs) 0 - nth i (t_dobs t) 0) * sum (fun j => P t i j * (nth j (G t xs) 0 - nth j (t_dobs t) 0)) (length (t_dobs t)))).
  intros i. apply (ucont_mult lo hi Hlo n (fun xs => nth i (G t xs) 0 - nth i (t_dobs t) 0)); [apply Hr|].
  apply (HS _ (fun j xs => P t i j * (nth j (G t xs) 0 - nth j (t_dobs t) 0))). intros j. apply ucont_scal; auto.
Qed.

(** * Together *)
(** An inversion of Gaussian data for numbers with uniform priors: after any number of
    iterations a chain at temperature [T] that started from the posterior density (to the
    power 1/T) still has it.  [e k xs] is the mean of [g] after [k] iterations from [xs]. *)
Theorem C73_posterior n lo hi sd T ts fs K P G ll save F phi :
  (0 < n)%nat -> lo < hi -> 0 < sd -> 0 < T -> normal_cdf F -> (forall z, derivable_pt_lim F z (phi z)) ->
  gaussian_data n lo hi ts fs K P G -> (forall t i, In t ts -> cont_on lo hi n (fun xs => nth i (G t xs) 0)) ->
  loglike_init (Some (map ATarget ts)) (Some (map AFwd fs)) None None = Ok ll ->
  exists next, follows (inversion_env [number_space n lo hi sd] ll save) n lo hi T (own_predictions n lo hi ts G) next /\
    forall g, cont_on lo hi n g ->
    exists (e : nat -> list R -> R) v, (forall xs, e O xs = g xs) /\
      (forall k xs, in_box lo hi n xs -> mean_draws phi n (fun i z u => e k (next xs i z u)) (e (S k) xs)) /\
      forall k, box_integral lo hi n (fun xs => exp (data_logpdf K P G ts xs / T) * e k xs) v.
Proof.
  intros Hn Hlo Hsd HT HF Hphi Hgd HG Hll. pose proof (C73_gaussian_data n lo hi T ts fs K P G ll HT Hgd Hll) as Hev.
  destruct (C73_iteration n lo hi sd T ll _ _ save HT Hev) as (next & Hnext & _). exists next. split; auto.
  intros g Hg. exact (C73_run n lo hi sd T ll _ _ save F phi next g Hn Hlo Hsd HT HF Hphi (C73_continuous n lo hi K P G ts Hlo HG) Hev Hnext Hg).
Qed.

(** * Cases *)
(** Two numbers in [0, 1]; the datum 1 is their sum with a standard deviation of 1/2. *)
Definition cv_target : target := mkTarget "d" [1] (Some (CScalar 4)) false 0 1 1 0 1 1.
Definition cv_values (s : state) : list R :=
  match dget "m" (st_vals s) with
  | Some (EPS p) => match dget "v" (ps_vals p) with Some (Arr xs) => xs | _ => [] end
  | _ => []
  end.
Definition cv_fwd : fwd := mkFwd (fun s => ret [rsum (cv_values s)]) false.
Definition cv_G (t : target) (xs : list R) : list R := [rsum xs].
Definition cv_K (t : target) (i j : nat) : R := if (i =? j)%nat then / 4 else 0.
Definition cv_P (t : target) (i j : nat) : R := if (i =? j)%nat then 4 else 0.
Lemma cv_values_holds n s xs : holds n s xs -> cv_values s = xs.
Proof. intros [(a & b & E) _]. unfold cv_values. rewrite E. reflexivity. Qed.
Example C73_posterior_case : exists ll F phi,
  normal_cdf F /\ (forall z, derivable_pt_lim F z (phi z)) /\
  gaussian_data 2 0 1 [cv_target] [cv_fwd] cv_K cv_P cv_G /\
  (forall t i, In t [cv_target] -> cont_on 0 1 2 (fun xs => nth i (cv_G t xs) 0)) /\
  loglike_init (Some (map ATarget [cv_target])) (Some (map AFwd [cv_fwd])) None None = Ok ll.
Proof.
  destruct ExampleWalk.normal_cdf_exists as (F & HF). eexists _, F. destruct (nc_density F HF) as (c & Hc & Hd). exists (fun z => c * bell z).
  split; [exact HF|]. split; [exact Hd|]. split; [|split; [|reflexivity]].
  - constructor.
    + repeat constructor. auto.
    + intros t [<-|[]]. split; [cbn; lia|]. split.
      * intros i k Hi Hk. cbn in Hi, Hk. assert (i = O) by lia. assert (k = O) by lia. subst. cbn. unfold cv_K, cv_P. cbn. split; lra.
      * eexists. split; [reflexivity|]. intros i j. reflexivity.
    + intros t xs [<-|[]] _. reflexivity.
    + intros t f s xs tr [E|[]] Hs _. injection E as <- <-. cbn. now rewrite (cv_values_holds _ _ _ Hs).
  - intros t i [<-|[]]. unfold cv_G. destruct i as [|[|i]]; cbn [nth]; try apply ucont_const.
    apply (ucont_ext 0 1 2 (fun xs => nth 0 xs 0 + nth 1 xs 0)).
    + intros xs (Hl & _). destruct xs as [|a [|b [|? ?]]]; try discriminate Hl. cbn. lra.
    + apply ucont_plus; apply ucont_nth.
Qed.
Example C73_function_case : exists ll,
  computes 2 0 1 (fun s => ret (Fin (- rsum (cv_values s)))) (fun xs => - rsum xs) /\
  loglike_init None None None (Some (fun s => ret (Fin (- rsum (cv_values s))))) = Ok ll.
Proof.
  eexists. split; [|reflexivity]. intros s xs tr Hs _. now rewrite (cv_values_holds _ _ _ Hs).
Qed.
Example C73_ratio_function_case : exists ll,
  (forall s s' xs ys tr, holds 2 s xs -> in_box 0 1 2 xs -> holds 2 s' ys -> in_box 0 1 2 ys ->
     (fun s s' => ret (Fin (rsum (cv_values s) - rsum (cv_values s')))) s s' tr = Ret (Fin (- rsum ys - - rsum xs)) tr) /\
  loglike_init None None (Some (fun s s' => ret (Fin (rsum (cv_values s) - rsum (cv_values s'))))) None = Ok ll.
Proof.
  eexists. split; [|reflexivity]. intros s s' xs ys tr Hs _ Hs' _. rewrite (cv_values_holds _ _ _ Hs), (cv_values_holds _ _ _ Hs').
  unfold ret. do 2 f_equal. lra.
Qed.
