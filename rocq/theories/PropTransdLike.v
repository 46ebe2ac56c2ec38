(** C77 for the likelihoods a user can give: a function, a function for ratios, and data with
    Gaussian noise of known covariance. *)
From Coquelicot Require Import Coquelicot.
From Verif Require Import Base ModelPrior ModelState ModelSpace ModelPerturb ModelChain ModelLikelihood SpecWalk SpecInvariance SpecTransd.
From Verif Require Import SpecUtils1D SpecLikelihood ProofChain ProofBox ProofInvariance ProofTransd PropInvariance PropInvarianceLike PropTransd.
From Verif Require ExampleRun ExampleWalk PropLikelihood PropPredictions ProofRun.
Local Open Scope string_scope.
Local Open Scope list_scope.
Local Open Scope R_scope.

Theorem C77_function kmin kmax lo hi T f L ll : 0 < T -> (forall k, (kmin <= k <= kmax)%nat -> computes k lo hi f L) ->
  loglike_init None None None (Some f) = Ok ll -> evaluates_all kmin kmax lo hi T ll L (fun _ => True).
Proof.
  intros HT Hf H. injection H as <-. constructor; auto.
  intros k k' old new xs ys tr Hk Hk' Ho Hx _ Hn Hy _. exists old, new. repeat split; auto; try apply Ho; try apply Hn.
  unfold log_likelihood_ratio. rewrite (not_zero T HT). cbn [raw_ratio ll_mode ll_func].
  unfold bind, ratio_from_like, wrapped, bind, try. rewrite (Hf k Hk old xs tr Ho Hx). cbn [ret]. rewrite (Hf k' Hk' new ys tr Hn Hy). reflexivity.
Qed.
Theorem C77_ratio_function kmin kmax lo hi T f L ll : 0 < T ->
  (forall k k' s s' xs ys tr, (kmin <= k <= kmax)%nat -> (kmin <= k' <= kmax)%nat ->
     holds k s xs -> in_box lo hi k xs -> holds k' s' ys -> in_box lo hi k' ys -> f s s' tr = Ret (Fin (L ys - L xs)) tr) ->
  loglike_init None None (Some f) None = Ok ll -> evaluates_all kmin kmax lo hi T ll L (fun _ => True).
Proof.
  intros HT Hf H. injection H as <-. constructor; auto.
  intros k k' old new xs ys tr Hk Hk' Ho Hx _ Hn Hy _. exists old, new. repeat split; auto; try apply Ho; try apply Hn.
  unfold log_likelihood_ratio. rewrite (not_zero T HT). cbn [raw_ratio ll_mode ll_ratio].
  unfold bind, wrapped, bind, try. rewrite (Hf _ _ _ _ _ _ _ Hk Hk' Ho Hx Hn Hy). reflexivity.
Qed.

(** The caches hold predictions of the states' own values, if any. *)
Definition own_predictions_all (kmin kmax : nat) (lo hi : R) (ts : list target) (G : target -> list R -> list R) (s : state) : Prop :=
  forall k, (kmin <= k <= kmax)%nat -> own_predictions k lo hi ts G s.
Lemma own_all kmin kmax lo hi ts G s k xs : holds k s xs -> in_box lo hi k xs -> own_predictions k lo hi ts G s -> own_predictions_all kmin kmax lo hi ts G s.
Proof.
  intros [(a & b & E) Hx] [Hl Hb] Ho k' Hk' ys t c [(a' & b' & E') Hx'] [Hl' Hb']. rewrite E in E'. injection E' as <- <- <- <-.
  apply Ho; split; eauto.
Qed.
Theorem C77_gaussian_data kmin kmax lo hi T ts fs K P G ll : 0 < T ->
  (1 <= kmin <= kmax)%nat -> (forall k, (kmin <= k <= kmax)%nat -> gaussian_data k lo hi ts fs K P G) ->
  loglike_init (Some (map ATarget ts)) (Some (map AFwd fs)) None None = Ok ll ->
  evaluates_all kmin kmax lo hi T ll (data_logpdf K P G ts) (own_predictions_all kmin kmax lo hi ts G).
Proof.
  intros HT Hk Hgd H.
  assert (Et : only_targets (map ATarget ts) = Some ts) by (clear; induction ts as [|t l IH]; cbn; auto; now rewrite IH).
  assert (Ef : only_fwds (map AFwd fs) = Some fs) by (clear; induction fs as [|t l IH]; cbn; auto; now rewrite IH).
  unfold loglike_init, extend_targets in H. rewrite Et, Ef in H. cbn [set_lists set_hier ll_targets ll_fwds ll_hier app] in H.
  destruct (dup_name (map t_name ts)); [discriminate|]. cbn [set_lists set_hier ll_targets ll_fwds ll_hier app] in H.
  assert (Hh : filter is_hier ts = []).
  { pose proof (gd_noise _ _ _ _ _ _ _ _ (Hgd kmin ltac:(lia))) as N. clear - N. induction ts as [|t l IH]; auto. cbn.
    destruct (N t (or_introl eq_refl)) as (_ & _ & v & Ev & _). unfold is_hier at 1. rewrite Ev. apply IH. intros. apply N. now right. }
  rewrite Hh in H.
  assert (Hll : ll = mkLL ts (map preprocess_fwd fs) None None MTargets [] /\ length fs = length ts).
  { clear - H. destruct ts; [discriminate|]. destruct fs; [discriminate|]. destruct (Nat.eqb_spec (length (f :: fs)) (length (t :: ts))); [|discriminate].
    now injection H as <-. }
  destruct Hll as [-> Hl]. clear H. constructor.
  - reflexivity.
  - intros k s xs Hs Ec k' _ ys t c _ _ _ Hc. rewrite Ec in Hc. discriminate.
  - intros k k' old new xs ys tr Hkk Hkk' Ho Hx Ko Hn Hy (ty & Hf).
    assert (Kn : own_predictions k' lo hi ts G new).
    { intros zs t c _ _ _ Hc. rewrite Hf in Hc. cbn [dget] in Hc. destruct (String.eqb_spec (dpred_key t) "perturb_stats") as [E|E]; [|discriminate].
      exfalso. eapply PropPredictions.dpred_not_stats. symmetry. exact E. }
    destruct (loop_data k lo hi K P G ts fs (Hgd k Hkk) Hl old xs 0 0 tr Ho Hx (Ko k Hkk)) as (old' & E1 & V1 & K1 & _).
    destruct (loop_data k' lo hi K P G ts fs (Hgd k' Hkk') Hl new ys 0 0 tr Hn Hy Kn) as (new' & E2 & V2 & K2 & C2).
    assert (Ho' : holds k old' xs) by (eapply holds_same; eauto). assert (Hn' : holds k' new' ys) by (eapply holds_same; eauto).
    exists old', new'. split; [|split; [auto|split; [eapply own_all; eauto|split; [auto|split; [eapply own_all; eauto|]]]]].
    + unfold log_likelihood_ratio. rewrite (not_zero T HT). cbn [raw_ratio ll_mode]. unfold ratio_from_targets. cbn [ll_targets ll_fwds].
      unfold bind. rewrite E1, E2. unfold ret. cbn [ediv]. do 4 f_equal. unfold data_logpdf.
      assert (Hs : forall zs, rsum (map (fun t => normal_logpdf (length (t_dobs t)) (K t) (P t) (fun i => nth i (G t zs) 0 - nth i (t_dobs t) 0)) ts) =
        rsum (map (fun t => - (INR (length (t_dobs t)) / 2) * ln (2 * PI) - / 2 * ln (det (length (t_dobs t)) (K t))) ts) -
        / 2 * rsum (map (fun t => quad (length (t_dobs t)) (P t) (fun i => nth i (G t zs) 0 - nth i (t_dobs t) 0)) ts)).
      { intros zs. clear. induction ts as [|t l IH]; cbn [map]; [cbn; lra|]. change (rsum (?a :: ?l)) with (a + rsum l). rewrite IH.
        unfold normal_logpdf at 1. lra. }
      rewrite !Hs. unfold Rdiv. f_equal. lra.
    + apply C2. intros t _. apply PropPredictions.dpred_not_stats.
Qed.

(** * Together *)
(** A trans-dimensional inversion of Gaussian data: after any number of iterations a chain at
    temperature [T] that started from the posterior distribution (its likelihood to the power
    1/T) still has it.  [e n xs] is the mean of [g] after [n] iterations from [xs]. *)
Theorem C77_posterior kmin kmax range lo hi sd T ts fs K P G ll save F phi :
  (1 <= kmin <= kmax)%nat -> lo < hi -> 0 < sd -> 0 < T -> normal_cdf F -> (forall z, derivable_pt_lim F z (phi z)) ->
  (forall k, (kmin <= k <= kmax)%nat -> gaussian_data k lo hi ts fs K P G) ->
  (forall k t i, (kmin <= k <= kmax)%nat -> In t ts -> cont_on lo hi k (fun xs => nth i (G t xs) 0)) ->
  loglike_init (Some (map ATarget ts)) (Some (map AFwd fs)) None None = Ok ll ->
  exists born died moved_to,
    follows_all (inversion_env [numbers_space kmin kmax range lo hi sd] ll save) kmin kmax lo hi T
      (own_predictions_all kmin kmax lo hi ts G) born died moved_to /\
    forall g, (forall k, (kmin <= k <= kmax)%nat -> cont_on lo hi k g) ->
    exists (e : nat -> list R -> R) v, (forall xs, e O xs = g xs) /\
      (forall n k xs, (kmin <= k <= kmax)%nat -> in_box lo hi k xs ->
         mean_iteration phi kmin kmax k (e n xs) (fun i a u => e n (born xs i a u)) (fun i u => e n (died xs i u))
           (fun i z u => e n (moved_to xs i z u)) (e (S n) xs)) /\
      forall n, trans_integral lo hi kmin kmax (fun xs => posterior lo hi T (data_logpdf K P G ts) xs * e n xs) v.
Proof.
  intros Hk Hlo Hsd HT HF Hphi Hgd HG Hll. pose proof (C77_gaussian_data kmin kmax lo hi T ts fs K P G ll HT Hk Hgd Hll) as Hev.
  destruct (C77_iteration kmin kmax range lo hi sd T ll _ _ save Hk Hlo HT Hev) as (born & died & moved_to & Hf & _). exists born, died, moved_to. split; auto.
  intros g Hg. refine (C77_run kmin kmax range lo hi sd T ll _ _ save F phi born died moved_to g Hk Hlo Hsd HT HF Hphi _ Hev Hf Hg).
  intros k Hkk. apply C73_continuous; auto.
Qed.

(** * Cases *)
(** One to three numbers in [0, 1]; the datum 1 is their sum with a standard deviation of 1/2. *)
Lemma rsum_sum xs : sum (fun i => nth i xs 0) (length xs) = rsum xs.
Proof.
  induction xs as [|x xs IH] using rev_ind; [reflexivity|]. rewrite app_length, Nat.add_1_r. cbn [sum].
  rewrite rsum_app, nth_middle, <- IH. replace (rsum [x]) with x by (cbn; lra). f_equal.
  apply ProofUtils1DB.sum_ext. intros i Hi. now rewrite app_nth1.
Qed.
Lemma ucont_rsum k : cont_on 0 1 k rsum.
Proof.
  assert (Hs : forall n (f : nat -> list R -> R), (forall i, cont_on 0 1 k (f i)) -> cont_on 0 1 k (fun xs => sum (fun i => f i xs) n)).
  { induction n as [|n IH]; intros f Hf; cbn [sum]; [apply ucont_const|]. apply (ucont_plus 0 1 k (fun xs => sum (fun i => f i xs) n) (f n)); auto. }
  apply (ucont_ext 0 1 k (fun xs => sum (fun i => nth i xs 0) k)).
  - intros xs (<- & _). apply rsum_sum.
  - apply (Hs k (fun i xs => nth i xs 0)). intros i. apply ucont_nth.
Qed.
Example C77_posterior_case : exists ll F phi,
  normal_cdf F /\ (forall z, derivable_pt_lim F z (phi z)) /\
  (forall k, (1 <= k <= 3)%nat -> gaussian_data k 0 1 [cv_target] [cv_fwd] cv_K cv_P cv_G) /\
  (forall k t i, (1 <= k <= 3)%nat -> In t [cv_target] -> cont_on 0 1 k (fun xs => nth i (cv_G t xs) 0)) /\
  loglike_init (Some (map ATarget [cv_target])) (Some (map AFwd [cv_fwd])) None None = Ok ll.
Proof.
  destruct C73_posterior_case as (ll & F & phi & H1 & H2 & H3 & _ & H5). exists ll, F, phi. repeat (split; [assumption|]). split; [|split; [|assumption]].
  - intros k _. constructor.
    + apply (gd_names _ _ _ _ _ _ _ _ H3).
    + apply (gd_noise _ _ _ _ _ _ _ _ H3).
    + intros t xs [<-|[]] _. reflexivity.
    + intros t f s xs tr [E|[]] Hs _. injection E as <- <-. cbn. now rewrite (cv_values_holds _ _ _ Hs).
  - intros k t i _ [<-|[]]. unfold cv_G. destruct i as [|[|i]]; cbn [nth]; try apply ucont_const. apply ucont_rsum.
Qed.
Example C77_function_case : exists ll,
  (forall k, (1 <= k <= 3)%nat -> computes k 0 1 (fun s => ret (Fin (- rsum (cv_values s)))) (fun xs => - rsum xs)) /\
  loglike_init None None None (Some (fun s => ret (Fin (- rsum (cv_values s))))) = Ok ll.
Proof.
  eexists. split; [|reflexivity]. intros k _ s xs tr Hs _. now rewrite (cv_values_holds _ _ _ Hs).
Qed.
Example C77_ratio_function_case : exists ll,
  (forall k k' s s' xs ys tr, (1 <= k <= 3)%nat -> (1 <= k' <= 3)%nat -> holds k s xs -> in_box 0 1 k xs -> holds k' s' ys -> in_box 0 1 k' ys ->
     (fun s s' => ret (Fin (rsum (cv_values s) - rsum (cv_values s')))) s s' tr = Ret (Fin (- rsum ys - - rsum xs)) tr) /\
  loglike_init None None (Some (fun s s' => ret (Fin (rsum (cv_values s) - rsum (cv_values s'))))) None = Ok ll.
Proof.
  eexists. split; [|reflexivity]. intros k k' s s' xs ys tr _ _ Hs _ Hs' _. rewrite (cv_values_holds _ _ _ Hs), (cv_values_holds _ _ _ Hs').
  unfold ret. do 2 f_equal. lra.
Qed.
(** The hypotheses of C77_invariant and C77_run meet. *)
Example C77_run_case : exists ll F phi born died moved_to,
  normal_cdf F /\ (forall z, derivable_pt_lim F z (phi z)) /\
  (forall k, (1 <= k <= 3)%nat -> cont_on 0 1 k (fun xs => - rsum xs)) /\
  evaluates_all 1 3 0 1 2 ll (fun xs => - rsum xs) (fun _ => True) /\
  follows_all (inversion_env [numbers_space 1 3 (1 / 2) 0 1 (1 / 10)] ll true) 1 3 0 1 2 (fun _ => True) born died moved_to /\
  (forall k, (1 <= k <= 3)%nat -> cont_on 0 1 k rsum).
Proof.
  destruct C77_function_case as (ll & Hc & Hll). destruct C77_posterior_case as (_ & F & phi & HF & Hphi & _).
  assert (Hev : evaluates_all 1 3 0 1 2 ll (fun xs => - rsum xs) (fun _ => True)) by (eapply C77_function; eauto; lra).
  destruct (C77_iteration 1 3 (1 / 2) 0 1 (1 / 10) 2 ll _ _ true ltac:(lia) ltac:(lra) ltac:(lra) Hev) as (b & d & m & Hf & _).
  exists ll, F, phi, b, d, m. repeat (split; [assumption|]). split; [|split; [assumption|split; [assumption|intros; apply ucont_rsum]]].
  intros k _. apply (ucont_ext 0 1 k (fun xs => (-1) * rsum xs)); [intros; lra|]. apply ucont_scal; [lra|]. apply ucont_rsum.
Qed.
