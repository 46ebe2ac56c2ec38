(** C84: the chain of an inversion for numbers with Gaussian or Laplace priors leaves the tempered
    posterior distribution invariant. *)
From Coquelicot Require Import Coquelicot.
From Verif Require Import Base ModelPrior ModelState ModelSpace ModelPerturb ModelChain ModelLikelihood SpecPrior SpecWalk SpecInvariance SpecLikelihood SpecLine.
From Verif Require Import ProofChain ProofFubini ProofBox ProofInvariance ProofLine.
From Verif Require Import PropInvariance PropInvarianceLike.
From Verif Require ExampleRun ExampleWalk PropBalance.
Local Open Scope string_scope.
Local Open Scope list_scope.
Local Open Scope R_scope.

(** * The inversion *)
(** ParameterSpace("m", n_dimensions=n, parameters=[GaussianPrior("v", mean, std, sd)]), or LaplacePrior. *)
Definition line_prior (d : ModelPrior.dist) (sd : R) : prior := mkPrior "v" false d (HS sd) (HS sd).
Definition line_space (n : nat) (d : ModelPrior.dist) (sd : R) : space :=
  Space "m" (Some n) n n 0 Plain [("v", PPrior (line_prior d sd))].
(** The distributions and their densities. *)
Inductive unlimited : ModelPrior.dist -> (R -> R) -> Prop :=
| U_gauss m s : 0 < s -> unlimited (Gauss (HS m) (HS s)) (gauss_pdf m s)
| U_laplace m b : 0 < b -> unlimited (Laplace (HS m) (HS b)) (laplace_pdf m b).
(** As [evaluates], for all values. *)
Definition evaluates_all (n : nat) (T : R) (ll : loglike) (L : list R -> R) (kept : state -> Prop) : Prop :=
  forall lo hi, lo < hi -> evaluates n lo hi T ll L kept.
(** [next xs i z u] is where one iteration ends: index [i], deviate [z], uniform number [u]
    (the first numbers drawn choose among single perturbations). *)
Definition follows_line (E : env state ovalue) (n : nat) (T : R) (kept : state -> Prop)
    (next : list R -> nat -> R -> R -> list R) : Prop :=
  forall c xs w w' i z u tr, stands_at n T kept c xs -> length xs = n -> 0 <= w < 1 -> 0 <= w' < 1 -> (i < n)%nat -> 0 < u < 1 ->
    exists c', next_iteration E c (DU w :: DInt 0 :: DU w' :: DInt i :: DZ z :: DU u :: tr) = Ret (c', None) tr /\
      stands_at n T kept c' (next xs i z u).

(** * The prior *)
(** The logarithm of the density, up to a constant. *)
Record log_of (d : ModelPrior.dist) (f lp : R -> R) : Prop := {
  lo_perturb : forall sd v z tr, p_perturb (line_prior d sd) v None false (DZ z :: tr) = Ret (v + z * sd, Fin (lp (v + z * sd) - lp v)) tr;
  lo_dens : exists k, 0 < k /\ forall x, f x = k * exp (lp x);
  lo_mass : exists p K, 0 < K /\ density p /\ forall x, exp (lp x) = K * p x;
  lo_cont : forall x, continuity_pt lp x
}.
Lemma gauss_log m s F : 0 < s -> normal_cdf F -> log_of (Gauss (HS m) (HS s)) (gauss_pdf m s) (fun x => - ((x - m) ^ 2 / (2 * s ^ 2))).
Proof.
  intros Hs HF. destruct (nc_density F HF) as (c & Hc & Hd). split.
  - intros sd v z tr. unfold p_perturb, bind. cbn [p_dist line_prior perturb_std_of get_hyper p_std lift ret]. unfold normal, bind, drawZ. cbn [ret lift get_hyper].
    unfold py_div. rewrite ExampleRun.Reqb_f by (assert (0 < s ^ 2) by (apply pow_lt; lra); lra). cbn [lift ret].
    replace (v + (0 + z * sd)) with (v + z * sd) by ring. unfold ret. do 3 f_equal. field. lra.
  - exists (/ (s * sqrt (2 * PI))). split.
    + apply Rinv_0_lt_compat. apply Rmult_lt_0_compat; auto. apply sqrt_lt_R0. pose proof PI_RGT_0. lra.
    + intros x. unfold gauss_pdf, Rdiv. ring.
  - set (phi := fun z => c * bell z).
    assert (Hphi : forall z, derivable_pt_lim F z (phi z)) by exact Hd.
    exists (fun x => q s phi m x), (s / c). split; [now apply Rdiv_lt_0_compat|]. split; [split|].
    + intros x. eapply hop_pos; eauto.
    + intros x. unfold q. apply continuity_pt_mult; [|apply continuity_pt_const; intros ? ?; reflexivity].
      apply (continuity_pt_comp (fun x => (x - m) / s) phi); [|eapply phi_cont; eauto].
      apply continuity_pt_mult; [|apply continuity_pt_const; intros ? ?; reflexivity].
      apply continuity_pt_minus; [apply derivable_continuous_pt, derivable_pt_id|apply continuity_pt_const; intros ? ?; reflexivity].
    + apply (is_lim_ext (fun r => hit F (- r) r s m)).
      { intros r. unfold hit. symmetry. apply is_RInt_unique. eapply hop_int; eauto. }
      apply is_lim_spec. intros [eps He]. destruct (tail_small s Hs F HF (eps / 2) ltac:(lra)) as (t & Ht & H).
      exists (Rabs m + t). intros r Hr. specialize (H r m ltac:(lra)).
      pose proof (tail_range s Hs F HF r m ltac:(pose proof (Rabs_pos m); lra)) as Hrg. unfold tail in *. cbn. apply Rabs_def1; lra.
    + intros x. unfold q, phi, bell.
      replace (- ((x - m) / s * ((x - m) / s)) / 2) with (- ((x - m) ^ 2 / (2 * s ^ 2))) by (field; lra). field. lra.
  - intros x. apply continuity_pt_opp. apply continuity_pt_mult; [|apply continuity_pt_const; intros ? ?; reflexivity].
    apply (continuity_pt_comp (fun x => x - m) (fun y => y ^ 2)).
    + apply continuity_pt_minus; [apply derivable_continuous_pt, derivable_pt_id|apply continuity_pt_const; intros ? ?; reflexivity].
    + apply derivable_continuous_pt. apply derivable_pt_pow.
Qed.
Lemma laplace_int_left m b r : 0 < b -> - r <= m ->
  is_RInt (laplace_pdf m b) (- r) m (1 / 2 - exp (- ((r + m) / b)) / 2).
Proof.
  intros Hb Hr. apply (is_RInt_ext (fun x => exp ((x - m) / b) / (2 * b))).
  - intros x Hx. rewrite Rmin_left, Rmax_right in Hx by lra. unfold laplace_pdf. rewrite Rabs_left1 by lra. do 2 f_equal. field. lra.
  - refine (eq_ind _ (is_RInt _ (- r) m) (is_RInt_derive (fun x => exp ((x - m) / b) / 2) _ (- r) m _ _) _ _).
    + intros x _. auto_derive; auto. unfold Rdiv, Rminus. field. lra.
    + intros x _. apply (ex_derive_continuous (fun x => exp ((x - m) / b) / (2 * b))). auto_derive. auto.
    + unfold minus, plus, opp. cbn. replace ((m - m) / b) with 0 by (field; lra). rewrite exp_0. replace ((- r - m) / b) with (- ((r + m) / b)) by (field; lra). lra.
Qed.
Lemma laplace_int_right m b r : 0 < b -> m <= r ->
  is_RInt (laplace_pdf m b) m r (1 / 2 - exp (- ((r - m) / b)) / 2).
Proof.
  intros Hb Hr. apply (is_RInt_ext (fun x => exp (- ((x - m) / b)) / (2 * b))).
  - intros x Hx. rewrite Rmin_left, Rmax_right in Hx by lra. unfold laplace_pdf. rewrite Rabs_right by lra. reflexivity.
  - refine (eq_ind _ (is_RInt _ m r) (is_RInt_derive (fun x => - exp (- ((x - m) / b)) / 2) _ m r _ _) _ _).
    + intros x _. auto_derive; auto. unfold Rdiv, Rminus. field. lra.
    + intros x _. apply (ex_derive_continuous (fun x => exp (- ((x - m) / b)) / (2 * b))). auto_derive. auto.
    + unfold minus, plus, opp. cbn. replace (- ((m - m) / b)) with 0 by (field; lra). rewrite exp_0. lra.
Qed.
Lemma exp_small eps : 0 < eps -> exists t, 0 < t /\ forall u, t < u -> exp (- u) < eps.
Proof.
  intros He. exists (/ eps). assert (0 < / eps) by now apply Rinv_0_lt_compat. split; auto. intros u Hu.
  rewrite exp_Ropp. rewrite <- (Rinv_inv eps). apply Rinv_lt_contravar.
  - apply Rmult_lt_0_compat; auto. apply exp_pos.
  - pose proof (exp_ineq1 u). lra.
Qed.
Lemma laplace_log m b : 0 < b -> log_of (Laplace (HS m) (HS b)) (laplace_pdf m b) (fun x => - (Rabs (x - m) / b)).
Proof.
  intros Hb.
  assert (Hc : forall x, continuity_pt (fun x => - (Rabs (x - m) / b)) x).
  { intros x. apply continuity_pt_opp. apply continuity_pt_mult; [|apply continuity_pt_const; intros ? ?; reflexivity].
    apply (continuity_pt_comp (fun x => x - m) Rabs); [|apply Rcontinuity_abs].
    apply continuity_pt_minus; [apply derivable_continuous_pt, derivable_pt_id|apply continuity_pt_const; intros ? ?; reflexivity]. }
  split; auto.
  - intros sd v z tr. unfold p_perturb, bind. cbn [p_dist line_prior perturb_std_of get_hyper p_std lift ret]. unfold normal, bind, drawZ. cbn [ret lift get_hyper].
    unfold py_div. rewrite ExampleRun.Reqb_f by lra. cbn [lift ret].
    replace (v + (0 + z * sd)) with (v + z * sd) by ring. unfold ret. do 3 f_equal. field. lra.
  - exists (/ (2 * b)). split; [apply Rinv_0_lt_compat; lra|]. intros x. unfold laplace_pdf, Rdiv. ring.
  - exists (laplace_pdf m b), (2 * b). split; [lra|]. split; [split|].
    + intros x. apply Rlt_le. apply Rdiv_lt_0_compat; [apply exp_pos|lra].
    + intros x. unfold laplace_pdf. apply continuity_pt_mult; [|apply continuity_pt_const; intros ? ?; reflexivity].
      apply (continuity_pt_comp (fun x => - (Rabs (x - m) / b)) exp); [apply Hc|]. apply derivable_continuous_pt. apply derivable_pt_exp.
    + apply is_lim_spec. intros [eps He]. destruct (exp_small eps He) as (t & Ht & H).
      exists (Rabs m + t * b). intros r Hr. pose proof (Rle_abs m). pose proof (Rle_abs (- m)). rewrite Rabs_Ropp in *. pose proof (Rabs_pos m).
      assert (0 < t * b) by now apply Rmult_lt_0_compat.
      assert (E : RInt (laplace_pdf m b) (- r) r = (1 / 2 - exp (- ((r + m) / b)) / 2) + (1 / 2 - exp (- ((r - m) / b)) / 2)).
      { apply is_RInt_unique. apply (is_RInt_Chasles (V := R_NormedModule)) with m; [apply laplace_int_left|apply laplace_int_right]; auto; lra. }
      rewrite E. clear E.
      assert (D : forall y, t * b < y -> t < y / b). { intros y Hy. replace t with (t * b / b) by (field; lra). unfold Rdiv. apply Rmult_lt_compat_r; auto. now apply Rinv_0_lt_compat. }
      pose proof (H ((r + m) / b) ltac:(apply D; lra)). pose proof (H ((r - m) / b) ltac:(apply D; lra)).
      pose proof (exp_pos (- ((r + m) / b))). pose proof (exp_pos (- ((r - m) / b))).
      change (Rabs (1 / 2 - exp (- ((r + m) / b)) / 2 + (1 / 2 - exp (- ((r - m) / b)) / 2) - 1) < eps). apply Rabs_def1; lra.
    + intros x. unfold laplace_pdf. field. lra.
Qed.
Lemma unlimited_log d f F : unlimited d f -> normal_cdf F -> exists lp, log_of d f lp.
Proof. intros [m s Hs|m b Hb] HF; eexists; [eapply gauss_log; eauto|now apply laplace_log]. Qed.

(** * One iteration *)
Section Step.
Context (n : nat) (d : ModelPrior.dist) (f lp : R -> R) (sd T : R) (ll : loglike) (L : list R -> R) (kept : state -> Prop) (save : bool).
Context (Hlp : log_of d f lp) (Hev : evaluates_all n T ll L kept) (HT : 0 < T).
Let sp := line_space n d sd.
Let E := inversion_env [sp] ll save.
(** The logarithm of the tempered posterior density, times the temperature. *)
Definition post (xs : list R) : R := L xs + T * rsum (map lp xs).
Lemma rsum_set xs i y : (i < length xs)%nat -> rsum (map lp (set_nth xs i y)) - rsum (map lp xs) = lp y - lp (nth i xs 0).
Proof.
  revert i. induction xs as [|x xs IH]; intros [|i] Hi; cbn [length] in Hi; try lia.
  - cbn [set_nth map nth]. change (lp y + rsum (map lp xs) - (lp x + rsum (map lp xs)) = lp y - lp x). ring.
  - rewrite set_nth_cons. cbn [map nth]. change (lp x + rsum (map lp (set_nth xs i y)) - (lp x + rsum (map lp xs)) = lp y - lp (nth i xs 0)).
    rewrite <- (IH i) by lia. ring.
Qed.
Lemma goes xs attrs cache i z tr : length xs = n -> (i < n)%nat ->
  let y := nth i xs 0 + z * sd in
  param_perturb [PPrior (line_prior d sd)] (PS n [("v", Arr xs)] attrs cache) (DInt i :: DZ z :: tr) =
  Ret (PS n [("v", Arr (set_nth xs i y))] [("v", Arr xs)] cache, Fin (lp y - lp (nth i xs 0))) tr.
Proof.
  clear E sp Hev HT. intros Hl Hi y.
  assert (Hx : nth_error xs i = Some (nth i xs 0)) by (apply nth_error_nth'; lia).
  unfold param_perturb, bind at 1. cbn [ps_n].
  assert (Hr : randint_below n (DInt i :: DZ z :: tr) = Ret i (DZ z :: tr)).
  { destruct n as [|m]; [lia|]. cbn. destruct (Nat.leb_spec i m); [reflexivity|lia]. }
  rewrite Hr. cbn [perturb_params p_name line_prior]. unfold ps_get, bind. cbn [ps_vals dget String.eqb Ascii.eqb Bool.eqb].
  cbn [num_at idx lift]. unfold idx. rewrite Hx. cbn [lift ret].
  cbn [dget disc_key String.eqb Ascii.eqb Bool.eqb rbind lift ret].
  rewrite (lo_perturb d f lp Hlp).
  assert (Hs : forall v, set_num (Some (Arr xs)) i v = Ok (Arr (set_nth xs i v))).
  { intros v. unfold set_num. destruct (Nat.ltb_spec i (length xs)); [reflexivity|lia]. }
  rewrite Hs. cbn [lift ret]. rewrite (copied n xs attrs cache Hl). cbn [lift ret ps_n ps_vals ps_attrs ps_cache dset dupdate fold_left fst snd String.eqb Ascii.eqb Bool.eqb].
  fold y. cbn [eadd]. rewrite Rplus_0_l. reflexivity.
Qed.
Lemma proposes s xs w' i z tr : holds n s xs -> length xs = n -> 0 <= w' < 1 -> (i < n)%nat ->
  let y := nth i xs 0 + z * sd in
  exists s', psp_perturb (mkPsp "m" (own_elems sp)) s (DInt 0 :: DU w' :: DInt i :: DZ z :: tr) = Ret (s', Fin (lp y - lp (nth i xs 0))) tr /\
    holds n s' (set_nth xs i y) /\ st_cache s' = [("perturb_stats", CStats [("ParamPerturbation(m.v)", 1)])].
Proof.
  intros [(attrs & cache & Hs) He] Hl Hw Hi y.
  unfold psp_perturb. unfold st_copy. rewrite Hs. cbn [rmap snd fst entry_copy]. rewrite copied by auto. cbn [rbind].
  unfold bind at 1. cbn [lift ret].
  assert (Hc : count_loop (st_size s) (psp_space (mkPsp "m" (own_elems sp))) [st_children s] 0 = Ok 1%nat).
  { unfold st_children, st_size. rewrite Hs. reflexivity. }
  unfold bind at 1. rewrite Hc. cbn [lift ret]. unfold bind at 1. cbn [randint_below].
  assert (Hr : forall tr, randint 0 0 (DInt 0 :: tr) = Ret 0%nat tr) by reflexivity. rewrite Hr.
  assert (Hw' : forall st, walk_loop (st_size s) (mkPsp "m" (own_elems sp)) 0 (mkWalk st 0 (Fin 0) [] [([], st_children s)])
      (DU w' :: DInt i :: DZ z :: tr) =
    Ret (mkWalk (st_set "m" (EPS (PS n [("v", Arr (set_nth xs i y))] [("v", Arr xs)] cache)) st) 1
      (eadd (Fin 0) (Fin (lp y - lp (nth i xs 0)))) [("ParamPerturbation(m.v)", 1%nat)] []) tr).
  { intros st. unfold st_children, st_size. rewrite Hs. cbn [map fst snd nsum fold_right Nat.add walk_loop w_queue w_i Nat.leb entry_child].
    unfold bind at 1. cbn [walk_node psp_space String.eqb Ascii.eqb Bool.eqb w_i w_new w_ratio w_stats w_queue Nat.eqb].
    unfold bind at 1, psp_perturb_ps. cbn [psp_funcs own_elems sp line_space sp_transd sp_fixed sp_params priors_of map snd filter is_disc sp_cls app length sp_name fst].
    unfold bind at 1. rewrite choose_only by (auto; lra). cbn [lift idx nth_error]. unfold bind at 1. cbn [lift ret fst elem_perturb].
    unfold bind at 1. rewrite goes by auto. cbn [ret]. reflexivity. }
  unfold bind. rewrite Hw'. cbn [w_new w_stats w_ratio map snd fst nsum fold_right Nat.add INR ret eadd]. rewrite Rplus_0_l.
  eexists. split; [reflexivity|]. split.
  - split; [|reflexivity]. eexists _, _. reflexivity.
  - cbn. do 4 f_equal. f_equal. lra.
Qed.
Lemma items_kept s xs d0 : holds n s xs ->
  save_items E (s_items (e_ops E) s) d0 = (append_saved "m.v" (OArr (Arr xs)) d0, None).
Proof.
  intros [(attrs & cache & Hs) He]. cbn [e_ops E inversion_env chain_env state_opsB s_items]. unfold st_items. rewrite Hs, He. reflexivity.
Qed.
Lemma saves_line c xs : stands_at n T kept c xs -> exists c', save_state E c = (c', None) /\ stands_at n T kept c' xs.
Proof.
  intros (Hh & Ht & Hfl & d0 & Hd). unfold save_state.
  change (s_kind (e_ops E) (c_cur c)) with KState. cbn iota. rewrite Hd, (items_kept _ _ d0 (proj1 Hh)).
  change (s_cache (e_ops E) (c_cur c)) with (Some (map (fun kc => (fst kc, cache_value (snd kc))) (st_cache (c_cur c)))). cbn iota.
  destruct (e_savedpred E); eexists; (split; [reflexivity|]);
    (split; [exact Hh|]; split; [exact Ht|]; split; [exact Hfl|eexists; reflexivity]).
Qed.
Lemma finishes_line q acc new c xs ys vs : stands_at n T kept c xs -> holds n new ys -> (acc = true -> kept new) ->
  s_pstats (e_ops E) new = inl vs ->
  exists c', finish E (psp_name q) acc new c = (c', Done) /\ stands_at n T kept c' (if acc then ys else xs).
Proof.
  intros Hc Hn Hk Hv. set (c1 := if acc then set_cur new c else c).
  assert (H1 : stands_at n T kept c1 (if acc then ys else xs)).
  { destruct Hc as (Hh & Ht & Hfl & Hd). unfold c1. destruct acc; [|repeat (split; auto)].
    split; [split; [exact Hn|apply Hk; reflexivity]|repeat (split; auto)]. }
  unfold finish. fold c1. unfold save_statistics. change (String.prefix psp_prefix (psp_name q)) with true. cbn iota. rewrite Hv.
  set (c2 := put_stats _ acc c1). assert (H2 : stands_at n T kept c2 (if acc then ys else xs)) by exact H1.
  destruct (saves_line c2 _ H2) as (c3 & E3 & H3). destruct H1 as (_ & _ & (fl & Hfl) & _).
  replace (c_flag c2) with (Some fl) by (rewrite <- Hfl; reflexivity).
  destruct (fl && Reqb (c_temp c2) 1)%bool; [rewrite E3|]; eauto.
Qed.
Lemma decides_line q new c xs ys vs a u tr : stands_at n T kept c xs -> holds n new ys ->
  (forall x, a = Fin x -> kept new) -> s_pstats (e_ops E) new = inl vs -> 0 < u < 1 -> a = MInf \/ (exists x, a = Fin x) ->
  forall lpr llr, eadd lpr llr = a ->
  exists c', decide E (psp_name q) new lpr llr c (DU u :: tr) = Ret (c', Done) tr /\
    stands_at n T kept c' (match a with Fin x => if Rlt_dec (ln u) x then ys else xs | _ => xs end).
Proof.
  intros Hc Hn Hk Hps Hu Ha lpr llr Hl. rewrite PropBalance.decide_as by auto. rewrite Hl.
  assert (Hk' : egtb a (Fin (ln u)) = true -> kept new) by (destruct Ha as [->|(x & ->)]; [discriminate|eauto]).
  destruct (finishes_line q _ new c xs ys vs Hc Hn Hk' Hps) as (c' & Ef & Hc').
  exists c'. rewrite Ef. split; [reflexivity|]. destruct Ha as [->|(x & ->)]; [exact Hc'|].
  unfold egtb, Rltb in Hc'. destruct (Rlt_dec (ln u) x); exact Hc'.
Qed.
(** One iteration. *)
Lemma iterates_line c xs w w' i z u tr : stands_at n T kept c xs -> length xs = n -> 0 <= w < 1 -> 0 <= w' < 1 -> (i < n)%nat -> 0 < u < 1 ->
  exists c', next_iteration E c (DU w :: DInt 0 :: DU w' :: DInt i :: DZ z :: DU u :: tr) = Ret (c', None) tr /\
    stands_at n T kept c' (line_step sd T post xs i z u).
Proof.
  intros Hc Hl Hw Hw' Hi Hu. pose proof Hc as ((Hh & Hk) & Ht & Hrest).
  assert (HF : inv_pfuncs [sp] ll = map (fun qw => (FSpace (fst qw), snd qw)) (all_funcs [sp])).
  { unfold inv_pfuncs, ll_pfuncs. rewrite (ev_hier _ _ _ _ _ _ _ (Hev 0 1 ltac:(lra))). apply app_nil_r. }
  assert (HE : e_funcs E = [(psp_name (mkPsp "m" (own_elems sp)), psp_perturb (mkPsp "m" (own_elems sp)))]).
  { unfold E, inversion_env. rewrite HF. reflexivity. }
  assert (HW : exists wt, e_weights E = [wt] /\ 0 < wt).
  { unfold E, inversion_env. rewrite HF. eexists. split; [reflexivity|]. cbn. lra. }
  destruct HW as (wt & HW & Hwt).
  destruct (proposes (c_cur c) xs w' i z (DU u :: tr) Hh Hl Hw' Hi) as (s' & Ep & Hs' & Hcs). set (y := nth i xs 0 + z * sd) in *.
  set (ys := set_nth xs i y) in *.
  assert (Hps : s_pstats (e_ops E) s' = inl [("ParamPerturbation(m.v)", 1)]).
  { cbn [e_ops E inversion_env chain_env state_opsB s_pstats]. rewrite Hcs. reflexivity. }
  unfold next_iteration. change 500%nat with (S 499). generalize 499%nat. intros k. cbn [tries].
  assert (Hgoal : exists c', attempt E c (DU w :: DInt 0 :: DU w' :: DInt i :: DZ z :: DU u :: tr) = Ret (c', Done) tr /\
    stands_at n T kept c' (line_step sd T post xs i z u)).
  { unfold attempt, bind at 1, try at 1. rewrite HE, HW. cbn [length]. rewrite choose_only by auto. cbn [nth_error].
    unfold bind at 1, try. rewrite Ep. unfold line_step. cbv zeta. fold y. fold ys.
    cbn [eisinf].
    assert (Hly : length ys = n) by (unfold ys; now apply set_length).
    destruct (box_of xs) as (r1 & Hr1 & B1). destruct (box_of ys) as (r2 & Hr2 & B2). rewrite Hl in B1. rewrite Hly in B2.
    pose proof (Hev (- (r1 + r2)) (r1 + r2) ltac:(lra)) as Hev'.
    destruct (ev_ratio _ _ _ _ _ _ _ Hev' (c_cur c) s' xs ys (DU u :: tr)) as (old' & new' & El & Ho & Ko & Hn & Kn & Est); auto.
    { apply box_wider with r1; auto. lra. }
    { apply box_wider with r2; auto. lra. }
    unfold bind. cbn [e_like E inversion_env chain_env]. rewrite Ht, El.
    change (chain_env [sp] ll (inv_pfuncs [sp] ll) save) with E.
    assert (Hc1 : stands_at n T kept (set_cur old' c) xs) by (repeat (split; auto)).
    assert (Hps' : s_pstats (e_ops E) new' = inl [("ParamPerturbation(m.v)", 1)]).
    { cbn [e_ops E inversion_env chain_env state_opsB s_pstats]. rewrite Est, Hcs. reflexivity. }
    destruct (decides_line (mkPsp "m" (own_elems sp)) new' (set_cur old' c) xs ys _ (Fin ((post ys - post xs) / T)) u tr Hc1 Hn (fun _ _ => Kn) Hps' Hu
      ltac:(right; eauto) (Fin (lp y - lp (nth i xs 0))) (Fin ((L ys - L xs) / T))) as (c' & Ed & Hc').
    { cbn [eadd]. f_equal. unfold post. pose proof (rsum_set xs i y ltac:(lia)) as HR. fold ys in HR. rewrite <- HR. field. lra. }
    exists c'. split; [exact Ed|]. exact Hc'. }
  destruct Hgoal as (c' & Ea & Hc'). exists c'. split; [|exact Hc']. unfold bind. now rewrite Ea.
Qed.
(** Any description of the iterations is [line_step]. *)
Lemma follows_line_step next : follows_line E n T kept next -> forall xs i z u, length xs = n -> (i < n)%nat -> 0 < u < 1 ->
  next xs i z u = line_step sd T post xs i z u.
Proof.
  intros Hn xs i z u Hl Hi Hu.
  set (s := mkState [("m", EPS (PS n [("v", Arr xs)] [] []))] [] 1 [] []).
  set (c := mkChain s T [] [] 0 0 [] (SDict []) (Some false) [] : chain state ovalue).
  assert (Hs : holds n s xs) by (split; [eexists _, _; reflexivity|reflexivity]).
  assert (Hc : stands_at n T kept c xs).
  { split; [split; [exact Hs|]|repeat (split; [eauto; reflexivity|])].
    - eapply (ev_empty _ _ _ _ _ _ _ (Hev 0 1 ltac:(lra))); [exact Hs|reflexivity].
    - split; [eexists; reflexivity|eexists; reflexivity]. }
  destruct (Hn c xs 0 0 i z u [] Hc Hl ltac:(lra) ltac:(lra) Hi Hu) as (c1 & E1 & H1).
  destruct (iterates_line c xs 0 0 i z u [] Hc Hl ltac:(lra) ltac:(lra) Hi Hu) as (c2 & E2 & H2).
  rewrite E1 in E2. injection E2 as <-. destruct H1 as ((H1 & _) & _), H2 as ((H2 & _) & _). eapply holds_inj; eauto.
Qed.

(** The posterior density. *)
Lemma post_cont : cont n L -> forall r, 0 < r -> cont_on (- r) r n post.
Proof.
  intros HL r Hr. assert (Hlo : - r < r) by lra. unfold post. apply (ucont_plus (- r) r n L); [now apply HL|].
  apply ucont_scal; auto. assert (G : forall m, cont_on (- r) r m (fun xs => rsum (map lp xs))).
  { induction m as [|m IH].
    - apply (ucont_ext (- r) r 0 (fun _ => 0)); [|apply ucont_const]. intros [|x xs] [Hx _]; [reflexivity|discriminate].
    - apply (ucont_ext (- r) r (S m) (fun l => lp (nth 0 l 0) + rsum (map lp (tl l)))).
      + intros [|x xs] [Hx _]; [discriminate|reflexivity].
      + apply ucont_plus; [|now apply (ucont_tl (- r) r m (fun xs => rsum (map lp xs)))].
        apply (ucont_comp (- r) r Hlo (S m) lp); [apply (lo_cont d f lp Hlp)|apply ucont_nth]. }
  apply G.
Qed.
Lemma exp_rsum xs : exp (rsum (map lp xs)) = independent (fun x => exp (lp x)) xs.
Proof.
  induction xs as [|x xs IH]; [cbn; apply exp_0|]. cbn [map]. change (exp (lp x + rsum (map lp xs)) = exp (lp x) * independent (fun x => exp (lp x)) xs).
  now rewrite exp_plus, IH.
Qed.
Lemma independent_scal k h h' xs : (forall x, h x = k * h' x) -> independent h xs = k ^ length xs * independent h' xs.
Proof.
  intros H. induction xs as [|x xs IH]; [cbn; lra|]. cbn [map length pow]. change (h x * independent h xs = k * k ^ length xs * (h' x * independent h' xs)).
  rewrite IH, H. ring.
Qed.
Lemma post_dens xs : dens T post xs = exp (L xs / T) * independent (fun x => exp (lp x)) xs.
Proof.
  unfold dens, post. rewrite <- exp_rsum, <- exp_plus. f_equal. field. lra.
Qed.
End Step.

(** * C84 *)
(** The iterations of the chain are described by a function of index, deviate and uniform number. *)
Theorem C84_iteration n d f sd T ll L kept save : 0 < T -> unlimited d f -> evaluates_all n T ll L kept ->
  exists next, follows_line (inversion_env [line_space n d sd] ll save) n T kept next /\
    forall xs i z u, length xs = n -> (i < n)%nat -> length (next xs i z u) = n.
Proof.
  intros HT Hd Hev. destruct ExampleWalk.normal_cdf_exists as (F & HF). destruct (unlimited_log d f F Hd HF) as (lp & Hlp).
  exists (line_step sd T (post lp T L)). split.
  - intros c xs w w' i z u tr Hc Hl Hw Hw' Hi Hu. exact (iterates_line n d f lp sd T ll L kept save Hlp Hev HT c xs w w' i z u tr Hc Hl Hw Hw' Hi Hu).
  - intros xs i z u Hl Hi. unfold line_step. cbv zeta. destruct (Rlt_dec _ _); auto. now apply set_length.
Qed.
Section Posterior.
Context (n : nat) (d : ModelPrior.dist) (f lp : R -> R) (T : R) (L : list R -> R) (M : R).
Context (HT : 0 < T) (Hlp : log_of d f lp) (HL : cont n L) (HM : forall xs, length xs = n -> L xs <= M).
Lemma post_below : exists p C, density p /\ 0 <= C /\ forall xs, length xs = n -> dens T (post lp T L) xs <= C * prods p xs.
Proof.
  destruct (lo_mass d f lp Hlp) as (p & K & HK & Hp & He). exists p, (exp (M / T) * K ^ n). split; auto.
  pose proof (exp_pos (M / T)). assert (0 < K ^ n) by now apply pow_lt. split; [apply Rlt_le; now apply Rmult_lt_0_compat|].
  intros xs Hl. rewrite post_dens by auto. rewrite (independent_scal K _ p xs He), Hl.
  change (independent p xs) with (prods p xs). rewrite Rmult_assoc. apply Rmult_le_compat_r.
  - apply Rmult_le_pos; [lra|]. now apply prods_pos.
  - destruct (HM xs Hl) as [H1|H1]; [|rewrite H1; lra]. apply Rlt_le. apply exp_increasing. unfold Rdiv. apply Rmult_lt_compat_r; auto. now apply Rinv_0_lt_compat.
Qed.
Lemma density_is : exists k, 0 < k /\ forall xs, length xs = n -> independent f xs * exp (L xs / T) = k * dens T (post lp T L) xs.
Proof.
  destruct (lo_dens d f lp Hlp) as (k & Hk & He). exists (k ^ n). split; [now apply pow_lt|]. intros xs Hl.
  rewrite post_dens by auto. rewrite (independent_scal k f _ xs He), Hl. ring.
Qed.
Lemma whole_of g v : cont n g -> is_lim (fun r => box_int (- r) r n (fun xs => dens T (post lp T L) xs * g xs)) p_infty (Finite v) ->
  forall k, (forall xs, length xs = n -> independent f xs * exp (L xs / T) = k * dens T (post lp T L) xs) ->
  whole_integral n (fun xs => independent f xs * exp (L xs / T) * g xs) (k * v).
Proof.
  intros Hg Hv k Hk. exists (fun r => k * box_int (- r) r n (fun xs => dens T (post lp T L) xs * g xs)). split.
  - intros r Hr. assert (Hlo : - r < r) by lra.
    assert (Hc : cont_on (- r) r n (fun xs => dens T (post lp T L) xs * g xs)).
    { apply (ucont_mult (- r) r Hlo n (dens T (post lp T L))); [|now apply Hg]. apply (ucont_dens (- r) r Hlo n T). exact (post_cont n d f lp T L Hlp HL r Hr). }
    apply (box_integral_ext (- r) r n (fun xs => k * (dens T (post lp T L) xs * g xs))).
    + intros xs [Hl _]. rewrite Hk by auto. ring.
    + rewrite <- (box_int_scal (- r) r Hlo n k (fun xs => dens T (post lp T L) xs * g xs)) by auto. apply box_int_is; auto. now apply ucont_scal.
  - exact (is_lim_scal_l _ k p_infty v Hv).
Qed.
End Posterior.
(** The density times the tempered likelihood has a finite positive integral. *)
Theorem C84_proper n d f T L : 0 < T -> unlimited d f -> cont n L -> (exists M, forall xs, length xs = n -> L xs <= M) ->
  exists Z, 0 < Z /\ whole_integral n (fun xs => independent f xs * exp (L xs / T)) Z.
Proof.
  intros HT Hd HL (M & HM). destruct ExampleWalk.normal_cdf_exists as (F & HF). destruct (unlimited_log d f F Hd HF) as (lp & Hlp).
  destruct (post_below n d f lp T L M HT Hlp HM) as (p & C & Hp & HC & HB).
  pose proof (post_cont n d f lp T L Hlp HL) as Hpc.
  assert (Hone : tame n 1 (fun _ => 1)). { split; [intros; rewrite Rabs_R1; lra|intros; apply ucont_const]. }
  destruct (J_lim n T (post lp T L) Hpc 1 (fun _ => 1) Hone p Hp C HC HB) as (v & Hv).
  destruct (density_is n d f lp T L HT Hlp) as (k & Hk & Hkd). exists (k * v). split.
  - apply Rmult_lt_0_compat; auto. assert (Hlo : - (1) < 1) by lra.
    destruct (ucont_bounded (- (1)) 1 Hlo n (post lp T L) (Hpc 1 ltac:(lra))) as (B & HB0 & HBB).
    set (J := fun r => box_int (- r) r n (fun xs => dens T (post lp T L) xs * 1)) in *.
    assert (Hdc : forall r, 0 < r -> cont_on (- r) r n (fun xs => dens T (post lp T L) xs * 1)).
    { intros r Hr. assert (Hlr : - r < r) by lra. apply (ucont_mult (- r) r Hlr n (dens T (post lp T L)) (fun _ => 1)); [|apply ucont_const].
      apply (ucont_dens (- r) r Hlr n T). exact (Hpc r Hr). }
    assert (Hp1 : 0 < J 1).
    { apply Rlt_le_trans with (box_int (- (1)) 1 n (fun _ => exp (- (B / T)))).
      - assert (G : forall m, 0 < box_int (- (1)) 1 m (fun _ => exp (- (B / T)))).
        { induction m as [|m IH]; cbn [box_int]; [apply exp_pos|]. rewrite RInt_const. unfold scal. cbn [mult R_AbsRing AbsRing.Ring Ring.mult]. 
          change (0 < (1 - - (1)) * box_int (- (1)) 1 m (fun _ => exp (- (B / T)))). lra. }
        apply G.
      - unfold J. apply box_int_le; auto; [apply ucont_const|apply Hdc; lra|]. intros xs Hx. rewrite Rmult_1_r. unfold dens.
        specialize (HBB xs Hx). apply Rabs_le_between in HBB.
        assert (H : - (B / T) <= post lp T L xs / T). { unfold Rdiv. rewrite <- Ropp_mult_distr_l_reverse. apply Rmult_le_compat_r; [apply Rlt_le; now apply Rinv_0_lt_compat|lra]. }
        destruct H as [H|H]; [apply Rlt_le; now apply exp_increasing|rewrite H; lra]. }
    destruct (Rlt_dec 0 v) as [Hv0|Hv0]; auto. exfalso. apply is_lim_spec in Hv. destruct (Hv (mkposreal (J 1) Hp1)) as (r0 & Hr0).
    pose proof (Rmax_l 1 r0). pose proof (Rmax_r 1 r0). set (r := Rmax 1 r0 + 1) in *.
    assert (H1 : Rabs (J r - v) < J 1) by (apply Hr0; unfold r; lra).
    assert (H2 : J 1 <= J r). { unfold J. apply box_int_wider; [lra|unfold r; lra|apply Hdc; unfold r; lra|]. intros. rewrite Rmult_1_r. apply Rlt_le, exp_pos. }
    apply Rabs_def2 in H1. lra.
  - destruct (whole_of n d f lp T L Hlp HL (fun _ => 1) v ltac:(intros r Hr; apply ucont_const) Hv k Hkd) as (J & HJ & Hl).
    exists J. split; auto. intros r Hr. apply (box_integral_ext (- r) r n (fun xs => independent f xs * exp (L xs / T) * 1)); [intros; ring|auto].
Qed.
(** If the values have the tempered posterior density -- the prior density times exp(L/T) -- they have it
    after any number of iterations: [e k] is the mean of [g] after [k] of them. *)
Theorem C84_run n d f sd T ll L kept save F phi next g :
  (0 < n)%nat -> 0 < sd -> 0 < T -> normal_cdf F -> (forall z, derivable_pt_lim F z (phi z)) ->
  unlimited d f -> cont n L -> (exists M, forall xs, length xs = n -> L xs <= M) -> evaluates_all n T ll L kept ->
  follows_line (inversion_env [line_space n d sd] ll save) n T kept next ->
  cont n g -> bounded n g ->
  exists (e : nat -> list R -> R) v, (forall xs, e O xs = g xs) /\
    (forall k xs, length xs = n -> mean_draws phi n (fun i z u => e k (next xs i z u)) (e (S k) xs)) /\
    forall k, whole_integral n (fun xs => independent f xs * exp (L xs / T) * e k xs) v.
Proof.
  intros Hn Hsd HT HF Hphi Hd HL (M & HM) Hev Hnext Hg (D & HD).
  destruct (unlimited_log d f F Hd HF) as (lp & Hlp).
  destruct (post_below n d f lp T L M HT Hlp HM) as (p & C & Hp & HC & HB).
  pose proof (post_cont n d f lp T L Hlp HL) as Hpc.
  set (P := full n sd T phi (post lp T L)).
  assert (Ht : forall k, exists D', tame n D' (Nat.iter k P g)).
  { induction k as [|k (D' & IH)]; [exists D; split; auto|]. cbn [Nat.iter]. eexists. exact (full_tame n sd T Hsd F phi HF Hphi (post lp T L) Hpc D' _ IH Hn). }
  destruct (Ht O) as (D0 & Ht0). destruct (J_lim n T (post lp T L) Hpc D0 g Ht0 p Hp C HC HB) as (v & Hv).
  destruct (density_is n d f lp T L HT Hlp) as (kd & Hk & Hkd).
  exists (fun k => Nat.iter k P g), (kd * v). split; [reflexivity|]. split.
  - intros k xs Hl. destruct (Ht k) as (D' & Htk). eapply mean_draws_ext; [|exact (mean_draws_line n sd T Hsd F phi HF Hphi (post lp T L) Hpc D' _ Htk xs Hl)].
    intros i z u Hi Hu. cbn beta. rewrite (follows_line_step n d f lp sd T ll L kept save Hlp Hev HT next Hnext xs i z u); auto.
  - intros k. apply (whole_of n d f lp T L Hlp HL (Nat.iter k P g) v); auto.
    + intros r Hr. destruct (Ht k) as (D' & Htk). now apply (t_cont n D' _ Htk).
    + induction k as [|k IH]; [exact Hv|]. destruct (Ht k) as (D' & Htk). cbn [Nat.iter].
      exact (full_keeps n sd T Hsd HT F phi HF Hphi (post lp T L) Hpc D' _ Htk p Hp C HC HB (Finite v) Hn IH).
Qed.

(** * Likelihoods *)
Theorem C84_function n T h L ll : 0 < T -> (forall s xs tr, holds n s xs -> length xs = n -> h s tr = Ret (Fin (L xs)) tr) ->
  loglike_init None None None (Some h) = Ok ll -> evaluates_all n T ll L (fun _ => True).
Proof. intros HT Hf H lo hi _. eapply C73_function; eauto. intros s xs tr Hs [Hl _]. auto. Qed.
Theorem C84_gaussian_data n T ts fs K P G ll : 0 < T -> (forall lo hi, lo < hi -> gaussian_data n lo hi ts fs K P G) ->
  loglike_init (Some (map ATarget ts)) (Some (map AFwd fs)) None None = Ok ll ->
  evaluates_all n T ll (data_logpdf K P G ts) (fun s => forall lo hi, own_predictions n lo hi ts G s).
Proof.
  intros HT Hgd H lo hi Hlo. destruct (C73_gaussian_data n lo hi T ts fs K P G ll HT (Hgd lo hi Hlo) H) as [Hh He Hr].
  assert (Hall : forall s xs, holds n s xs -> in_box lo hi n xs -> own_predictions n lo hi ts G s -> forall lo' hi', own_predictions n lo' hi' ts G s).
  { intros s xs Hs Hx Ho lo' hi' ys t c Hy _ Ht Hc. apply (Ho ys t c); auto. now rewrite (holds_inj n s ys xs). }
  constructor; auto.
  - intros s xs Hs Hc lo' hi' ys t c _ _ _ Hget. rewrite Hc in Hget. discriminate.
  - intros old new xs ys tr Ho Hx Hk Hn Hy Hf. destruct (Hr old new xs ys tr Ho Hx (Hk lo hi) Hn Hy Hf) as (o' & n' & E1 & E2 & E3 & E4 & E5 & E6).
    exists o', n'. split; auto. split; auto. split; [exact (Hall o' xs E2 Hx E3)|]. split; auto. split; auto. exact (Hall n' ys E4 Hy E5).
Qed.
Lemma data_below K P G ts n : (forall t v, In t ts -> 0 <= quad (length (t_dobs t)) (P t) v) ->
  exists M, forall xs, length xs = n -> data_logpdf K P G ts xs <= M.
Proof.
  intros H. unfold data_logpdf. induction ts as [|t ts IH]; [exists 0; intros; cbn; lra|].
  destruct IH as (M & HM); [intros; apply H; now right|].
  eexists (_ + M). intros xs Hl. cbn [map]. change (rsum (?a :: ?l)) with (a + rsum l). apply Rplus_le_compat; [|now apply HM].
  unfold normal_logpdf. pose proof (H t (fun i => nth i (G t xs) 0 - nth i (t_dobs t) 0) (or_introl eq_refl)).
  instantiate (1 := - (INR (length (t_dobs t)) / 2) * ln (2 * PI) - / 2 * ln (det (length (t_dobs t)) (K t))). lra.
Qed.
(** Gaussian data and forward functions: the chain keeps the posterior distribution. *)
Theorem C84_posterior n d f sd T ts fs K P G ll save F phi :
  (0 < n)%nat -> 0 < sd -> 0 < T -> normal_cdf F -> (forall z, derivable_pt_lim F z (phi z)) -> unlimited d f ->
  (forall lo hi, lo < hi -> gaussian_data n lo hi ts fs K P G) -> (forall t i, In t ts -> cont n (fun xs => nth i (G t xs) 0)) ->
  (forall t v, In t ts -> 0 <= quad (length (t_dobs t)) (P t) v) ->
  loglike_init (Some (map ATarget ts)) (Some (map AFwd fs)) None None = Ok ll ->
  exists next, follows_line (inversion_env [line_space n d sd] ll save) n T (fun s => forall lo hi, own_predictions n lo hi ts G s) next /\
    forall g, cont n g -> bounded n g ->
    exists (e : nat -> list R -> R) v, (forall xs, e O xs = g xs) /\
      (forall k xs, length xs = n -> mean_draws phi n (fun i z u => e k (next xs i z u)) (e (S k) xs)) /\
      forall k, whole_integral n (fun xs => independent f xs * exp (data_logpdf K P G ts xs / T) * e k xs) v.
Proof.
  intros Hn Hsd HT HF Hphi Hd Hgd HG Hq Hll. pose proof (C84_gaussian_data n T ts fs K P G ll HT Hgd Hll) as Hev.
  destruct (C84_iteration n d f sd T ll _ _ save HT Hd Hev) as (next & Hnext & _). exists next. split; auto.
  intros g Hg Hb. refine (C84_run n d f sd T ll _ _ save F phi next g Hn Hsd HT HF Hphi Hd _ (data_below K P G ts n Hq) Hev Hnext Hg Hb).
  intros r Hr. apply C73_continuous; [lra|]. intros t i Ht. now apply HG.
Qed.
(** Two numbers with a standard normal prior, one datum: their sum plus noise. *)
Example C84_posterior_case : exists ll F phi,
  normal_cdf F /\ (forall z, derivable_pt_lim F z (phi z)) /\ unlimited (Gauss (HS 0) (HS 1)) (gauss_pdf 0 1) /\
  unlimited (Laplace (HS 0) (HS 1)) (laplace_pdf 0 1) /\
  (forall lo hi, lo < hi -> gaussian_data 2 lo hi [cv_target] [cv_fwd] cv_K cv_P cv_G) /\
  (forall t i, In t [cv_target] -> cont 2 (fun xs => nth i (cv_G t xs) 0)) /\
  (forall t v, In t [cv_target] -> 0 <= quad (length (t_dobs t)) (cv_P t) v) /\
  loglike_init (Some (map ATarget [cv_target])) (Some (map AFwd [cv_fwd])) None None = Ok ll.
Proof.
  destruct ExampleWalk.normal_cdf_exists as (F & HF). eexists _, F. destruct (nc_density F HF) as (c & Hc & Hd). exists (fun z => c * bell z).
  split; [exact HF|]. split; [exact Hd|]. split; [constructor; lra|]. split; [constructor; lra|]. split; [|split; [|split; [|reflexivity]]].
  - intros lo hi _. constructor.
    + repeat constructor. auto.
    + intros t [<-|[]]. split; [cbn; lia|]. split.
      * intros i k Hi Hk. cbn in Hi, Hk. assert (i = O) by lia. assert (k = O) by lia. subst. cbn. unfold cv_K, cv_P. cbn. split; lra.
      * eexists. split; [reflexivity|]. intros i j. reflexivity.
    + intros t xs [<-|[]] _. reflexivity.
    + intros t f s xs tr [E|[]] Hs _. injection E as <- <-. cbn. now rewrite (cv_values_holds _ _ _ Hs).
  - intros t i [<-|[]] r Hr. unfold cv_G. destruct i as [|[|i]]; cbn [nth]; try apply ucont_const.
    apply (ucont_ext (- r) r 2 (fun xs => nth 0 xs 0 + nth 1 xs 0)).
    + intros xs (Hl & _). destruct xs as [|a [|b [|? ?]]]; try discriminate Hl. cbn. lra.
    + apply ucont_plus; apply ucont_nth.
  - intros t v [<-|[]]. unfold quad, cv_P. cbn. nra.
Qed.
(** A log likelihood function that is bounded above: minus the square of the first number. *)
Example C84_function_case : exists ll L,
  (forall s xs tr, holds 2 s xs -> length xs = 2%nat -> (fun s => ret (Fin (- (nth 0 (cv_values s) 0) ^ 2))) s tr = Ret (Fin (L xs)) tr) /\
  loglike_init None None None (Some (fun s => ret (Fin (- (nth 0 (cv_values s) 0) ^ 2)))) = Ok ll /\
  cont 2 L /\ (exists M, forall xs, length xs = 2%nat -> L xs <= M) /\ cont 2 (fun xs => Rmin 1 (nth 1 xs 0 ^ 2)) /\ bounded 2 (fun xs => Rmin 1 (nth 1 xs 0 ^ 2)).
Proof.
  eexists _, (fun xs => - (nth 0 xs 0) ^ 2). split; [|split; [reflexivity|split; [|split; [|split]]]].
  - intros s xs tr Hs _. now rewrite (cv_values_holds _ _ _ Hs).
  - intros r Hr. assert (Hlo : - r < r) by lra. apply (ucont_comp (- r) r Hlo 2 (fun x => - x ^ 2)); [|apply ucont_nth].
    intros x. apply continuity_pt_opp. apply derivable_continuous_pt. apply derivable_pt_pow.
  - exists 0. intros xs _. pose proof (pow2_ge_0 (nth 0 xs 0)). lra.
  - intros r Hr. assert (Hlo : - r < r) by lra. apply ucont_min; auto; [apply ucont_const|].
    apply (ucont_comp (- r) r Hlo 2 (fun x => x ^ 2)); [|apply ucont_nth]. intros x. apply derivable_continuous_pt. apply derivable_pt_pow.
  - exists 1. intros xs _. pose proof (pow2_ge_0 (nth 1 xs 0)). unfold Rmin. destruct (Rle_dec 1 _); rewrite Rabs_right; lra.
Qed.
