(** C53 in several dimensions: the walks of sites in a box or a polygon. *)
From Coq Require Import Permutation.
From Verif Require Import Base ModelPrior ModelState ModelSpace ModelPerturb ModelLikelihood SpecState SpecSpace SpecWalk SpecWalkN ExampleWalk
  ProofUtils1D ProofChain ProofState ProofSpace ProofSpaceB ProofSpaceC ProofSpaceE ProofRun ProofInversion ExampleRun PropSpace PropState PropWalk.
Local Open Scope string_scope.
Local Open Scope list_scope.
Local Open Scope R_scope.

(** * The code draws these walks *)
Lemma until_steps {A} (m : M A) (P : list draw -> A -> Prop) ok :
  (forall ds a, P ds a -> ds <> []) ->
  (forall tr y tr', m tr = Ret y tr' <-> exists ds, tr = ds ++ tr' /\ P ds y) ->
  forall tr y tr', until m ok tr = Ret y tr' <->
    exists tries ds, tr = concat tries ++ ds ++ tr' /\ P ds y /\ ok y = true /\
      Forall (fun ds' => exists w, P ds' w /\ ok w = false) tries.
Proof.
  intros Hne Hm tr y tr'. unfold until.
  assert (G : forall fuel tr, until_loop fuel m ok tr = Ret y tr' ->
    exists tries ds, tr = concat tries ++ ds ++ tr' /\ P ds y /\ ok y = true /\
      Forall (fun ds' => exists w, P ds' w /\ ok w = false) tries).
  { induction fuel as [|n IH]; intros t H; cbn in H; [discriminate|].
    destruct (m t) as [b t'|e t'| |] eqn:E; try discriminate. apply Hm in E. destruct E as (ds & -> & Hd).
    destruct (ok b) eqn:Eo.
    - injection H as <- <-. exists [], ds. auto.
    - apply IH in H. destruct H as (tries & ds' & -> & Hd' & Ho & Hf). exists (ds :: tries), ds'.
      split; [cbn; now rewrite <- app_assoc|]. split; auto. split; auto. constructor; eauto. }
  split; [apply G|]. intros (tries & ds & -> & Hd & Ho & Hf).
  assert (Hn : (length tries < S (length (concat tries ++ ds ++ tr')))%nat).
  { apply -> Nat.lt_succ_r. rewrite app_length. enough (length tries <= length (concat tries))%nat by lia.
    clear -Hf Hne. induction Hf as [|d l (w & Hw & _) _ IH]; cbn; auto. rewrite app_length.
    pose proof (Hne _ _ Hw). destruct d; [congruence|]. cbn. lia. }
  revert Hn. generalize (S (length (concat tries ++ ds ++ tr'))) as fuel. intros fuel Hn. revert fuel Hn.
  induction Hf as [|d0 l (w & Hw & Ew) Hf IH]; intros fuel Hn; (destruct fuel as [|n]; [cbn in Hn; lia|]); cbn [until_loop concat app].
  - replace (m (ds ++ tr')) with (Ret y tr') by (symmetry; apply Hm; eauto). now rewrite Ho.
  - rewrite <- app_assoc. replace (m (d0 ++ concat l ++ ds ++ tr')) with (Ret w (concat l ++ ds ++ tr')) by (symmetry; apply Hm; eauto).
    rewrite Ew. apply IH. cbn in Hn. lia.
Qed.
Lemma normal_vec_iff sd tr v tr' : Forall (fun s => 0 <= s) sd -> normal_vec (length sd) sd tr = Ret v tr' <->
  exists zs, tr = map DZ zs ++ tr' /\ length zs = length sd /\ v = map (fun sz => fst sz * snd sz) (combine sd zs).
Proof.
  intros Hs. unfold normal_vec. rewrite Nat.eqb_refl.
  assert (Hn : neg_any sd = false).
  { unfold neg_any. clear -Hs. induction Hs as [|s l H _ IH]; cbn; auto. rewrite IH.
    destruct (Rltb s 0) eqn:E; auto. apply Rltb_true in E. lra. }
  rewrite Hn. clear Hn Hs. revert tr v. induction sd as [|s sd IH]; intros tr v; cbn [mapM].
  - split.
    + intros H. mr H. exists []. auto.
    + intros ([|z zs] & -> & L & ->); [|discriminate]. reflexivity.
  - split.
    + intros H. mb H as y Ey. mb H as ys Eys. mr H. apply IH in Eys. destruct Eys as (zs & -> & L & ->).
      unfold normal, bind, drawZ, ret in Ey. destruct tr as [|[] tr]; try discriminate. injection Ey as <- ->.
      exists (z :: zs). split; auto. split; [cbn; lia|]. cbn. f_equal. lra.
    + intros ([|z zs] & -> & L & ->); [discriminate|]. cbn [map app combine fst snd].
      assert (E : mapM (fun s0 => normal 0 s0) sd (map DZ zs ++ tr') = Ret (map (fun sz => fst sz * snd sz) (combine sd zs)) tr').
      { apply IH. exists zs. split; auto. }
      unfold bind at 1. change (normal 0 s (DZ z :: map DZ zs ++ tr')) with (Ret (0 + z * s) (map DZ zs ++ tr')). cbv beta iota.
      unfold bind. rewrite E. unfold ret. do 2 f_equal. lra.
Qed.
Lemma stepped_vadd sd x zs y : length sd = length x -> length zs = length x ->
  (y = vadd x (map (fun sz => fst sz * snd sz) (combine sd zs)) <-> stepped sd x zs y).
Proof.
  unfold stepped, vadd. intros L1 L2. revert sd zs y L1 L2.
  induction x as [|a x IH]; intros [|s sd] [|z zs] y L1 L2; cbn in L1, L2; try discriminate.
  - cbn. split; [intros ->; repeat split; auto; intros [|i]; discriminate|]. intros (_ & _ & L & _). now destruct y.
  - injection L1 as L1. injection L2 as L2. cbn [map combine fst snd]. split.
    + intros ->. destruct (proj1 (IH sd zs _ L1 L2) eq_refl) as (_ & _ & L & H). split; [cbn; lia|]. split; [cbn; lia|].
      split; [cbn; f_equal; exact L|]. intros [|i] s' a' z'; cbn; [|apply H]. intros [= <-] [= <-] [= <-]. reflexivity.
    + intros (_ & _ & L & H). destruct y as [|b y]; [discriminate|]. f_equal.
      * specialize (H O s a z eq_refl eq_refl eq_refl). cbn in H. congruence.
      * apply IH; auto. split; auto. split; auto. split; [cbn in L; lia|]. intros i. apply (H (S i)).
Qed.
(** Where a site may go: inside the polygon, or in the box. *)
Definition allowed (poly : option (list R -> bool)) (lo hi y : list R) : Prop :=
  match poly with Some inside => inside y = true | None => boxed lo hi y end.
Lemma in_box_boxed lo hi y : length lo = length y -> length hi = length y -> (ModelSpace.in_box lo hi y = true <-> boxed lo hi y).
Proof.
  unfold ModelSpace.in_box, boxed. revert lo hi. induction y as [|x y IH]; intros [|a lo] [|b hi] L1 L2; cbn in L1, L2; try discriminate.
  - cbn. split; auto. intros _ [|i]; discriminate.
  - injection L1 as L1. injection L2 as L2. cbn [combine forallb fst snd]. rewrite !Bool.andb_true_iff, (IH lo hi L1 L2). split.
    + intros [[H1 H2] H] [|i] a' b' x'; cbn; [|apply H]. intros [= <-] [= <-] [= <-].
      apply Rleb_true in H1. apply Rleb_true in H2. lra.
    + intros H. split; [|intros i; apply (H (S i))]. specialize (H O a b x eq_refl eq_refl eq_refl).
      unfold Rleb. destruct (Rle_dec a x), (Rle_dec x b); split; auto; lra.
Qed.
(** A move of a site redraws the steps of all coordinates until the new point is inside. *)
Theorem C53_point_draws d lo hi sd poly kd fp x tr y tr' : (0 < d)%nat ->
  length lo = d -> length hi = d -> length sd = d -> length x = d -> Forall (fun s => 0 <= s) sd ->
  perturb_site (VorN d lo hi sd poly kd fp) (PN x) tr = Ret (PN y) tr' <->
  exists tries zs, tr = concat (map (map DZ) tries) ++ map DZ zs ++ tr' /\ first_point (allowed poly lo hi) sd x tries zs y.
Proof.
  intros Hd Ll Lh Ls Lx Hs.
  set (ok := match poly with Some inside => inside | None => ModelSpace.in_box lo hi end).
  assert (E : perturb_site (VorN d lo hi sd poly kd fp) (PN x) tr = Ret (PN y) tr' <->
    until (dv <- normal_vec d sd ;; ret (vadd x dv)) ok tr = Ret y tr').
  { unfold perturb_site, bind at 1, ret at 2. fold ok. destruct (until _ _ tr); split; try discriminate; congruence. }
  rewrite E. clear E.
  set (P := fun ds (w : list R) => exists zs, ds = map DZ zs /\ stepped sd x zs w).
  rewrite (until_steps _ P).
  - assert (Hok : forall zs w, stepped sd x zs w -> (ok w = true <-> allowed poly lo hi w)).
    { intros zs w (_ & _ & L & _). unfold ok, allowed. destruct poly; [tauto|]. apply in_box_boxed; lia. }
    unfold first_point. split.
    + intros (tries & ds & -> & (zs & -> & Hst) & Ho & Hf).
      assert (Ht : exists ts, tries = map (map DZ) ts /\ Forall (fun zs' => exists w, stepped sd x zs' w /\ ~ allowed poly lo hi w) ts).
      { clear -Hf Hok. induction Hf as [|d0 l (w & (zs & -> & Hst) & Ew) _ (ts & -> & IH)]; [exists []; auto|].
        exists (zs :: ts). split; auto. constructor; auto. exists w. split; auto. intros Ha. apply (Hok _ _ Hst) in Ha. congruence. }
      destruct Ht as (ts & -> & Hts). exists ts, zs. split; auto. split; auto. split; auto. now apply (Hok zs).
    + intros (ts & zs & -> & Hst & Ha & Hf). exists (map (map DZ) ts), (map DZ zs). split; auto.
      split; [exists zs; auto|]. split; [now apply (Hok zs)|]. clear -Hf Hok.
      induction Hf as [|z l (w & Hst & Ew) _ IH]; cbn; constructor; auto. exists w. split; [exists z; auto|].
      destruct (ok w) eqn:Eo; auto. destruct Ew. now apply (Hok z).
  - intros ds w (zs & -> & (_ & L & _)). destruct zs; [cbn in L; lia|discriminate].
  - intros t w t'. subst d. rewrite <- Ls. split.
    + intros H. mb H as dv Edv. mr H. apply normal_vec_iff in Edv; auto. destruct Edv as (zs & -> & L & ->).
      exists (map DZ zs). split; auto. exists zs. split; auto. apply stepped_vadd; congruence.
    + intros (ds & -> & zs & -> & Hst). pose proof Hst as (_ & L & _). apply stepped_vadd in Hst; [|congruence..].
      unfold bind. rewrite (proj2 (normal_vec_iff sd (map DZ zs ++ t') (map (fun sz => fst sz * snd sz) (combine sd zs)) t' Hs)).
      * unfold ret. now rewrite Hst.
      * exists zs. split; auto. split; congruence.
Qed.

(** * Their law *)
Lemma geometric p a : 0 < p < 2 -> infinite_sum (fun n => (1 - p) ^ n * a) (a / p).
Proof.
  intros Hp. assert (G : Pser (fun _ => 1) (1 - p) (/ (1 - (1 - p)))).
  { apply GP_infinite. apply Rabs_def1; lra. }
  replace (1 - (1 - p)) with p in G by ring.
  intros eps He. destruct (G (eps / (Rabs a + 1))) as [N HN].
  { pose proof (Rabs_pos a). apply Rdiv_lt_0_compat; lra. }
  exists N. intros n Hn. specialize (HN n Hn). unfold R_dist in *.
  assert (S : sum_f_R0 (fun n => (1 - p) ^ n * a) n = a * sum_f_R0 (fun n => 1 * (1 - p) ^ n) n).
  { rewrite scal_sum. apply sum_eq. intros i _. ring. }
  rewrite S. replace (a * sum_f_R0 (fun n0 => 1 * (1 - p) ^ n0) n - a / p)
    with (a * (sum_f_R0 (fun n0 => 1 * (1 - p) ^ n0) n - / p)) by (unfold Rdiv; ring).
  rewrite Rabs_mult. pose proof (Rabs_pos a).
  apply Rle_lt_trans with (Rabs a * (eps / (Rabs a + 1))); [apply Rmult_le_compat_l; lra|].
  apply Rmult_lt_reg_r with (Rabs a + 1); [lra|]. unfold Rdiv. rewrite Rmult_assoc, Rmult_assoc, Rinv_l by lra. nra.
Qed.
Lemma axis_hit F a x : normal_cdf F -> proper_axis a -> 0 < hit F (a_lo a) (a_hi a) (a_sd a) x < 1.
Proof. intros [(c & Hc & HF) Hr _ _] [Hl Hs]. apply (hit_prob F c); auto. Qed.
Lemma box_hit_prob F ax : normal_cdf F -> Forall proper_axis ax -> forall xs, 0 < box_hit F ax xs <= 1.
Proof.
  intros HF Ha. induction Ha as [|a ax Ha _ IH]; intros [|x xs]; cbn; try lra.
  pose proof (axis_hit F a x HF Ha). specialize (IH xs). nra.
Qed.
(** The coordinates of the point where the walk ends are independent, each distributed as the end of a walk
    between the limits of its axis: [cs] are the distribution functions of these walks at [ys]. *)
Theorem C53_point_law F ax xs ys cs : normal_cdf F -> Forall proper_axis ax ->
  length xs = length ax -> length ys = length ax -> length cs = length ax ->
  (forall i a x y c, nth_error ax i = Some a -> nth_error xs i = Some x -> nth_error ys i = Some y -> nth_error cs i = Some c ->
     infinite_sum (after F (a_lo a) (a_hi a) (a_sd a) x y) c) ->
  infinite_sum (box_after F ax xs ys) (fold_right Rmult 1 cs).
Proof.
  intros HF Ha L1 L2 L3 Hc.
  assert (E : fold_right Rmult 1 cs = box_below F ax xs ys / box_hit F ax xs).
  { clear -HF Ha L1 L2 L3 Hc. revert xs ys cs L1 L2 L3 Hc.
    induction Ha as [|a ax Ha Hax IH]; intros [|x xs] [|y ys] [|c cs] L1 L2 L3 Hc; cbn in L1, L2, L3; try discriminate.
    - cbn. field.
    - cbn [fold_right box_below box_hit]. rewrite (IH xs ys cs) by (auto; try lia; intros i; apply (Hc (S i))).
      pose proof (axis_hit F a x HF Ha) as Hh. pose proof (box_hit_prob F ax HF Hax xs) as Hb.
      specialize (Hc O a x y c eq_refl eq_refl eq_refl eq_refl).
      rewrite (uniqueness_sum _ _ _ Hc (geometric (hit F (a_lo a) (a_hi a) (a_sd a) x) _ ltac:(lra))). field. lra. }
  rewrite E. pose proof (box_hit_prob F ax HF Ha xs). apply geometric. lra.
Qed.
(** The log ratio of the proposal densities. *)
Theorem C53_point_ratio F ax ws xs ys : normal_cdf F -> Forall proper_axis ax -> length ws = length ax ->
  length xs = length ax -> length ys = length ax ->
  (forall i a w, nth_error ax i = Some a -> nth_error ws i = Some w -> walks F (a_lo a) (a_hi a) (a_sd a) w) ->
  (forall i a x, nth_error ax i = Some a -> nth_error xs i = Some x -> inner a x) ->
  (forall i a y, nth_error ax i = Some a -> nth_error ys i = Some y -> inner a y) ->
  log_point_ratio ws xs ys = ln (box_hit F ax xs / box_hit F ax ys).
Proof.
  intros HF Ha. revert ws xs ys. induction Ha as [|a ax Ha Hax IH]; intros [|w ws] [|x xs] [|y ys] L0 L1 L2 Hw Hx Hy;
    cbn in L0, L1, L2; try discriminate.
  - cbn. unfold Rdiv. rewrite Rinv_1, Rmult_1_l, ln_1. reflexivity.
  - cbn [log_point_ratio box_hit].
    injection L0 as L0. injection L1 as L1. injection L2 as L2.
    rewrite (IH ws xs ys L0 L1 L2 (fun i => Hw (S i)) (fun i => Hx (S i)) (fun i => Hy (S i))).
    pose proof Ha as [Hl Hs].
    destruct (C53_log_ratio F (a_lo a) (a_hi a) (a_sd a) w x y HF Hs (Hw O a w eq_refl eq_refl) (Hx O a x eq_refl eq_refl) (Hy O a y eq_refl eq_refl)) as [-> _].
    pose proof (axis_hit F a x HF Ha). pose proof (axis_hit F a y HF Ha).
    pose proof (box_hit_prob F ax HF Hax xs). pose proof (box_hit_prob F ax HF Hax ys).
    rewrite <- ln_mult by (apply Rdiv_lt_0_compat; lra). f_equal. field. lra.
Qed.

(** * What the moves report
    As for one dimension, the moves report the log ratio 0, which is right exactly when a step is as likely to
    stay in the box from the new site as from the old one. *)
Theorem C53_point_partial s d lo hi sd kd fp n old tr q r tr' ax : valid s -> sp_cls s = VorN d lo hi sd None kd fp -> (0 < d)%nat ->
  axes_of ax lo hi sd -> Forall proper_axis ax ->
  (forall k p, In (k, PPrior p) (sp_params s) -> p_pos p = false) -> wf s old ->
  elem_perturb (EParam n [PSpace s]) old tr = Ret (q, r) tr' ->
  exists i tries zs x y l,
    tr = DInt i :: concat (map (map DZ) tries) ++ map DZ zs ++ tr' /\ first_point (boxed lo hi) sd x tries zs y /\
    ps_get "discretization" old = Some (ArrN l) /\ nth_error l i = Some x /\
    ps_get "discretization" q = Some (ArrN (set_nth l i y)) /\ r = Fin 0 /\
    forall F ws, normal_cdf F -> length ws = length ax ->
      (forall i a w, nth_error ax i = Some a -> nth_error ws i = Some w -> walks F (a_lo a) (a_hi a) (a_sd a) w) ->
      (forall i a x', nth_error ax i = Some a -> nth_error x i = Some x' -> inner a x') ->
      (forall i a y', nth_error ax i = Some a -> nth_error y i = Some y' -> inner a y') ->
      (r = Fin (log_point_ratio ws x y) <-> box_hit F ax x = box_hit F ax y).
Proof.
  intros Hv Hcls Hd0 Haxes Hax Hpos Hwf H. assert (Hd : is_disc s = true) by (unfold is_disc; now rewrite Hcls).
  cbn [elem_perturb] in H. unfold param_perturb in H. mb H as i Ei. cbn [perturb_params] in H. rewrite Hd in H.
  unfold perturb_value in H. mb H as x Ex. mb H as x' Ex'. mb H as [vals l] Ev. mb H as q0 Eq0.
  mb H as q1 Ekd. mr H. injection H as -> ->. apply add_kdtree_ok in Ekd. destruct Ekd as (_ & K2 & _).
  pose proof (valid_here _ Hv) as (_ & _ & Hc & Hnd & Hdk & _). rewrite Hcls in Hc. destruct Hc as (Ll & Lh & _ & _). destruct Haxes as (A1 & A2 & A3).
  destruct (wf_inv _ _ Hnd Hwf) as (_ & Hsites & _ & _ & _). unfold sites_ok in Hsites. rewrite Hcls in Hsites.
  destruct Hsites as (sites & Es & Hin). rewrite Es in *. cbn in Ex. apply idx_ok in Ex. rewrite nth_error_map in Ex.
  destruct (nth_error sites i) as [x0|] eqn:Ex0; [|discriminate]. injection Ex as <-. rewrite Hcls in Ex'.
  assert (Hx' : exists y, x' = PN y).
  { revert Ex'. unfold perturb_site, bind at 1, ret at 2. destruct (until _ _ _); try discriminate. intros [= <- _]. eauto. }
  destruct Hx' as [y ->].
  assert (Lx : length x0 = d).
  { rewrite Forall_forall in Hin. specialize (Hin x0 (nth_error_In _ _ Ex0)). tauto. }
  assert (La : length ax = d) by (rewrite <- Ll, <- A1, map_length; reflexivity).
  apply C53_point_draws in Ex'; auto; [|rewrite <- A3, map_length; auto|].
  2:{ rewrite <- A3. clear -Hax. induction Hax as [|a ax [_ Ha] _ IH]; cbn; constructor; auto. lra. }
  destruct Ex' as (tries & zs & Et & Hf).
  apply perturb_loop_spec in Ev; [|apply disc_first; auto]. destruct Ev as ((cs & -> & Hcs) & new & -> & Hnew).
  assert (Hnk : dkeys new = dkeys (sp_params s)).
  { unfold dkeys. symmetry. eapply Forall2_map_eq; [exact Hnew|]. intros a b _ [E _]. exact E. }
  assert (Hndv : NoDup (dkeys ([(disc_key, ArrN (set_nth sites i y))] ++ new))).
  { cbn [app dkeys map fst]. change (map fst new) with (dkeys new). rewrite Hnk. constructor; auto. }
  destruct (mk_ps_ok _ _ _ Hndv Eq0) as [-> _]. cbn [ps_vals] in K2.
  exists i, tries, zs, x0, y, sites.
  split. { apply randint_below_inv in Ei. destruct Ei as [_ ->]. f_equal. exact Et. }
  split; [exact Hf|]. split; [exact Es|]. split; [exact Ex0|].
  split; [unfold ps_get; now rewrite K2|]. rewrite (no_terms _ _ _ _ _ _ Hcs Hpos). split; auto.
  intros F ws HF Lw Hw Hx Hy. assert (Ly : length y = d) by (destruct Hf as ((_ & _ & L & _) & _); lia).
  rewrite (C53_point_ratio F ax ws x0 y) by (auto; lia).
  pose proof (box_hit_prob F ax HF Hax x0) as P1. pose proof (box_hit_prob F ax HF Hax y) as P2. split.
  - intros [= E]. rewrite <- ln_1 in E. apply ln_inv in E; [|lra|apply Rdiv_lt_0_compat; lra].
    apply (Rmult_eq_reg_r (/ box_hit F ax y)); [|apply Rinv_neq_0_compat; lra].
    rewrite Rinv_r by lra. symmetry. exact E.
  - intros ->. unfold Rdiv. rewrite Rinv_r, ln_1 by lra. reflexivity.
Qed.

(** * A cell between 0 and 10 along both axes *)
Definition sq : space := Space "sq" (Some 1%nat) 1 1 0 (VorN 2 [0; 0] [10; 10] [1; 1] None true true) [("v", PPrior ex_v)].
Definition sq_axes : list axis := [Axis 0 10 1; Axis 0 10 1].
Definition sq_at (y : R) : psstate :=
  PS 1 [("discretization", ArrN [[5; y]]); ("v", Arr [2])] [("discretization", ArrN [[5; y]]); ("v", Arr [2])] [("kdtree", ArrN [[5; y]])].
Lemma sq_valid : valid sq.
Proof.
  intros s H. assert (s = sq) as ->.
  { inversion H as [|? ? s1 ? Hin]; subst; auto. cbn in Hin. destruct Hin as [E|[]]; discriminate E. }
  split; [cbn; lia|]. split; [cbn; lra|]. split; [|split; [|split; [|split]]].
  + cbn. split; [reflexivity|]. split; [reflexivity|]. split; auto.
    intros [|[|i]] a b; cbn; try (intros [= <-] [= <-]; lra); destruct i; discriminate.
  + cbn. repeat constructor; cbn; intuition discriminate.
  + cbn. intuition discriminate.
  + cbn. intros k p [E|[]]. injection E as <- <-. split; auto. apply ex_prior_v.
  + cbn. intros k p [E|[]]. discriminate E.
Qed.
Lemma sq_pos k p : In (k, PPrior p) (sp_params sq) -> p_pos p = false.
Proof. intros [[= <- <-]|[]]. reflexivity. Qed.
Lemma sq_proper : Forall proper_axis sq_axes.
Proof. repeat constructor; cbn; lra. Qed.
Local Opaque Rleb Rltb Reqb py_int.
Lemma sq_start : ModelSpace.initialize sq [DU (1/2); DU (1/2); DU (1/2)] = Ret (sq_at 5) [].
Proof. run. same. Qed.
(** The first step, 6 upwards, leaves the box; the second is taken. *)
Lemma sq_move : elem_perturb (EParam "sq" [PSpace sq]) (sq_at 5) [DInt 0; DZ 0; DZ 6; DZ 0; DZ 4] = Ret (sq_at 9, Fin 0) [].
Proof. run. same. Qed.
Lemma sq_wf : wf sq (sq_at 5).
Proof. eapply initialize_wf; [apply sq_valid|apply sq_start]. Qed.
Example C53_point_draws_case :
  perturb_site (sp_cls sq) (PN [5; 5]) [DZ 0; DZ 6; DZ 0; DZ 4] = Ret (PN [5; 9]) [].
Proof. run. same. Qed.
Example C53_point_case : valid sq /\ sp_cls sq = VorN 2 [0; 0] [10; 10] [1; 1] None true true /\
  axes_of sq_axes [0; 0] [10; 10] [1; 1] /\ Forall proper_axis sq_axes /\
  (forall k p, In (k, PPrior p) (sp_params sq) -> p_pos p = false) /\ wf sq (sq_at 5) /\
  elem_perturb (EParam "sq" [PSpace sq]) (sq_at 5) [DInt 0; DZ 0; DZ 6; DZ 0; DZ 4] = Ret (sq_at 9, Fin 0) [].
Proof.
  split; [apply sq_valid|]. split; [reflexivity|]. split; [repeat split|]. split; [apply sq_proper|].
  split; [apply sq_pos|]. split; [apply sq_wf|apply sq_move].
Qed.
(** The site (5, 5) moves to (5, 9), but the log ratio 0 is reported. *)
Theorem C53_point_refuted : exists s d lo hi sd kd fp ax old tr q r, valid s /\ sp_cls s = VorN d lo hi sd None kd fp /\
  axes_of ax lo hi sd /\ Forall proper_axis ax /\ wf s old /\
  (forall k p, In (k, PPrior p) (sp_params s) -> p_pos p = false) /\
  elem_perturb (EParam (sp_name s) [PSpace s]) old tr = Ret (q, r) [] /\
  exists F ws x y, normal_cdf F /\ length ws = d /\
    (forall i a w, nth_error ax i = Some a -> nth_error ws i = Some w -> walks F (a_lo a) (a_hi a) (a_sd a) w) /\
    (forall i a u, nth_error ax i = Some a -> nth_error x i = Some u -> inner a u) /\
    (forall i a u, nth_error ax i = Some a -> nth_error y i = Some u -> inner a u) /\
    ps_get "discretization" old = Some (ArrN [x]) /\ ps_get "discretization" q = Some (ArrN [y]) /\
    r <> Fin (log_point_ratio ws x y).
Proof.
  destruct C53_point_case as (A & B & C & D & E & G & H). destruct C53_density_case as (F & w & HF & Hw & Hne & _).
  exists sq, 2%nat, [0; 0], [10; 10], [1; 1], true, true, sq_axes, (sq_at 5), [DInt 0; DZ 0; DZ 6; DZ 0; DZ 4], (sq_at 9), (Fin 0).
  do 6 (split; [assumption|]). split; [exact H|]. exists F, [w; w], [5; 5], [5; 9]. split; auto. split; [reflexivity|].
  split. { intros [|[|i]] a w'; cbn; try (intros [= <-] [= <-]; exact Hw); destruct i; discriminate. }
  split. { unfold inner. intros [|[|i]] a u; cbn; try (intros [= <-] [= <-]; cbn; lra); destruct i; discriminate. }
  split. { unfold inner. intros [|[|i]] a u; cbn; try (intros [= <-] [= <-]; cbn; lra); destruct i; discriminate. }
  split; [reflexivity|]. split; [reflexivity|]. intros [= X]. apply Hne. revert X. unfold log_point_ratio.
  replace (log_proposal_ratio w 5 5) with 0; [lra|]. symmetry.
  apply (C53_log_ratio F 0 10 1 w 5 5); auto; lra.
Qed.
Example C53_point_law_case : exists F w cs, normal_cdf F /\ Forall proper_axis sq_axes /\ length cs = 2%nat /\
  walks F 0 10 1 w /\
  (forall i a x y c, nth_error sq_axes i = Some a -> nth_error [5; 5] i = Some x -> nth_error [7; 9] i = Some y -> nth_error cs i = Some c ->
     infinite_sum (after F (a_lo a) (a_hi a) (a_sd a) x y) c).
Proof.
  destruct C53_density_case as (F & w & HF & Hw & _).
  pose proof (axis_hit F (Axis 0 10 1) 5 HF ltac:(split; cbn; lra)) as Hh. cbn [a_lo a_hi a_sd] in Hh.
  set (h := hit F 0 10 1 5) in *.
  exists F, w, [(F ((7 - 5) / 1) - F ((0 - 5) / 1)) / h; (F ((9 - 5) / 1) - F ((0 - 5) / 1)) / h]. split; auto. split; [apply sq_proper|]. split; [reflexivity|]. split; auto.
  intros [|[|i]] a x y c; cbn [nth_error sq_axes].
  - intros [= <-] [= <-] [= <-] [= <-]. cbn [a_lo a_hi a_sd]. apply (geometric h). lra.
  - intros [= <-] [= <-] [= <-] [= <-]. cbn [a_lo a_hi a_sd]. apply (geometric h). lra.
  - destruct i; discriminate.
Qed.
