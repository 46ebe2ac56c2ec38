(** C73: the chain of an inversion for numbers with uniform priors leaves the tempered
    posterior distribution invariant. *)
From Coquelicot Require Import Coquelicot.
From Verif Require Import Base ModelPrior ModelState ModelSpace ModelPerturb ModelChain ModelLikelihood SpecWalk SpecInvariance.
From Verif Require Import ProofChain ProofBox ProofInvariance.
From Verif Require ExampleRun ExampleWalk PropBalance.
Local Open Scope string_scope.
Local Open Scope list_scope.
Local Open Scope R_scope.

(** * The inversion *)
(** ParameterSpace("m", n_dimensions=n, parameters=[UniformPrior("v", lo, hi, sd)]) *)
Definition number_prior (lo hi sd : R) : prior := mkPrior "v" false (Uniform (HS lo) (HS hi)) (HS sd) (HS sd).
Definition number_space (n : nat) (lo hi sd : R) : space :=
  Space "m" (Some n) n n 0 Plain [("v", PPrior (number_prior lo hi sd))].
(** [s] is a state of this parameterization with the values [xs]. *)
Definition holds (n : nat) (s : state) (xs : list R) : Prop :=
  (exists attrs cache, st_vals s = [("m", EPS (PS n [("v", Arr xs)] attrs cache))]) /\ st_extra s = [].
(** What a proposal has in its cache when it comes from the perturbation. *)
Definition fresh (s : state) : Prop := st_cache s = [("perturb_stats", CStats [("ParamPerturbation(m.v)", 1)])].
(** The likelihood of states with values [xs] in the box is exp(L xs): ratios are those of
    [L], and the caches (which may hold predictions) stay as [kept] says. *)
Record evaluates (n : nat) (lo hi T : R) (ll : loglike) (L : list R -> R) (kept : state -> Prop) : Prop := {
  ev_hier : ll_hier ll = [];
  ev_empty : forall s xs, holds n s xs -> st_cache s = [] -> kept s;
  ev_ratio : forall old new xs ys tr, holds n old xs -> in_box lo hi n xs -> kept old ->
    holds n new ys -> in_box lo hi n ys -> fresh new ->
    exists old' new', log_likelihood_ratio ll old new T tr = Ret (old', new', inl (Fin ((L ys - L xs) / T))) tr /\
      holds n old' xs /\ kept old' /\ holds n new' ys /\ kept new' /\
      dget "perturb_stats" (st_cache new') = dget "perturb_stats" (st_cache new)
}.
(** The chain stands at [xs], with the temperature [T], in the middle of a run. *)
Definition stands_at (n : nat) (T : R) (kept : state -> Prop) (c : chain state ovalue) (xs : list R) : Prop :=
  (holds n (c_cur c) xs /\ kept (c_cur c)) /\ c_temp c = T /\ (exists fl, c_flag c = Some fl) /\ exists d, c_saved c = SDict d.

(** [next xs i z u] is where one iteration ends: index [i], deviate [z], uniform number [u]
    (the first numbers drawn choose among single perturbations). *)
Definition follows (E : env state ovalue) (n : nat) (lo hi T : R) (kept : state -> Prop)
    (next : list R -> nat -> R -> R -> list R) : Prop :=
  forall c xs w w' i z u tr, stands_at n T kept c xs -> in_box lo hi n xs -> 0 <= w < 1 -> 0 <= w' < 1 -> (i < n)%nat -> 0 < u < 1 ->
    exists c', next_iteration E c (DU w :: DInt 0 :: DU w' :: DInt i :: DZ z :: DU u :: tr) = Ret (c', None) tr /\
      stands_at n T kept c' (next xs i z u).

Section Step.
Context (n : nat) (lo hi sd T : R) (ll : loglike) (L : list R -> R) (kept : state -> Prop) (save : bool).
Context (Hev : evaluates n lo hi T ll L kept) (HT : 0 < T).
Let sp := number_space n lo hi sd.
Let E := inversion_env [sp] ll save.

Lemma choose_only k w wt tr : 0 <= w < 1 -> 0 < wt -> k = 1%nat -> choices k [wt] (DU w :: tr) = Ret 0%nat tr.
Proof.
  intros Hw Hwt ->. unfold choices. cbn [accumulate length Nat.eqb negb rev app].
  rewrite ExampleRun.Rleb_f by lra. unfold bind. rewrite drawU_ok by lra.
  reflexivity.
Qed.
Lemma copied xs attrs cache : length xs = n ->
  ps_copy (PS n [("v", Arr xs)] attrs cache) = Ok (PS n [("v", Arr xs)] [("v", Arr xs)] cache).
Proof. intros Hl. cbn. rewrite Hl, Nat.eqb_refl. reflexivity. Qed.
Lemma set_len (l : list R) i x : (i < length l)%nat -> length (set_nth l i x) = length l.
Proof. revert i. induction l as [|a l IH]; intros [|i] Hi; cbn [length] in Hi; try lia; [reflexivity|]. rewrite set_nth_cons. cbn [length]. rewrite IH by lia. reflexivity. Qed.
Definition verdict_of (y : R) : ext := if Rle_dec lo y then if Rle_dec y hi then Fin 0 else MInf else MInf.
Lemma moved xs attrs cache i z tr : in_box lo hi n xs -> (i < n)%nat ->
  let y := nth i xs 0 + z * sd in
  param_perturb [PPrior (number_prior lo hi sd)] (PS n [("v", Arr xs)] attrs cache) (DInt i :: DZ z :: tr) =
  Ret (PS n [("v", Arr (set_nth xs i y))] [("v", Arr xs)] cache, verdict_of y) tr.
Proof.
  clear E sp Hev HT. intros [Hl Hb] Hi y.
  assert (Hx : nth_error xs i = Some (nth i xs 0)) by (apply nth_error_nth'; lia).
  unfold param_perturb, bind at 1. cbn [ps_n].
  assert (Hr : randint_below n (DInt i :: DZ z :: tr) = Ret i (DZ z :: tr)).
  { destruct n as [|m]; [lia|]. cbn. destruct (Nat.leb_spec i m); [reflexivity|lia]. }
  rewrite Hr. cbn [perturb_params p_name number_prior]. unfold ps_get, bind. cbn [ps_vals dget String.eqb Ascii.eqb Bool.eqb].
  cbn [num_at idx lift]. unfold idx. rewrite Hx. cbn [lift ret].
  cbn [dget disc_key String.eqb Ascii.eqb Bool.eqb rbind lift ret].
  unfold p_perturb, bind. cbn [p_dist number_prior perturb_std_of get_hyper p_std lift ret]. unfold normal, bind, drawZ. cbn [ret].
  assert (Hs : forall v, set_num (Some (Arr xs)) i v = Ok (Arr (set_nth xs i v))).
  { intros v. unfold set_num. destruct (Nat.ltb_spec i (length xs)); [reflexivity|lia]. }
  rewrite Hs. cbn [lift ret]. rewrite (copied xs attrs cache Hl). cbn [lift ret ps_n ps_vals ps_attrs ps_cache dset dupdate fold_left fst snd String.eqb Ascii.eqb Bool.eqb].
  unfold verdict_of, y, Rleb. replace (nth i xs 0 + (0 + z * sd)) with (nth i xs 0 + z * sd) by lra.
  destruct (Rle_dec lo _), (Rle_dec _ hi); cbn; rewrite ?Rplus_0_r; reflexivity.
Qed.
Lemma proposed s xs w' i z tr : holds n s xs -> in_box lo hi n xs -> 0 <= w' < 1 -> (i < n)%nat ->
  let y := nth i xs 0 + z * sd in
  exists s', psp_perturb (mkPsp "m" (own_elems sp)) s (DInt 0 :: DU w' :: DInt i :: DZ z :: tr) = Ret (s', verdict_of y) tr /\
    holds n s' (set_nth xs i y) /\ st_cache s' = [("perturb_stats", CStats [("ParamPerturbation(m.v)", 1)])].
Proof.
  intros [(attrs & cache & Hs) He] Hbox Hw Hi y. pose proof Hbox as [Hl Hb].
  unfold psp_perturb. unfold st_copy. rewrite Hs. cbn [rmap snd fst entry_copy]. rewrite copied by auto. cbn [rbind].
  unfold bind at 1. cbn [lift ret].
  assert (Hc : count_loop (st_size s) (psp_space (mkPsp "m" (own_elems sp))) [st_children s] 0 = Ok 1%nat).
  { unfold st_children, st_size. rewrite Hs. reflexivity. }
  unfold bind at 1. rewrite Hc. cbn [lift ret]. unfold bind at 1. cbn [randint_below].
  assert (Hr : forall tr, randint 0 0 (DInt 0 :: tr) = Ret 0%nat tr) by reflexivity. rewrite Hr.
  assert (Hw' : forall st, walk_loop (st_size s) (mkPsp "m" (own_elems sp)) 0 (mkWalk st 0 (Fin 0) [] [([], st_children s)])
      (DU w' :: DInt i :: DZ z :: tr) =
    Ret (mkWalk (st_set "m" (EPS (PS n [("v", Arr (set_nth xs i y))] [("v", Arr xs)] cache)) st) 1
      (eadd (Fin 0) (verdict_of y)) [("ParamPerturbation(m.v)", 1%nat)] []) tr).
  { intros st. unfold st_children, st_size. rewrite Hs. cbn [map fst snd nsum fold_right Nat.add walk_loop w_queue w_i Nat.leb entry_child].
    unfold bind at 1. cbn [walk_node psp_space String.eqb Ascii.eqb Bool.eqb w_i w_new w_ratio w_stats w_queue Nat.eqb].
    unfold bind at 1, psp_perturb_ps. cbn [psp_funcs own_elems sp number_space sp_transd sp_fixed sp_params priors_of map snd filter is_disc sp_cls app length sp_name fst].
    unfold bind at 1. rewrite choose_only by (auto; lra). cbn [lift idx nth_error]. unfold bind at 1. cbn [lift ret fst elem_perturb].
    unfold bind at 1. rewrite moved by auto. cbn [ret]. reflexivity. }
  unfold bind. rewrite Hw'. cbn [w_new w_stats w_ratio map snd fst nsum fold_right Nat.add INR ret].
  assert (Hv : eadd (Fin 0) (verdict_of y) = verdict_of y).
  { unfold verdict_of. destruct (Rle_dec lo y), (Rle_dec y hi); cbn; rewrite ?Rplus_0_r; reflexivity. }
  rewrite Hv. eexists. split; [reflexivity|]. split.
  - split; [|reflexivity]. eexists _, _. reflexivity.
  - cbn. do 4 f_equal. f_equal. lra.
Qed.
Lemma items_saved s xs d : holds n s xs ->
  save_items E (s_items (e_ops E) s) d = (append_saved "m.v" (OArr (Arr xs)) d, None).
Proof.
  intros [(attrs & cache & Hs) He]. cbn [e_ops E inversion_env chain_env state_opsB s_items]. unfold st_items. rewrite Hs, He. reflexivity.
Qed.
Lemma saves c xs : stands_at n T kept c xs -> exists c', save_state E c = (c', None) /\ stands_at n T kept c' xs.
Proof.
  intros (Hh & Ht & Hfl & d & Hd). unfold save_state.
  change (s_kind (e_ops E) (c_cur c)) with KState. cbn iota. rewrite Hd, (items_saved _ _ d (proj1 Hh)).
  change (s_cache (e_ops E) (c_cur c)) with (Some (map (fun kc => (fst kc, cache_value (snd kc))) (st_cache (c_cur c)))). cbn iota.
  destruct (e_savedpred E); eexists; (split; [reflexivity|]);
    (split; [exact Hh|]; split; [exact Ht|]; split; [exact Hfl|eexists; reflexivity]).
Qed.
Lemma finishes q acc new c xs ys vs : stands_at n T kept c xs -> holds n new ys -> (acc = true -> kept new) ->
  s_pstats (e_ops E) new = inl vs ->
  exists c', finish E (psp_name q) acc new c = (c', Done) /\ stands_at n T kept c' (if acc then ys else xs).
Proof.
  intros Hc Hn Hk Hv. set (c1 := if acc then set_cur new c else c).
  assert (H1 : stands_at n T kept c1 (if acc then ys else xs)).
  { destruct Hc as (Hh & Ht & Hfl & Hd). unfold c1. destruct acc; [|repeat (split; auto)].
    split; [split; [exact Hn|apply Hk; reflexivity]|repeat (split; auto)]. }
  unfold finish. fold c1. unfold save_statistics. change (String.prefix psp_prefix (psp_name q)) with true. cbn iota. rewrite Hv.
  set (c2 := put_stats _ acc c1). assert (H2 : stands_at n T kept c2 (if acc then ys else xs)) by exact H1.
  destruct (saves c2 _ H2) as (c3 & E3 & H3). destruct H1 as (_ & _ & (fl & Hfl) & _).
  replace (c_flag c2) with (Some fl) by (rewrite <- Hfl; reflexivity).
  destruct (fl && Reqb (c_temp c2) 1)%bool; [rewrite E3|]; eauto.
Qed.
Lemma decides q new c xs ys vs a u tr : stands_at n T kept c xs -> holds n new ys ->
  (forall x, a = Fin x -> kept new) -> s_pstats (e_ops E) new = inl vs -> 0 < u < 1 -> a = MInf \/ (exists x, a = Fin x) ->
  forall lpr llr, eadd lpr llr = a ->
  exists c', decide E (psp_name q) new lpr llr c (DU u :: tr) = Ret (c', Done) tr /\
    stands_at n T kept c' (match a with Fin x => if Rlt_dec (ln u) x then ys else xs | _ => xs end).
Proof.
  intros Hc Hn Hk Hps Hu Ha lpr llr Hl. rewrite PropBalance.decide_as by auto. rewrite Hl.
  assert (Hk' : egtb a (Fin (ln u)) = true -> kept new) by (destruct Ha as [->|(x & ->)]; [discriminate|eauto]).
  destruct (finishes q _ new c xs ys vs Hc Hn Hk' Hps) as (c' & Ef & Hc').
  exists c'. rewrite Ef. split; [reflexivity|]. destruct Ha as [->|(x & ->)]; [exact Hc'|].
  unfold egtb, Rltb in Hc'. destruct (Rlt_dec (ln u) x); exact Hc'.
Qed.
(** One iteration. *)
Lemma iterates c xs w w' i z u tr : stands_at n T kept c xs -> in_box lo hi n xs -> 0 <= w < 1 -> 0 <= w' < 1 -> (i < n)%nat -> 0 < u < 1 ->
  exists c', next_iteration E c (DU w :: DInt 0 :: DU w' :: DInt i :: DZ z :: DU u :: tr) = Ret (c', None) tr /\
    stands_at n T kept c' (step lo hi sd T L xs i z u).
Proof.
  intros Hc Hb Hw Hw' Hi Hu. pose proof Hc as ((Hh & Hk) & Ht & Hrest).
  assert (HF : inv_pfuncs [sp] ll = map (fun qw => (FSpace (fst qw), snd qw)) (all_funcs [sp])).
  { unfold inv_pfuncs, ll_pfuncs. rewrite (ev_hier _ _ _ _ _ _ _ Hev). apply app_nil_r. }
  assert (HE : e_funcs E = [(psp_name (mkPsp "m" (own_elems sp)), psp_perturb (mkPsp "m" (own_elems sp)))]).
  { unfold E, inversion_env. rewrite HF. reflexivity. }
  assert (HW : exists wt, e_weights E = [wt] /\ 0 < wt).
  { unfold E, inversion_env. rewrite HF. eexists. split; [reflexivity|]. cbn. lra. }
  destruct HW as (wt & HW & Hwt).
  destruct (proposed (c_cur c) xs w' i z (DU u :: tr) Hh Hb Hw' Hi) as (s' & Ep & Hs' & Hcs). set (y := nth i xs 0 + z * sd) in *.
  set (ys := set_nth xs i y) in *.
  assert (Hps : s_pstats (e_ops E) s' = inl [("ParamPerturbation(m.v)", 1)]).
  { cbn [e_ops E inversion_env chain_env state_opsB s_pstats]. rewrite Hcs. reflexivity. }
  unfold next_iteration. change 500%nat with (S 499). generalize 499%nat. intros k. cbn [tries].
  assert (Hgoal : exists c', attempt E c (DU w :: DInt 0 :: DU w' :: DInt i :: DZ z :: DU u :: tr) = Ret (c', Done) tr /\
    stands_at n T kept c' (step lo hi sd T L xs i z u)).
  { unfold attempt, bind at 1, try at 1. rewrite HE, HW. cbn [length]. rewrite choose_only by auto. cbn [nth_error].
    unfold bind at 1, try. rewrite Ep. unfold verdict_of. unfold step. cbv zeta. fold y. fold ys.
    assert (Hinf : exists c', decide E (psp_name (mkPsp "m" (own_elems sp))) s' MInf (Fin 0) c (DU u :: tr) = Ret (c', Done) tr /\
        stands_at n T kept c' xs).
    { eapply (decides (mkPsp "m" (own_elems sp)) s' c xs ys _ MInf); eauto. discriminate. }
    destruct (Rle_dec lo y) as [H1|H1]; [|exact Hinf]. destruct (Rle_dec y hi) as [H2|H2]; [|exact Hinf].
    cbn [eisinf].
    destruct (ev_ratio _ _ _ _ _ _ _ Hev (c_cur c) s' xs ys (DU u :: tr)) as (old' & new' & El & Ho & Ko & Hn & Kn & Est); auto.
    { apply box_set; auto. }
    unfold bind. cbn [e_like E inversion_env chain_env]. rewrite Ht, El.
    change (chain_env [sp] ll (inv_pfuncs [sp] ll) save) with E.
    assert (Hc1 : stands_at n T kept (set_cur old' c) xs) by (repeat (split; auto)).
    assert (Hps' : s_pstats (e_ops E) new' = inl [("ParamPerturbation(m.v)", 1)]).
    { cbn [e_ops E inversion_env chain_env state_opsB s_pstats]. rewrite Est, Hcs. reflexivity. }
    destruct (decides (mkPsp "m" (own_elems sp)) new' (set_cur old' c) xs ys _ (Fin ((L ys - L xs) / T)) u tr Hc1 Hn (fun _ _ => Kn) Hps' Hu
      ltac:(right; eauto) (Fin 0) (Fin ((L ys - L xs) / T))) as (c' & Ed & Hc').
    { cbn. now rewrite Rplus_0_l. }
    exists c'. split; [exact Ed|]. exact Hc'. }
  destruct Hgoal as (c' & Ea & Hc'). exists c'. split; [|exact Hc']. unfold bind. now rewrite Ea.
Qed.
Lemma step_inside xs i z u : in_box lo hi n xs -> (i < n)%nat -> in_box lo hi n (step lo hi sd T L xs i z u).
Proof.
  intros Hb Hi. unfold step. cbv zeta. destruct (Rle_dec lo _); auto. destruct (Rle_dec _ hi); auto. destruct (Rlt_dec _ _); auto.
  now apply box_set.
Qed.
Lemma holds_inj s xs ys : holds n s xs -> holds n s ys -> xs = ys.
Proof. intros [(a & b & E1) _] [(a' & b' & E2) _]. congruence. Qed.
(** Any description of the iterations is [step]. *)
Lemma follows_step next : follows E n lo hi T kept next -> forall xs i z u, in_box lo hi n xs -> (i < n)%nat -> 0 < u < 1 ->
  next xs i z u = step lo hi sd T L xs i z u.
Proof.
  intros Hn xs i z u Hb Hi Hu.
  set (s := mkState [("m", EPS (PS n [("v", Arr xs)] [] []))] [] 1 [] []).
  set (c := mkChain s T [] [] 0 0 [] (SDict []) (Some false) [] : chain state ovalue).
  assert (Hs : holds n s xs) by (split; [eexists _, _; reflexivity|reflexivity]).
  assert (Hc : stands_at n T kept c xs).
  { split; [split; [exact Hs|]|repeat (split; [eauto; reflexivity|])].
    - eapply (ev_empty _ _ _ _ _ _ _ Hev); [exact Hs|reflexivity].
    - split; [eexists; reflexivity|eexists; reflexivity]. }
  destruct (Hn c xs 0 0 i z u [] Hc Hb ltac:(lra) ltac:(lra) Hi Hu) as (c1 & E1 & H1).
  destruct (iterates c xs 0 0 i z u [] Hc Hb ltac:(lra) ltac:(lra) Hi Hu) as (c2 & E2 & H2).
  rewrite E1 in E2. injection E2 as <-. destruct H1 as ((H1 & _) & _), H2 as ((H2 & _) & _). eapply holds_inj; eauto.
Qed.
End Step.

(** * C73 *)
(** The iterations of the chain are described by a function of index, deviate and uniform
    number, and stay in the box. *)
Theorem C73_iteration n lo hi sd T ll L kept save : 0 < T -> evaluates n lo hi T ll L kept ->
  exists next, follows (inversion_env [number_space n lo hi sd] ll save) n lo hi T kept next /\
    forall xs i z u, in_box lo hi n xs -> (i < n)%nat -> in_box lo hi n (next xs i z u).
Proof.
  intros HT Hev. exists (step lo hi sd T L). split.
  - intros c xs w w' i z u tr Hc Hb Hw Hw' Hi Hu. now apply iterates.
  - intros. now apply step_inside.
Qed.
Lemma mean_draws_ext phi n h h' m : (forall i z u, (i < n)%nat -> 0 < u < 1 -> h i z u = h' i z u) ->
  mean_draws phi n h m -> mean_draws phi n h' m.
Proof.
  intros He (hz & hm & H1 & H2 & H3). exists hz, hm. repeat split; auto. intros i z Hi. unfold mean_unit.
  apply (is_RInt_ext (h i z)); [|now apply H1]. intros u Hu. rewrite Rmin_left, Rmax_right in Hu by lra. now apply He.
Qed.
(** If the values have the tempered posterior density exp(L/T) (the prior is uniform on the
    box), they have it after an iteration: the integral of [g] after the iteration, averaged
    over the draws, is that of [g]. *)
Theorem C73_invariant n lo hi sd T ll L kept save F phi next g :
  (0 < n)%nat -> lo < hi -> 0 < sd -> 0 < T -> normal_cdf F -> (forall z, derivable_pt_lim F z (phi z)) ->
  cont_on lo hi n L -> evaluates n lo hi T ll L kept ->
  follows (inversion_env [number_space n lo hi sd] ll save) n lo hi T kept next ->
  cont_on lo hi n g ->
  exists e v, cont_on lo hi n e /\
    (forall xs, in_box lo hi n xs -> mean_draws phi n (fun i z u => g (next xs i z u)) (e xs)) /\
    box_integral lo hi n (fun xs => exp (L xs / T) * e xs) v /\
    box_integral lo hi n (fun xs => exp (L xs / T) * g xs) v.
Proof.
  intros Hn Hlo Hsd HT HF Hphi HL Hev Hnext Hg.
  exists (after lo hi n sd T phi L g), (box_int lo hi n (fun xs => exp (L xs / T) * g xs)).
  assert (Ha : cont_on lo hi n (after lo hi n sd T phi L g)) by (eapply ucont_after; eauto).
  assert (Hd : cont_on lo hi n (dens T L)) by (eapply ucont_dens; eauto).
  repeat split; auto.
  - intros xs Hx. eapply mean_draws_ext; [|eapply mean_draws_step; eauto].
    intros i z u Hi Hu. cbn beta. f_equal. symmetry. eapply follows_step; eauto.
  - change (box_int lo hi n (fun xs => exp (L xs / T) * g xs)) with (box_int lo hi n (fun xs => dens T L xs * g xs)).
    rewrite <- (balance lo hi Hlo n sd T Hsd HT F phi HF Hphi L HL g Hn Hg). apply box_int_is; auto.
    apply (ucont_mult lo hi Hlo n (dens T L)); auto.
  - apply box_int_is; auto. apply (ucont_mult lo hi Hlo n (dens T L)); auto.
Qed.
(** The same for any number of iterations: [e k] is the mean of [g] after [k] of them. *)
Theorem C73_run n lo hi sd T ll L kept save F phi next g :
  (0 < n)%nat -> lo < hi -> 0 < sd -> 0 < T -> normal_cdf F -> (forall z, derivable_pt_lim F z (phi z)) ->
  cont_on lo hi n L -> evaluates n lo hi T ll L kept ->
  follows (inversion_env [number_space n lo hi sd] ll save) n lo hi T kept next ->
  cont_on lo hi n g ->
  exists (e : nat -> list R -> R) v, (forall xs, e O xs = g xs) /\
    (forall k xs, in_box lo hi n xs -> mean_draws phi n (fun i z u => e k (next xs i z u)) (e (S k) xs)) /\
    forall k, box_integral lo hi n (fun xs => exp (L xs / T) * e k xs) v.
Proof.
  intros Hn Hlo Hsd HT HF Hphi HL Hev Hnext Hg.
  set (P := after lo hi n sd T phi L).
  exists (fun k => Nat.iter k P g), (box_int lo hi n (fun xs => exp (L xs / T) * g xs)).
  assert (Hd : cont_on lo hi n (dens T L)) by (eapply ucont_dens; eauto).
  assert (Hc : forall k, cont_on lo hi n (Nat.iter k P g)).
  { induction k as [|k IH]; auto. cbn. eapply ucont_after; eauto. }
  repeat split.
  - intros k xs Hx. eapply mean_draws_ext; [|eapply mean_draws_step; eauto].
    intros i z u Hi Hu. cbn beta. rewrite (follows_step n lo hi sd T ll L kept save Hev next Hnext xs i z u); auto.
  - intros k. replace (box_int lo hi n (fun xs => exp (L xs / T) * g xs)) with (box_int lo hi n (fun xs => exp (L xs / T) * Nat.iter k P g xs)).
    { apply box_int_is; auto. apply (ucont_mult lo hi Hlo n (dens T L)); auto. }
    induction k as [|k IH]; auto. rewrite <- IH. cbn [Nat.iter].
    apply (balance lo hi Hlo n sd T Hsd HT F phi HF Hphi L HL (Nat.iter k P g) Hn); auto.
Qed.
