(** C83: which distribution the chain of a hierarchical inversion (values and the noise level of the data)
    leaves invariant. *)
From Coq Require Import FunctionalExtensionality.
From Coquelicot Require Import Coquelicot.
From Verif Require Import Base ModelPrior ModelState ModelSpace ModelPerturb ModelChain ModelLikelihood SpecWalk SpecInvariance SpecSites SpecHier.
From Verif Require Import ProofChain ProofBox ProofInvariance ProofSites ProofHier.
From Verif Require ExampleRun ExampleWalk PropBalance PropInvariance PropInvarianceLike PropSites PropWalk PropLikelihood PropPredictions ProofRun.
Local Open Scope string_scope.
Local Open Scope list_scope.
Local Open Scope R_scope.
Import PropInvariance.

(** * The inversion *)
(** Target("d", dobs, std_min=a, std_max=b, std_perturb_std=tau, noise_is_correlated=False, ...) *)
Definition level_target (dobs : list R) (a b tau c1 c2 c3 : R) : target := mkTarget "d" dobs None false a b tau c1 c2 c3.
(** [s] is a state with the values [xs] and the noise level [l]. *)
Definition both (n : nat) (s : state) (l : R) (xs : list R) : Prop :=
  (exists attrs cache, st_vals s = [("m", EPS (PS n [("v", Arr xs)] attrs cache)); ("d", ENoise (mkNoise l None))]) /\ st_extra s = [].
(** What proposals have in their caches: no predictions. *)
Definition unpredicted (s : state) : Prop := dget "d.dpred" (st_cache s) = None.
(** The likelihood of states with values [xs] and noise level [l] is exp(L l xs). *)
Record evaluates_both (n : nat) (lo hi a b T : R) (ll : loglike) (t : target) (L : R -> list R -> R) (kept : state -> Prop) : Prop := {
  eb_hier : ll_hier ll = [t];
  eb_empty : forall s l xs, both n s l xs -> st_cache s = [] -> kept s;
  eb_ratio : forall old new l xs m ys tr, both n old l xs -> a <= l <= b -> in_box lo hi n xs -> kept old ->
    both n new m ys -> a <= m <= b -> in_box lo hi n ys -> unpredicted new ->
    exists old' new', log_likelihood_ratio ll old new T tr = Ret (old', new', inl (Fin ((L m ys - L l xs) / T))) tr /\
      both n old' l xs /\ kept old' /\ both n new' m ys /\ kept new' /\
      dget "perturb_stats" (st_cache new') = dget "perturb_stats" (st_cache new)
}.
Definition at_both (n : nat) (T : R) (kept : state -> Prop) (c : chain state ovalue) (l : R) (xs : list R) : Prop :=
  (both n (c_cur c) l xs /\ kept (c_cur c)) /\ c_temp c = T /\ (exists fl, c_flag c = Some fl) /\ exists d, c_saved c = SDict d.
(** Iterations: a first number below 3/4 chooses the values (index, deviate, uniform number), otherwise the
    noise level walks to [y] and a uniform number follows. *)
Record goes_on (E : env state ovalue) (n : nat) (lo hi a b tau T : R) (kept : state -> Prop)
    (nextv : R -> list R -> nat -> R -> R -> R * list R) (nextn : R -> list R -> R -> R -> R * list R) : Prop := {
  go_values : forall c l xs w w' i z u tr, at_both n T kept c l xs -> a <= l <= b -> in_box lo hi n xs ->
    0 <= w < 3 / 4 -> 0 <= w' < 1 -> (i < n)%nat -> 0 < u < 1 ->
    exists c', next_iteration E c (DU w :: DInt 0 :: DU w' :: DInt i :: DZ z :: DU u :: tr) = Ret (c', None) tr /\
      at_both n T kept c' (fst (nextv l xs i z u)) (snd (nextv l xs i z u));
  go_noise : forall c l xs w zs z y u tr, at_both n T kept c l xs -> a <= l <= b -> in_box lo hi n xs ->
    3 / 4 <= w < 1 -> first_try a b tau l zs z y -> 0 < u < 1 ->
    exists c', next_iteration E c (DU w :: map DZ zs ++ DZ z :: DU u :: tr) = Ret (c', None) tr /\
      at_both n T kept c' (fst (nextn l xs y u)) (snd (nextn l xs y u))
}.

Section Step.
Context (n : nat) (lo hi sd a b tau T : R) (dobs : list R) (r1 r2 r3 : R).
Let t := level_target dobs a b tau r1 r2 r3.
Context (ll : loglike) (L : R -> list R -> R) (kept : state -> Prop) (save : bool).
Context (Hev : evaluates_both n lo hi a b T ll t L kept) (HT : 0 < T).
Let sp := number_space n lo hi sd.
Let E := inversion_env [sp] ll save.
Definition value_step (l : R) (xs : list R) (i : nat) (z u : R) : R * list R := (l, step lo hi sd T (L l) xs i z u).
Definition noise_step (l : R) (xs : list R) (y u : R) : R * list R := (if Rlt_dec (ln u) ((L y xs - L l xs) / T) then y else l, xs).

Lemma choose_first w tr : 0 <= w < 3 / 4 -> choices 2 [3 + 0; 1] (DU w :: tr) = Ret 0%nat tr.
Proof.
  intros Hw. unfold choices. cbn [accumulate length Nat.eqb negb rev app].
  rewrite ExampleRun.Rleb_f by lra. unfold bind. rewrite drawU_ok by lra.
  cbn [bisect_right Nat.ltb Nat.leb Nat.sub Nat.add Nat.div Nat.divmod fst idx nth_error rbind lift].
  assert (H : Rltb (w * (0 + (3 + 0) + 1)) (0 + (3 + 0)) = true) by (unfold Rltb; destruct (Rlt_dec _ _); auto; lra).
  cbn. rewrite H. reflexivity.
Qed.
Lemma choose_second w tr : 3 / 4 <= w < 1 -> choices 2 [3 + 0; 1] (DU w :: tr) = Ret 1%nat tr.
Proof.
  intros Hw. unfold choices. cbn [accumulate length Nat.eqb negb rev app].
  rewrite ExampleRun.Rleb_f by lra. unfold bind. rewrite drawU_ok by lra.
  assert (H : Rltb (w * (0 + (3 + 0) + 1)) (0 + (3 + 0)) = false) by (unfold Rltb; destruct (Rlt_dec _ _); auto; lra).
  cbn. rewrite H. reflexivity.
Qed.
Lemma funcs_both : inv_pfuncs [sp] ll = [(FSpace (mkPsp "m" (own_elems sp)), 3 + 0); (FNoise [t], 1)].
Proof. unfold inv_pfuncs, ll_pfuncs. rewrite (eb_hier _ _ _ _ _ _ _ _ _ _ Hev). reflexivity. Qed.
Lemma copied_both s l xs k : both n s l xs -> length xs = n -> exists s', st_copy k s = Ok s' /\
  st_vals s' = [("m", EPS (PS n [("v", Arr xs)] [("v", Arr xs)] (match st_vals s with (_, EPS (PS _ _ _ c)) :: _ => c | _ => [] end)));
                ("d", ENoise (mkNoise l None))] /\ st_extra s' = [] /\
  st_cache s' = if k then filter (fun kc => String.eqb (fst kc) "dpred") (st_cache s) else [].
Proof.
  intros [(attrs & cache & Hs) He] Hl. unfold st_copy. rewrite Hs. cbn [rmap snd fst entry_copy].
  rewrite (copied n xs attrs cache Hl). cbn [rbind]. eexists. split; [reflexivity|]. repeat split.
Qed.
Lemma values_proposed s l xs w' i z tr : both n s l xs -> in_box lo hi n xs -> 0 <= w' < 1 -> (i < n)%nat ->
  let y := nth i xs 0 + z * sd in
  exists s', psp_perturb (mkPsp "m" (own_elems sp)) s (DInt 0 :: DU w' :: DInt i :: DZ z :: tr) = Ret (s', verdict_of lo hi y) tr /\
    both n s' l (set_nth xs i y) /\ fresh s'.
Proof.
  intros Hb Hbox Hw Hi y. pose proof Hb as [(attrs & cache & Hs) He]. pose proof Hbox as [Hl Hf].
  destruct (copied_both s l xs false Hb Hl) as (s0 & E0 & V0 & X0 & C0).
  unfold psp_perturb. rewrite E0. unfold bind at 1. cbn [lift ret].
  assert (Hc : count_loop (st_size s) (psp_space (mkPsp "m" (own_elems sp))) [st_children s] 0 = Ok 1%nat).
  { unfold st_children, st_size. rewrite Hs. reflexivity. }
  unfold bind at 1. rewrite Hc. cbn [lift ret]. unfold bind at 1. cbn [randint_below].
  assert (Hr : forall tr, randint 0 0 (DInt 0 :: tr) = Ret 0%nat tr) by reflexivity. rewrite Hr.
  assert (Hw' : forall st, walk_loop (st_size s) (mkPsp "m" (own_elems sp)) 0 (mkWalk st 0 (Fin 0) [] [([], st_children s)])
      (DU w' :: DInt i :: DZ z :: tr) =
    Ret (mkWalk (st_set "m" (EPS (PS n [("v", Arr (set_nth xs i y))] [("v", Arr xs)] cache)) st) 1
      (eadd (Fin 0) (verdict_of lo hi y)) [("ParamPerturbation(m.v)", 1%nat)] []) tr).
  { intros st. unfold st_children, st_size. rewrite Hs. cbn [map fst snd nsum fold_right Nat.add walk_loop w_queue w_i Nat.leb entry_child].
    unfold bind at 1. cbn [walk_node psp_space String.eqb Ascii.eqb Bool.eqb w_i w_new w_ratio w_stats w_queue Nat.eqb].
    unfold bind at 1, psp_perturb_ps. cbn [psp_funcs own_elems sp number_space sp_transd sp_fixed sp_params priors_of map snd filter is_disc sp_cls app length sp_name fst].
    unfold bind at 1. rewrite choose_only by (auto; lra). cbn [lift idx nth_error]. unfold bind at 1. cbn [lift ret fst elem_perturb].
    unfold bind at 1. rewrite moved by auto. cbn [ret]. reflexivity. }
  unfold bind. rewrite Hw'. cbn [w_new w_stats w_ratio map snd fst nsum fold_right Nat.add INR ret].
  assert (Hv : eadd (Fin 0) (verdict_of lo hi y) = verdict_of lo hi y).
  { unfold verdict_of. destruct (Rle_dec lo y), (Rle_dec y hi); cbn; rewrite ?Rplus_0_r; reflexivity. }
  rewrite Hv. eexists. split; [reflexivity|]. split.
  - split; [|exact X0]. eexists _, _. cbn [st_vals st_save_cache st_set]. rewrite V0. reflexivity.
  - unfold fresh. cbn [st_cache st_save_cache st_set]. rewrite C0. cbn. do 4 f_equal. f_equal. lra.
Qed.
Lemma noise_proposed s l xs zs z y tr : both n s l xs -> in_box lo hi n xs -> first_try a b tau l zs z y ->
  exists s', noise_perturb [t] s (map DZ zs ++ DZ z :: tr) = Ret (s', Fin 0) tr /\ both n s' y xs /\ unpredicted s'.
Proof.
  intros Hb [Hl Hf] Ht. pose proof Hb as [(attrs & cache & Hs) He].
  destruct (copied_both s l xs true Hb Hl) as (s0 & E0 & V0 & X0 & C0).
  assert (Hp : perturb_noise_value a b tau l (map DZ zs ++ DZ z :: tr) = Ret y tr) by (apply PropWalk.C53_noise_draws; eauto).
  unfold noise_perturb. cbn [perturb_targets]. unfold bind at 1, bind at 1.
  assert (Hn : noise_of t s = Ok (mkNoise l None)).
  { unfold noise_of, st_get. rewrite Hs. reflexivity. }
  rewrite Hn. cbn [lift ret]. unfold bind at 1, perturb_target, bind at 1. cbn [t level_target t_std_min t_std_max t_std_step dn_std t_corr].
  rewrite Hp. cbn [ret]. unfold bind. rewrite E0. cbn [lift ret].
  eexists. split; [reflexivity|]. split.
  - split; [|exact X0]. eexists _, _. cbn [st_vals st_update_vals]. rewrite V0. reflexivity.
  - unfold unpredicted. cbn [st_cache st_update_vals]. rewrite C0. clear. induction (st_cache s) as [|[k c] r IH]; auto. cbn [filter fst].
    destruct (String.eqb_spec k "dpred") as [->|_]; [|exact IH]. cbn [dget]. exact IH.
Qed.
Lemma both_saved c l xs : at_both n T kept c l xs -> exists c', save_state E c = (c', None) /\ at_both n T kept c' l xs.
Proof.
  intros (Hh & Ht & Hfl & d & Hd). unfold save_state. change (s_kind (e_ops E) (c_cur c)) with KState. cbn iota. rewrite Hd.
  assert (Hi : exists d', save_items E (s_items (e_ops E) (c_cur c)) d = (d', None)).
  { destruct Hh as [[(attrs & cache & Hs) He] _]. cbn [e_ops E inversion_env chain_env state_opsB s_items]. unfold st_items. rewrite Hs, He.
    eexists. reflexivity. }
  destruct Hi as (d' & ->).
  change (s_cache (e_ops E) (c_cur c)) with (Some (map (fun kc => (fst kc, cache_value (snd kc))) (st_cache (c_cur c)))). cbn iota.
  destruct (e_savedpred E); eexists; (split; [reflexivity|]);
    (split; [exact Hh|]; split; [exact Ht|]; split; [exact Hfl|eexists; reflexivity]).
Qed.
Lemma both_finish ty acc new c l xs m ys c2 : at_both n T kept c l xs -> both n new m ys -> (acc = true -> kept new) ->
  save_statistics E ty acc new (if acc then set_cur new c else c) = inl c2 ->
  c_cur c2 = c_cur (if acc then set_cur new c else c) -> c_temp c2 = c_temp c -> c_flag c2 = c_flag c -> c_saved c2 = c_saved c ->
  exists c', finish E ty acc new c = (c', Done) /\ at_both n T kept c' (if acc then m else l) (if acc then ys else xs).
Proof.
  intros Hc Hn Hk Hst Hcur Htm Hfl Hsv.
  assert (H2 : at_both n T kept c2 (if acc then m else l) (if acc then ys else xs)).
  { destruct Hc as (Hh & Ht & (fl & Hf) & (d & Hd)). split; [|split; [congruence|split; [exists fl; congruence|exists d; congruence]]].
    rewrite Hcur. destruct acc; [split; [exact Hn|apply Hk; reflexivity]|exact Hh]. }
  unfold finish. rewrite Hst. destruct (both_saved c2 _ _ H2) as (c4 & E4 & H4). pose proof H2 as (_ & _ & (fl & Hf) & _). rewrite Hf.
  destruct (fl && Reqb (c_temp c2) 1)%bool; [rewrite E4|]; eauto.
Qed.
Lemma both_decide ty new c l xs m ys x u tr : at_both n T kept c l xs -> both n new m ys -> x = MInf \/ (exists r, x = Fin r) ->
  (forall r, x = Fin r -> kept new) -> 0 < u < 1 ->
  (forall acc, exists c2, save_statistics E ty acc new (if acc then set_cur new c else c) = inl c2 /\
     c_cur c2 = c_cur (if acc then set_cur new c else c) /\ c_temp c2 = c_temp c /\ c_flag c2 = c_flag c /\ c_saved c2 = c_saved c) ->
  forall lpr llr, eadd lpr llr = x ->
  exists c', decide E ty new lpr llr c (DU u :: tr) = Ret (c', Done) tr /\
    at_both n T kept c' (match x with Fin r => if Rlt_dec (ln u) r then m else l | _ => l end)
      (match x with Fin r => if Rlt_dec (ln u) r then ys else xs | _ => xs end).
Proof.
  intros Hc Hn Hx Hk Hu Hst lpr llr Hl. rewrite PropBalance.decide_as by auto. rewrite Hl.
  assert (Hk' : egtb x (Fin (ln u)) = true -> kept new) by (destruct Hx as [->|(r & ->)]; [discriminate|eauto]).
  destruct (Hst (egtb x (Fin (ln u)))) as (c4 & S1 & S2 & S3 & S4 & S5).
  destruct (both_finish ty _ new c l xs m ys c4 Hc Hn Hk' S1 S2 S3 S4 S5) as (c' & Ef & Hc').
  exists c'. rewrite Ef. split; [reflexivity|]. destruct Hx as [->|(r & ->)]; [exact Hc'|].
  unfold egtb, Rltb in Hc'. destruct (Rlt_dec (ln u) r); exact Hc'.
Qed.
Lemma value_stats new c acc : fresh new -> exists c2, save_statistics E (psp_name (mkPsp "m" (own_elems sp))) acc new (if acc then set_cur new c else c) = inl c2 /\
  c_cur c2 = c_cur (if acc then set_cur new c else c) /\ c_temp c2 = c_temp c /\ c_flag c2 = c_flag c /\ c_saved c2 = c_saved c.
Proof.
  intros Hf. unfold save_statistics. change (String.prefix psp_prefix (psp_name (mkPsp "m" (own_elems sp)))) with true. cbn iota.
  cbn [e_ops E inversion_env chain_env state_opsB s_pstats]. rewrite Hf. cbn [dget String.eqb Ascii.eqb Bool.eqb].
  eexists. split; [reflexivity|]. destruct acc; repeat split.
Qed.
Lemma noise_stats new c acc : exists c2, save_statistics E (noise_name [t]) acc new (if acc then set_cur new c else c) = inl c2 /\
  c_cur c2 = c_cur (if acc then set_cur new c else c) /\ c_temp c2 = c_temp c /\ c_flag c2 = c_flag c /\ c_saved c2 = c_saved c.
Proof.
  unfold save_statistics. change (String.prefix psp_prefix (noise_name [t])) with false. cbn iota.
  eexists. split; [reflexivity|]. destruct acc; repeat split.
Qed.
Lemma stats_kept new new' c acc : dget "perturb_stats" (st_cache new') = dget "perturb_stats" (st_cache new) ->
  (exists c2, save_statistics E (psp_name (mkPsp "m" (own_elems sp))) acc new (if acc then set_cur new c else c) = inl c2) ->
  exists c2, save_statistics E (psp_name (mkPsp "m" (own_elems sp))) acc new' (if acc then set_cur new' c else c) = inl c2 /\
  c_cur c2 = c_cur (if acc then set_cur new' c else c) /\ c_temp c2 = c_temp c /\ c_flag c2 = c_flag c /\ c_saved c2 = c_saved c.
Proof.
  intros He. unfold save_statistics. change (String.prefix psp_prefix (psp_name (mkPsp "m" (own_elems sp)))) with true. cbn iota.
  cbn [e_ops E inversion_env chain_env state_opsB s_pstats]. rewrite He.
  destruct (dget "perturb_stats" (st_cache new)) as [[]|]; intros (c4 & H); try discriminate.
  eexists. split; [reflexivity|]. destruct acc; repeat split.
Qed.
Lemma attempt_goes c c' tr tr' : attempt E c tr = Ret (c', Done) tr' -> next_iteration E c tr = Ret (c', None) tr'.
Proof. intros H. unfold next_iteration. change 500%nat with (S 499). generalize 499%nat. intros k. cbn [tries]. unfold bind. now rewrite H. Qed.
Lemma fresh_unpredicted s : fresh s -> unpredicted s.
Proof. intros H. unfold unpredicted. rewrite H. reflexivity. Qed.
Lemma env_funcs : e_funcs E = [(psp_name (mkPsp "m" (own_elems sp)), psp_perturb (mkPsp "m" (own_elems sp))); (noise_name [t], noise_perturb [t])].
Proof. unfold E, inversion_env. rewrite funcs_both. reflexivity. Qed.
Lemma env_weights : e_weights E = [3 + 0; 1].
Proof. unfold E, inversion_env. rewrite funcs_both. reflexivity. Qed.
Lemma value_iterates c l xs w w' i z u tr : at_both n T kept c l xs -> a <= l <= b -> in_box lo hi n xs ->
  0 <= w < 3 / 4 -> 0 <= w' < 1 -> (i < n)%nat -> 0 < u < 1 ->
  exists c', next_iteration E c (DU w :: DInt 0 :: DU w' :: DInt i :: DZ z :: DU u :: tr) = Ret (c', None) tr /\
    at_both n T kept c' l (step lo hi sd T (L l) xs i z u).
Proof.
  intros Hc Hab Hb Hw Hw' Hi Hu. pose proof Hc as ((Hh & Hk) & Ht & Hrest).
  destruct (values_proposed (c_cur c) l xs w' i z (DU u :: tr) Hh Hb Hw' Hi) as (s' & Ep & Hs' & Hcs). set (y := nth i xs 0 + z * sd) in *.
  set (ys := set_nth xs i y) in *.
  assert (Hgoal : exists c', attempt E c (DU w :: DInt 0 :: DU w' :: DInt i :: DZ z :: DU u :: tr) = Ret (c', Done) tr /\
    at_both n T kept c' l (step lo hi sd T (L l) xs i z u)).
  { unfold attempt, bind at 1, try at 1. rewrite env_funcs, env_weights. cbn [length]. rewrite choose_first by auto. cbn [nth_error].
    unfold bind at 1, try. rewrite Ep. unfold verdict_of. unfold step. cbv zeta. fold y. fold ys.
    assert (Hinf : exists c', decide E (psp_name (mkPsp "m" (own_elems sp))) s' MInf (Fin 0) c (DU u :: tr) = Ret (c', Done) tr /\
        at_both n T kept c' l xs).
    { destruct (both_decide (psp_name (mkPsp "m" (own_elems sp))) s' c l xs l ys MInf u tr Hc Hs' (or_introl eq_refl) ltac:(discriminate) Hu
        (fun acc => value_stats s' c acc Hcs) MInf (Fin 0) eq_refl) as (c' & Ed & Hc'). eauto. }
    destruct (Rle_dec lo y) as [H1|H1]; [|exact Hinf]. destruct (Rle_dec y hi) as [H2|H2]; [|exact Hinf].
    cbn [eisinf].
    destruct (eb_ratio _ _ _ _ _ _ _ _ _ _ Hev (c_cur c) s' l xs l ys (DU u :: tr)) as (old' & new' & El & Ho & Ko & Hn & Kn & Est); auto.
    { apply box_set; auto. }
    { now apply fresh_unpredicted. }
    unfold bind. cbn [e_like E inversion_env chain_env]. rewrite Ht, El.
    change (chain_env [sp] ll (inv_pfuncs [sp] ll) save) with E.
    assert (Hc1 : at_both n T kept (set_cur old' c) l xs) by (repeat (split; auto)).
    assert (Hst : forall acc, exists c2, save_statistics E (psp_name (mkPsp "m" (own_elems sp))) acc new' (if acc then set_cur new' (set_cur old' c) else set_cur old' c) = inl c2 /\
      c_cur c2 = c_cur (if acc then set_cur new' (set_cur old' c) else set_cur old' c) /\ c_temp c2 = c_temp (set_cur old' c) /\
      c_flag c2 = c_flag (set_cur old' c) /\ c_saved c2 = c_saved (set_cur old' c)).
    { intros acc. apply (stats_kept s' new'); auto. destruct (value_stats s' (set_cur old' c) acc Hcs) as (c4 & H4 & _). eauto. }
    destruct (both_decide (psp_name (mkPsp "m" (own_elems sp))) new' (set_cur old' c) l xs l ys (Fin ((L l ys - L l xs) / T)) u tr Hc1 Hn
      ltac:(right; eauto) (fun _ _ => Kn) Hu Hst (Fin 0) (Fin ((L l ys - L l xs) / T))) as (c' & Ed & Hc').
    { cbn. now rewrite Rplus_0_l. }
    exists c'. split; [exact Ed|]. destruct (Rlt_dec (ln u) _); exact Hc'. }
  destruct Hgoal as (c' & Ea & Hc'). exists c'. split; [|exact Hc']. now apply attempt_goes.
Qed.
Lemma noise_iterates c l xs w zs z y u tr : at_both n T kept c l xs -> a <= l <= b -> in_box lo hi n xs ->
  3 / 4 <= w < 1 -> first_try a b tau l zs z y -> 0 < u < 1 ->
  exists c', next_iteration E c (DU w :: map DZ zs ++ DZ z :: DU u :: tr) = Ret (c', None) tr /\
    at_both n T kept c' (fst (noise_step l xs y u)) (snd (noise_step l xs y u)).
Proof.
  intros Hc Hab Hb Hw Hf Hu. pose proof Hc as ((Hh & Hk) & Ht & Hrest).
  destruct (noise_proposed (c_cur c) l xs zs z y (DU u :: tr) Hh Hb Hf) as (s' & Ep & Hs' & Hcs).
  assert (Hy : a <= y <= b) by apply Hf.
  assert (Hgoal : exists c', attempt E c (DU w :: map DZ zs ++ DZ z :: DU u :: tr) = Ret (c', Done) tr /\
    at_both n T kept c' (fst (noise_step l xs y u)) (snd (noise_step l xs y u))).
  { unfold attempt, bind at 1, try at 1. rewrite env_funcs, env_weights. cbn [length]. rewrite choose_second by auto. cbn [nth_error].
    unfold bind at 1, try. rewrite Ep. cbn [eisinf].
    destruct (eb_ratio _ _ _ _ _ _ _ _ _ _ Hev (c_cur c) s' l xs y xs (DU u :: tr)) as (old' & new' & El & Ho & Ko & Hn & Kn & Est); auto.
    unfold bind. cbn [e_like E inversion_env chain_env]. rewrite Ht, El.
    change (chain_env [sp] ll (inv_pfuncs [sp] ll) save) with E.
    assert (Hc1 : at_both n T kept (set_cur old' c) l xs) by (repeat (split; auto)).
    destruct (both_decide (noise_name [t]) new' (set_cur old' c) l xs y xs (Fin ((L y xs - L l xs) / T)) u tr Hc1 Hn
      ltac:(right; eauto) (fun _ _ => Kn) Hu (fun acc => noise_stats new' (set_cur old' c) acc) (Fin 0) (Fin ((L y xs - L l xs) / T))) as (c' & Ed & Hc').
    { cbn. now rewrite Rplus_0_l. }
    exists c'. split; [exact Ed|]. unfold noise_step. cbn [fst snd]. destruct (Rlt_dec (ln u) _); exact Hc'. }
  destruct Hgoal as (c' & Ea & Hc'). exists c'. split; [|exact Hc']. now apply attempt_goes.
Qed.
Lemma both_inj s l xs m ys : both n s l xs -> both n s m ys -> l = m /\ xs = ys.
Proof. intros [(x & y & E1) _] [(x' & y' & E2) _]. split; congruence. Qed.
Definition some_chain (l : R) (xs : list R) : chain state ovalue :=
  mkChain (mkState [("m", EPS (PS n [("v", Arr xs)] [] [])); ("d", ENoise (mkNoise l None))] [] 1 [] []) T [] [] 0 0 [] (SDict []) (Some false) [].
Lemma some_chain_at l xs : at_both n T kept (some_chain l xs) l xs.
Proof.
  assert (Hs : both n (c_cur (some_chain l xs)) l xs) by (split; [eexists _, _; reflexivity|reflexivity]).
  split; [split; [exact Hs|]|].
  - eapply (eb_empty _ _ _ _ _ _ _ _ _ _ Hev); [exact Hs|reflexivity].
  - split; [reflexivity|]. split; eexists; reflexivity.
Qed.
Lemma goes_on_values nextv nextn : goes_on E n lo hi a b tau T kept nextv nextn -> forall l xs i z u, a <= l <= b -> in_box lo hi n xs -> (i < n)%nat -> 0 < u < 1 ->
  nextv l xs i z u = value_step l xs i z u.
Proof.
  intros Hg l xs i z u Hl Hb Hi Hu. pose proof (some_chain_at l xs) as Hc.
  destruct (go_values _ _ _ _ _ _ _ _ _ _ _ Hg (some_chain l xs) l xs 0 0 i z u [] Hc Hl Hb ltac:(lra) ltac:(lra) Hi Hu) as (d1 & E1 & H1).
  destruct (value_iterates (some_chain l xs) l xs 0 0 i z u [] Hc Hl Hb ltac:(lra) ltac:(lra) Hi Hu) as (d2 & E2 & H2).
  rewrite E1 in E2. injection E2 as <-. destruct H1 as ((H1 & _) & _), H2 as ((H2 & _) & _).
  destruct (both_inj _ _ _ _ _ H1 H2) as [I1 I2]. unfold value_step. destruct (nextv l xs i z u). cbn in *. congruence.
Qed.
Lemma goes_on_noise nextv nextn : 0 < tau -> goes_on E n lo hi a b tau T kept nextv nextn -> forall l xs y u, a <= l <= b -> in_box lo hi n xs -> a <= y <= b -> 0 < u < 1 ->
  nextn l xs y u = noise_step l xs y u.
Proof.
  intros Htau Hg l xs y u Hl Hb Hy Hu. pose proof (some_chain_at l xs) as Hc.
  assert (Hf : first_try a b tau l [] ((y - l) / tau) y) by (split; [field; lra|split; [exact Hy|constructor]]).
  destruct (go_noise _ _ _ _ _ _ _ _ _ _ _ Hg (some_chain l xs) l xs (3/4) [] _ y u [] Hc Hl Hb ltac:(lra) Hf Hu) as (d1 & E1 & H1).
  destruct (noise_iterates (some_chain l xs) l xs (3/4) [] _ y u [] Hc Hl Hb ltac:(lra) Hf Hu) as (d2 & E2 & H2).
  rewrite E1 in E2. injection E2 as <-. destruct H1 as ((H1 & _) & _), H2 as ((H2 & _) & _).
  destruct (both_inj _ _ _ _ _ H1 H2) as [I1 I2]. destruct (nextn l xs y u), (noise_step l xs y u). cbn in *. congruence.
Qed.
End Step.

(** * C83 *)
(** The iterations are described by two functions of what is drawn; level and values stay between their limits. *)
Theorem C83_iteration n lo hi sd a b tau T dobs r1 r2 r3 ll L kept save :
  0 < T -> evaluates_both n lo hi a b T ll (level_target dobs a b tau r1 r2 r3) L kept ->
  exists nextv nextn, goes_on (inversion_env [number_space n lo hi sd] ll save) n lo hi a b tau T kept nextv nextn /\
    (forall l xs i z u, a <= l <= b -> in_box lo hi n xs -> (i < n)%nat ->
       a <= fst (nextv l xs i z u) <= b /\ in_box lo hi n (snd (nextv l xs i z u))) /\
    (forall l xs y u, a <= l <= b -> in_box lo hi n xs -> a <= y <= b ->
       a <= fst (nextn l xs y u) <= b /\ in_box lo hi n (snd (nextn l xs y u))).
Proof.
  intros HT Hev. exists (value_step lo hi sd T L), (noise_step T L). split; [constructor|split].
  - intros c l xs w w' i z u tr Hc Hl Hb Hw Hw' Hi Hu.
    exact (value_iterates n lo hi sd a b tau T dobs r1 r2 r3 ll L kept save Hev c l xs w w' i z u tr Hc Hl Hb Hw Hw' Hi Hu).
  - intros c l xs w zs z y u tr Hc Hl Hb Hw Hf Hu.
    exact (noise_iterates n lo hi sd a b tau T dobs r1 r2 r3 ll L kept save Hev c l xs w zs z y u tr Hc Hl Hb Hw Hf Hu).
  - intros l xs i z u Hl Hb Hi. unfold value_step. cbn [fst snd]. split; auto. unfold step. cbv zeta.
    destruct (Rle_dec lo _) as [H1|]; auto. destruct (Rle_dec _ hi) as [H2|]; auto. destruct (Rlt_dec _ _); auto. now apply box_set.
  - intros l xs y u Hl Hb Hy. unfold noise_step. cbn [fst snd]. split; auto. destruct (Rlt_dec _ _); auto.
Qed.

(** [e k l xs] is the mean of [g] after [k] iterations from the level [l] and the values [xs].  The density that
    stays the same is not exp(L/T) -- the posterior density to the power 1/T for a level and values that are
    uniform a priori -- but that times the probability that a step of the level stays within its limits. *)
Theorem C83_run_partial n lo hi sd a b tau T dobs r1 r2 r3 ll L kept save F phi w nextv nextn g :
  (0 < n)%nat -> lo < hi -> 0 < sd -> a < b -> 0 < tau -> 0 < T ->
  normal_cdf F -> (forall z, derivable_pt_lim F z (phi z)) -> walks F a b tau w ->
  joint_cont a b lo hi n L -> evaluates_both n lo hi a b T ll (level_target dobs a b tau r1 r2 r3) L kept ->
  goes_on (inversion_env [number_space n lo hi sd] ll save) n lo hi a b tau T kept nextv nextn ->
  joint_cont a b lo hi n g ->
  exists (e : nat -> R -> list R -> R) v, (forall l xs, e O l xs = g l xs) /\
    (forall k l xs, a <= l <= b -> in_box lo hi n xs ->
       mean_either (3 / 4) phi n w a b l
         (fun i z u => e k (fst (nextv l xs i z u)) (snd (nextv l xs i z u)))
         (fun y u => e k (fst (nextn l xs y u)) (snd (nextn l xs y u))) (e (S k) l xs)) /\
    forall k, joint_integral a b lo hi n (fun l xs => exp (L l xs / T) * hit F a b tau l * e k l xs) v.
Proof.
  intros Hn Hlo Hsd Hab Htau HT HF Hphi Hw HL Hev Hgo Hg.
  destruct (phi_bell F phi HF Hphi) as (c & Hc & Hb).
  assert (Hd : forall u, derivable_pt_lim F u (c * bell u)) by (intros u; rewrite <- Hb; apply Hphi).
  assert (Hq : forall x y, a <= x <= b -> a < y < b -> wq a b tau F phi x y = w x y).
  { intros x y Hx Hy. rewrite <- (PropSites.walk_wq a b tau F c w Hab Htau Hc Hd (nc_range F HF) Hw x y Hx Hy).
    unfold wq, q. now rewrite Hb. }
  set (LA := la lo hi a b). set (P := jafter lo hi n sd T a b tau (3 / 4) F phi L).
  set (G := fun k => Nat.iter k P (lifted lo hi a b g)).
  assert (CG : forall k, cont_on lo hi (S n) (G k)).
  { induction k as [|k IH]; cbn; [exact (lifted_cont lo hi Hlo n a b Hab g Hg)|].
    exact (ucont_jafter lo hi Hlo n sd T a b tau Hab Htau (3 / 4) F phi HF Hphi L HL (G k) IH). }
  pose proof (ucont_jdens lo hi Hlo n T a b tau Hab Htau F phi Hphi L HL) as CD.
  set (D := jdens lo hi T a b tau F L) in *.
  assert (HG : forall k, box_int lo hi (S n) (fun x => D x * G k x) = box_int lo hi (S n) (fun x => D x * G O x)).
  { induction k as [|k IH]; auto. rewrite <- IH.
    exact (jbalance lo hi Hlo n sd T Hsd HT a b tau Hab Htau (3 / 4) F phi HF Hphi L HL (G k) Hn (CG k)). }
  exists (fun k l xs => G k (LA l :: xs)), (/ rate lo hi a b * box_int lo hi (S n) (fun x => D x * G O x)). split; [|split].
  - intros l xs. cbn. unfold lifted. cbn [hd tl]. unfold LA. now rewrite (al_la lo hi Hlo a b Hab).
  - intros k l xs Hl Hx. exists (value_part lo hi n sd T a b phi L (G k) (LA l :: xs)), (noise_part lo hi T a b tau F phi L (G k) (LA l :: xs)).
    split; [|split; [|reflexivity]].
    + eapply mean_draws_ext; [|exact (value_mean lo hi Hlo n sd T Hsd a b Hab F phi HF Hphi L HL (G k) l xs Hl (CG k) Hx)].
      intros i z u Hi Hu. cbn beta.
      rewrite (goes_on_values n lo hi sd a b tau T dobs r1 r2 r3 ll L kept save Hev nextv nextn Hgo l xs i z u Hl Hx Hi Hu). reflexivity.
    + assert (Bs : Forall (fun x => a <= x <= b) [l]) by (constructor; [exact Hl|constructor]).
      refine (PropSites.mean_moves_ext w w a b 1 [l] _ _ _ Hab Bs eq_refl (fun _ _ _ _ => eq_refl) _
        (noise_mean lo hi Hlo n T a b tau Hab Htau F phi HF Hphi L HL (G k) w l xs Hl (CG k) Hx Hq)).
      intros i y u Hi Hy Hu. cbn beta.
      rewrite (goes_on_noise n lo hi sd a b tau T dobs r1 r2 r3 ll L kept save Hev nextv nextn Htau Hgo l xs y u Hl Hx Hy Hu). reflexivity.
  - intros k. rewrite <- (HG k).
    pose proof (joint_of lo hi Hlo n a b Hab (fun x => D x * G k x) (ucont_mult lo hi Hlo (S n) D (G k) CD (CG k))) as (f & I1 & I2).
    exists f. split; auto. intros s Hs. specialize (I1 s Hs).
    replace (fun xs => exp (L s xs / T) * hit F a b tau s * G k (LA s :: xs)) with (fun xs => D (LA s :: xs) * G k (LA s :: xs)); auto.
    apply functional_extensionality. intros xs. unfold D, jdens, lifted. cbn [hd tl]. unfold LA.
    rewrite (al_la lo hi Hlo a b Hab), (hit_la lo hi Hlo a b tau Hab Htau F). reflexivity.
Qed.

(** * Likelihoods *)
(** A log likelihood function beside the target, which then only holds the noise level. *)
Theorem C83_function n lo hi a b T dobs tau r1 r2 r3 f L ll : 0 < T ->
  (forall s l xs tr, both n s l xs -> a <= l <= b -> in_box lo hi n xs -> f s tr = Ret (Fin (L l xs)) tr) ->
  loglike_init (Some [ATarget (level_target dobs a b tau r1 r2 r3)]) None None (Some f) = Ok ll ->
  evaluates_both n lo hi a b T ll (level_target dobs a b tau r1 r2 r3) L (fun _ => True).
Proof.
  intros HT Hf H. injection H as <-. constructor; auto.
  intros old new l xs m ys tr Ho Hl Hx _ Hn Hm Hy _. exists old, new. repeat split; auto; try apply Ho; try apply Hn.
  unfold log_likelihood_ratio. rewrite (PropInvarianceLike.not_zero T HT). cbn [raw_ratio ll_mode ll_func].
  unfold bind, ratio_from_like, wrapped, bind, try. rewrite (Hf old l xs tr Ho Hl Hx). cbn [ret]. rewrite (Hf new m ys tr Hn Hm Hy). reflexivity.
Qed.
(** Data with independent Gaussian noise of standard deviation [l] about the predictions [G xs]: the log density. *)
Definition level_logpdf (G : list R -> list R) (dobs : list R) (l : R) (xs : list R) : R :=
  rsum (map (fun gd => - ln (l * sqrt (2 * PI)) - (fst gd - snd gd) ^ 2 / (2 * l ^ 2)) (combine (G xs) dobs)).
(** The cache holds a prediction of the state's own values, if any. *)
Definition own_prediction (n : nat) (G : list R -> list R) (s : state) : Prop :=
  forall l xs c, both n s l xs -> dget "d.dpred" (st_cache s) = Some c -> c = CPred (G xs).

Section Level.
Context (n : nat) (lo hi a b tau : R) (dobs : list R) (r1 r2 r3 : R) (Ha : 0 < a).
Context (G : list R -> list R) (f : fwd).
Context (HG : forall xs, in_box lo hi n xs -> length (G xs) = length dobs).
Context (Hf : forall s l xs tr, both n s l xs -> a <= l <= b -> in_box lo hi n xs -> f_fun f s tr = Ret (G xs) tr).
Let t := level_target dobs a b tau r1 r2 r3.
Definition squares (xs : list R) : R := rsum (map (fun gd => (fst gd - snd gd) ^ 2) (combine (G xs) dobs)).
Lemma logpdf_split l xs : 0 < l -> in_box lo hi n xs ->
  level_logpdf G dobs l xs = - INR (length dobs) * ln (l * sqrt (2 * PI)) - squares xs / (2 * l ^ 2).
Proof.
  intros Hl Hx. unfold level_logpdf, squares. rewrite <- (HG xs Hx) at 1.
  assert (E : length (combine (G xs) dobs) = length (G xs)) by (rewrite combine_length, (HG xs Hx); lia).
  rewrite <- E. generalize (combine (G xs) dobs). induction l0 as [|[g d] r IH]; [cbn; field; lra|].
  cbn [map length fst snd]. change (rsum (?x :: ?y)) with (x + rsum y). rewrite IH, S_INR. field. lra.
Qed.
Lemma level_misfit s l xs : both n s l xs -> 0 < l -> in_box lo hi n xs ->
  target_misfit t s (G xs) = Ok (squares xs / l ^ 2, 2 * INR (length dobs) * ln l).
Proof.
  intros [(attrs & cache & Hs) _] Hl Hx.
  assert (Hn : noise_of t s = Ok (mkNoise l None)) by (unfold noise_of, st_get; rewrite Hs; reflexivity).
  unfold target_misfit, vop. cbn [t level_target t_dobs]. rewrite (HG xs Hx), Nat.eqb_refl. cbn [rbind].
  unfold inv_cov_times. cbn [t level_target t_cov]. rewrite Hn. cbn [rbind dn_corr dn_std].
  unfold Reqb. destruct (Req_EM_T l 0); [lra|]. cbn [rbind]. unfold dot. rewrite !map_length, Nat.eqb_refl. cbn [rbind].
  unfold is_hier, log_det_cov. cbn [t level_target t_cov t_dobs]. rewrite Hn. cbn [rbind dn_corr dn_std].
  unfold py_log, Rltb. destruct (Rlt_dec 0 l); [|lra]. destruct (Rlt_dec 0 (1 - 0 ^ 2)) as [_|H]; [|exfalso; apply H; cbn; lra]. cbn [rbind].
  replace (1 - 0 ^ 2) with 1 by ring. rewrite ln_1. f_equal. f_equal; [|ring].
  unfold squares. generalize (combine (G xs) dobs). induction l0 as [|[g d] rr IH]; [cbn; field; lra|].
  cbn [map combine fst snd]. change (rsum (?x :: ?y)) with (x + rsum y). rewrite IH. field. lra.
Qed.
Lemma both_same s s' l xs : st_vals s' = st_vals s -> st_extra s' = st_extra s -> both n s l xs -> both n s' l xs.
Proof. intros V X [(x & y & E) H]. split; [exists x, y; congruence|congruence]. Qed.
Lemma level_loop s l xs tr : both n s l xs -> a <= l <= b -> in_box lo hi n xs -> own_prediction n G s ->
  exists s', misfit_loop [(t, preprocess_fwd f)] s 0 0 tr = Ret (s', inl (0 + squares xs / l ^ 2, 0 + 2 * INR (length dobs) * ln l)) tr /\
    both n s' l xs /\ own_prediction n G s' /\ dget "perturb_stats" (st_cache s') = dget "perturb_stats" (st_cache s).
Proof.
  intros Hs Hl Hx Ho. cbn [misfit_loop]. unfold get_dpred. change (dpred_key t) with "d.dpred".
  destruct (dget "d.dpred" (st_cache s)) as [c|] eqn:Ec.
  - pose proof (Ho l xs c Hs Ec) as ->. exists s. unfold bind, ret. rewrite (level_misfit s l xs Hs ltac:(lra) Hx). auto.
  - pose proof (Hf s l xs tr Hs Hl Hx) as Ef. assert (Ef' : call_fwd (preprocess_fwd f) s tr = Ret (G xs) tr) by exact Ef.
    unfold bind, try. rewrite Ef'. cbn [ret]. set (s1 := st_save_cache "d.dpred" (CPred (G xs)) s).
    assert (H1 : both n s1 l xs) by (apply (both_same s); auto).
    rewrite (level_misfit s1 l xs H1 ltac:(lra) Hx). exists s1. split; [reflexivity|]. split; [exact H1|]. split.
    + intros l' xs' c' H' E'. unfold s1 in E'. cbn [st_cache st_save_cache] in E'. rewrite dget_dset_same in E'. injection E' as <-.
      destruct (both_inj n _ _ _ _ _ H1 H') as [_ ->]. reflexivity.
    + unfold s1. cbn [st_cache st_save_cache]. now apply dget_dset_other.
Qed.
(** LogLikelihood(targets, fwd_functions): the ratios are those of the density of the data given level and values. *)
Theorem C83_gaussian_data T ll : 0 < T ->
  loglike_init (Some [ATarget t]) (Some [AFwd f]) None None = Ok ll ->
  evaluates_both n lo hi a b T ll t (level_logpdf G dobs) (own_prediction n G).
Proof.
  intros HT H. injection H as <-. constructor.
  - reflexivity.
  - intros s l xs Hs Ec l' xs' c _ Hc. rewrite Ec in Hc. discriminate.
  - intros old new l xs m ys tr Ho Hl Hx Ko Hn Hm Hy Hu.
    assert (Kn : own_prediction n G new) by (intros l' xs' c _ Hc; rewrite Hu in Hc; discriminate).
    destruct (level_loop old l xs tr Ho Hl Hx Ko) as (old' & E1 & B1 & K1 & _).
    destruct (level_loop new m ys tr Hn Hm Hy Kn) as (new' & E2 & B2 & K2 & C2).
    exists old', new'. split; [|repeat split; auto; try apply B1; try apply B2].
    unfold log_likelihood_ratio. rewrite (PropInvarianceLike.not_zero T HT). cbn [raw_ratio ll_mode].
    unfold ratio_from_targets. cbn [ll_targets ll_fwds combine map].
    unfold bind. rewrite E1, E2. unfold ret. cbn [ediv]. do 4 f_equal.
    rewrite (logpdf_split l xs), (logpdf_split m ys) by (auto; lra).
    assert (Hpi : 0 < sqrt (2 * PI)) by (apply sqrt_lt_R0; pose proof PI_RGT_0; lra).
    rewrite !ln_mult by lra. unfold Rdiv. f_equal. rewrite !Rinv_mult. lra.
Qed.
(** The log density is continuous if the predictions are. *)
Theorem C83_continuous : lo < hi -> a < b -> (forall i, cont_on lo hi n (fun xs => nth i (G xs) 0)) ->
  joint_cont a b lo hi n (level_logpdf G dobs).
Proof.
  intros Hlo Hab HC.
  assert (Hq : cont_on lo hi n squares).
  { unfold squares. clear Hf f t. revert G HG HC. induction dobs as [|d ds IH]; intros G' HG' HC'.
    - apply (ucont_ext lo hi n (fun _ => 0)); [|apply ucont_const]. intros xs _. destruct (G' xs); reflexivity.
    - apply (ucont_ext lo hi n (fun xs => (nth 0 (G' xs) 0 - d) ^ 2 + rsum (map (fun gd => (fst gd - snd gd) ^ 2) (combine (tl (G' xs)) ds)))).
      + intros xs Hx. specialize (HG' xs Hx). destruct (G' xs); [discriminate|]. reflexivity.
      + apply ucont_plus.
        * apply (ucont_ext lo hi n (fun xs => (nth 0 (G' xs) 0 - d) * (nth 0 (G' xs) 0 - d))); [intros; ring|].
          assert (cont_on lo hi n (fun xs => nth 0 (G' xs) 0 - d)).
          { apply (ucont_minus lo hi Hlo n (fun xs => nth 0 (G' xs) 0) (fun _ => d)); auto. apply ucont_const. }
          now apply ucont_mult.
        * apply (IH (fun xs => tl (G' xs))).
          -- intros xs Hx. specialize (HG' xs Hx). destruct (G' xs); cbn in *; congruence.
          -- intros i. apply (ucont_ext lo hi n (fun xs => nth (S i) (G' xs) 0)); auto. intros xs _. destruct (G' xs); [now destruct i|reflexivity]. }
  pose proof (rate_pos lo hi Hlo a b Hab) as Hr.
  set (lev := fun x => a + Rabs (x - lo) / rate lo hi a b).
  assert (Hlev : forall x, 0 < lev x).
  { intros x. unfold lev. assert (0 <= Rabs (x - lo) / rate lo hi a b); [|lra]. apply Rmult_le_pos; [apply Rabs_pos|]. apply Rlt_le. now apply Rinv_0_lt_compat. }
  assert (Clev : forall x, continuity_pt lev x).
  { intros x. unfold lev. apply continuity_pt_plus; [apply continuity_pt_const; intros ? ?; reflexivity|].
    apply continuity_pt_mult; [|apply continuity_pt_const; intros ? ?; reflexivity].
    apply (continuity_pt_comp (fun x => x - lo) Rabs); [|apply Rcontinuity_abs].
    apply continuity_pt_minus; [apply derivable_continuous_pt, derivable_pt_id|apply continuity_pt_const; intros ? ?; reflexivity]. }
  assert (Hpi : 0 < sqrt (2 * PI)) by (apply sqrt_lt_R0; pose proof PI_RGT_0; lra).
  assert (C1 : forall x, continuity_pt (fun x => ln (lev x * sqrt (2 * PI))) x).
  { intros x. apply (continuity_pt_comp (fun x => lev x * sqrt (2 * PI)) ln).
    - apply continuity_pt_mult; auto. apply continuity_pt_const; intros ? ?; reflexivity.
    - apply derivable_continuous_pt. eexists. apply derivable_pt_lim_ln. now apply Rmult_lt_0_compat. }
  assert (C2 : forall x, continuity_pt (fun x => / (2 * lev x ^ 2)) x).
  { intros x. apply continuity_pt_inv; [|pose proof (pow_lt _ 2 (Hlev x)); lra]. apply continuity_pt_mult; [apply continuity_pt_const; intros ? ?; reflexivity|].
    apply (continuity_pt_comp lev (fun y => y ^ 2)); auto. apply derivable_continuous_pt, derivable_pt_pow. }
  assert (CH : cont_on lo hi (S n) (lifted lo hi a b (level_logpdf G dobs))).
  { apply (ucont_ext lo hi (S n) (fun x => - INR (length dobs) * ln (lev (nth 0 x 0) * sqrt (2 * PI)) - / (2 * lev (nth 0 x 0) ^ 2) * squares (tl x))).
    - intros [|x xs] Hx; [now destruct Hx|]. apply box_cons in Hx. destruct Hx as [Hx Hxs]. unfold lifted. cbn [hd tl nth].
      assert (E : lev x = al lo hi a b x) by (unfold lev, al; rewrite Rabs_pos_eq by lra; reflexivity).
      rewrite <- E. rewrite logpdf_split by auto. unfold Rdiv. ring.
    - apply ucont_minus; auto.
      + apply ucont_scal; auto. apply (ucont_comp lo hi Hlo (S n) (fun x => ln (lev x * sqrt (2 * PI)))); auto. apply ucont_nth.
      + apply ucont_mult; auto; [|now apply ucont_tl].
        apply (ucont_comp lo hi Hlo (S n) (fun x => / (2 * lev x ^ 2))); auto. apply ucont_nth. }
  intros eps He. destruct (CH eps He) as (d & Hd & H). exists (Rmin d (d / rate lo hi a b)).
  split; [apply Rmin_pos; auto; now apply Rdiv_lt_0_compat|]. intros s u xs ys Hs Hu Hx Hy Hsu Hn.
  specialize (H (la lo hi a b s :: xs) (la lo hi a b u :: ys)). unfold lifted in H. cbn [hd tl] in H. rewrite !al_la in H by auto.
  apply H; try (apply box_cons; split; auto; apply la_inside; auto).
  constructor; [|eapply near_mono; [apply Rmin_l|exact Hn]]. unfold la.
  match goal with |- Rabs ?x < _ => replace x with (rate lo hi a b * (s - u)) by ring end.
  rewrite Rabs_mult, (Rabs_pos_eq (rate lo hi a b)) by lra. apply Rmult_lt_reg_r with (/ rate lo hi a b); [now apply Rinv_0_lt_compat|].
  replace (rate lo hi a b * Rabs (s - u) * / rate lo hi a b) with (Rabs (s - u)) by (field; lra).
  eapply Rlt_le_trans; [exact Hsu|apply Rmin_r].
Qed.
End Level.

(** Together: what chains over values and noise level of data with Gaussian noise keep. *)
Theorem C83_data_partial n lo hi sd a b tau T dobs r1 r2 r3 G f ll save F phi w g :
  (0 < n)%nat -> lo < hi -> 0 < sd -> 0 < a -> a < b -> 0 < tau -> 0 < T ->
  normal_cdf F -> (forall z, derivable_pt_lim F z (phi z)) -> walks F a b tau w ->
  (forall xs, in_box lo hi n xs -> length (G xs) = length dobs) ->
  (forall s l xs tr, both n s l xs -> a <= l <= b -> in_box lo hi n xs -> f_fun f s tr = Ret (G xs) tr) ->
  (forall i, cont_on lo hi n (fun xs => nth i (G xs) 0)) ->
  loglike_init (Some [ATarget (level_target dobs a b tau r1 r2 r3)]) (Some [AFwd f]) None None = Ok ll ->
  joint_cont a b lo hi n g ->
  exists nextv nextn (e : nat -> R -> list R -> R) v,
    goes_on (inversion_env [number_space n lo hi sd] ll save) n lo hi a b tau T (own_prediction n G) nextv nextn /\
    (forall l xs, e O l xs = g l xs) /\
    (forall k l xs, a <= l <= b -> in_box lo hi n xs ->
       mean_either (3 / 4) phi n w a b l
         (fun i z u => e k (fst (nextv l xs i z u)) (snd (nextv l xs i z u)))
         (fun y u => e k (fst (nextn l xs y u)) (snd (nextn l xs y u))) (e (S k) l xs)) /\
    forall k, joint_integral a b lo hi n (fun l xs => exp (level_logpdf G dobs l xs / T) * hit F a b tau l * e k l xs) v.
Proof.
  intros Hn Hlo Hsd Ha Hab Htau HT HF Hphi Hw HG Hf HC Hll Hg.
  pose proof (C83_gaussian_data n lo hi a b tau dobs r1 r2 r3 Ha G f HG Hf T ll HT Hll) as Hev.
  destruct (C83_iteration n lo hi sd a b tau T dobs r1 r2 r3 ll _ _ save HT Hev) as (nextv & nextn & Hgo & _).
  destruct (C83_run_partial n lo hi sd a b tau T dobs r1 r2 r3 ll _ _ save F phi w nextv nextn g Hn Hlo Hsd Hab Htau HT HF Hphi Hw
    (C83_continuous n lo hi a b dobs Ha G HG Hlo Hab HC) Hev Hgo Hg) as (e & v & H0 & H1 & H2).
  exists nextv, nextn, e, v. auto.
Qed.

(** * The posterior itself is not kept *)
(** A level in [0, 10] with steps of standard deviation 1, one number, and a likelihood that depends on neither:
    the level should stay uniform, but the mean of [g] (the probability that a step stays inside) grows in one iteration. *)
Theorem C83_refuted : exists n lo hi sd a b tau T dobs r1 r2 r3 ll L kept save F phi w nextv nextn g e v v',
  (0 < n)%nat /\ lo < hi /\ 0 < sd /\ a < b /\ 0 < tau /\ T = 1 /\
  normal_cdf F /\ (forall z, derivable_pt_lim F z (phi z)) /\ walks F a b tau w /\
  joint_cont a b lo hi n L /\ evaluates_both n lo hi a b T ll (level_target dobs a b tau r1 r2 r3) L kept /\
  goes_on (inversion_env [number_space n lo hi sd] ll save) n lo hi a b tau T kept nextv nextn /\
  joint_cont a b lo hi n g /\
  (forall l xs, a <= l <= b -> in_box lo hi n xs ->
     mean_either (3 / 4) phi n w a b l
       (fun i z u => g (fst (nextv l xs i z u)) (snd (nextv l xs i z u)))
       (fun y u => g (fst (nextn l xs y u)) (snd (nextn l xs y u))) (e l xs)) /\
  joint_integral a b lo hi n (fun l xs => exp (L l xs / T) * g l xs) v /\
  joint_integral a b lo hi n (fun l xs => exp (L l xs / T) * e l xs) v' /\ v < v'.
Proof.
  destruct PropWalk.C53_density_case as (F & w & HF & Hw & Hne & _).
  pose proof HF as [(c & Hc & Hphi) Hr _ _]. set (phi := fun u => c * bell u) in *.
  set (Z := fun (_ : R) (_ : list R) => 0). set (Z1 := fun _ : list R => 0). set (t := level_target [] 0 10 1 0 0 0).
  assert (Hll : exists ll, loglike_init (Some [ATarget t]) None None (Some (fun _ => ret (Fin 0))) = Ok ll) by (eexists; reflexivity).
  destruct Hll as (ll & Ell).
  assert (H1 : 0 < 1) by lra. assert (Hlo : 0 < 10) by lra.
  assert (Hev : evaluates_both 1 0 10 0 10 1 ll t Z (fun _ => True)).
  { apply (C83_function 1 0 10 0 10 1 [] 1 0 0 0 (fun _ => ret (Fin 0)) Z ll H1); auto. }
  assert (HZ : cont_on 0 10 1 Z1) by apply ucont_const.
  assert (HZ2 : joint_cont 0 10 0 10 1 Z).
  { intros eps He. exists 1. split; [lra|]. intros. unfold Z. replace (0 - 0) with 0 by lra. now rewrite Rabs_R0. }
  set (g := fun (l : R) (_ : list R) => hit F 0 10 1 l).
  set (m := fun l => wafter 0 10 1 1 1 F phi Z1 (hits 0 10 1 F) [l]).
  assert (Hh : cont_on 0 10 1 (hits 0 10 1 F)) by exact (hits_cont 0 10 Hlo 1 H1 F phi Hphi).
  assert (Hm : cont_on 0 10 1 (wafter 0 10 1 1 1 F phi Z1 (hits 0 10 1 F))) by exact (ucont_wafter 0 10 Hlo 1 1 1 H1 F phi HF Hphi Z1 HZ _ Hh).
  set (e := fun (l : R) (_ : list R) => 3 / 4 * hit F 0 10 1 l + (1 - 3 / 4) * m l).
  assert (Hone : forall f : list R -> R, cont_on 0 10 1 f -> is_RInt (fun l => f [l]) 0 10 (box_int 0 10 1 f)).
  { intros f Hf. apply (box_int_is 0 10 Hlo 1) in Hf. destruct Hf as (h & Hh' & Hi).
    refine (is_RInt_ext h _ 0 10 _ _ Hi). intros x Hx. rewrite Rmin_left, Rmax_right in Hx by lra. apply (Hh' x). lra. }
  assert (Hint : forall (f : R -> R) v, is_RInt f 0 10 v -> joint_integral 0 10 0 10 1 (fun l xs => exp (Z l xs / 1) * f l) (10 * v)).
  { intros f v Hf. exists (fun l => 10 * f l). split.
    - intros l Hl. exists (fun _ => f l). split.
      + intros x Hx. cbn. unfold Z. replace (0 / 1) with 0 by lra. rewrite exp_0. ring.
      + replace (10 * f l) with ((10 - 0) * f l) by ring. apply (is_RInt_const (V := R_NormedModule)).
    - exact (is_RInt_scal (V := R_NormedModule) f 0 10 10 v Hf). }
  assert (Hmean : forall l xs, 0 <= l <= 10 -> in_box 0 10 1 xs ->
     mean_either (3 / 4) phi 1 w 0 10 l
       (fun i z u => g (fst (value_step 0 10 1 1 Z l xs i z u)) (snd (value_step 0 10 1 1 Z l xs i z u)))
       (fun y u => g (fst (noise_step 1 Z l xs y u)) (snd (noise_step 1 Z l xs y u))) (e l xs)).
  { intros l xs Hl Hx. exists (hit F 0 10 1 l), (m l). split; [|split; [|reflexivity]].
    - pose proof (mean_draws_step 0 10 Hlo 1 1 1 H1 F phi HF Hphi Z1 HZ (fun _ => hit F 0 10 1 l) xs (ucont_const 0 10 1 _) Hx) as M.
      replace (ProofInvariance.after 0 10 1 1 1 phi Z1 (fun _ => hit F 0 10 1 l) xs) with (hit F 0 10 1 l) in M; [exact M|].
      unfold ProofInvariance.after. cbn [seq map]. change (rsum [?r]) with (r + 0). unfold after_i. change (INR 1) with 1.
      assert (E0 : RInt (flux 1 1 phi Z1 (fun _ => hit F 0 10 1 l) 0 xs) 0 10 = 0).
      { apply is_RInt_unique. refine (is_RInt_ext (fun _ => 0) _ 0 10 0 _ _).
        - intros y _. symmetry. match goal with |- ?x = ?y => change (@eq R x y) end. unfold flux. ring.
        - pose proof (is_RInt_const (V := R_NormedModule) 0 10 0) as Q. unfold scal in Q. cbn in Q. unfold mult in Q. cbn in Q. now rewrite Rmult_0_r in Q. }
      rewrite E0. field.
    - assert (Bs : Forall (fun x => 0 <= x <= 10) [l]) by (constructor; [exact Hl|constructor]).
      assert (Ol : PropSites.ordered 0 10 1 [l]) by (split; [split; [reflexivity|exact Bs]|reflexivity]).
      assert (Os : forall q, in_box 0 10 1 q -> hits 0 10 1 F (in_order q) = hits 0 10 1 F q).
      { intros [|x [|y q]] [Hq _]; try discriminate. reflexivity. }
      pose proof (PropSites.mean_moves_step 0 10 1 1 1 F phi Z1 w (hits 0 10 1 F) [l] Hlo H1 H1 HF Hphi HZ Hh
        (PropSites.walk_wq 0 10 1 F c w Hlo H1 Hc Hphi Hr Hw) Os Ol) as M.
      refine (PropSites.mean_moves_ext w w 0 10 1 [l] _ _ _ Hlo Bs eq_refl (fun _ _ _ _ => eq_refl) _ M).
      intros i y u Hi Hy Hu. assert (i = 0)%nat by lia. subst i. unfold PropSites.site_step, noise_step, g, hits, Z, Z1. cbv zeta. cbn [fst].
      destruct (Rlt_dec (ln u) ((0 - 0) / 1)); reflexivity. }
  exists 1%nat, 0, 10, 1, 0, 10, 1, 1, [], 0, 0, 0, ll, Z, (fun _ => True), true, F, phi, w,
    (value_step 0 10 1 1 Z), (noise_step 1 Z), g, e, (10 * box_int 0 10 1 (hits 0 10 1 F)),
    (10 * (3 / 4 * box_int 0 10 1 (hits 0 10 1 F) + (1 - 3 / 4) * box_int 0 10 1 (wafter 0 10 1 1 1 F phi Z1 (hits 0 10 1 F)))).
  split; [lia|]. do 4 (split; [lra|]). split; [reflexivity|]. split; [exact HF|]. split; [exact Hphi|]. split; [exact Hw|]. split; [exact HZ2|].
  split; [exact Hev|]. split; [|split; [|split; [exact Hmean|split; [|split]]]].
  - constructor.
    + intros c0 l xs w0 w' i z u tr A1 A2 A3 A4 A5 A6 A7.
      exact (value_iterates 1 0 10 1 0 10 1 1 [] 0 0 0 ll Z _ true Hev c0 l xs w0 w' i z u tr A1 A2 A3 A4 A5 A6 A7).
    + intros c0 l xs w0 zs z y u tr A1 A2 A3 A4 A5 A6.
      exact (noise_iterates 1 0 10 1 0 10 1 1 [] 0 0 0 ll Z _ true Hev c0 l xs w0 zs z y u tr A1 A2 A3 A4 A5 A6).
  - intros eps He. destruct (Hh eps He) as (d & Hd & H). exists d. split; auto. intros s u xs ys Hs Hu Hx Hy Hsu Hn. unfold g.
    apply (H [s] [u]); try (split; [reflexivity|constructor; [assumption|constructor]]). constructor; [exact Hsu|constructor].
  - exact (Hint (hit F 0 10 1) _ (Hone _ Hh)).
  - apply (Hint (fun l => 3 / 4 * hit F 0 10 1 l + (1 - 3 / 4) * m l)).
    apply (is_RInt_plus (V := R_NormedModule) (fun l => 3 / 4 * hit F 0 10 1 l) (fun l => (1 - 3 / 4) * m l)).
    + exact (is_RInt_scal (V := R_NormedModule) _ 0 10 (3 / 4) _ (Hone _ Hh)).
    + exact (is_RInt_scal (V := R_NormedModule) m 0 10 (1 - 3 / 4) _ (Hone _ Hm)).
  - assert (box_int 0 10 1 (hits 0 10 1 F) < box_int 0 10 1 (wafter 0 10 1 1 1 F phi Z1 (hits 0 10 1 F))); [|lra].
    apply (not_kept 0 10 Hlo 1 1 H1 H1 F phi HF Hphi 5 9); try lra. intros Eh. apply Hne.
    destruct (PropWalk.C53_log_ratio F 0 10 1 w 5 9) as [-> _]; auto; try lra. rewrite Eh.
    pose proof (PropWalk.hit_pos F c Hc Hphi 0 10 1 H1 Hlo 9) as Hp.
    set (p := hit F 0 10 1 9) in *. replace (p / p) with 1 by (field; lra). apply ln_1.
Qed.

(** * Cases *)
(** Two numbers in [0, 4] predict three data; the noise level is between 1 and 2. *)
Definition cs_values (s : state) : list R :=
  match dget "m" (st_vals s) with
  | Some (EPS p) => match dget "v" (ps_vals p) with Some (Arr xs) => xs | _ => [] end
  | _ => []
  end.
Definition cs_predict (xs : list R) : list R := [nth 0 xs 0; nth 1 xs 0; nth 0 xs 0 * nth 1 xs 0].
Definition cs_fwd : fwd := mkFwd (fun s => ret (cs_predict (cs_values s))) false.
Lemma cs_both n s l xs : both n s l xs -> cs_values s = xs.
Proof. intros [(x & y & E) _]. unfold cs_values. rewrite E. reflexivity. Qed.
Definition cs_target : target := level_target [1; 2; 5 / 2] 1 2 (1 / 2) 0 0 0.
Example C83_case : exists ll F phi w, loglike_init (Some [ATarget cs_target]) (Some [AFwd cs_fwd]) None None = Ok ll /\
  normal_cdf F /\ (forall z, derivable_pt_lim F z (phi z)) /\ walks F 1 2 (1 / 2) w /\
  (forall xs, in_box 0 4 2 xs -> length (cs_predict xs) = length [1; 2; 5 / 2]) /\
  (forall s l xs tr, both 2 s l xs -> 1 <= l <= 2 -> in_box 0 4 2 xs -> f_fun cs_fwd s tr = Ret (cs_predict xs) tr) /\
  (forall i, cont_on 0 4 2 (fun xs => nth i (cs_predict xs) 0)) /\
  in_box 0 4 2 [1; 3] /\ first_try 1 2 (1 / 2) (3 / 2) [2; -3] (1 / 2) (7 / 4) /\
  joint_cont 1 2 0 4 2 (level_logpdf cs_predict [1; 2; 5 / 2]).
Proof.
  destruct ExampleWalk.normal_cdf_exists as (F & HF). destruct (PropWalk.C53_density_exists F 1 2 (1 / 2) HF) as (w & Hw); try lra.
  pose proof HF as [(c & Hc & Hphi) _ _ _]. eexists _, F, _, w. split; [reflexivity|]. split; [exact HF|]. split; [exact Hphi|]. split; [exact Hw|].
  assert (HG : forall xs, in_box 0 4 2 xs -> length (cs_predict xs) = length [1; 2; 5 / 2]) by reflexivity.
  assert (HC : forall i, cont_on 0 4 2 (fun xs => nth i (cs_predict xs) 0)).
  { intros [|[|[|i]]]; cbn [cs_predict nth]; try apply ucont_nth.
    - apply (ucont_mult 0 4 ltac:(lra) 2 (fun xs => nth 0 xs 0) (fun xs => nth 1 xs 0)); apply ucont_nth.
    - apply (ucont_ext 0 4 2 (fun _ => 0)); [intros; now destruct i|apply ucont_const]. }
  split; [exact HG|]. split; [|split; [exact HC|split; [split; [reflexivity|repeat constructor; lra]|split]]].
  - intros s l xs tr Hs _ _. cbn. now rewrite (cs_both _ _ _ _ Hs).
  - split; [lra|]. split; [lra|]. constructor; [lra|]. constructor; [lra|constructor].
  - apply (C83_continuous 2 0 4 1 2 [1; 2; 5 / 2] ltac:(lra) cs_predict HG); auto; lra.
Qed.
(** The level alone as the log likelihood: a function beside the target. *)
Definition cs_level (s : state) : M ext :=
  match dget "d" (st_vals s) with Some (ENoise d) => ret (Fin (- dn_std d)) | _ => err EAttr end.
Example C83_function_case : exists ll, loglike_init (Some [ATarget cs_target]) None None (Some cs_level) = Ok ll /\
  evaluates_both 2 0 4 1 2 3 ll cs_target (fun l _ => - l) (fun _ => True).
Proof.
  eexists. split; [reflexivity|]. apply (C83_function 2 0 4 1 2 3 _ _ _ _ _ cs_level _ _ ltac:(lra)); [|reflexivity].
  intros s l xs tr [(x & y & E) _] _ _. unfold cs_level. rewrite E. reflexivity.
Qed.
