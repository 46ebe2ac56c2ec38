(** C77: the chain of an inversion for an unknown number of numbers (a trans-dimensional
    parameter space with a uniform prior) leaves the tempered posterior distribution
    invariant. *)
From Coquelicot Require Import Coquelicot.
From Verif Require Import Base ModelPrior ModelState ModelSpace ModelPerturb ModelChain ModelLikelihood SpecWalk SpecInvariance SpecTransd.
From Verif Require Import SpecUtils1D SpecLikelihood ProofChain ProofBox ProofInvariance ProofTransd PropInvariance PropInvarianceLike.
From Verif Require ExampleRun ExampleWalk PropBalance ProofUtils1D PropPredictions ProofRun.
Local Open Scope string_scope.
Local Open Scope list_scope.
Local Open Scope R_scope.

(** * The inversion *)
(** ParameterSpace("m", n_dimensions=None, n_dimensions_min=kmin, n_dimensions_max=kmax,
    n_dimensions_init_range=range, parameters=[UniformPrior("v", lo, hi, sd)]) *)
Definition numbers_space (kmin kmax : nat) (range lo hi sd : R) : space :=
  Space "m" None kmin kmax range Plain [("v", PPrior (number_prior lo hi sd))].
(** What a proposal has in its cache when it comes from one of the perturbations. *)
Definition fresh_any (s : state) : Prop := exists ty, st_cache s = [("perturb_stats", CStats [(ty, 1)])].
(** The likelihood of states with [kmin] to [kmax] values in the box is exp(L xs). *)
Record evaluates_all (kmin kmax : nat) (lo hi T : R) (ll : loglike) (L : list R -> R) (kept : state -> Prop) : Prop := {
  ea_hier : ll_hier ll = [];
  ea_empty : forall k s xs, holds k s xs -> st_cache s = [] -> kept s;
  ea_ratio : forall k k' old new xs ys tr, (kmin <= k <= kmax)%nat -> (kmin <= k' <= kmax)%nat ->
    holds k old xs -> in_box lo hi k xs -> kept old ->
    holds k' new ys -> in_box lo hi k' ys -> fresh_any new ->
    exists old' new', log_likelihood_ratio ll old new T tr = Ret (old', new', inl (Fin ((L ys - L xs) / T))) tr /\
      holds k old' xs /\ kept old' /\ holds k' new' ys /\ kept new' /\
      dget "perturb_stats" (st_cache new') = dget "perturb_stats" (st_cache new)
}.
(** The iterations of the chain from [xs] with [k] numbers.  The number [w'] chooses the kind
    of perturbation: births end at [born xs i a u] (index, place and uniform number), deaths
    at [died xs i u], changes of a number at [moved_to xs i z u].  Births from [kmax] numbers
    and deaths from [kmin] numbers end at [xs]. *)
Record follows_all (E : env state ovalue) (kmin kmax : nat) (lo hi T : R) (kept : state -> Prop)
    (born : list R -> nat -> R -> R -> list R) (died : list R -> nat -> R -> list R)
    (moved_to : list R -> nat -> R -> R -> list R) : Prop := {
  fa_birth : forall c k xs w w' i a u tr, stands_at k T kept c xs -> (kmin <= k)%nat -> (k < kmax)%nat -> in_box lo hi k xs ->
    0 <= w < 1 -> 0 <= w' -> 5 * w' < 1 -> (i <= k)%nat -> 0 <= a < 1 -> 0 < u < 1 ->
    exists c', next_iteration E c (DU w :: DInt 0 :: DU w' :: DInt i :: DU a :: DU u :: tr) = Ret (c', None) tr /\
      stands_at (length (born xs i a u)) T kept c' (born xs i a u);
  fa_full : forall c xs w w' u tr, stands_at kmax T kept c xs -> in_box lo hi kmax xs ->
    0 <= w < 1 -> 0 <= w' -> 5 * w' < 1 -> 0 < u < 1 ->
    exists c', next_iteration E c (DU w :: DInt 0 :: DU w' :: DU u :: tr) = Ret (c', None) tr /\ stands_at kmax T kept c' xs;
  fa_death : forall c k xs w w' i u tr, stands_at k T kept c xs -> (kmin < k <= kmax)%nat -> in_box lo hi k xs ->
    0 <= w < 1 -> 1 <= 5 * w' < 2 -> (i < k)%nat -> 0 < u < 1 ->
    exists c', next_iteration E c (DU w :: DInt 0 :: DU w' :: DInt i :: DU u :: tr) = Ret (c', None) tr /\
      stands_at (length (died xs i u)) T kept c' (died xs i u);
  fa_least : forall c xs w w' u tr, stands_at kmin T kept c xs -> in_box lo hi kmin xs ->
    0 <= w < 1 -> 1 <= 5 * w' < 2 -> 0 < u < 1 ->
    exists c', next_iteration E c (DU w :: DInt 0 :: DU w' :: DU u :: tr) = Ret (c', None) tr /\ stands_at kmin T kept c' xs;
  fa_move : forall c k xs w w' i z u tr, stands_at k T kept c xs -> (kmin <= k <= kmax)%nat -> in_box lo hi k xs ->
    0 <= w < 1 -> 2 <= 5 * w' -> w' < 1 -> (i < k)%nat -> 0 < u < 1 ->
    exists c', next_iteration E c (DU w :: DInt 0 :: DU w' :: DInt i :: DZ z :: DU u :: tr) = Ret (c', None) tr /\
      stands_at k T kept c' (moved_to xs i z u)
}.

Lemma choose_kind w tr : 0 <= w < 1 ->
  choices 3 [1; 1; 3] (DU w :: tr) = Ret (if Rlt_dec (5 * w) 1 then 0%nat else if Rlt_dec (5 * w) 2 then 1%nat else 2%nat) tr.
Proof.
  intros Hw. unfold choices. cbn [accumulate length Nat.eqb negb rev app].
  rewrite ExampleRun.Rleb_f by lra. unfold bind. rewrite drawU_ok by lra.
  cbn [bisect_right Nat.ltb Nat.leb Nat.add Nat.sub Nat.div Nat.divmod fst snd idx nth_error rbind]. unfold Rltb.
  destruct (Rlt_dec (5 * w) 1) as [A|A]; [|destruct (Rlt_dec (5 * w) 2) as [B|B]];
    repeat match goal with |- context [Rlt_dec ?a ?b] => destruct (Rlt_dec a b); try (exfalso; lra); cbn [bisect_right Nat.ltb Nat.leb Nat.add Nat.sub Nat.div Nat.divmod fst snd idx nth_error rbind] end; unfold Rltb;
    repeat match goal with |- context [Rlt_dec ?a ?b] => destruct (Rlt_dec a b); try (exfalso; lra) end; reflexivity.
Qed.

Section Step.
Context (kmin kmax : nat) (range lo hi sd T : R) (ll : loglike) (L : list R -> R) (kept : state -> Prop) (save : bool).
Context (Hev : evaluates_all kmin kmax lo hi T ll L kept) (HT : 0 < T) (Hlo : lo < hi) (Hk : (1 <= kmin <= kmax)%nat).
Let sp := numbers_space kmin kmax range lo hi sd.
Let q := mkPsp "m" (own_elems sp).
Let E := inversion_env [sp] ll save.

(** What the perturbation of the parameter space state gives is what that of the state gives. *)
Lemma walked s xs k k' ys tr0 tr r ty : holds k s xs -> length xs = k ->
  (forall attrs cache, exists attrs' cache', psp_perturb_ps q (PS k [("v", Arr xs)] attrs cache) tr0 =
     Ret (PS k' [("v", Arr ys)] attrs' cache', r, ty) tr) -> (r = MInf \/ exists x, r = Fin x) ->
  exists s', psp_perturb q s (DInt 0 :: tr0) = Ret (s', r) tr /\ holds k' s' ys /\ st_cache s' = [("perturb_stats", CStats [(ty, 1)])].
Proof.
  intros [(attrs & cache & Hs) He] Hl Hp Hr0. destruct (Hp attrs cache) as (attrs' & cache' & Hp').
  unfold psp_perturb. unfold st_copy. rewrite Hs. cbn [rmap snd fst entry_copy]. rewrite copied by auto. cbn [rbind].
  unfold bind at 1. cbn [lift ret].
  assert (Hc : count_loop (st_size s) (psp_space q) [st_children s] 0 = Ok 1%nat).
  { unfold st_children, st_size. rewrite Hs. reflexivity. }
  unfold bind at 1. rewrite Hc. cbn [lift ret]. unfold bind at 1. cbn [randint_below].
  assert (Hr : forall tr, randint 0 0 (DInt 0 :: tr) = Ret 0%nat tr) by reflexivity. rewrite Hr.
  assert (Hw' : forall st, walk_loop (st_size s) q 0 (mkWalk st 0 (Fin 0) [] [([], st_children s)]) tr0 =
    Ret (mkWalk (st_set "m" (EPS (PS k' [("v", Arr ys)] attrs' cache')) st) 1 (eadd (Fin 0) r) [(ty, 1%nat)] []) tr).
  { intros st. unfold st_children, st_size. rewrite Hs. cbn [map fst snd nsum fold_right Nat.add walk_loop w_queue w_i Nat.leb entry_child].
    unfold bind at 1. cbn [walk_node]. change (psp_space q) with "m". cbn [String.eqb Ascii.eqb Bool.eqb w_i w_new w_ratio w_stats w_queue Nat.eqb].
    unfold bind at 1. rewrite Hp'. reflexivity. }
  unfold bind. rewrite Hw'. cbn [w_new w_stats w_ratio map snd fst nsum fold_right Nat.add INR ret].
  assert (Hv : eadd (Fin 0) r = r) by (destruct Hr0 as [->|(x & ->)]; cbn; rewrite ?Rplus_0_l; reflexivity).
  rewrite Hv. eexists. split; [reflexivity|]. split.
  - split; [|reflexivity]. eexists _, _. reflexivity.
  - cbn. do 4 f_equal. f_equal. lra.
Qed.

(** The three perturbations. *)
Lemma birth_ps k xs attrs cache w' i a tr : in_box lo hi k xs -> (k < kmax)%nat -> 0 <= w' -> 5 * w' < 1 -> (i <= k)%nat -> 0 <= a < 1 ->
  exists attrs' cache', psp_perturb_ps q (PS k [("v", Arr xs)] attrs cache) (DU w' :: DInt i :: DU a :: tr) =
    Ret (PS (S k) [("v", Arr (ins i (lo + (hi - lo) * a) xs))] attrs' cache', Fin 0, "BirthPerturbation(m)") tr.
Proof.
  intros [Hl Hb] Hkm H0 H5 Hi Ha. unfold psp_perturb_ps.
  change (psp_funcs q) with [(EBirth sp, 1); (EDeath sp, 1); (EParam "m" [PPrior (number_prior lo hi sd)], 3)]. cbn [length map snd].
  unfold bind at 1. rewrite choose_kind by lra. destruct (Rlt_dec (5 * w') 1); [|lra]. unfold bind at 1. cbn [idx nth_error lift ret fst elem_perturb].
  assert (Hbirth : exists attrs' cache', birth sp (PS k [("v", Arr xs)] attrs cache) (DInt i :: DU a :: tr) =
    Ret (PS (S k) [("v", Arr (ins i (lo + (hi - lo) * a) xs))] attrs' cache', Fin 0) tr).
  { assert (Hv : plain_birth_vals (sp_params sp) i [("v", Arr xs)] (DU a :: tr) = Ret [("v", Arr (ins i (lo + (hi - lo) * a) xs))] tr).
    { cbn [plain_birth_vals sp_params sp numbers_space dget String.eqb Ascii.eqb Bool.eqb]. unfold bind at 1.
      assert (Hx : param_sample (PPrior (number_prior lo hi sd)) None (DU a :: tr) = Ret (NNum (lo + (hi - lo) * a)) tr).
      { unfold param_sample, p_sample. cbn [p_dist number_prior get_hyper]. unfold bind at 1, bind at 1, bind at 1. cbn [lift ret].
        unfold uniform, bind. rewrite drawU_ok by lra. reflexivity. }
      rewrite Hx. cbn [insert_value]. rewrite ProofUtils1D.insert_1d_spec by lia. reflexivity. }
    change (birth sp) with (plain_birth sp). unfold plain_birth. cbn [ps_n ps_vals]. change (sp_max sp) with kmax. destruct (Nat.eqb_spec k kmax); [lia|].
    assert (Hd : randint 0 k (DInt i :: DU a :: tr) = Ret i (DU a :: tr)).
    { unfold randint. cbn [Nat.ltb Nat.leb andb]. destruct (Nat.leb_spec i k); [reflexivity|lia]. }
    unfold bind at 1. rewrite Hd. unfold bind at 1. rewrite Hv.
    assert (Hm : exists attrs' cache', mk_ps (S k) [("v", Arr (ins i (lo + (hi - lo) * a) xs))] = Ok (PS (S k) [("v", Arr (ins i (lo + (hi - lo) * a) xs))] attrs' cache')).
    { assert (Hl' : length (ins i (lo + (hi - lo) * a) xs) = S k).
      { apply (box_length lo hi). apply (box_ins lo hi); [split; auto|nra|auto]. }
      eexists _, _. cbn. rewrite Hl', Nat.eqb_refl. reflexivity. }
    destruct Hm as (attrs' & cache' & Hm). exists attrs', cache'. unfold bind. rewrite Hm. reflexivity. }
  destruct Hbirth as (attrs' & cache' & Hb'). exists attrs', cache'. unfold bind. rewrite Hb'. reflexivity.
Qed.
Lemma full_ps xs attrs cache w' tr : 0 <= w' -> 5 * w' < 1 ->
  psp_perturb_ps q (PS kmax [("v", Arr xs)] attrs cache) (DU w' :: tr) = Ret (PS kmax [("v", Arr xs)] attrs cache, MInf, "BirthPerturbation(m)") tr.
Proof.
  intros H0 H5. unfold psp_perturb_ps.
  change (psp_funcs q) with [(EBirth sp, 1); (EDeath sp, 1); (EParam "m" [PPrior (number_prior lo hi sd)], 3)]. cbn [length map snd].
  unfold bind at 1. rewrite choose_kind by lra. destruct (Rlt_dec (5 * w') 1); [|lra]. unfold bind at 1. cbn [idx nth_error lift ret fst elem_perturb].
  change (birth sp) with (plain_birth sp). unfold plain_birth. cbn [ps_n]. change (sp_max sp) with kmax. rewrite Nat.eqb_refl. reflexivity.
Qed.
Lemma death_ps k xs attrs cache w' i tr : in_box lo hi k xs -> (kmin < k)%nat -> 1 <= 5 * w' < 2 -> (i < k)%nat ->
  exists attrs' cache', psp_perturb_ps q (PS k [("v", Arr xs)] attrs cache) (DU w' :: DInt i :: tr) =
    Ret (PS (k - 1) [("v", Arr (del i xs))] attrs' cache', Fin 0, "DeathPerturbation(m)") tr.
Proof.
  intros Hbox Hkm H5 Hi. pose proof Hbox as [Hl Hb]. unfold psp_perturb_ps.
  change (psp_funcs q) with [(EBirth sp, 1); (EDeath sp, 1); (EParam "m" [PPrior (number_prior lo hi sd)], 3)]. cbn [length map snd].
  unfold bind at 1. rewrite choose_kind by lra. destruct (Rlt_dec (5 * w') 1); [lra|]. destruct (Rlt_dec (5 * w') 2); [|lra].
  unfold bind at 1. cbn [idx nth_error lift ret fst elem_perturb].
  assert (Hdeath : exists attrs' cache', death sp (PS k [("v", Arr xs)] attrs cache) (DInt i :: tr) =
    Ret (PS (k - 1) [("v", Arr (del i xs))] attrs' cache', Fin 0) tr).
  { change (death sp) with (plain_death sp). unfold plain_death. cbn [ps_n ps_vals]. change (sp_min sp) with kmin. destruct (Nat.eqb_spec k kmin); [lia|].
    assert (Hd : randint_below k (DInt i :: tr) = Ret i tr).
    { destruct k as [|m]; [lia|]. cbn. destruct (Nat.leb_spec i m); [reflexivity|lia]. }
    unfold bind at 1. rewrite Hd. cbn [rmap fst snd delete_value]. rewrite ProofUtils1D.delete_1d_spec by lia. cbn [rbind].
    unfold bind at 1. cbn [lift ret].
    assert (Hl' : length (del i xs) = (k - 1)%nat).
    { destruct k as [|m]; [lia|]. cbn [Nat.sub]. rewrite Nat.sub_0_r. apply (box_length lo hi). apply (box_del lo hi); auto. lia. }
    change (delete_at i xs) with (del i xs).
    assert (Hm : exists attrs' cache', mk_ps (k - 1) [("v", Arr (del i xs))] = Ok (PS (k - 1) [("v", Arr (del i xs))] attrs' cache')).
    { eexists _, _. cbn [mk_ps post_init]. unfold mk_ps. cbn. rewrite Hl', Nat.eqb_refl. reflexivity. }
    destruct Hm as (attrs' & cache' & Hm). exists attrs', cache'. unfold bind. rewrite Hm. reflexivity. }
  destruct Hdeath as (attrs' & cache' & Hb'). exists attrs', cache'. unfold bind. rewrite Hb'. reflexivity.
Qed.
Lemma least_ps xs attrs cache w' tr : 1 <= 5 * w' < 2 ->
  psp_perturb_ps q (PS kmin [("v", Arr xs)] attrs cache) (DU w' :: tr) = Ret (PS kmin [("v", Arr xs)] attrs cache, MInf, "DeathPerturbation(m)") tr.
Proof.
  intros H5. unfold psp_perturb_ps.
  change (psp_funcs q) with [(EBirth sp, 1); (EDeath sp, 1); (EParam "m" [PPrior (number_prior lo hi sd)], 3)]. cbn [length map snd].
  unfold bind at 1. rewrite choose_kind by lra. destruct (Rlt_dec (5 * w') 1); [lra|]. destruct (Rlt_dec (5 * w') 2); [|lra].
  unfold bind at 1. cbn [idx nth_error lift ret fst elem_perturb].
  change (death sp) with (plain_death sp). unfold plain_death. cbn [ps_n]. change (sp_min sp) with kmin. rewrite Nat.eqb_refl. reflexivity.
Qed.
Lemma move_ps k xs attrs cache w' i z tr : in_box lo hi k xs -> 2 <= 5 * w' -> w' < 1 -> (i < k)%nat ->
  let y := nth i xs 0 + z * sd in
  exists attrs' cache', psp_perturb_ps q (PS k [("v", Arr xs)] attrs cache) (DU w' :: DInt i :: DZ z :: tr) =
    Ret (PS k [("v", Arr (set_nth xs i y))] attrs' cache', verdict_of lo hi y, "ParamPerturbation(m.v)") tr.
Proof.
  intros Hb H5 H1 Hi y. exists [("v", Arr xs)], cache. unfold psp_perturb_ps.
  change (psp_funcs q) with [(EBirth sp, 1); (EDeath sp, 1); (EParam "m" [PPrior (number_prior lo hi sd)], 3)]. cbn [length map snd].
  unfold bind at 1. rewrite choose_kind by lra. destruct (Rlt_dec (5 * w') 1); [lra|]. destruct (Rlt_dec (5 * w') 2); [lra|].
  unfold bind at 1. cbn [idx nth_error lift ret fst elem_perturb]. unfold bind. rewrite (moved k lo hi sd) by auto. reflexivity.
Qed.

(** The chain. *)
Lemma items_saved s k xs d : holds k s xs -> exists d', save_items E (s_items (e_ops E) s) d = (d', None).
Proof.
  intros [(attrs & cache & Hs) He]. cbn [e_ops E inversion_env chain_env state_opsB s_items]. unfold st_items. rewrite Hs, He. eexists. reflexivity.
Qed.
Lemma saves c k xs : stands_at k T kept c xs -> exists c', save_state E c = (c', None) /\ stands_at k T kept c' xs.
Proof.
  intros (Hh & Ht & Hfl & d & Hd). unfold save_state.
  change (s_kind (e_ops E) (c_cur c)) with KState. cbn iota. destruct (items_saved _ _ _ d (proj1 Hh)) as (d' & Hd'). rewrite Hd, Hd'.
  change (s_cache (e_ops E) (c_cur c)) with (Some (map (fun kc => (fst kc, cache_value (snd kc))) (st_cache (c_cur c)))). cbn iota.
  destruct (e_savedpred E); eexists; (split; [reflexivity|]);
    (split; [exact Hh|]; split; [exact Ht|]; split; [exact Hfl|eexists; reflexivity]).
Qed.
Definition ends (acc : bool) (k k' : nat) (xs ys : list R) (c : chain state ovalue) : Prop :=
  if acc then stands_at k' T kept c ys else stands_at k T kept c xs.
Lemma finishes acc new c k k' xs ys vs : stands_at k T kept c xs -> holds k' new ys -> (acc = true -> kept new) ->
  s_pstats (e_ops E) new = inl vs ->
  exists c', finish E (psp_name q) acc new c = (c', Done) /\ ends acc k k' xs ys c'.
Proof.
  intros Hc Hn Hkn Hv. set (c1 := if acc then set_cur new c else c).
  assert (H1 : ends acc k k' xs ys c1).
  { destruct Hc as (Hh & Ht & Hfl & Hd). unfold c1, ends. destruct acc; [|repeat (split; auto)].
    split; [split; [exact Hn|apply Hkn; reflexivity]|repeat (split; auto)]. }
  unfold finish. fold c1. unfold save_statistics. change (String.prefix psp_prefix (psp_name q)) with true. cbn iota. rewrite Hv.
  set (c2 := put_stats _ acc c1).
  assert (Hfl : exists fl, c_flag c2 = Some fl) by (unfold ends in H1; destruct acc; apply H1).
  destruct Hfl as (fl & Hfl). rewrite Hfl.
  assert (H3 : exists c3, save_state E c2 = (c3, None) /\ ends acc k k' xs ys c3).
  { unfold ends in *. destruct acc; apply saves; exact H1. }
  destruct H3 as (c3 & E3 & H3). destruct (fl && Reqb (c_temp c2) 1)%bool; [rewrite E3; eauto|].
  exists c2. split; [reflexivity|]. unfold ends in *. destruct acc; exact H1.
Qed.
Lemma decides new c k k' xs ys vs u tr lpr llr : stands_at k T kept c xs -> holds k' new ys ->
  s_pstats (e_ops E) new = inl vs -> 0 < u < 1 -> (egtb (eadd lpr llr) (Fin (ln u)) = true -> kept new) ->
  exists c', decide E (psp_name q) new lpr llr c (DU u :: tr) = Ret (c', Done) tr /\
    ends (egtb (eadd lpr llr) (Fin (ln u))) k k' xs ys c'.
Proof.
  intros Hc Hn Hps Hu Hkn. rewrite PropBalance.decide_as by auto.
  destruct (finishes _ new c k k' xs ys vs Hc Hn Hkn Hps) as (c' & Ef & Hc').
  exists c'. rewrite Ef. split; [reflexivity|exact Hc'].
Qed.
(** One iteration whose perturbation proposes [ys]. *)
Lemma iterates c k k' xs ys w tr0 u tr r ty : stands_at k T kept c xs -> (kmin <= k <= kmax)%nat -> in_box lo hi k xs ->
  0 <= w < 1 -> 0 < u < 1 ->
  (forall attrs cache, exists attrs' cache', psp_perturb_ps q (PS k [("v", Arr xs)] attrs cache) (tr0 ++ DU u :: tr) =
     Ret (PS k' [("v", Arr ys)] attrs' cache', r, ty) (DU u :: tr)) ->
  r = MInf \/ (r = Fin 0 /\ (kmin <= k' <= kmax)%nat /\ in_box lo hi k' ys) ->
  exists c', next_iteration E c (DU w :: DInt 0 :: tr0 ++ DU u :: tr) = Ret (c', None) tr /\
    ends (match r with MInf => false | _ => if Rlt_dec (ln u) ((L ys - L xs) / T) then true else false end) k k' xs ys c'.
Proof.
  intros Hc Hkk Hb Hw Hu Hp Hr. pose proof Hc as ((Hh & Hkc) & Ht & Hrest).
  assert (HF : inv_pfuncs [sp] ll = map (fun qw => (FSpace (fst qw), snd qw)) (all_funcs [sp])).
  { unfold inv_pfuncs, ll_pfuncs. rewrite (ea_hier _ _ _ _ _ _ _ _ Hev). apply app_nil_r. }
  assert (HE : e_funcs E = [(psp_name q, psp_perturb q)]).
  { unfold E, inversion_env. rewrite HF. reflexivity. }
  assert (HW : exists wt, e_weights E = [wt] /\ 0 < wt).
  { unfold E, inversion_env. rewrite HF. eexists. split; [reflexivity|]. cbn. lra. }
  destruct HW as (wt & HW & Hwt).
  assert (Hr' : r = MInf \/ exists x, r = Fin x) by (destruct Hr as [->|(-> & _)]; eauto).
  destruct (walked (c_cur c) xs k k' ys _ _ r ty Hh (proj1 Hb) Hp Hr') as (s' & Ep & Hs' & Hcs).
  assert (Hps : s_pstats (e_ops E) s' = inl [(ty, 1)]).
  { cbn [e_ops E inversion_env chain_env state_opsB s_pstats]. rewrite Hcs. reflexivity. }
  unfold next_iteration. change 500%nat with (S 499). generalize 499%nat. intros m. cbn [tries].
  match goal with |- context [ends ?b] => set (bb := b) end.
  assert (Hgoal : exists c', attempt E c (DU w :: DInt 0 :: tr0 ++ DU u :: tr) = Ret (c', Done) tr /\ ends bb k k' xs ys c').
  { unfold attempt, bind at 1, try at 1. rewrite HE, HW. cbn [length]. rewrite choose_only by auto. cbn [nth_error].
    unfold bind at 1, try. rewrite Ep. destruct Hr as [->|(-> & Hk' & Hb')].
    - cbn [eisinf]. subst bb. change false with (egtb (eadd MInf (Fin 0)) (Fin (ln u))).
      eapply decides; eauto. discriminate.
    - cbn [eisinf].
      destruct (ea_ratio _ _ _ _ _ _ _ _ Hev k k' (c_cur c) s' xs ys (DU u :: tr)) as (old' & new' & El & Ho & Ko & Hn & Kn & Est); auto.
      { exists ty. exact Hcs. }
      unfold bind. cbn [e_like E inversion_env chain_env]. rewrite Ht, El.
      change (chain_env [sp] ll (inv_pfuncs [sp] ll) save) with E.
      assert (Hc1 : stands_at k T kept (set_cur old' c) xs) by (repeat (split; auto)).
      assert (Hps' : s_pstats (e_ops E) new' = inl [(ty, 1)]).
      { cbn [e_ops E inversion_env chain_env state_opsB s_pstats]. rewrite Est, Hcs. reflexivity. }
      destruct (decides new' (set_cur old' c) k k' xs ys _ u tr (Fin 0) (Fin ((L ys - L xs) / T)) Hc1 Hn Hps' Hu (fun _ => Kn)) as (c' & Ed & Hc').
      exists c'. split; [exact Ed|]. cbn [eadd egtb] in Hc'. rewrite Rplus_0_l in Hc'. exact Hc'. }
  destruct Hgoal as (c' & Ea & Hc'). exists c'. split; [|exact Hc']. unfold bind. now rewrite Ea.
Qed.
Lemma follows_steps : follows_all E kmin kmax lo hi T kept (step_birth lo hi T L) (step_death T L) (step lo hi sd T L).
Proof.
  constructor.
  - intros c k xs w w' i a u tr Hc H1 H2 Hb Hw H0 H5 Hi Ha Hu.
    assert (Hins : in_box lo hi (S k) (ins i (lo + (hi - lo) * a) xs)) by (apply box_ins; auto; nra).
    destruct (iterates c k (S k) xs (ins i (lo + (hi - lo) * a) xs) w [DU w'; DInt i; DU a] u tr (Fin 0) "BirthPerturbation(m)" Hc ltac:(lia) Hb Hw Hu) as (c' & Ec & Hc').
    { intros. now apply birth_ps. }
    { right. split; [reflexivity|]. split; [lia|exact Hins]. }
    exists c'. split; [exact Ec|]. unfold ends in Hc'. unfold step_birth, decide_at. destruct (Rlt_dec _ _).
    + now rewrite (box_length lo hi _ _ Hins).
    + now rewrite (box_length lo hi _ _ Hb).
  - intros c xs w w' u tr Hc Hb Hw H0 H5 Hu.
    destruct (iterates c kmax kmax xs xs w [DU w'] u tr MInf "BirthPerturbation(m)" Hc ltac:(lia) Hb Hw Hu) as (c' & Ec & Hc'); [|auto|exists c'; auto].
    intros attrs cache. exists attrs, cache. now apply full_ps.
  - intros c k xs w w' i u tr Hc H1 Hb Hw H5 Hi Hu.
    assert (Hdel : in_box lo hi (k - 1) (del i xs)).
    { destruct k as [|k]; [lia|]. cbn [Nat.sub]. rewrite Nat.sub_0_r. apply box_del; auto. lia. }
    destruct (iterates c k (k - 1) xs (del i xs) w [DU w'; DInt i] u tr (Fin 0) "DeathPerturbation(m)" Hc ltac:(lia) Hb Hw Hu) as (c' & Ec & Hc').
    { intros. apply death_ps; auto. lia. }
    { right. split; [reflexivity|]. split; [lia|exact Hdel]. }
    exists c'. split; [exact Ec|]. unfold ends in Hc'. unfold step_death, decide_at. destruct (Rlt_dec _ _).
    + now rewrite (box_length lo hi _ _ Hdel).
    + now rewrite (box_length lo hi _ _ Hb).
  - intros c xs w w' u tr Hc Hb Hw H5 Hu.
    destruct (iterates c kmin kmin xs xs w [DU w'] u tr MInf "DeathPerturbation(m)" Hc ltac:(lia) Hb Hw Hu) as (c' & Ec & Hc'); [|auto|exists c'; auto].
    intros attrs cache. exists attrs, cache. now apply least_ps.
  - intros c k xs w w' i z u tr Hc H1 Hb Hw H5 H6 Hi Hu. set (y := nth i xs 0 + z * sd).
    destruct (iterates c k k xs (set_nth xs i y) w [DU w'; DInt i; DZ z] u tr (verdict_of lo hi y) "ParamPerturbation(m.v)" Hc H1 Hb Hw Hu) as (c' & Ec & Hc').
    { intros. now apply move_ps. }
    { unfold verdict_of. destruct (Rle_dec lo y) as [Y1|Y1]; auto. destruct (Rle_dec y hi) as [Y2|Y2]; auto.
      right. split; [reflexivity|]. split; [exact H1|]. apply box_set; auto. }
    exists c'. split; [exact Ec|]. unfold ends, verdict_of in Hc'. unfold step. cbv zeta. fold y.
    destruct (Rle_dec lo y); [|exact Hc']. destruct (Rle_dec y hi); [|exact Hc']. destruct (Rlt_dec _ _); exact Hc'.
Qed.
Lemma start_at xs : exists c : chain state ovalue, stands_at (length xs) T kept c xs.
Proof.
  set (s := mkState [("m", EPS (PS (length xs) [("v", Arr xs)] [] []))] [] 1 [] []).
  exists (mkChain s T [] [] 0 0 [] (SDict []) (Some false) []).
  assert (Hs : holds (length xs) s xs) by (split; [eexists _, _; reflexivity|reflexivity]).
  split; [split; [exact Hs|]|repeat (split; [eauto; reflexivity|])].
  - eapply (ea_empty _ _ _ _ _ _ _ _ Hev); [exact Hs|reflexivity].
  - split; [eexists; reflexivity|eexists; reflexivity].
Qed.
Lemma stands_inj k k' c xs ys : stands_at k T kept c xs -> stands_at k' T kept c ys -> xs = ys.
Proof. intros (([(? & ? & E1) _] & _) & _) (([(? & ? & E2) _] & _) & _). congruence. Qed.
(** Any description of the iterations is this one. *)
Lemma follows_only born died moved_to : follows_all E kmin kmax lo hi T kept born died moved_to ->
  forall k xs, (kmin <= k <= kmax)%nat -> in_box lo hi k xs ->
  (forall i a u, (k < kmax)%nat -> (i <= k)%nat -> 0 < a < 1 -> 0 < u < 1 -> born xs i a u = step_birth lo hi T L xs i a u) /\
  (forall i u, (kmin < k)%nat -> (i < k)%nat -> 0 < u < 1 -> died xs i u = step_death T L xs i u) /\
  (forall i z u, (i < k)%nat -> 0 < u < 1 -> moved_to xs i z u = step lo hi sd T L xs i z u).
Proof.
  intros Hf k xs Hkk Hb. destruct (start_at xs) as (c & Hc). rewrite (box_length lo hi _ _ Hb) in Hc. pose proof follows_steps as Hf'.
  split; [|split].
  - intros i a u H1 Hi Ha Hu.
    destruct (fa_birth _ _ _ _ _ _ _ _ _ _ Hf c k xs 0 0 i a u [] Hc) as (c1 & E1 & H1'); try lra; try lia; auto.
    destruct (fa_birth _ _ _ _ _ _ _ _ _ _ Hf' c k xs 0 0 i a u [] Hc) as (c2 & E2 & H2'); try lra; try lia; auto.
    rewrite E1 in E2. injection E2 as <-. eapply stands_inj; eauto.
  - intros i u H1 Hi Hu.
    destruct (fa_death _ _ _ _ _ _ _ _ _ _ Hf c k xs 0 (1 / 5) i u [] Hc) as (c1 & E1 & H1'); try lra; try lia; auto.
    destruct (fa_death _ _ _ _ _ _ _ _ _ _ Hf' c k xs 0 (1 / 5) i u [] Hc) as (c2 & E2 & H2'); try lra; try lia; auto.
    rewrite E1 in E2. injection E2 as <-. eapply stands_inj; eauto.
  - intros i z u Hi Hu.
    destruct (fa_move _ _ _ _ _ _ _ _ _ _ Hf c k xs 0 (1 / 2) i z u [] Hc) as (c1 & E1 & H1'); try lra; try lia; auto.
    destruct (fa_move _ _ _ _ _ _ _ _ _ _ Hf' c k xs 0 (1 / 2) i z u [] Hc) as (c2 & E2 & H2'); try lra; try lia; auto.
    rewrite E1 in E2. injection E2 as <-. eapply stands_inj; eauto.
Qed.
End Step.

(** * C77 *)
Lemma mean_unit_ext (h h' : R -> R) m : (forall u, 0 < u < 1 -> h u = h' u) -> mean_unit h m -> mean_unit h' m.
Proof. intros He. unfold mean_unit. apply is_RInt_ext. intros u Hu. rewrite Rmin_left, Rmax_right in Hu by lra. now apply He. Qed.
Lemma mean_iteration_ext phi kmin kmax k gx hb hd hv hb' hd' hv' m :
  (forall i a u, (k < kmax)%nat -> (i <= k)%nat -> 0 < a < 1 -> 0 < u < 1 -> hb i a u = hb' i a u) ->
  (forall i u, (kmin < k)%nat -> (i < k)%nat -> 0 < u < 1 -> hd i u = hd' i u) ->
  (forall i z u, (i < k)%nat -> 0 < u < 1 -> hv i z u = hv' i z u) ->
  mean_iteration phi kmin kmax k gx hb hd hv m -> mean_iteration phi kmin kmax k gx hb' hd' hv' m.
Proof.
  intros Eb Ed Ev (b & d & v & Hb & Hd & Hv & Hm). exists b, d, v. split; [|split; [|split]].
  - destruct (Nat.ltb_spec k kmax) as [Hk|Hk]; auto. destruct Hb as (hu & hm & H1 & H2 & H3). exists hu, hm. split; auto.
    intros i a Hi Ha. eapply mean_unit_ext; [|now apply H1]. intros u Hu. apply Eb; auto. lia.
  - destruct (Nat.ltb_spec kmin k) as [Hk|Hk]; auto. destruct Hd as (hm & H1 & H2). exists hm. split; auto.
    intros i Hi. eapply mean_unit_ext; [|now apply H1]. intros u Hu. apply Ed; auto.
  - eapply mean_draws_ext; [|exact Hv]. auto.
  - exact Hm.
Qed.
(** The iterations are described by functions of the draws, with births, deaths and changes
    leading to lists of [kmin] to [kmax] numbers in the box. *)
Theorem C77_iteration kmin kmax range lo hi sd T ll L kept save : (1 <= kmin <= kmax)%nat -> lo < hi -> 0 < T ->
  evaluates_all kmin kmax lo hi T ll L kept ->
  exists born died moved_to, follows_all (inversion_env [numbers_space kmin kmax range lo hi sd] ll save) kmin kmax lo hi T kept born died moved_to /\
    forall k xs, (kmin <= k <= kmax)%nat -> in_box lo hi k xs ->
    (forall i a u, (k < kmax)%nat -> (i <= k)%nat -> 0 <= a < 1 -> in_box lo hi k (born xs i a u) \/ in_box lo hi (S k) (born xs i a u)) /\
    (forall i u, (i < k)%nat -> in_box lo hi k (died xs i u) \/ in_box lo hi (k - 1) (died xs i u)) /\
    (forall i z u, (i < k)%nat -> in_box lo hi k (moved_to xs i z u)).
Proof.
  intros Hk Hlo HT Hev. exists (step_birth lo hi T L), (step_death T L), (step lo hi sd T L).
  split; [now apply follows_steps|]. intros k xs Hkk Hb. split; [|split].
  - intros i a u H1 Hi Ha. unfold step_birth, decide_at. destruct (Rlt_dec _ _); [right|left; auto]. apply box_ins; auto. nra.
  - intros i u Hi. unfold step_death, decide_at. destruct (Rlt_dec _ _); [right|left; auto]. destruct k as [|k]; [lia|].
    cbn [Nat.sub]. rewrite Nat.sub_0_r. apply box_del; auto. lia.
  - intros i z u Hi. now apply step_inside.
Qed.
(** The posterior: every number of values from [kmin] to [kmax] is equally likely, the values
    are uniform, exp(L/T) is the tempered likelihood. *)
Definition posterior (lo hi T : R) (L : list R -> R) (xs : list R) : R := exp (L xs / T) / (hi - lo) ^ length xs.
Lemma posterior_integral kmin kmax lo hi T L g : lo < hi -> 0 < T ->
  (forall k, (kmin <= k <= kmax)%nat -> cont_on lo hi k L) -> (forall k, (kmin <= k <= kmax)%nat -> cont_on lo hi k g) ->
  trans_integral lo hi kmin kmax (fun xs => posterior lo hi T L xs * g xs)
    (rsum (map (fun k => box_int lo hi k (fun xs => post lo hi T L k xs * g xs)) (seq kmin (S kmax - kmin)))).
Proof.
  intros Hlo HT HL Hg. exists (fun k => box_int lo hi k (fun xs => post lo hi T L k xs * g xs)). split; [|reflexivity]. intros k Hk.
  assert (Hc : cont_on lo hi k (fun xs => post lo hi T L k xs * g xs)).
  { apply (ucont_mult lo hi Hlo k (post lo hi T L k)); auto. apply (ucont_post lo hi Hlo kmin kmax); auto. }
  assert (He : forall xs, in_box lo hi k xs -> post lo hi T L k xs * g xs = posterior lo hi T L xs * g xs).
  { intros xs Hx. unfold post, posterior, dens. rewrite (box_length lo hi _ _ Hx). unfold Rdiv. ring. }
  rewrite (box_int_ext lo hi Hlo k _ _ He). apply box_int_is; auto. exact (ucont_ext lo hi k _ _ He Hc).
Qed.
(** If the values have the tempered posterior distribution, they have it after an iteration:
    the integral of [g] after the iteration, averaged over the draws, is that of [g]. *)
Theorem C77_invariant kmin kmax range lo hi sd T ll L kept save F phi born died moved_to g :
  (1 <= kmin <= kmax)%nat -> lo < hi -> 0 < sd -> 0 < T -> normal_cdf F -> (forall z, derivable_pt_lim F z (phi z)) ->
  (forall k, (kmin <= k <= kmax)%nat -> cont_on lo hi k L) -> evaluates_all kmin kmax lo hi T ll L kept ->
  follows_all (inversion_env [numbers_space kmin kmax range lo hi sd] ll save) kmin kmax lo hi T kept born died moved_to ->
  (forall k, (kmin <= k <= kmax)%nat -> cont_on lo hi k g) ->
  exists e v, (forall k, (kmin <= k <= kmax)%nat -> cont_on lo hi k e) /\
    (forall k xs, (kmin <= k <= kmax)%nat -> in_box lo hi k xs ->
       mean_iteration phi kmin kmax k (g xs) (fun i a u => g (born xs i a u)) (fun i u => g (died xs i u)) (fun i z u => g (moved_to xs i z u)) (e xs)) /\
    trans_integral lo hi kmin kmax (fun xs => posterior lo hi T L xs * e xs) v /\
    trans_integral lo hi kmin kmax (fun xs => posterior lo hi T L xs * g xs) v.
Proof.
  intros Hk Hlo Hsd HT HF Hphi HL Hev Hf Hg.
  set (P := next_mean lo hi kmin kmax sd T phi L).
  assert (HP : forall k, (kmin <= k <= kmax)%nat -> cont_on lo hi k (P g)).
  { exact (good_next lo hi Hlo kmin kmax Hk sd T F phi HF Hphi L HL g Hg). }
  exists (P g), (rsum (map (fun k => box_int lo hi k (fun xs => post lo hi T L k xs * g xs)) (seq kmin (S kmax - kmin)))).
  split; [exact HP|]. split; [|split].
  - intros k xs Hkk Hx. destruct (follows_only kmin kmax range lo hi sd T ll L kept save Hev Hlo Hk born died moved_to Hf k xs Hkk Hx) as (E1 & E2 & E3).
    eapply mean_iteration_ext; [| | |eapply mean_next; eauto].
    + intros i a u A1 A2 A3 A4. cbn beta. now rewrite E1.
    + intros i u A1 A2 A3. cbn beta. now rewrite E2.
    + intros i z u A1 A2. cbn beta. now rewrite E3.
  - rewrite <- (trans_balance lo hi Hlo kmin kmax Hk sd T Hsd HT F phi HF Hphi L HL g Hg). now apply posterior_integral.
  - now apply posterior_integral.
Qed.
(** The same for any number of iterations: [e n] is the mean of [g] after [n] of them. *)
Theorem C77_run kmin kmax range lo hi sd T ll L kept save F phi born died moved_to g :
  (1 <= kmin <= kmax)%nat -> lo < hi -> 0 < sd -> 0 < T -> normal_cdf F -> (forall z, derivable_pt_lim F z (phi z)) ->
  (forall k, (kmin <= k <= kmax)%nat -> cont_on lo hi k L) -> evaluates_all kmin kmax lo hi T ll L kept ->
  follows_all (inversion_env [numbers_space kmin kmax range lo hi sd] ll save) kmin kmax lo hi T kept born died moved_to ->
  (forall k, (kmin <= k <= kmax)%nat -> cont_on lo hi k g) ->
  exists (e : nat -> list R -> R) v, (forall xs, e O xs = g xs) /\
    (forall n k xs, (kmin <= k <= kmax)%nat -> in_box lo hi k xs ->
       mean_iteration phi kmin kmax k (e n xs) (fun i a u => e n (born xs i a u)) (fun i u => e n (died xs i u))
         (fun i z u => e n (moved_to xs i z u)) (e (S n) xs)) /\
    forall n, trans_integral lo hi kmin kmax (fun xs => posterior lo hi T L xs * e n xs) v.
Proof.
  intros Hk Hlo Hsd HT HF Hphi HL Hev Hf Hg.
  set (P := next_mean lo hi kmin kmax sd T phi L).
  assert (Hc : forall n k, (kmin <= k <= kmax)%nat -> cont_on lo hi k (Nat.iter n P g)).
  { induction n as [|n IH]; auto. exact (good_next lo hi Hlo kmin kmax Hk sd T F phi HF Hphi L HL _ IH). }
  exists (fun n => Nat.iter n P g), (rsum (map (fun k => box_int lo hi k (fun xs => post lo hi T L k xs * g xs)) (seq kmin (S kmax - kmin)))).
  split; [reflexivity|]. split.
  - intros n k xs Hkk Hx. destruct (follows_only kmin kmax range lo hi sd T ll L kept save Hev Hlo Hk born died moved_to Hf k xs Hkk Hx) as (E1 & E2 & E3).
    eapply mean_iteration_ext; [| | |exact (mean_next lo hi Hlo kmin kmax Hk sd T Hsd F phi HF Hphi L HL (Nat.iter n P g) k xs (Hc n) Hkk Hx)].
    + intros i a u A1 A2 A3 A4. cbn beta. now rewrite E1.
    + intros i u A1 A2 A3. cbn beta. now rewrite E2.
    + intros i z u A1 A2. cbn beta. now rewrite E3.
  - intros n. replace (rsum (map (fun k => box_int lo hi k (fun xs => post lo hi T L k xs * g xs)) (seq kmin (S kmax - kmin))))
      with (rsum (map (fun k => box_int lo hi k (fun xs => post lo hi T L k xs * Nat.iter n P g xs)) (seq kmin (S kmax - kmin)))).
    { apply posterior_integral; auto. }
    induction n as [|n IH]; auto. rewrite <- IH. cbn [Nat.iter].
    exact (trans_balance lo hi Hlo kmin kmax Hk sd T Hsd HT F phi HF Hphi L HL _ (Hc n)).
Qed.
(** The factor 1/(hi-lo)^k of [posterior] is the prior density that log_prior of the
    parameter space returns. *)
Theorem C77_prior kmin kmax range lo hi sd k xs attrs cache : lo < hi -> in_box lo hi k xs ->
  exists l, plain_log_prior (numbers_space kmin kmax range lo hi sd) (PS k [("v", Arr xs)] attrs cache) = Ok (Fin l) /\
    exp l = / (hi - lo) ^ k.
Proof.
  intros Hlo [Hl Hb]. exists (- (INR k * ln (hi - lo))). split.
  - unfold plain_log_prior. cbn [numbers_space sp_params log_prior_loop]. unfold ps_get.
    cbn [ps_vals dget String.eqb Ascii.eqb Bool.eqb]. subst k.
    enough (G : forall acc, exists ls, rmap (fun v => p_log_prior (number_prior lo hi sd) v None) xs = Ok ls /\
      esum (Fin acc) ls = Fin (acc - INR (length xs) * ln (hi - lo))).
    { destruct (G 0) as (ls & -> & El). cbn [rbind]. rewrite El. cbn. do 2 f_equal. ring. }
    induction Hb as [|x xs Hx Hb IH]; intros acc; [exists []; cbn [length]; split; [reflexivity|cbn; f_equal; ring]|].
    destruct (IH (acc + - ln (hi - lo))) as (ls & Els & Es). exists (Fin (- ln (hi - lo)) :: ls). split.
    + cbn [rmap]. rewrite Els. unfold p_log_prior. cbn [p_dist number_prior get_hyper rbind]. rewrite !ExampleRun.Rleb_t by lra. cbn [andb].
      unfold py_log, Rltb. destruct (Rlt_dec 0 (hi - lo)); [reflexivity|lra].
    + cbn [esum eadd]. rewrite Es. f_equal. cbn [length]. rewrite S_INR. ring.
  - rewrite exp_Ropp. f_equal. rewrite <- Rpower_pow by lra. reflexivity.
Qed.
