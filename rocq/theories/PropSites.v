(** C79: which distribution the chain of an inversion for the sites of a 1-D tessellation leaves invariant. *)
From Coquelicot Require Import Coquelicot.
From Coq Require Import Permutation Sorted.
From Verif Require Import Base ModelPrior ModelState ModelSpace ModelPerturb ModelChain ModelLikelihood SpecWalk SpecInvariance SpecSites.
From Verif Require Import ProofChain ProofBox ProofInvariance ProofSites.
From Verif Require ExampleRun ExampleWalk PropBalance PropInvariance PropInvarianceLike PropWalk ProofSpaceE ProofState.
Local Open Scope string_scope.
Local Open Scope list_scope.
Local Open Scope R_scope.

(** * The inversion *)
(** Voronoi1D("m", vmin=lo, vmax=hi, perturb_std=sd, n_dimensions=n) *)
Definition site_space (n : nat) (lo hi sd : R) (fp : bool) : space := Space "m" (Some n) n n 0 (Vor1 lo hi sd fp) [].
(** [s] is a state of this parameterization with the sites [xs]. *)
Definition sites_held (n : nat) (s : state) (xs : list R) : Prop :=
  (exists attrs cache, st_vals s = [("m", EPS (PS n [("discretization", Arr xs)] attrs cache))]) /\ st_extra s = [].
Definition fresh_sites (s : state) : Prop := st_cache s = [("perturb_stats", CStats [("ParamPerturbation(m.discretization)", 1)])].
(** [n] sites between the limits, in increasing order. *)
Definition ordered (lo hi : R) (n : nat) (xs : list R) : Prop := in_box lo hi n xs /\ in_order xs = xs.
(** The likelihood of states with sites [xs] is exp(L xs). *)
Record evaluates_sites (n : nat) (lo hi T : R) (ll : loglike) (L : list R -> R) (kept : state -> Prop) : Prop := {
  es_hier : ll_hier ll = [];
  es_empty : forall s xs, sites_held n s xs -> st_cache s = [] -> kept s;
  es_ratio : forall old new xs ys tr, sites_held n old xs -> ordered lo hi n xs -> kept old ->
    sites_held n new ys -> ordered lo hi n ys -> fresh_sites new ->
    exists old' new', log_likelihood_ratio ll old new T tr = Ret (old', new', inl (Fin ((L ys - L xs) / T))) tr /\
      sites_held n old' xs /\ kept old' /\ sites_held n new' ys /\ kept new' /\
      dget "perturb_stats" (st_cache new') = dget "perturb_stats" (st_cache new)
}.
Definition at_sites (n : nat) (T : R) (kept : state -> Prop) (c : chain state ovalue) (xs : list R) : Prop :=
  (sites_held n (c_cur c) xs /\ kept (c_cur c)) /\ c_temp c = T /\ (exists fl, c_flag c = Some fl) /\ exists d, c_saved c = SDict d.
(** [next xs i y u] is where one iteration ends: index [i], walk of the site to [y], uniform number [u]. *)
Definition moves_on (E : env state ovalue) (n : nat) (lo hi sd T : R) (kept : state -> Prop)
    (next : list R -> nat -> R -> R -> list R) : Prop :=
  forall c xs w w' i zs z y u tr, at_sites n T kept c xs -> ordered lo hi n xs -> 0 <= w < 1 -> 0 <= w' < 1 -> (i < n)%nat ->
    first_try lo hi sd (nth i xs 0) zs z y -> 0 < u < 1 ->
    exists c', next_iteration E c (DU w :: DInt 0 :: DU w' :: DInt i :: map DZ zs ++ DZ z :: DU u :: tr) = Ret (c', None) tr /\
      at_sites n T kept c' (next xs i y u).

Section Step.
Context (n : nat) (lo hi sd T : R) (fp : bool) (ll : loglike) (L : list R -> R) (kept : state -> Prop) (save : bool).
Context (Hev : evaluates_sites n lo hi T ll L kept) (HT : 0 < T).
Let sp := site_space n lo hi sd fp.
Let E := inversion_env [sp] ll save.
Definition site_step (xs : list R) (i : nat) (y u : R) : list R :=
  let ys := in_order (set_nth xs i y) in if Rlt_dec (ln u) ((L ys - L xs) / T) then ys else xs.

Lemma copied_sites xs attrs cache : length xs = n ->
  ps_copy (PS n [("discretization", Arr xs)] attrs cache) = Ok (PS n [("discretization", Arr xs)] [("discretization", Arr xs)] cache).
Proof. intros Hl. cbn. rewrite Hl, Nat.eqb_refl. reflexivity. Qed.
Lemma sorted_strong (l : list R) : SpecUtils1D.sortedR l -> StronglySorted Rle l.
Proof.
  induction l as [|a l IH]; intros H; [constructor|]. constructor.
  - apply IH. intros i j x y Hij Hx Hy. exact (H (S i) (S j) x y ltac:(lia) Hx Hy).
  - apply List.Forall_forall. intros x Hx. apply In_nth_error in Hx as [j Hj]. exact (H O (S j) a x ltac:(lia) eq_refl Hj).
Qed.
Lemma sorted_pick (l : list R) : pick l (argsort l) = Ok (in_order l).
Proof.
  assert (H : exists l', pick l (argsort l) = Ok l').
  { assert (G : forall js, Forall (fun j => (j < length l)%nat) js -> exists l', pick l js = Ok l').
    { unfold pick. intros js H. induction H as [|j js Hj _ (l' & IH)]; [exists []; reflexivity|].
      destruct (nth_error l j) eqn:En; [|apply nth_error_None in En; lia].
      exists (r :: l'). cbn [rmap]. unfold idx at 1. rewrite En. cbn [rbind]. rewrite IH. reflexivity. }
    apply G. apply (Permutation_Forall (Permutation_sym (ProofSpaceE.argsort_perm l))).
    apply List.Forall_forall. intros j Hj. apply in_seq in Hj. lia. }
  destruct H as (l' & H). rewrite H. f_equal.
  assert (Hp : Permutation l' l) by (apply (PropWalk.pick_perm _ _ _ H); apply ProofSpaceE.argsort_perm).
  apply ProofSpaceE.argsort_sorted in H. apply sorted_unique.
  - now apply sorted_strong.
  - apply in_order_sorted.
  - rewrite Hp. symmetry. apply in_order_perm.
Qed.
Lemma order_len (l : list R) : length (in_order l) = length l.
Proof. apply Permutation_length, in_order_perm. Qed.
Lemma moved_site xs attrs cache i zs z y tr : length xs = n -> (i < n)%nat -> first_try lo hi sd (nth i xs 0) zs z y ->
  let ys := in_order (set_nth xs i y) in
  param_perturb [PSpace sp] (PS n [("discretization", Arr xs)] attrs cache) (DInt i :: map DZ zs ++ DZ z :: tr) =
  Ret (PS n [("discretization", Arr ys)] [("discretization", Arr ys)] [], Fin 0) tr.
Proof.
  clear E Hev HT. intros Hl Hi Hf ys.
  assert (Hx : nth_error xs i = Some (nth i xs 0)) by (apply nth_error_nth'; lia).
  unfold param_perturb, bind at 1. cbn [ps_n].
  assert (Hr : forall t, randint_below n (DInt i :: t) = Ret i t).
  { intros t. destruct n as [|m]; [lia|]. cbn. destruct (Nat.leb_spec i m); [reflexivity|lia]. }
  rewrite Hr. cbn [perturb_params is_disc sp site_space sp_cls]. unfold perturb_value, ps_get. cbn [ps_vals ps_n dget disc_key String.eqb Ascii.eqb Bool.eqb].
  unfold bind at 1. cbn [site_at positions_of rbind]. unfold idx. rewrite nth_error_map, Hx. cbn [option_map lift].
  unfold ret at 1. unfold bind at 1.
  assert (Hw : perturb_site (sp_cls sp) (P1 (nth i xs 0)) (map DZ zs ++ DZ z :: tr) = Ret (P1 y) tr).
  { apply PropWalk.C53_site_draws. exists zs, z. auto. }
  cbn [sp site_space sp_cls] in Hw |- *. rewrite Hw. rewrite sorted_pick. cbn [rbind sp_params perturb_value_loop lift].
  unfold bind. cbn [ret lift]. fold ys.
  assert (Hy : length ys = n). { unfold ys. rewrite order_len. rewrite PropInvariance.set_len; lia. }
  cbn. rewrite Hy, Nat.eqb_refl. reflexivity.
Qed.
Lemma proposed_sites s xs w' i zs z y tr : sites_held n s xs -> length xs = n -> 0 <= w' < 1 -> (i < n)%nat ->
  first_try lo hi sd (nth i xs 0) zs z y ->
  exists s', psp_perturb (mkPsp "m" (own_elems sp)) s (DInt 0 :: DU w' :: DInt i :: map DZ zs ++ DZ z :: tr) = Ret (s', Fin 0) tr /\
    sites_held n s' (in_order (set_nth xs i y)) /\ fresh_sites s'.
Proof.
  intros [(attrs & cache & Hs) He] Hl Hw Hi Hf. set (ys := in_order (set_nth xs i y)).
  unfold psp_perturb. unfold st_copy. rewrite Hs. cbn [rmap snd fst entry_copy]. rewrite copied_sites by auto. cbn [rbind].
  unfold bind at 1. cbn [lift ret].
  assert (Hc : count_loop (st_size s) (psp_space (mkPsp "m" (own_elems sp))) [st_children s] 0 = Ok 1%nat).
  { unfold st_children, st_size. rewrite Hs. reflexivity. }
  unfold bind at 1. rewrite Hc. cbn [lift ret]. unfold bind at 1. cbn [randint_below].
  assert (Hr : forall tr, randint 0 0 (DInt 0 :: tr) = Ret 0%nat tr) by reflexivity. rewrite Hr.
  assert (Hw' : forall st, walk_loop (st_size s) (mkPsp "m" (own_elems sp)) 0 (mkWalk st 0 (Fin 0) [] [([], st_children s)])
      (DU w' :: DInt i :: map DZ zs ++ DZ z :: tr) =
    Ret (mkWalk (st_set "m" (EPS (PS n [("discretization", Arr ys)] [("discretization", Arr ys)] [])) st) 1
      (eadd (Fin 0) (Fin 0)) [("ParamPerturbation(m.discretization)", 1%nat)] []) tr).
  { intros st. unfold st_children, st_size. rewrite Hs. cbn [map fst snd nsum fold_right Nat.add walk_loop w_queue w_i Nat.leb entry_child].
    unfold bind at 1. cbn [walk_node psp_space String.eqb Ascii.eqb Bool.eqb w_i w_new w_ratio w_stats w_queue Nat.eqb].
    unfold bind at 1, psp_perturb_ps. cbn [psp_funcs own_elems sp site_space sp_transd sp_fixed sp_params priors_of map snd filter is_disc sp_cls app length sp_name fst].
    unfold bind at 1. rewrite PropInvariance.choose_only by (auto; lra). cbn [lift idx nth_error]. unfold bind at 1. cbn [lift ret fst elem_perturb].
    unfold bind at 1. change (Space "m" (Some n) n n 0 (Vor1 lo hi sd fp) []) with sp. rewrite (moved_site xs attrs cache i zs z y tr Hl Hi Hf). cbn [ret]. reflexivity. }
  unfold bind. rewrite Hw'. cbn [w_new w_stats w_ratio map snd fst nsum fold_right Nat.add INR ret].
  eexists. split; [cbn; rewrite Rplus_0_r; reflexivity|]. split.
  - split; [|reflexivity]. eexists _, _. reflexivity.
  - unfold fresh_sites. cbn. do 4 f_equal. f_equal. lra.
Qed.
Lemma sites_items s xs d : sites_held n s xs ->
  save_items E (s_items (e_ops E) s) d = (append_saved "m.discretization" (OArr (Arr xs)) d, None).
Proof.
  intros [(attrs & cache & Hs) He]. cbn [e_ops E inversion_env chain_env state_opsB s_items]. unfold st_items. rewrite Hs, He. reflexivity.
Qed.
Lemma sites_saved c xs : at_sites n T kept c xs -> exists c', save_state E c = (c', None) /\ at_sites n T kept c' xs.
Proof.
  intros (Hh & Ht & Hfl & d & Hd). unfold save_state.
  change (s_kind (e_ops E) (c_cur c)) with KState. cbn iota. rewrite Hd, (sites_items _ _ d (proj1 Hh)).
  change (s_cache (e_ops E) (c_cur c)) with (Some (map (fun kc => (fst kc, cache_value (snd kc))) (st_cache (c_cur c)))). cbn iota.
  destruct (e_savedpred E); eexists; (split; [reflexivity|]);
    (split; [exact Hh|]; split; [exact Ht|]; split; [exact Hfl|eexists; reflexivity]).
Qed.
Lemma sites_finish q acc new c xs ys vs : at_sites n T kept c xs -> sites_held n new ys -> (acc = true -> kept new) ->
  s_pstats (e_ops E) new = inl vs ->
  exists c', finish E (psp_name q) acc new c = (c', Done) /\ at_sites n T kept c' (if acc then ys else xs).
Proof.
  intros Hc Hn Hk Hv. set (c1 := if acc then set_cur new c else c).
  assert (H1 : at_sites n T kept c1 (if acc then ys else xs)).
  { destruct Hc as (Hh & Ht & Hfl & Hd). unfold c1. destruct acc; [|repeat (split; auto)].
    split; [split; [exact Hn|apply Hk; reflexivity]|repeat (split; auto)]. }
  unfold finish. fold c1. unfold save_statistics. change (String.prefix psp_prefix (psp_name q)) with true. cbn iota. rewrite Hv.
  set (c2 := put_stats _ acc c1). assert (H2 : at_sites n T kept c2 (if acc then ys else xs)) by exact H1.
  destruct (sites_saved c2 _ H2) as (c3 & E3 & H3). destruct H1 as (_ & _ & (fl & Hfl) & _).
  replace (c_flag c2) with (Some fl) by (rewrite <- Hfl; reflexivity).
  destruct (fl && Reqb (c_temp c2) 1)%bool; [rewrite E3|]; eauto.
Qed.
Lemma sites_step c xs w w' i zs z y u tr : at_sites n T kept c xs -> ordered lo hi n xs -> 0 <= w < 1 -> 0 <= w' < 1 -> (i < n)%nat ->
  first_try lo hi sd (nth i xs 0) zs z y -> 0 < u < 1 ->
  exists c', next_iteration E c (DU w :: DInt 0 :: DU w' :: DInt i :: map DZ zs ++ DZ z :: DU u :: tr) = Ret (c', None) tr /\
    at_sites n T kept c' (site_step xs i y u).
Proof.
  intros Hc [Hb Ho] Hw Hw' Hi Hf Hu. pose proof Hc as ((Hh & Hk) & Ht & Hrest). pose proof Hb as [Hl _].
  assert (HF : inv_pfuncs [sp] ll = map (fun qw => (FSpace (fst qw), snd qw)) (all_funcs [sp])).
  { unfold inv_pfuncs, ll_pfuncs. rewrite (es_hier _ _ _ _ _ _ _ Hev). apply app_nil_r. }
  assert (HE : e_funcs E = [(psp_name (mkPsp "m" (own_elems sp)), psp_perturb (mkPsp "m" (own_elems sp)))]).
  { unfold E, inversion_env. rewrite HF. reflexivity. }
  assert (HW : exists wt, e_weights E = [wt] /\ 0 < wt).
  { unfold E, inversion_env. rewrite HF. eexists. split; [reflexivity|]. cbn. lra. }
  destruct HW as (wt & HW & Hwt).
  destruct (proposed_sites (c_cur c) xs w' i zs z y (DU u :: tr) Hh Hl Hw' Hi Hf) as (s' & Ep & Hs' & Hcs).
  set (ys := in_order (set_nth xs i y)) in *.
  unfold next_iteration. change 500%nat with (S 499). generalize 499%nat. intros k. cbn [tries].
  assert (Hgoal : exists c', attempt E c (DU w :: DInt 0 :: DU w' :: DInt i :: map DZ zs ++ DZ z :: DU u :: tr) = Ret (c', Done) tr /\
    at_sites n T kept c' (site_step xs i y u)).
  { unfold attempt, bind at 1, try at 1. rewrite HE, HW. cbn [length]. rewrite PropInvariance.choose_only by auto. cbn [nth_error].
    unfold bind at 1, try. rewrite Ep. unfold site_step. cbv zeta. fold ys. cbn [eisinf].
    destruct (es_ratio _ _ _ _ _ _ _ Hev (c_cur c) s' xs ys (DU u :: tr)) as (old' & new' & El & Ho' & Ko & Hn & Kn & Est); auto.
    { split; auto. }
    { split; [|apply in_order_id, in_order_sorted]. apply (proj1 (box_order lo hi n _)). apply box_set; auto. apply Hf. }
    unfold bind. cbn [e_like E inversion_env chain_env]. rewrite Ht, El.
    change (chain_env [sp] ll (inv_pfuncs [sp] ll) save) with E.
    assert (Hc1 : at_sites n T kept (set_cur old' c) xs) by (repeat (split; auto)).
    assert (Hps' : s_pstats (e_ops E) new' = inl [("ParamPerturbation(m.discretization)", 1)]).
    { cbn [e_ops E inversion_env chain_env state_opsB s_pstats]. rewrite Est, Hcs. reflexivity. }
    rewrite PropBalance.decide_as by auto.
    replace (eadd (Fin 0) (Fin ((L ys - L xs) / T))) with (Fin ((L ys - L xs) / T)) by (cbn; now rewrite Rplus_0_l).
    destruct (sites_finish (mkPsp "m" (own_elems sp)) (egtb (Fin ((L ys - L xs) / T)) (Fin (ln u))) new' (set_cur old' c) xs ys _ Hc1 Hn (fun _ => Kn) Hps') as (c' & Ef & Hc').
    exists c'. rewrite Ef. split; [reflexivity|]. unfold egtb, Rltb in Hc'. destruct (Rlt_dec (ln u) _); exact Hc'. }
  destruct Hgoal as (c' & Ea & Hc'). exists c'. split; [|exact Hc']. unfold bind. now rewrite Ea.
Qed.
Lemma site_step_ordered xs i y u : ordered lo hi n xs -> (i < n)%nat -> lo <= y <= hi -> ordered lo hi n (site_step xs i y u).
Proof.
  intros [Hb Ho] Hi Hy. unfold site_step. cbv zeta. destruct (Rlt_dec _ _); [|split; auto].
  split; [|apply in_order_id, in_order_sorted]. apply (proj1 (box_order lo hi n _)). now apply box_set.
Qed.
Lemma sites_held_inj s xs ys : sites_held n s xs -> sites_held n s ys -> xs = ys.
Proof. intros [(a & b & E1) _] [(a' & b' & E2) _]. congruence. Qed.
Lemma moves_on_step next : 0 < sd -> moves_on E n lo hi sd T kept next -> forall xs i y u, ordered lo hi n xs -> (i < n)%nat -> lo <= y <= hi -> 0 < u < 1 ->
  next xs i y u = site_step xs i y u.
Proof.
  intros Hsd Hn xs i y u Hb Hi Hy Hu.
  set (s := mkState [("m", EPS (PS n [("discretization", Arr xs)] [] []))] [] 1 [] []).
  set (c := mkChain s T [] [] 0 0 [] (SDict []) (Some false) [] : chain state ovalue).
  assert (Hs : sites_held n s xs) by (split; [eexists _, _; reflexivity|reflexivity]).
  assert (Hc : at_sites n T kept c xs).
  { split; [split; [exact Hs|]|repeat (split; [eauto; reflexivity|])].
    - eapply (es_empty _ _ _ _ _ _ _ Hev); [exact Hs|reflexivity].
    - split; [eexists; reflexivity|eexists; reflexivity]. }
  assert (Hf : first_try lo hi sd (nth i xs 0) [] ((y - nth i xs 0) / sd) y).
  { split; [field; lra|]. split; auto. }
  destruct (Hn c xs 0 0 i [] _ y u [] Hc Hb ltac:(lra) ltac:(lra) Hi Hf Hu) as (c1 & E1 & H1).
  destruct (sites_step c xs 0 0 i [] _ y u [] Hc Hb ltac:(lra) ltac:(lra) Hi Hf Hu) as (c2 & E2 & H2).
  rewrite E1 in E2. injection E2 as <-. destruct H1 as ((H1 & _) & _), H2 as ((H2 & _) & _). eapply sites_held_inj; eauto.
Qed.
End Step.

(** * C79 *)
(** The iterations are described by a function of the index, the end of the walk and a uniform number; the
    sites stay between the limits and in order. *)
Theorem C79_iteration n lo hi sd T fp ll L kept save : 0 < T -> evaluates_sites n lo hi T ll L kept ->
  exists next, moves_on (inversion_env [site_space n lo hi sd fp] ll save) n lo hi sd T kept next /\
    forall xs i y u, ordered lo hi n xs -> (i < n)%nat -> lo <= y <= hi -> ordered lo hi n (next xs i y u).
Proof.
  intros HT Hev. exists (site_step T L). split.
  - intros c xs w w' i zs z y u tr Hc Hb Hw Hw' Hi Hf Hu. now apply (sites_step n lo hi sd T fp ll L kept save).
  - intros. now apply site_step_ordered.
Qed.

Lemma mean_moves_ext w w' lo hi n xs h h' m : lo < hi -> Forall (fun x => lo <= x <= hi) xs -> length xs = n ->
  (forall x y, lo <= x <= hi -> lo < y < hi -> w x y = w' x y) ->
  (forall i y u, (i < n)%nat -> lo <= y <= hi -> 0 < u < 1 -> h i y u = h' i y u) ->
  mean_moves w lo hi n xs h m -> mean_moves w' lo hi n xs h' m.
Proof.
  intros Hlo Hx Hl Hw He (hy & hm & H1 & H2 & H3). exists hy, hm. split; [|split; auto].
  - intros i y Hi Hy. unfold mean_unit. apply (is_RInt_ext (h i y)); [|now apply H1].
    intros u Hu. rewrite Rmin_left, Rmax_right in Hu by lra. now apply He.
  - intros i Hi. apply (is_RInt_ext (fun y => w (nth i xs 0) y * hy i y)); [|now apply H2].
    intros y Hy. rewrite Rmin_left, Rmax_right in Hy by lra. rewrite Hw; auto.
    rewrite List.Forall_forall in Hx. apply Hx. apply nth_In. lia.
Qed.
(** The mean over the draws of one iteration. *)
Lemma mean_moves_step lo hi n sd T F phi L w g xs : lo < hi -> 0 < sd -> 0 < T -> normal_cdf F ->
  (forall z, derivable_pt_lim F z (phi z)) -> cont_on lo hi n L -> cont_on lo hi n g ->
  (forall x y, lo <= x <= hi -> lo < y < hi -> wq lo hi sd F phi x y = w x y) ->
  (forall l, in_box lo hi n l -> g (in_order l) = g l) -> ordered lo hi n xs ->
  mean_moves w lo hi n xs (fun i y u => g (site_step T L xs i y u)) (wafter lo hi n sd T F phi (fun l => L (in_order l)) g xs).
Proof.
  intros Hlo Hsd HT HF Hphi HL Hg Hw Hs [Hb Ho]. set (L' := fun l => L (in_order l)).
  assert (HL' : cont_on lo hi n L') by (now apply cont_order).
  apply (mean_moves_ext (wq lo hi sd F phi) w lo hi n xs
    (fun i y u => g (if Rlt_dec (ln u) ((L' (set_nth xs i y) - L' xs) / T) then set_nth xs i y else xs))); auto; try apply Hb.
  - intros i y u Hi Hy _. unfold site_step, L'. cbv zeta. rewrite Ho. destruct (Rlt_dec _ _); auto. symmetry. apply Hs. now apply box_set.
  - exists (fun i y => wmean T L' g xs i y), (fun i => wafter_i lo hi sd T F phi L' g i xs). split; [|split; [|reflexivity]].
    + intros i y Hi Hy. apply (wmean_unit T L' g xs (set_nth xs i y)).
    + intros i Hi. exact (wmean_int lo hi Hlo n sd T Hsd F phi HF Hphi L' HL' g xs i Hi Hg Hb).
Qed.
Lemma walk_wq lo hi sd F c w : lo < hi -> 0 < sd -> 0 < c -> (forall u, derivable_pt_lim F u (c * bell u)) -> (forall u, 0 < F u < 1) ->
  walks F lo hi sd w -> forall x y, lo <= x <= hi -> lo < y < hi -> wq lo hi sd F (fun u => c * bell u) x y = w x y.
Proof.
  intros Hlo Hsd Hc HF Hr Hw x y Hx Hy. symmetry.
  exact (PropWalk.density_unique F c Hc HF lo hi sd Hsd Hlo Hr x (w x) y (Hw x Hx) Hy).
Qed.
(** The number of iterations is [k] and [e k xs] the mean of [g] after them.  The density that stays the same
    is not exp(L/T) -- the posterior density to the power 1/T for sites that are uniform a priori -- but that
    times the probability that steps from all the sites stay within the limits.  (The integral is over the
    sites in any order.) *)
Theorem C79_run_partial n lo hi sd T fp ll L kept save F w next g :
  (0 < n)%nat -> lo < hi -> 0 < sd -> 0 < T -> normal_cdf F -> walks F lo hi sd w ->
  cont_on lo hi n L -> evaluates_sites n lo hi T ll L kept ->
  moves_on (inversion_env [site_space n lo hi sd fp] ll save) n lo hi sd T kept next ->
  cont_on lo hi n g ->
  exists (e : nat -> list R -> R) v, (forall xs, e O xs = g xs) /\
    (forall k xs, ordered lo hi n xs -> mean_moves w lo hi n xs (fun i y u => e k (next xs i y u)) (e (S k) xs)) /\
    forall k, box_integral lo hi n (fun xs => exp (L (in_order xs) / T) * stays F lo hi sd xs * e k (in_order xs)) v.
Proof.
  intros Hn Hlo Hsd HT HF Hw HL Hev Hnext Hg. pose proof HF as [(c & Hc & Hphi) Hr _ _].
  set (phi := fun u => c * bell u) in *. set (L' := fun l => L (in_order l)).
  assert (HL' : cont_on lo hi n L') by (now apply cont_order).
  assert (SL : symmetric L') by (intros l l' Hp; unfold L'; now rewrite (in_order_of _ _ Hp)).
  set (P := fun (f : list R -> R) l => wafter lo hi n sd T F phi L' f (in_order l)).
  set (G := fun k => Nat.iter k P (fun l => g (in_order l))).
  assert (Hid : forall l, in_order (in_order l) = in_order l) by (intros; apply in_order_id, in_order_sorted).
  assert (SG : forall k, symmetric (G k)).
  { intros [|k] l l' Hp; cbn; unfold P; now rewrite (in_order_of _ _ Hp). }
  assert (CG : forall k, cont_on lo hi n (G k)).
  { induction k as [|k IH]; cbn; [now apply cont_order|]. apply cont_order.
    exact (ucont_wafter lo hi Hlo n sd T Hsd F phi HF Hphi L' HL' _ IH). }
  set (e := fun k => match k with O => g | S _ => G k end).
  assert (Ee : forall k l, e k (in_order l) = G k l).
  { intros [|k] l; cbn; [reflexivity|]. unfold P. now rewrite Hid. }
  exists e, (box_int lo hi n (fun xs => wdens lo hi sd T F L' xs * G O xs)). split; [reflexivity|]. split.
  - intros k xs Hx. change (e (S k) xs) with (wafter lo hi n sd T F phi L' (G k) (in_order xs)). rewrite (proj2 Hx).
    pose proof (mean_moves_step lo hi n sd T F phi L w (G k) xs Hlo Hsd HT HF Hphi HL (CG k)
      (walk_wq lo hi sd F c w Hlo Hsd Hc Hphi Hr Hw) (fun l _ => SG k _ _ (in_order_perm l)) Hx) as Hm.
    refine (mean_moves_ext w w lo hi n xs _ _ _ Hlo (proj2 (proj1 Hx)) (proj1 (proj1 Hx)) (fun _ _ _ _ => eq_refl) _ Hm).
    intros i y u Hi Hy Hu. cbn beta. rewrite (moves_on_step n lo hi sd T fp ll L kept save Hev next Hsd Hnext xs i y u Hx Hi Hy Hu).
    pose proof (site_step_ordered n lo hi T L xs i y u Hx Hi Hy) as [_ Ho]. rewrite <- Ho at 2. rewrite Ee. reflexivity.
  - intros k.
    assert (HG : box_int lo hi n (fun xs => wdens lo hi sd T F L' xs * G k xs) = box_int lo hi n (fun xs => wdens lo hi sd T F L' xs * G O xs)).
    { induction k as [|k IH]; auto. rewrite <- IH.
      rewrite <- (wbalance lo hi Hlo n sd T Hsd HT F phi HF Hphi L' HL' (G k) Hn (CG k)).
      apply box_int_ext; auto. intros xs Hx. f_equal. cbn. change (Nat.iter k P _) with (G k). unfold P.
      symmetry. apply (wafter_sym lo hi Hlo n sd T F phi L' (G k) xs (in_order xs) SL (SG k)); [apply Hx|].
      symmetry. apply in_order_perm. }
    rewrite <- HG.
    replace (box_int lo hi n (fun xs => wdens lo hi sd T F L' xs * G k xs)) with
      (box_int lo hi n (fun xs => exp (L (in_order xs) / T) * stays F lo hi sd xs * e k (in_order xs))).
    2:{ apply box_int_ext; auto. intros xs _. rewrite Ee. reflexivity. }
    apply box_int_is; auto. apply (ucont_ext lo hi n (fun xs => wdens lo hi sd T F L' xs * G k xs)).
    + intros xs _. now rewrite Ee.
    + apply (ucont_mult lo hi Hlo n (wdens lo hi sd T F L')); auto.
      exact (ucont_wdens lo hi Hlo n sd T Hsd F phi Hphi L' HL').
Qed.

(** * Likelihood functions *)
Theorem C79_function n lo hi T f L ll : 0 < T ->
  (forall s xs tr, sites_held n s xs -> ordered lo hi n xs -> f s tr = Ret (Fin (L xs)) tr) ->
  loglike_init None None None (Some f) = Ok ll -> evaluates_sites n lo hi T ll L (fun _ => True).
Proof.
  intros HT Hf H. injection H as <-. constructor; auto.
  intros old new xs ys tr Ho Hx _ Hn Hy _. exists old, new. repeat split; auto; try apply Ho; try apply Hn.
  unfold log_likelihood_ratio. rewrite (PropInvarianceLike.not_zero T HT). cbn [raw_ratio ll_mode ll_func].
  unfold bind, ratio_from_like, wrapped, bind, try. rewrite (Hf old xs tr Ho Hx). cbn [ret]. rewrite (Hf new ys tr Hn Hy). reflexivity.
Qed.
Theorem C79_ratio_function n lo hi T f L ll : 0 < T ->
  (forall s s' xs ys tr, sites_held n s xs -> ordered lo hi n xs -> sites_held n s' ys -> ordered lo hi n ys ->
     f s s' tr = Ret (Fin (L ys - L xs)) tr) ->
  loglike_init None None (Some f) None = Ok ll -> evaluates_sites n lo hi T ll L (fun _ => True).
Proof.
  intros HT Hf H. injection H as <-. constructor; auto.
  intros old new xs ys tr Ho Hx _ Hn Hy _. exists old, new. repeat split; auto; try apply Ho; try apply Hn.
  unfold log_likelihood_ratio. rewrite (PropInvarianceLike.not_zero T HT). cbn [raw_ratio ll_mode ll_ratio].
  unfold bind, wrapped, bind, try. rewrite (Hf _ _ _ _ _ Ho Hx Hn Hy). reflexivity.
Qed.

(** * The posterior itself is not kept *)
(** One site in [0, 10], steps of standard deviation 1, a likelihood that does not depend on it: the site should
    stay uniform, but the mean of [g] (the probability that a step stays inside) grows in one iteration. *)
Theorem C79_refuted : exists n lo hi sd T fp ll L kept save F w next g e v v',
  (0 < n)%nat /\ lo < hi /\ 0 < sd /\ T = 1 /\ normal_cdf F /\ walks F lo hi sd w /\
  cont_on lo hi n L /\ evaluates_sites n lo hi T ll L kept /\
  moves_on (inversion_env [site_space n lo hi sd fp] ll save) n lo hi sd T kept next /\ cont_on lo hi n g /\
  (forall xs, ordered lo hi n xs -> mean_moves w lo hi n xs (fun i y u => g (next xs i y u)) (e xs)) /\
  box_integral lo hi n (fun xs => exp (L (in_order xs) / T) * g (in_order xs)) v /\
  box_integral lo hi n (fun xs => exp (L (in_order xs) / T) * e (in_order xs)) v' /\ v < v'.
Proof.
  destruct PropWalk.C53_density_case as (F & w & HF & Hw & Hne & _).
  pose proof HF as [(c & Hc & Hphi) Hr _ _]. set (phi := fun u => c * bell u) in *.
  set (Z := fun _ : list R => 0).
  assert (Hll : exists ll, loglike_init None None None (Some (fun _ => ret (Fin 0))) = Ok ll) by (eexists; reflexivity). destruct Hll as (ll & Ell).
  assert (Hev : evaluates_sites 1 0 10 1 ll Z (fun _ => True)).
  { apply (C79_function 1 0 10 1 (fun _ => ret (Fin 0)) Z ll); auto; lra. }
  assert (Hlo : 0 < 10) by lra. assert (Hsd : 0 < 1) by lra.
  assert (HZ : cont_on 0 10 1 Z) by apply ucont_const.
  set (g := hits 0 10 1 F). assert (Hg : cont_on 0 10 1 g) by exact (hits_cont 0 10 Hlo 1 Hsd F phi Hphi).
  set (e := wafter 0 10 1 1 1 F phi Z g).
  assert (He : cont_on 0 10 1 e) by exact (ucont_wafter 0 10 Hlo 1 1 1 Hsd F phi HF Hphi Z HZ g Hg).
  assert (Hone : forall l, in_box 0 10 1 l -> in_order l = l).
  { intros [|x [|y l]] [Hl _]; try discriminate. reflexivity. }
  assert (Hint : forall f, cont_on 0 10 1 f -> box_integral 0 10 1 (fun xs => exp (Z (in_order xs) / 1) * f (in_order xs)) (box_int 0 10 1 f)).
  { intros f Hf. replace (box_int 0 10 1 f) with (box_int 0 10 1 (fun xs => exp (Z (in_order xs) / 1) * f (in_order xs))).
    - apply box_int_is; auto. apply (ucont_ext 0 10 1 f); auto. intros xs Hx. rewrite Hone by auto. unfold Z. replace (0 / 1) with 0 by lra. rewrite exp_0. ring.
    - apply box_int_ext; auto. intros xs Hx. rewrite Hone by auto. unfold Z. replace (0 / 1) with 0 by lra. rewrite exp_0. ring. }
  exists 1%nat, 0, 10, 1, 1, true, ll, Z, (fun _ => True), true, F, w, (site_step 1 Z), g, e, (box_int 0 10 1 g), (box_int 0 10 1 e).
  split; [lia|]. do 2 (split; [lra|]). split; [reflexivity|]. split; [exact HF|]. split; [exact Hw|]. split; [exact HZ|]. split; [exact Hev|].
  split; [|split; [exact Hg|split; [|split; [auto|split; [auto|]]]]].
  - intros c0 xs w0 w' i zs z y u tr A B C D E0 F0 G0. apply (sites_step 1 0 10 1 1 true ll Z (fun _ => True) true); auto.
  - intros xs Hx. refine (mean_moves_step 0 10 1 1 1 F phi Z w g xs Hlo Hsd Hsd HF Hphi HZ Hg (walk_wq 0 10 1 F c w Hlo Hsd Hc Hphi Hr Hw) _ Hx).
    intros l Hl. now rewrite Hone.
  - apply (not_kept 0 10 Hlo 1 1 Hsd Hsd F phi HF Hphi 5 9); try lra. intros Eh. apply Hne.
    destruct (PropWalk.C53_log_ratio F 0 10 1 w 5 9) as [-> _]; auto; try lra. rewrite Eh.
    pose proof (PropWalk.hit_pos F c Hc Hphi 0 10 1 Hsd Hlo 9) as Hp.
    set (p := hit F 0 10 1 9) in *. replace (p / p) with 1 by (field; lra). apply ln_1.
Qed.

(** * Cases *)
(** Two sites in [0, 10]; the log likelihood is minus the first one, which the forward code reads from the state. *)
Definition cs_sites (s : state) : list R :=
  match dget "m" (st_vals s) with
  | Some (EPS p) => match dget "discretization" (ps_vals p) with Some (Arr xs) => xs | _ => [] end
  | _ => []
  end.
Definition cs_like (s : state) : M ext := ret (Fin (- nth 0 (cs_sites s) 0)).
Definition cs_ratio (s s' : state) : M ext := ret (Fin (- nth 0 (cs_sites s') 0 - - nth 0 (cs_sites s) 0)).
Lemma cs_sites_held n s xs : sites_held n s xs -> cs_sites s = xs.
Proof. intros [(a & b & E) _]. unfold cs_sites. rewrite E. reflexivity. Qed.
Example C79_case : exists ll F w, loglike_init None None None (Some cs_like) = Ok ll /\
  evaluates_sites 2 0 10 3 ll (fun xs => - nth 0 xs 0) (fun _ => True) /\
  cont_on 0 10 2 (fun xs => - nth 0 xs 0) /\ normal_cdf F /\ walks F 0 10 1 w /\
  ordered 0 10 2 [2; 5] /\ first_try 0 10 1 (nth 0 [2; 5] 0) [-3] 4 6.
Proof.
  destruct PropWalk.C53_density_case as (F & w & HF & Hw & _). eexists _, F, w. split; [reflexivity|]. split.
  { apply (C79_function 2 0 10 3 cs_like _ _ ltac:(lra)); [|reflexivity]. intros s xs tr Hs _. unfold cs_like. now rewrite (cs_sites_held _ _ _ Hs). }
  split. { apply (ucont_ext 0 10 2 (fun xs => -1 * nth 0 xs 0)); [intros; lra|]. apply ucont_scal; [lra|]. apply ucont_nth. }
  split; [exact HF|]. split; [exact Hw|]. split.
  - split; [split; [reflexivity|repeat constructor; lra]|]. apply in_order_id. repeat constructor; lra.
  - split; [cbn; lra|]. split; [lra|]. constructor; [cbn; lra|constructor].
Qed.
Example C79_ratio_case : exists ll, loglike_init None None (Some cs_ratio) None = Ok ll /\
  evaluates_sites 2 0 10 3 ll (fun xs => - nth 0 xs 0) (fun _ => True).
Proof.
  eexists. split; [reflexivity|]. apply (C79_ratio_function 2 0 10 3 cs_ratio _ _ ltac:(lra)); [|reflexivity].
  intros s s' xs ys tr Hs _ Hs' _. unfold cs_ratio. now rewrite (cs_sites_held _ _ _ Hs), (cs_sites_held _ _ _ Hs').
Qed.
(** From the sites 2 and 5 a step of -3 is thrown away, one of 4 moves the first site past the second: the new
    state has the sites 5 and 6.  It is accepted or not depending on the last number drawn. *)
Example C79_step_case : site_step 3 (fun xs => - nth 0 xs 0) [2; 5] 0 6 (1 / 10) = [5; 6] /\
  site_step 3 (fun xs => - nth 0 xs 0) [2; 5] 0 6 (1 / 2) = [2; 5].
Proof.
  assert (E : in_order (set_nth [2; 5] 0 6) = [5; 6]).
  { cbn. destruct (Rle_dec 6 5); [lra|]. reflexivity. }
  unfold site_step. rewrite E. cbn [nth]. replace ((- (5) - - (2)) / 3) with (- (1)) by lra. split.
  - destruct (Rlt_dec _ _) as [_|Hn]; [reflexivity|]. exfalso. apply Hn.
    rewrite <- (ln_exp (- (1))). apply ln_increasing; [lra|]. rewrite exp_Ropp.
    pose proof exp_le_3. pose proof (exp_pos 1). apply Rlt_le_trans with (/ 3); [lra|]. apply Rinv_le_contravar; lra.
  - destruct (Rlt_dec _ _) as [Hn|_]; [|reflexivity]. exfalso.
    rewrite <- (ln_exp (- (1))) in Hn. apply ln_lt_inv in Hn; [|lra|apply exp_pos]. rewrite exp_Ropp in Hn.
    pose proof (exp_ineq1 1 ltac:(lra)). assert (/ exp 1 < / 2) by (apply Rinv_lt_contravar; lra). lra.
Qed.
