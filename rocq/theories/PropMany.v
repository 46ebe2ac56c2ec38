(** C88: an inversion for several numbers, each a parameter with a uniform prior of its own: an iteration moves
    all of them at once, leaves the tempered posterior distribution invariant, and from every start the
    distribution of the numbers converges to it. *)
From Coquelicot Require Import Coquelicot.
From Verif Require Import Base ModelPrior ModelState ModelSpace ModelPerturb ModelChain ModelLikelihood SpecWalk SpecInvariance SpecMany.
From Verif Require Import ProofChain ProofBox ProofInvariance ProofConverge ProofMany ProofRanges.
From Verif Require ExampleRun ExampleWalk PropBalance PropInvariance PropInvarianceLike PropConverge.
Local Open Scope string_scope.
Local Open Scope list_scope.
Local Open Scope R_scope.

(** * The inversion *)
(** UniformPrior(name, lo, hi, sd) *)
Record number := mkNumber { nm_name : string; nm_lo : R; nm_hi : R; nm_sd : R }.
Definition number_prior (a : number) : prior := mkPrior (nm_name a) false (Uniform (HS (nm_lo a)) (HS (nm_hi a))) (HS (nm_sd a)) (HS (nm_sd a)).
(** ParameterSpace("m", n_dimensions=1, parameters=[UniformPrior(...), ...]) *)
Definition many_space (ns : list number) : space :=
  Space "m" (Some 1%nat) 1 1 0 Plain (map (fun a => (nm_name a, PPrior (number_prior a))) ns).
Definition ranges (ns : list number) : list (R * R) := map (fun a => (nm_lo a, nm_hi a)) ns.
(** The names differ, none is the name of the discretization or looks like a number of dimensions. *)
Definition named (ns : list number) : Prop :=
  NoDup (map nm_name ns) /\ Forall (fun a => nm_name a <> "discretization" /\ contains "n_dimensions" (nm_name a) = false) ns.
Definition ranged (ns : list number) : Prop := Forall (fun a => nm_lo a < nm_hi a /\ 0 < nm_sd a) ns.
(** [s] is a state of this parameterization with the values [xs]. *)
Definition values (ns : list number) (xs : list R) : dict value := combine (map nm_name ns) (map (fun x => Arr [x]) xs).
Definition holds (ns : list number) (s : state) (xs : list R) : Prop :=
  length xs = length ns /\ (exists attrs cache, st_vals s = [("m", EPS (PS 1 (values ns xs) attrs cache))]) /\ st_extra s = [].
(** What a proposal has in its cache when it comes from the perturbation. *)
Definition fresh (s : state) : Prop := exists name, st_cache s = [("perturb_stats", CStats [(name, 1)])].
(** The likelihood of states with values [xs] in the ranges is exp(L xs): ratios are those of [L], and the caches
    (which may hold predictions) stay as [kept] says. *)
Record evaluates (ns : list number) (T : R) (ll : loglike) (L : list R -> R) (kept : state -> Prop) : Prop := {
  ev_hier : ll_hier ll = [];
  ev_empty : forall s xs, holds ns s xs -> st_cache s = [] -> kept s;
  ev_ratio : forall old new xs ys tr, holds ns old xs -> in_ranges (ranges ns) xs -> kept old ->
    holds ns new ys -> in_ranges (ranges ns) ys -> fresh new ->
    exists old' new', log_likelihood_ratio ll old new T tr = Ret (old', new', inl (Fin ((L ys - L xs) / T))) tr /\
      holds ns old' xs /\ kept old' /\ holds ns new' ys /\ kept new' /\
      dget "perturb_stats" (st_cache new') = dget "perturb_stats" (st_cache new)
}.
(** The chain stands at [xs], with the temperature [T], in the middle of a run. *)
Definition stands_at (ns : list number) (T : R) (kept : state -> Prop) (c : chain state ovalue) (xs : list R) : Prop :=
  (holds ns (c_cur c) xs /\ kept (c_cur c)) /\ c_temp c = T /\ (exists fl, c_flag c = Some fl) /\ exists d, c_saved c = SDict d.
(** [next xs zs u] is where one iteration ends: deviates [zs], uniform number [u] (the first numbers drawn choose
    among single perturbations and single indices). *)
Definition follows (E : env state ovalue) (ns : list number) (T : R) (kept : state -> Prop)
    (next : list R -> list R -> R -> list R) : Prop :=
  forall c xs w w' zs u tr, stands_at ns T kept c xs -> in_ranges (ranges ns) xs -> 0 <= w < 1 -> 0 <= w' < 1 ->
    length zs = length ns -> 0 < u < 1 ->
    exists c', next_iteration E c (DU w :: DInt 0 :: DU w' :: DInt 0 :: map DZ zs ++ DU u :: tr) = Ret (c', None) tr /\
      stands_at ns T kept c' (next xs zs u).

(** * Dictionaries *)
Lemma dset_same {A} k (v : A) d : dget k d = Some v -> dset k v d = d.
Proof.
  induction d as [|[k' v'] d IH]; cbn; [discriminate|]. destruct (String.eqb_spec k k') as [->|]; [congruence|]. intros H. now rewrite IH.
Qed.
Lemma dset_new {A} k (v : A) d : ~ In k (map fst d) -> dset k v d = d ++ [(k, v)].
Proof.
  induction d as [|[k' v'] d IH]; cbn; auto. intros H. destruct (String.eqb_spec k k') as [->|]; [tauto|]. rewrite IH by tauto. reflexivity.
Qed.
Lemma values_keys ns xs : length xs = length ns -> map fst (values ns xs) = map nm_name ns.
Proof. revert xs. induction ns as [|a ns IH]; intros [|x xs] H; cbn in *; try discriminate; auto. f_equal. apply IH. lia. Qed.
Lemma values_app ns ms xs ys : length xs = length ns -> values (ns ++ ms) (xs ++ ys) = values ns xs ++ values ms ys.
Proof. revert xs. induction ns as [|a ns IH]; intros [|x xs] H; cbn in *; try discriminate; auto. f_equal. apply IH. lia. Qed.
Lemma dget_skip {A} k (d d' : dict A) : ~ In k (map fst d) -> dget k (d ++ d') = dget k d'.
Proof. induction d as [|[k' v'] d IH]; cbn; auto. intros H. destruct (String.eqb_spec k k') as [->|]; [tauto|]. apply IH. tauto. Qed.
Lemma dset_skip {A} k (v : A) d d' : ~ In k (map fst d) -> dset k v (d ++ d') = d ++ dset k v d'.
Proof. induction d as [|[k' v'] d IH]; cbn; auto. intros H. destruct (String.eqb_spec k k') as [->|]; [tauto|]. rewrite IH by tauto. reflexivity. Qed.
Lemma dget_absent {A} k (d : dict A) : ~ In k (map fst d) -> dget k d = None.
Proof. induction d as [|[k' v'] d IH]; cbn; auto. intros H. destruct (String.eqb_spec k k') as [->|]; [tauto|]. apply IH. tauto. Qed.
Lemma values_inj ns xs ys : length xs = length ns -> length ys = length ns -> values ns xs = values ns ys -> xs = ys.
Proof.
  revert xs ys. induction ns as [|a ns IH]; intros [|x xs] [|y ys] H1 H2 H; cbn in *; try discriminate; auto. injection H as -> H. f_equal. apply IH; auto.
Qed.

Section Step.
Context (ns : list number) (Hns : named ns) (Hne : ns <> []) (T : R) (ll : loglike) (L : list R -> R) (kept : state -> Prop) (save : bool).
Context (Hev : evaluates ns T ll L kept) (HT : 0 < T).
Let rs := ranges ns.
Let sds := map nm_sd ns.
Let sp := many_space ns.
Let E := inversion_env [sp] ll save.

Lemma rs_length : length rs = length ns. Proof. apply map_length. Qed.
Lemma post_init_same n : forall todo p, (forall k v, In (k, v) todo -> dget k (ps_vals p) = Some v /\ value_len v = n /\ exists x, v = Arr x) -> ps_n p = n ->
  exists attrs, post_init todo p = Ok (PS n (ps_vals p) attrs (ps_cache p)).
Proof.
  induction todo as [|[k v] todo IH]; intros p H Hn; cbn [post_init].
  - exists (ps_attrs p). destruct p. cbn in *. now subst.
  - destruct (H k v (or_introl eq_refl)) as (Hg & Hl & x & ->). rewrite Hl, Hn, Nat.eqb_refl. cbn [negb ps_set rbind]. rewrite (dset_same k (Arr x)) by auto.
    destruct (IH (PS (ps_n p) (ps_vals p) (dset k (Arr x) (ps_attrs p)) (ps_cache p))) as (attrs & Ha); cbn [ps_vals ps_n]; auto.
    { intros k' v' Hi. apply H. now right. }
    exists attrs. exact Ha.
Qed.
Lemma values_get xs k v : length xs = length ns -> In (k, v) (values ns xs) -> dget k (values ns xs) = Some v.
Proof.
  destruct Hns as [Hnd _]. revert xs Hnd. clear. intros xs. revert xs. induction ns as [|a ns' IH]; intros [|x xs] Hnd Hl Hi; cbn in *; try discriminate; try tauto.
  inversion Hnd as [|? ? Hnot Hnd']; subst. destruct Hi as [Hi|Hi].
  - injection Hi as <- <-. now rewrite String.eqb_refl.
  - destruct (String.eqb_spec k (nm_name a)) as [->|Hk].
    + exfalso. apply Hnot. rewrite <- (values_keys ns' xs) by lia. apply (in_map fst _ _ Hi).
    + apply IH; auto.
Qed.
Lemma values_arr xs k v : In (k, v) (values ns xs) -> value_len v = 1%nat /\ exists x, v = Arr x.
Proof.
  intros H. apply in_combine_r in H. apply in_map_iff in H. destruct H as (x & <- & _). split; [reflexivity|eauto].
Qed.
Lemma copied xs attrs cache : length xs = length ns ->
  exists attrs', ps_copy (PS 1 (values ns xs) attrs cache) = Ok (PS 1 (values ns xs) attrs' cache).
Proof.
  intros Hl. cbn [ps_copy].
  assert (Hc : forall l, (forall k v, In (k, v) l -> exists x, v = Arr x) ->
    (fix copy_vals (l : list (string * value)) : res (list (string * value)) :=
       match l with
       | [] => Ok []
       | (k, v) :: t =>
           v' <-? match v with
                  | Lst ps =>
                      ps' <-? (fix copy_list (q : list psstate) : res (list psstate) :=
                                 match q with
                                 | [] => Ok []
                                 | x :: r => x' <-? ps_copy x ;; r' <-? copy_list r ;; Ok (x' :: r')
                                 end) ps ;;
                      Ok (Lst ps')
                  | a => Ok a
                  end ;;
           t' <-? copy_vals t ;; Ok ((k, v') :: t')
       end) l = Ok l).
  { induction l as [|[k v] l IH]; intros H; auto. destruct (H k v (or_introl eq_refl)) as (x & ->). cbn [rbind]. rewrite IH; auto. intros. eapply H. right. eauto. }
  rewrite Hc by (intros k v Hi; apply (values_arr xs k v Hi)). cbn [rbind]. unfold mk_ps.
  destruct (post_init_same 1 (values ns xs) (PS 1 (values ns xs) [] [])) as (at' & ->); auto.
  - intros k v Hi. cbn [ps_vals]. split; [now apply values_get|]. eapply values_arr; eauto.
  - cbn [rbind ps_n ps_vals ps_attrs]. eauto.
Qed.
(** The verdict of the prior on all proposals. *)
Definition verdict (b : bool) : ext := if b then Fin 0 else MInf.
Lemma verdict_add a b : eadd (verdict a) (verdict b) = verdict (a && b).
Proof. destruct a, b; cbn; rewrite ?Rplus_0_r; reflexivity. Qed.
Definition rin (r : R * R) (y : R) : bool := if Rle_dec (fst r) y then if Rle_dec y (snd r) then true else false else false.
Lemma moves t : forall pre xp yp xs zs b attrs cache tr, ns = pre ++ t -> length xp = length pre -> length yp = length pre -> length xs = length t -> length zs = length t ->
  exists attrs', perturb_params (map (fun a => PPrior (number_prior a)) t) (PS 1 (values ns (xp ++ xs)) attrs cache) 0 (values pre yp) (verdict b) (map DZ zs ++ tr) =
  Ret (PS 1 (values ns (yp ++ jump (map nm_sd t) xs zs)) attrs' cache, verdict (b && inr (ranges t) (jump (map nm_sd t) xs zs))) tr.
Proof.
  pose proof Hns as [Hnd Hok]. induction t as [|a t IH]; intros pre xp yp xs zs b attrs cache tr Hp Hxp Hyp Hxs Hzs.
  - destruct xs; [|discriminate]. destruct zs; [|discriminate]. rewrite app_nil_r in Hp. subst pre. cbn [map app perturb_params jump inr ranges]. rewrite !app_nil_r.
    unfold bind. destruct (copied xp attrs cache Hxp) as (attrs' & ->). cbn [lift ret ps_n ps_vals ps_attrs ps_cache]. exists attrs'.
    replace (dupdate (values ns xp) (values ns yp)) with (values ns yp); [rewrite Bool.andb_true_r; reflexivity|].
    symmetry. unfold dupdate.
    assert (G : forall ms pre xp yp' zp, NoDup (map nm_name (pre ++ ms)) -> length xp = length ms -> length zp = length pre -> length yp' = length ms ->
      fold_left (fun acc kv => dset (fst kv) (snd kv) acc) (values ms yp') (values pre zp ++ values ms xp) = values pre zp ++ values ms yp').
    { clear. induction ms as [|a ms IH]; intros pre [|x xp] [|y yp] zp Hnd H1 H2 H3; cbn in H1, H3; try discriminate; [reflexivity|].
      cbn [values map combine fold_left fst snd]. fold (values ms xp). fold (values ms yp).
      rewrite dset_skip.
      2:{ rewrite values_keys by auto. rewrite map_app in Hnd. cbn in Hnd. apply NoDup_remove_2 in Hnd. intros Hi. apply Hnd. apply in_or_app. now left. }
      cbn [dset]. rewrite String.eqb_refl.
      pose proof (IH (pre ++ [a]) xp yp (zp ++ [y])) as G. rewrite <- app_assoc in G. cbn [app] in G.
      rewrite (values_app pre [a] zp [y]) in G by auto. cbn [values map combine] in G. rewrite <- !app_assoc in G. cbn [app] in G. apply G; auto; try lia. rewrite !app_length. cbn. lia. }
    apply (G ns [] xp yp []); auto.
  - destruct xs as [|x xs]; [discriminate|]. destruct zs as [|z zs]; [discriminate|]. cbn in Hxs, Hzs.
    assert (Ha : ~ In (nm_name a) (map nm_name pre)).
    { rewrite Hp, map_app in Hnd. cbn in Hnd. apply NoDup_remove_2 in Hnd. intros Hi. apply Hnd. apply in_or_app. now left. }
    assert (Hdisc : ~ In disc_key (map nm_name ns)).
    { intros Hi. apply in_map_iff in Hi. destruct Hi as (c & Hc & Hi). rewrite List.Forall_forall in Hok. apply Hok in Hi. now destruct Hi. }
    cbn [map perturb_params]. cbn [p_name number_prior]. unfold ps_get. cbn [ps_vals].
    assert (Hg : dget (nm_name a) (values ns (xp ++ x :: xs)) = Some (Arr [x])).
    { rewrite Hp, values_app by auto. rewrite dget_skip by (rewrite values_keys by auto; exact Ha). cbn. now rewrite String.eqb_refl. }
    assert (Hd : dget disc_key (values ns (xp ++ x :: xs)) = None).
    { apply dget_absent. rewrite values_keys; auto. rewrite Hp, !app_length. cbn. lia. }
    rewrite Hg, Hd. unfold bind at 1. cbn [num_at idx nth_error lift ret]. unfold bind at 1. cbn [lift ret].
    unfold bind at 1, p_perturb. cbn [p_dist number_prior perturb_std_of get_hyper p_std]. unfold bind at 1. cbn [lift ret]. unfold bind at 1. cbn [lift ret]. unfold bind at 1. cbn [lift ret].
    unfold bind at 1, normal, bind at 1. cbn [map app drawZ ret].
    replace (x + (0 + z * nm_sd a)) with (x + z * nm_sd a) by lra. set (y := x + z * nm_sd a).
    destruct (IH (pre ++ [a]) (xp ++ [x]) (yp ++ [y]) xs zs (b && rin (nm_lo a, nm_hi a) y)%bool attrs cache tr) as (attrs' & EE); auto.
    { rewrite <- app_assoc. exact Hp. }
    { rewrite !app_length. cbn. lia. }
    { rewrite !app_length. cbn. lia. }
    rewrite (values_app pre [a] yp [y]) in EE by auto. rewrite <- !app_assoc in EE. cbn [app] in EE.
    exists attrs'. unfold bind at 1. cbn [set_num length Nat.ltb Nat.leb lift ret set_nth].
    rewrite dset_new by (rewrite values_keys by auto; exact Ha).
    replace (if (Rleb (nm_lo a) y && Rleb y (nm_hi a))%bool then Fin 0 else MInf) with (verdict (rin (nm_lo a, nm_hi a) y))
      by (unfold rin, Rleb; cbn [fst snd]; destruct (Rle_dec (nm_lo a) y), (Rle_dec y (nm_hi a)); reflexivity).
    rewrite verdict_add. cbn [jump]. fold y.
    replace (inr (ranges (a :: t)) (y :: jump (map nm_sd t) xs zs)) with (rin (nm_lo a, nm_hi a) y && inr (ranges t) (jump (map nm_sd t) xs zs))%bool
      by (unfold rin; cbn [ranges map inr fst snd]; destruct (Rle_dec (nm_lo a) y), (Rle_dec y (nm_hi a)); reflexivity).
    rewrite Bool.andb_assoc. exact EE.
Qed.
Notation priors := (map (fun a => PPrior (number_prior a)) ns).
Lemma moved xs attrs cache zs tr : length xs = length ns -> length zs = length ns ->
  exists attrs', param_perturb priors (PS 1 (values ns xs) attrs cache) (DInt 0 :: map DZ zs ++ tr) =
  Ret (PS 1 (values ns (jump sds xs zs)) attrs' cache, verdict (inr rs (jump sds xs zs))) tr.
Proof.
  intros Hx Hz. unfold param_perturb, bind at 1. cbn [ps_n].
  assert (Hr : forall tr, randint_below 1 (DInt 0 :: tr) = Ret 0%nat tr) by reflexivity. rewrite Hr.
  exact (moves ns [] [] [] xs zs true attrs cache tr eq_refl eq_refl eq_refl Hx Hz).
Qed.
Lemma priors_are : priors_of (sp_params sp) = priors.
Proof. unfold priors_of, sp, many_space. cbn [sp_params]. clear. induction ns as [|a l IH]; cbn; auto. now rewrite IH. Qed.
Definition label : string := elem_name (EParam "m" priors).
Lemma elems_are : own_elems sp = [(EParam "m" priors, 3)].
Proof.
  unfold own_elems. rewrite priors_are. cbn [sp_transd sp many_space sp_fixed is_disc sp_cls sp_name app]. destruct ns; [contradiction|]. reflexivity.
Qed.
Lemma proposed s xs w' zs tr : holds ns s xs -> length xs = length ns -> 0 <= w' < 1 -> length zs = length ns ->
  exists s', psp_perturb (mkPsp "m" (own_elems sp)) s (DInt 0 :: DU w' :: DInt 0 :: map DZ zs ++ tr) = Ret (s', verdict (inr rs (jump sds xs zs))) tr /\
    holds ns s' (jump sds xs zs) /\ st_cache s' = [("perturb_stats", CStats [(label, 1)])].
Proof.
  intros (_ & (attrs & cache & Hs) & He) Hl Hw Hz.
  unfold psp_perturb. unfold st_copy. rewrite Hs. cbn [rmap snd fst entry_copy]. destruct (copied xs attrs cache Hl) as (attrs' & ->). cbn [rbind].
  unfold bind at 1. cbn [lift ret].
  assert (Hc : count_loop (st_size s) (psp_space (mkPsp "m" (own_elems sp))) [st_children s] 0 = Ok 1%nat).
  { unfold st_children, st_size. rewrite Hs. reflexivity. }
  unfold bind at 1. rewrite Hc. cbn [lift ret]. unfold bind at 1. cbn [randint_below].
  assert (Hr : forall tr, randint 0 0 (DInt 0 :: tr) = Ret 0%nat tr) by reflexivity. rewrite Hr.
  destruct (moved xs attrs cache zs tr Hl Hz) as (attrs2 & Em).
  assert (Hw' : forall st, walk_loop (st_size s) (mkPsp "m" (own_elems sp)) 0 (mkWalk st 0 (Fin 0) [] [([], st_children s)])
      (DU w' :: DInt 0 :: map DZ zs ++ tr) =
    Ret (mkWalk (st_set "m" (EPS (PS 1 (values ns (jump sds xs zs)) attrs2 cache)) st) 1
      (eadd (Fin 0) (verdict (inr rs (jump sds xs zs)))) [(label, 1%nat)] []) tr).
  { intros st. unfold st_children, st_size. rewrite Hs. cbn [map fst snd nsum fold_right Nat.add walk_loop w_queue w_i Nat.leb entry_child].
    unfold bind at 1. cbn [walk_node psp_space String.eqb Ascii.eqb Bool.eqb w_i w_new w_ratio w_stats w_queue Nat.eqb].
    unfold bind at 1, psp_perturb_ps. rewrite elems_are. cbn [psp_funcs map snd length].
    unfold bind at 1. rewrite PropInvariance.choose_only by (auto; lra). cbn [lift idx nth_error]. unfold bind at 1. cbn [lift ret fst elem_perturb].
    unfold bind at 1. rewrite Em. cbn [ret]. reflexivity. }
  unfold bind. rewrite Hw'. cbn [w_new w_stats w_ratio map snd fst nsum fold_right Nat.add INR ret].
  change (Fin 0) with (verdict true). rewrite verdict_add. cbn [andb]. eexists. split; [reflexivity|]. split.
  - split; [|split; [|reflexivity]]; [rewrite jump_length; unfold sds; rewrite ?map_length; auto|]. eexists _, _. reflexivity.
  - cbn. do 4 f_equal. f_equal. lra.
Qed.
Definition good (k : string) : Prop := exists b, skip_key E k = Ok b.
Lemma good_dset {A} k (v : A) d : good k -> Forall good (map fst d) -> Forall good (map fst (dset k v d)).
Proof.
  intros Hk. induction d as [|[k' v'] d IH]; cbn; intros H; [constructor; auto|]. inversion H; subst.
  destruct (String.eqb k k'); cbn; constructor; auto.
Qed.
Lemma good_update {A} (d' : dict A) : forall d, Forall good (map fst d') -> Forall good (map fst d) -> Forall good (map fst (dupdate d d')).
Proof.
  unfold dupdate. induction d' as [|[k v] d' IH]; cbn; intros d H Hd; auto. inversion H; subst. apply IH; auto. now apply good_dset.
Qed.
Lemma good_saved its : Forall good (map fst its) -> forall d, exists d', save_items E its d = (d', None).
Proof.
  induction its as [|[k v] its IH]; cbn; intros H d; [eauto|]. inversion H as [|? ? (b & Hb) Hr]; subst. rewrite Hb. destruct b; apply IH; auto.
Qed.
Lemma items_saved s xs d : holds ns s xs -> length xs = length ns -> exists d', save_items E (s_items (e_ops E) s) d = (d', None).
Proof.
  intros (_ & (attrs & cache & Hs) & He) Hl. cbn [e_ops E inversion_env chain_env state_opsB s_items]. apply good_saved. unfold st_items. rewrite Hs, He.
  apply good_update; [constructor|]. cbn [fold_left fst snd]. apply good_update; [|constructor]. cbn [ps_todict].
  assert (Hkeys : Forall (fun k => contains "n_dimensions" k = false) (map fst (values ns xs))).
  { rewrite values_keys by auto. apply List.Forall_forall. intros k Hk. apply in_map_iff in Hk. destruct Hk as (a & <- & Ha).
    destruct Hns as [_ Hok]. rewrite List.Forall_forall in Hok. now apply Hok. }
  assert (Hstart : Forall good (map fst [(("m" ++ ".n_dimensions")%string, OInt 1)])).
  { constructor; [|constructor]. eexists. reflexivity. }
  revert Hkeys Hstart. generalize [(("m" ++ ".n_dimensions")%string, OInt 1)]. generalize (values ns xs). clear.
  induction d as [|[k v] l IH]; intros acc Hk Ha; auto. inversion Hk as [|? ? Hk1 Hk2]; subst. cbn [map fst] in Hk1. apply IH; auto. apply good_dset; auto.
  exists false. unfold skip_key. change (contains "n_dimensions" ("m" ++ "." ++ k)) with (contains "n_dimensions" k). now rewrite Hk1.
Qed.
Lemma saves c xs : length xs = length ns -> stands_at ns T kept c xs -> exists c', save_state E c = (c', None) /\ stands_at ns T kept c' xs.
Proof.
  intros Hl (Hh & Ht & Hfl & d & Hd). unfold save_state.
  change (s_kind (e_ops E) (c_cur c)) with KState. cbn iota. rewrite Hd. destruct (items_saved _ _ d (proj1 Hh) Hl) as (d' & ->).
  change (s_cache (e_ops E) (c_cur c)) with (Some (map (fun kc => (fst kc, cache_value (snd kc))) (st_cache (c_cur c)))). cbn iota.
  destruct (e_savedpred E); eexists; (split; [reflexivity|]);
    (split; [exact Hh|]; split; [exact Ht|]; split; [exact Hfl|eexists; reflexivity]).
Qed.
Lemma finishes q acc new c xs ys vs : length xs = length ns -> length ys = length ns -> stands_at ns T kept c xs -> holds ns new ys -> (acc = true -> kept new) ->
  s_pstats (e_ops E) new = inl vs ->
  exists c', finish E (psp_name q) acc new c = (c', Done) /\ stands_at ns T kept c' (if acc then ys else xs).
Proof.
  intros Hlx Hly Hc Hn Hk Hv. set (c1 := if acc then set_cur new c else c).
  assert (H1 : stands_at ns T kept c1 (if acc then ys else xs)).
  { destruct Hc as (Hh & Ht & Hfl & Hd). unfold c1. destruct acc; [|repeat (split; auto)].
    split; [split; [exact Hn|apply Hk; reflexivity]|repeat (split; auto)]. }
  unfold finish. fold c1. unfold save_statistics. change (String.prefix psp_prefix (psp_name q)) with true. cbn iota. rewrite Hv.
  set (c2 := put_stats _ acc c1). assert (H2 : stands_at ns T kept c2 (if acc then ys else xs)) by exact H1.
  assert (Hla : length (if acc then ys else xs) = length ns) by (destruct acc; auto).
  destruct (saves c2 _ Hla H2) as (c3 & E3 & H3). destruct H1 as (_ & _ & (fl & Hfl) & _).
  replace (c_flag c2) with (Some fl) by (rewrite <- Hfl; reflexivity).
  destruct (fl && Reqb (c_temp c2) 1)%bool; [rewrite E3|]; eauto.
Qed.
Lemma decides q new c xs ys vs a u tr : length xs = length ns -> length ys = length ns -> stands_at ns T kept c xs -> holds ns new ys ->
  (forall x, a = Fin x -> kept new) -> s_pstats (e_ops E) new = inl vs -> 0 < u < 1 -> a = MInf \/ (exists x, a = Fin x) ->
  forall lpr llr, eadd lpr llr = a ->
  exists c', decide E (psp_name q) new lpr llr c (DU u :: tr) = Ret (c', Done) tr /\
    stands_at ns T kept c' (match a with Fin x => if Rlt_dec (ln u) x then ys else xs | _ => xs end).
Proof.
  intros Hlx Hly Hc Hn Hk Hps Hu Ha lpr llr Hl. rewrite PropBalance.decide_as by auto. rewrite Hl.
  assert (Hk' : egtb a (Fin (ln u)) = true -> kept new) by (destruct Ha as [->|(x & ->)]; [discriminate|eauto]).
  destruct (finishes q _ new c xs ys vs Hlx Hly Hc Hn Hk' Hps) as (c' & Ef & Hc').
  exists c'. rewrite Ef. split; [reflexivity|]. destruct Ha as [->|(x & ->)]; [exact Hc'|].
  unfold egtb, Rltb in Hc'. destruct (Rlt_dec (ln u) x); exact Hc'.
Qed.
(** One iteration. *)
Lemma funcs_are : all_funcs [sp] = [(mkPsp "m" (own_elems sp), rsum (map snd (own_elems sp)))].
Proof.
  unfold all_funcs. cbn [flat_map]. rewrite app_nil_r. unfold sp at 1, many_space. cbn [space_funcs].
  assert (G : forall l, (fix go (l : list (string * param)) : list (psp * R) :=
         match l with
         | [] => []
         | (_, PSpace s') :: t => space_funcs s' ++ go t
         | (_, PPrior _) :: t => go t
         end) (map (fun a => (nm_name a, PPrior (number_prior a))) l) = []) by (induction l; cbn; auto).
  rewrite G. reflexivity.
Qed.
Lemma iterates c xs w w' zs u tr : stands_at ns T kept c xs -> in_ranges rs xs -> 0 <= w < 1 -> 0 <= w' < 1 -> length zs = length ns -> 0 < u < 1 ->
  exists c', next_iteration E c (DU w :: DInt 0 :: DU w' :: DInt 0 :: map DZ zs ++ DU u :: tr) = Ret (c', None) tr /\
    stands_at ns T kept c' (roam rs sds T L xs zs u).
Proof.
  intros Hc Hb Hw Hw' Hz Hu. pose proof Hc as ((Hh & Hk) & Ht & Hrest).
  assert (Hl : length xs = length ns) by (rewrite (ranges_length rs xs Hb); apply rs_length).
  assert (HF : inv_pfuncs [sp] ll = [(FSpace (mkPsp "m" (own_elems sp)), rsum (map snd (own_elems sp)))]).
  { unfold inv_pfuncs, ll_pfuncs. rewrite (ev_hier _ _ _ _ _ Hev), funcs_are. reflexivity. }
  assert (HE : e_funcs E = [(psp_name (mkPsp "m" (own_elems sp)), psp_perturb (mkPsp "m" (own_elems sp)))]).
  { unfold E, inversion_env. rewrite HF. reflexivity. }
  assert (HW : exists wt, e_weights E = [wt] /\ 0 < wt).
  { unfold E, inversion_env. rewrite HF. eexists. split; [reflexivity|]. rewrite elems_are. cbn. lra. }
  destruct HW as (wt & HW & Hwt).
  destruct (proposed (c_cur c) xs w' zs (DU u :: tr) Hh Hl Hw' Hz) as (s' & Ep & Hs' & Hcs).
  assert (Hly : length (jump sds xs zs) = length ns) by (rewrite jump_length; unfold sds; rewrite ?map_length; auto).
  set (ys := jump sds xs zs) in *.
  assert (Hps : s_pstats (e_ops E) s' = inl [(label, 1)]).
  { cbn [e_ops E inversion_env chain_env state_opsB s_pstats]. rewrite Hcs. reflexivity. }
  unfold next_iteration. change 500%nat with (S 499). generalize 499%nat. intros k. cbn [tries].
  assert (Hgoal : exists c', attempt E c (DU w :: DInt 0 :: DU w' :: DInt 0 :: map DZ zs ++ DU u :: tr) = Ret (c', Done) tr /\
    stands_at ns T kept c' (roam rs sds T L xs zs u)).
  { unfold attempt, bind at 1, try at 1. rewrite HE, HW. cbn [length]. rewrite PropInvariance.choose_only by auto. cbn [nth_error].
    unfold bind at 1, try. rewrite Ep. unfold roam. cbv zeta. fold ys.
    destruct (inr rs ys) eqn:Ein; cbn [verdict eisinf].
    - destruct (ev_ratio _ _ _ _ _ Hev (c_cur c) s' xs ys (DU u :: tr)) as (old' & new' & El & Ho & Ko & Hn & Kn & Est); auto.
      { apply inr_in; auto. fold rs. rewrite rs_length. exact Hly. }
      { exists label. exact Hcs. }
      unfold bind. cbn [e_like E inversion_env chain_env]. rewrite Ht, El.
      change (chain_env [sp] ll (inv_pfuncs [sp] ll) save) with E.
      assert (Hc1 : stands_at ns T kept (set_cur old' c) xs) by (repeat (split; auto)).
      assert (Hps' : s_pstats (e_ops E) new' = inl [(label, 1)]).
      { cbn [e_ops E inversion_env chain_env state_opsB s_pstats]. rewrite Est, Hcs. reflexivity. }
      destruct (decides (mkPsp "m" (own_elems sp)) new' (set_cur old' c) xs ys _ (Fin ((L ys - L xs) / T)) u tr Hl Hly Hc1 Hn (fun _ _ => Kn) Hps' Hu
        ltac:(right; eauto) (Fin 0) (Fin ((L ys - L xs) / T))) as (c' & Ed & Hc').
      { cbn. now rewrite Rplus_0_l. }
      exists c'. split; [exact Ed|]. exact Hc'.
    - eapply (decides (mkPsp "m" (own_elems sp)) s' c xs ys _ MInf); eauto. discriminate. }
  destruct Hgoal as (c' & Ea & Hc'). exists c'. split; [|exact Hc']. unfold bind. now rewrite Ea.
Qed.
(** Any description of the iterations is [roam]. *)
Lemma follows_roam next : follows E ns T kept next -> forall xs zs u, in_ranges rs xs -> length zs = length ns -> 0 < u < 1 ->
  next xs zs u = roam rs sds T L xs zs u.
Proof.
  intros Hn xs zs u Hb Hz Hu.
  set (s := mkState [("m", EPS (PS 1 (values ns xs) [] []))] [] 1 [] []).
  set (c := mkChain s T [] [] 0 0 [] (SDict []) (Some false) [] : chain state ovalue).
  assert (Hs : holds ns s xs) by (split; [rewrite (ranges_length rs xs Hb); apply rs_length|split; [eexists _, _; reflexivity|reflexivity]]).
  assert (Hc : stands_at ns T kept c xs).
  { split; [split; [exact Hs|]|repeat (split; [eauto; reflexivity|])].
    - eapply (ev_empty _ _ _ _ _ Hev); [exact Hs|reflexivity].
    - split; [eexists; reflexivity|eexists; reflexivity]. }
  destruct (Hn c xs 0 0 zs u [] Hc Hb ltac:(lra) ltac:(lra) Hz Hu) as (c1 & E1 & H1).
  destruct (iterates c xs 0 0 zs u [] Hc Hb ltac:(lra) ltac:(lra) Hz Hu) as (c2 & E2 & H2).
  rewrite E1 in E2. injection E2 as <-. destruct H1 as (((l1 & (a1 & b1 & V1) & _) & _) & _), H2 as (((l2 & (a2 & b2 & V2) & _) & _) & _).
  rewrite V1 in V2. injection V2 as V2 _ _. now apply (values_inj ns).
Qed.
End Step.
Lemma ranged_proper ns : ranged ns -> proper (ranges ns).
Proof. intros H. unfold ranges, proper. induction H as [|a ns Ha H IH]; cbn; constructor; auto. cbn. tauto. Qed.
Lemma ranged_sds ns : ranged ns -> Forall (fun s => 0 < s) (map nm_sd ns).
Proof. intros H. induction H as [|a ns Ha H IH]; cbn; constructor; auto. tauto. Qed.
Lemma ranges_len ns : length (ranges ns) = length ns.
Proof. apply map_length. Qed.
Lemma sds_len ns : length (map nm_sd ns) = length (ranges ns).
Proof. now rewrite ranges_len, map_length. Qed.

(** * C88 *)
(** The iterations are described by a function of the deviates and the uniform number, and stay in the ranges. *)
Theorem C88_iteration ns T ll L kept save : named ns -> ns <> [] -> 0 < T -> evaluates ns T ll L kept ->
  exists next, follows (inversion_env [many_space ns] ll save) ns T kept next /\
    forall xs zs u, in_ranges (ranges ns) xs -> length zs = length ns -> in_ranges (ranges ns) (next xs zs u).
Proof.
  intros Hn Hne HT Hev. exists (roam (ranges ns) (map nm_sd ns) T L). split.
  - intros c xs w w' zs u tr Hc Hb Hw Hw' Hz Hu. now apply iterates.
  - intros xs zs u Hx Hz. apply roam_inside; auto; [apply sds_len|now rewrite ranges_len].
Qed.
(** [e k xs] is the mean of [g] after [k] iterations that start from [xs]. *)
Definition means_after (phi : R -> R) (ns : list number) (next : list R -> list R -> R -> list R) (g : list R -> R) (e : nat -> list R -> R) : Prop :=
  forall xs, in_ranges (ranges ns) xs -> e O xs = g xs /\
    forall k, mean_many phi (length ns) (fun zs u => e k (next xs zs u)) (e (S k) xs).
(** The tempered posterior distribution has the density exp(L/T) on the ranges.  [Z] normalises it; [v / Z] is the
    posterior mean of [g].  Started from it, the mean stays; started anywhere, the mean converges to it, and the
    rate [rho] depends neither on [g] nor on the start. *)
Theorem C88_converges ns T ll L kept save F phi next :
  named ns -> ns <> [] -> ranged ns -> 0 < T -> normal_cdf F -> (forall z, derivable_pt_lim F z (phi z)) ->
  cont_ranges (ranges ns) L -> evaluates ns T ll L kept ->
  follows (inversion_env [many_space ns] ll save) ns T kept next ->
  exists Z rho, 0 < Z /\ ranges_integral (ranges ns) (fun xs => exp (L xs / T)) Z /\ 0 <= rho < 1 /\
    forall g B, cont_ranges (ranges ns) g -> (forall xs, in_ranges (ranges ns) xs -> Rabs (g xs) <= B) ->
    exists e v, means_after phi ns next g e /\
      (forall k, ranges_integral (ranges ns) (fun xs => exp (L xs / T) * e k xs) v) /\
      ranges_integral (ranges ns) (fun xs => exp (L xs / T) * g xs) v /\
      forall k xs, in_ranges (ranges ns) xs -> Rabs (e k xs - v / Z) <= 2 * B * rho ^ k.
Proof.
  intros Hn Hne Hr HT HF Hphi HL Hev Hnext.
  pose proof (ranged_proper ns Hr) as Hp. pose proof (ranged_sds ns Hr) as Hs. pose proof (sds_len ns) as Hl.
  destruct (later_converges (ranges ns) Hp (map nm_sd ns) Hl Hs T HT F phi HF Hphi L HL) as (rho & Hrho & H).
  exists (norm (ranges ns) T L), rho. split; [exact (norm_pos (ranges ns) Hp (map nm_sd ns) Hl Hs T L HL)|].
  split; [exact (norm_is (ranges ns) Hp (map nm_sd ns) Hl Hs T L HL)|]. split; auto.
  intros g B Hg HB. exists (later (ranges ns) (map nm_sd ns) T phi L g), (level (ranges ns) T L g).
  assert (Hlev : forall h, cont_ranges (ranges ns) h -> ranges_integral (ranges ns) (fun xs => exp (L xs / T) * h xs) (level (ranges ns) T L h))
    by (intros h Hh; exact (level_is (ranges ns) Hp (map nm_sd ns) Hl Hs T L HL h Hh)).
  split; [|split; [|split]].
  - intros xs Hx. split; [now apply later_O|]. intros k.
    pose proof (later_step (ranges ns) Hp (map nm_sd ns) Hl Hs T F phi HF Hphi L HL g k xs Hg Hx) as M. rewrite ranges_len in M.
    eapply mean_many_ext; [|exact M]. intros zs u Hz Hu. cbn beta. f_equal. symmetry. eapply follows_roam; eauto.
  - intros k. rewrite <- (level_later (ranges ns) Hp (map nm_sd ns) Hl Hs T HT F phi HF Hphi L HL g k Hg). apply Hlev.
    exact (later_cont (ranges ns) Hp (map nm_sd ns) Hl Hs T F phi HF Hphi L HL g k Hg).
  - now apply Hlev.
  - intros k xs Hx. now apply H.
Qed.
(** A log likelihood function. *)
Theorem C88_function ns T f L ll : 0 < T ->
  (forall s xs tr, holds ns s xs -> in_ranges (ranges ns) xs -> f s tr = Ret (Fin (L xs)) tr) ->
  loglike_init None None None (Some f) = Ok ll -> evaluates ns T ll L (fun _ => True).
Proof.
  intros HT Hf H. injection H as <-. constructor; auto.
  intros old new xs ys tr Ho Hx _ Hn Hy _. exists old, new. repeat split; auto; try apply Ho; try apply Hn.
  unfold log_likelihood_ratio. rewrite (PropInvarianceLike.not_zero T HT). cbn [raw_ratio ll_mode ll_func].
  unfold bind, ratio_from_like, wrapped, bind, try. rewrite (Hf old xs tr Ho Hx). cbn [ret]. rewrite (Hf new ys tr Hn Hy). reflexivity.
Qed.
(** The means are determined by the chain. *)
Lemma mean_deviates_unique phi d : forall h h' m m', (forall zs, length zs = d -> h zs = h' zs) -> mean_deviates phi d h m -> mean_deviates phi d h' m' -> m = m'.
Proof.
  induction d as [|d IH]; intros h h' m m' H; cbn; [intros -> ->; now apply H|].
  intros (k & Hk & Hm) (k' & Hk' & Hm'). apply (PropConverge.mean_deviate_unique phi k k'); auto. intros z.
  eapply IH; [|apply Hk|apply Hk']. intros zs Hz. apply H. cbn. now rewrite Hz.
Qed.
Lemma mean_many_unique phi d h h' m m' : (forall zs u, length zs = d -> 0 < u < 1 -> h zs u = h' zs u) -> mean_many phi d h m -> mean_many phi d h' m' -> m = m'.
Proof.
  intros H (a & Ha & Hm) (b & Hb & Hm'). eapply mean_deviates_unique; [|exact Hm|exact Hm']. intros zs Hz.
  pose proof (is_RInt_unique _ _ _ _ (Ha zs Hz)) as U1. pose proof (is_RInt_unique _ _ _ _ (Hb zs Hz)) as U2. rewrite <- U1, <- U2.
  apply RInt_ext. intros u Hu. rewrite Rmin_left, Rmax_right in Hu by lra. now apply H.
Qed.
Theorem C88_means_unique ns T ll L kept save phi next g e e' :
  named ns -> ns <> [] -> evaluates ns T ll L kept -> follows (inversion_env [many_space ns] ll save) ns T kept next ->
  means_after phi ns next g e -> means_after phi ns next g e' ->
  forall k xs, in_ranges (ranges ns) xs -> e k xs = e' k xs.
Proof.
  intros Hn Hne Hev Hnext He He' k. induction k as [|k IH]; intros xs Hx; destruct (He xs Hx) as [A1 A2], (He' xs Hx) as [B1 B2]; [congruence|].
  eapply mean_many_unique; [|apply A2|apply B2]. intros zs u Hz Hu. apply IH. rewrite (follows_roam ns Hn Hne T ll L kept save Hev next Hnext xs zs u) by auto.
  apply roam_inside; auto; [apply sds_len|now rewrite ranges_len].
Qed.

(** * A case *)
(** Three numbers; the first two are to add up to 1, the third is to be near the second. *)
Definition case_numbers : list number := [mkNumber "a" 0 1 (/ 10); mkNumber "b" (-1) 3 (/ 2); mkNumber "c" 10 20 1].
Definition case_like (s : state) : M ext :=
  match st_get "m" s with
  | Some (EPS p) =>
      match ps_get "a" p, ps_get "b" p, ps_get "c" p with
      | Some (Arr [x]), Some (Arr [y]), Some (Arr [z]) => ret (Fin (- (x + y - 1) * (x + y - 1) - (z - y) * (z - y)))
      | _, _, _ => err EAttr
      end
  | _ => err EAttr
  end.
Definition case_L (xs : list R) : R :=
  - (nth 0 xs 0 + nth 1 xs 0 - 1) * (nth 0 xs 0 + nth 1 xs 0 - 1) - (nth 2 xs 0 - nth 1 xs 0) * (nth 2 xs 0 - nth 1 xs 0).
Lemma case_continuous : cont_ranges (ranges case_numbers) case_L.
Proof.
  set (rs := ranges case_numbers).
  assert (Hp : proper rs) by (repeat constructor; cbn; lra).
  assert (Hc : cont_on 0 1 3 (fun us => case_L [0 + 1 * nth 0 us 0; -1 + 4 * nth 1 us 0; 10 + 10 * nth 2 us 0])).
  { unfold case_L. cbn [nth].
    assert (H01 : 0 < 1) by lra.
    assert (A : forall i a b, cont_on 0 1 3 (fun us => a + b * nth i us 0)).
    { intros. apply ucont_plus; [apply ucont_const|]. apply ucont_scal; auto. apply ucont_nth. }
    assert (S1 : cont_on 0 1 3 (fun us => 0 + 1 * nth 0 us 0 + (-1 + 4 * nth 1 us 0) - 1)).
    { apply ucont_minus; auto; [|apply ucont_const]. apply ucont_plus; auto. }
    apply ucont_minus; auto.
    - apply ucont_mult; auto. apply (ucont_ext 0 1 3 (fun us => -1 * (0 + 1 * nth 0 us 0 + (-1 + 4 * nth 1 us 0) - 1))); [intros; ring|]. now apply ucont_scal.
    - apply ucont_mult; auto; apply ucont_minus; auto. }
  intros eps He. destruct (cont_unscale rs _ Hp Hc eps He) as (d & Hd & H). exists d. split; auto. intros xs ys Hx Hy Hn.
  pose proof (H xs ys Hx Hy Hn) as G. cbn beta in G.
  assert (Ex : forall zs, in_ranges rs zs -> case_L [0 + 1 * nth 0 (unscale rs zs) 0; -1 + 4 * nth 1 (unscale rs zs) 0; 10 + 10 * nth 2 (unscale rs zs) 0] = case_L zs).
  { intros zs Hz. pose proof (ranges_length rs zs Hz) as Hl. destruct zs as [|z0 [|z1 [|z2 [|]]]]; try discriminate. unfold case_L. cbn. unfold width. cbn. 
    replace (0 + 1 * ((z0 - 0) / (1 - 0))) with z0 by field. replace (-1 + 4 * ((z1 - -1) / (3 - -1))) with z1 by field. replace (10 + 10 * ((z2 - 10) / (20 - 10))) with z2 by field. reflexivity. }
  rewrite !Ex in G by auto. exact G.
Qed.
Example C88_case : exists ll next F phi,
  named case_numbers /\ ranged case_numbers /\ normal_cdf F /\ (forall z, derivable_pt_lim F z (phi z)) /\
  cont_ranges (ranges case_numbers) case_L /\ evaluates case_numbers 2 ll case_L (fun _ => True) /\
  follows (inversion_env [many_space case_numbers] ll true) case_numbers 2 (fun _ => True) next /\
  in_ranges (ranges case_numbers) [1; 0; 12] /\ next [1; 0; 12] [-5; 1; 0] (/ 2) = [/ 2; / 2; 12].
Proof.
  destruct (loglike_init None None None (Some case_like)) as [ll|e|] eqn:El; try discriminate.
  assert (Hn : named case_numbers).
  { split; [|repeat constructor; try discriminate]. cbn. repeat constructor; cbn; intuition discriminate. }
  assert (Hev : evaluates case_numbers 2 ll case_L (fun _ => True)).
  { apply (C88_function case_numbers 2 case_like case_L ll); auto; [lra|]. intros s xs tr (Hl & (at_ & ca & Hs) & He) _.
    destruct xs as [|x [|y [|z [|]]]]; try discriminate. unfold case_like, st_get. rewrite Hs. reflexivity. }
  destruct ExampleWalk.normal_cdf_exists as (F & HF). destruct (nc_density F HF) as (c & Hc & Hd).
  exists ll, (roam (ranges case_numbers) (map nm_sd case_numbers) 2 case_L), F, (fun z => c * bell z).
  split; [exact Hn|]. split; [repeat constructor; cbn; lra|]. split; [exact HF|]. split; [exact Hd|]. split; [exact case_continuous|].
  split; [exact Hev|]. split; [|split].
  - intros c0 xs w w' zs u tr Hc0 Hb Hw Hw' Hz Hu. apply iterates; auto. discriminate.
  - repeat constructor; cbn; lra.
  - unfold roam. cbn [map nm_sd case_numbers jump].
    replace (1 + -5 * / 10) with (/ 2) by field. replace (0 + 1 * / 2) with (/ 2) by field. replace (12 + 0 * 1) with 12 by ring. cbv zeta.
    rewrite (in_inr (ranges case_numbers) [/ 2; / 2; 12]) by (repeat constructor; cbn; lra).
    destruct (Rlt_dec _ _) as [|Hno]; auto. exfalso. apply Hno. unfold case_L. cbn [nth].
    apply Rlt_trans with 0; [|lra]. rewrite <- ln_1. apply ln_increasing; lra.
Qed.
