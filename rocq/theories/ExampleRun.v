(** A concrete inversion used in the examples: one Voronoi tessellation of [0,10] with a
    velocity and a nested parameter space, and a target with unknown correlated noise. *)
From Verif Require Import Base ModelUtils1D ModelPrior ModelState ModelSpace ModelPerturb ModelChain ModelSampler
  ModelLikelihood SpecUtils1D SpecPrior SpecState SpecSpace SpecChain SpecRun
  ProofUtils1D ProofChain.
Local Open Scope R_scope.
Local Open Scope string_scope.

(** Evaluation of concrete runs: weak evaluation with the operations on real numbers kept,
    then their comparisons are decided. *)
Lemma Rleb_t x y : x <= y -> Rleb x y = true.
Proof. intros. unfold Rleb. destruct (Rle_dec x y); auto; contradiction. Qed.
Lemma Rleb_f x y : y < x -> Rleb x y = false.
Proof. intros. unfold Rleb. destruct (Rle_dec x y); auto. lra. Qed.
Lemma Rltb_t x y : x < y -> Rltb x y = true.
Proof. intros. unfold Rltb. destruct (Rlt_dec x y); auto; contradiction. Qed.
Lemma Rltb_f x y : y <= x -> Rltb x y = false.
Proof. intros. unfold Rltb. destruct (Rlt_dec x y); auto. lra. Qed.
Lemma Reqb_t x y : x = y -> Reqb x y = true.
Proof. intros. unfold Reqb. destruct (Req_EM_T x y); auto; contradiction. Qed.
Lemma Reqb_f x y : x <> y -> Reqb x y = false.
Proof. intros. unfold Reqb. destruct (Req_EM_T x y); auto; contradiction. Qed.

Ltac evalR :=
  lazy -[Rplus Rmult Ropp Rinv Rminus Rdiv Rleb Rltb Reqb IZR INR Int_part py_int ln PI sqrt pow exp Rle Rlt Rge Rgt not].
Ltac num := evalR; first [lra | cbn [INR]; lra].
Ltac cmp :=
  match goal with
  | |- context [Rleb ?a ?b] =>
      first [rewrite (Rleb_t a b) by num | rewrite (Rleb_f a b) by num]
  | |- context [Rltb ?a ?b] =>
      first [rewrite (Rltb_t a b) by num | rewrite (Rltb_f a b) by num]
  | |- context [Reqb ?a ?b] =>
      first [rewrite (Reqb_t a b) by num | rewrite (Reqb_f a b) by num]
  end.
Lemma py_int_nat n : py_int (INR n) = Z.of_nat n.
Proof.
  unfold py_int. rewrite Rltb_f by apply pos_INR. rewrite INR_IZR_INZ.
  unfold Int_part. rewrite <- (tech_up (IZR (Z.of_nat n)) (Z.of_nat n + 1)); [lia|..]; rewrite plus_IZR; lra.
Qed.
Lemma ex_init_max : py_int ((INR 4 - INR 1) * 1 + INR 1) = 4%Z.
Proof. replace ((INR 4 - INR 1) * 1 + INR 1) with (INR 4) by (cbn [INR]; lra). apply (py_int_nat 4). Qed.

(** Weak head evaluation of the left-hand side. *)
Ltac whd :=
  lazymatch goal with
  | |- context [py_int ?x] => change (py_int x) with (py_int ((INR 4 - INR 1) * 1 + INR 1)); rewrite ex_init_max; whd
  | |- Rleb _ _ = _ => first [apply Rleb_t; num | apply Rleb_f; num]
  | |- Rltb _ _ = _ => first [apply Rltb_t; num | apply Rltb_f; num]
  | |- Reqb _ _ = _ => first [apply Reqb_t; num | apply Reqb_f; num]
  | |- @eq (res _) _ _ => evalR; repeat (cmp; evalR); reflexivity
  | |- @eq bool _ _ => evalR; repeat (cmp; evalR); reflexivity
  | |- ?l = ?r =>
      let l' := eval hnf in l in
      change_no_check (l' = r);
      lazymatch l' with
      | match ?x with _ => _ end =>
          let H := fresh "H" in
          eassert (H : x = _) by (etransitivity; [whd|evalR; reflexivity]); rewrite H; clear H; whd
      | (match ?x with _ => _ end) _ =>
          let H := fresh "H" in
          eassert (H : x = _) by (etransitivity; [whd|evalR; reflexivity]); rewrite H; clear H; whd
      | _ => reflexivity
      end
  end.
Ltac run := etransitivity; [whd|evalR; repeat (cmp; evalR)].
Ltac same := repeat first [lra | reflexivity | (cbn [INR]; lra) | f_equal].

Definition ex_w : prior := mkPrior "w" false (Gauss (HS 0) (HS 1)) (HS (1/10)) (HS (1/10)).
Definition ex_in : space := Space "in" (Some 1%nat) 1 1 0 Plain [("w", PPrior ex_w)].
Definition ex_v : prior := mkPrior "v" false (Uniform (HS 1) (HS 3)) (HS (1/10)) (HS (1/10)).
Definition ex_vor : space :=
  Space "vor" None 1 4 1 (Vor1 0 10 1 true) [("v", PPrior ex_v); ("in", PSpace ex_in)].
Definition ex_t : target := mkTarget "d" [1; 2; 3] None true 1 2 (1/10) 0 (1/2) (1/10).
Definition ex_fwd (s : state) : M (list R) := ret [1; 1; 1].
Definition ex_ll : loglike :=
  mkLL [ex_t] [mkFwd ex_fwd false] None None MTargets [ex_t].
Lemma ex_init : loglike_init (Some [ATarget ex_t]) (Some [AFwd (mkFwd ex_fwd true)]) None None = Ok ex_ll.
Proof. reflexivity. Qed.

Definition ex_inner (w : R) : psstate := PS 1 [("w", Arr [w])] [("w", Arr [w])] [].
Definition ex_p0 : psstate :=
  PS 1 [("discretization", Arr [5]); ("v", Arr [2]); ("in", Lst [ex_inner (1/2)])]
       [("discretization", Arr [5]); ("v", Arr [2]); ("in", Lst [ex_inner (1/2)])] [].

Local Opaque Rleb Rltb Reqb py_int.
(** The starting state for some draws. *)
Lemma repeatM_one {A} (m : M A) a tr tr' : m tr = Ret a tr' -> repeatM 1 m tr = Ret [a] tr'.
Proof. intros H. cbn [repeatM]. now rewrite (bind_ret _ _ _ _ _ H). Qed.
Definition ex_start : state :=
  mkState [("vor", EPS ex_p0); ("d", ENoise (mkNoise 1 (Some 0)))]
          [("vor", EPS ex_p0); ("d", ENoise (mkNoise 1 (Some 0)))] 1 [] [].
Lemma ex_starting tr :
  starting_state [ex_vor] ex_ll
    (DInt 1 :: DU (1/2) :: DU (1/2) :: DVal 0 :: DZ (1/2) :: DU 0 :: DU 0 :: tr)
  = Ret ex_start tr.
Proof.
  run. same.
Qed.

(** One iteration whose proposal is accepted. *)
Lemma one_accepted {St V} (E : env St V) c tr i ty f tr1 new lpr tr2 old' new' llr u tr3 :
  choices (length (e_funcs E)) (e_weights E) tr = Ret i tr1 ->
  nth_error (e_funcs E) i = Some (ty, f) ->
  f (c_cur c) tr1 = Ret (new, Fin lpr) tr2 ->
  e_like E (c_cur c) new (c_temp c) tr2 = Ret (old', new', inl (Fin llr)) (DU u :: tr3) ->
  0 < u < 1 -> ln u < lpr + llr ->
  next_iteration E c tr = Ret (let '(c', x) := finish E ty true new' (set_cur old' c) in
    (c', match x with Done => None | Stop e => Some e | Retry => Some ERuntime end)) tr3.
Proof.
  intros H1 H2 H3 H4 Hu Hl. unfold next_iteration. change 500%nat with (S 499). generalize 499%nat. intros n.
  cbn [tries]. unfold attempt, bind, try. rewrite H1, H2, H3. cbn [eisinf]. rewrite H4.
  unfold decide, bind. rewrite drawU_ok by lra.
  assert (Hp : py_log u = Ok (ln u)). { unfold py_log. now rewrite Rltb_t by lra. }
  rewrite Hp. cbn [eadd egtb]. rewrite Rltb_t by auto. unfold ret at 1.
  assert (Hr : snd (finish E ty true new' (set_cur old' c)) <> Retry).
  { unfold finish. destruct (save_statistics E _ _ _ _); [|discriminate].
    destruct (c_flag _); [|discriminate]. destruct (_ && _)%bool; [|discriminate].
    destruct (save_state E _) as [? [?|]]; discriminate. }
  destruct (finish E ty true new' (set_cur old' c)) as [c' [| |]]; try reflexivity. now destruct Hr.
Qed.

(** The perturbation drawn below: the birth of a second cell at 8. *)
Definition ex_p1 : psstate :=
  PS 2 [("discretization", Arr [5; 8]); ("v", Arr [2; 5/2]); ("in", Lst [ex_inner (1/2); ex_inner 1])]
       [("discretization", Arr [5; 8]); ("v", Arr [2; 5/2]); ("in", Lst [ex_inner (1/2); ex_inner 1])] [].
Definition ex_env : env state ovalue := inversion_env [ex_vor] ex_ll true.
Definition ex_next : state :=
  mkState [("vor", EPS ex_p1); ("d", ENoise (mkNoise 1 (Some 0)))]
          [("vor", EPS ex_p1); ("d", ENoise (mkNoise 1 (Some 0)))] 1
          [("perturb_stats", CStats [("BirthPerturbation(vor)", 1)])] [].
Definition ex_own : psp := mkPsp "vor" (own_elems ex_vor).
Lemma ex_vor_birth tr :
  vor_birth ex_vor ex_p0 (DU (8/10) :: DU (3/4) :: DZ 1 :: tr) = Ret (ex_p1, Fin 0) tr.
Proof. run. same. Qed.
Lemma ex_choose tr : choices 4 [1; 1; 3; 1] (DU 0 :: tr) = Ret 0%nat tr.
Proof. run. same. Qed.
Lemma ex_perturb_ps tr :
  psp_perturb_ps ex_own ex_p0 (DU 0 :: DU (8/10) :: DU (3/4) :: DZ 1 :: tr) =
  Ret (ex_p1, Fin 0, "BirthPerturbation(vor)") tr.
Proof.
  unfold psp_perturb_ps. unfold ex_own at 1 2, bind at 1. rewrite (ex_choose _).
  unfold bind at 1. cbn [lift idx nth_error ret psp_funcs ex_own own_elems ex_vor sp_transd sp_fixed fst app].
  unfold elem_perturb, birth. cbn [fst is_disc sp_cls].
  unfold bind at 1. 
  fold ex_vor. change (is_disc ex_vor) with true. cbn iota. rewrite ex_vor_birth. reflexivity.
Qed.
Lemma ex_birth tr :
  psp_perturb ex_own ex_start (DInt 0 :: DU 0 :: DU (8/10) :: DU (3/4) :: DZ 1 :: tr) = Ret (ex_next, Fin 0) tr.
Proof.
  unfold psp_perturb.
  assert (H1 : exists c, st_copy false ex_start = Ok c /\ c = ex_start).
  { eexists. split; [evalR; reflexivity|reflexivity]. }
  destruct H1 as (? & H1 & ->). rewrite H1. unfold lift at 1, bind at 1, ret at 1.
  assert (H2 : count_loop (st_size ex_start) (psp_space ex_own) [st_children ex_start] 0 = Ok 1%nat) by reflexivity.
  rewrite H2. unfold lift at 1, bind at 1, ret at 1. unfold bind at 1.
  change (randint_below 1 (DInt 0 :: DU 0 :: DU (8 / 10) :: DU (3 / 4) :: DZ 1 :: tr)) with
    (Ret 0%nat (DU 0 :: DU (8 / 10) :: DU (3 / 4) :: DZ 1 :: tr)).
  cbn iota beta. change (st_size ex_start) with (S (S (S 0)))%nat.
  cbn [walk_loop w_queue Nat.leb w_i st_children map st_vals ex_start fst snd entry_child walk_node].
  change (String.eqb "vor" (psp_space ex_own)) with true. cbn iota. cbn [w_i Nat.eqb].
  unfold bind at 1 2 3. rewrite ex_perturb_ps. cbn iota beta. unfold ret at 1.
  cbn [w_queue w_new w_i w_ratio w_stats]. evalR. same.
Qed.

Definition with_pred (s : state) : state := st_save_cache "d.dpred" (CPred [1; 1; 1]) s.
Lemma ex_misfit : exists m ld, forall s, st_get "d" s = Some (ENoise (mkNoise 1 (Some 0))) ->
  target_misfit ex_t s [1; 1; 1] = Ok (m, ld).
Proof.
  assert (Hi : exists c, inverse_covariance 1 0 3 = Ok c /\ exists r, matvec c [1 - 1; 1 - 2; 1 - 3] = Ok r /\
    exists m, dot [1 - 1; 1 - 2; 1 - 3] r = Ok m).
  { unfold inverse_covariance. rewrite Reqb_f by lra. evalR.
    eexists. split; [reflexivity|]. eexists. split; [reflexivity|]. eexists. reflexivity. }
  destruct Hi as (c & Hc & r & Hr & m & Hm).
  exists m. eexists. intros s Hs. unfold target_misfit.
  change (vop Rminus [1; 1; 1] (t_dobs ex_t)) with (@Ok (list R) [1 - 1; 1 - 2; 1 - 3]).
  unfold inv_cov_times, log_det_cov, noise_of. change (t_name ex_t) with "d". rewrite Hs.
  cbn [t_cov ex_t dn_corr dn_std length t_dobs is_hier rbind]. rewrite Hc. cbn [rbind]. rewrite Hr. cbn [rbind].
  rewrite Hm. cbn [rbind].
  unfold py_log. rewrite !Rltb_t by lra. cbn [rbind]. reflexivity.
Qed.
Lemma ex_like tr :
  log_likelihood_ratio ex_ll ex_start ex_next 1 tr =
  Ret (with_pred ex_start, with_pred ex_next, inl (Fin 0)) tr.
Proof.
  destruct ex_misfit as (m & ld & H).
  unfold log_likelihood_ratio. rewrite Reqb_f by lra. unfold raw_ratio. cbn [ll_mode ex_ll].
  unfold ratio_from_targets. cbn [ll_targets ll_fwds ex_ll combine misfit_loop].
  assert (Hd : forall s t, dget "d.dpred" (st_cache s) = None ->
    get_dpred ex_t (mkFwd ex_fwd false) s t = Ret (with_pred s, inl [1; 1; 1]) t).
  { intros s t Hs. unfold get_dpred, dpred_key. change (t_name ex_t ++ ".dpred") with "d.dpred".
    rewrite Hs. reflexivity. }
  unfold bind at 1 2 3. rewrite Hd by reflexivity. cbn iota beta. rewrite H by reflexivity.
  unfold ret at 1. unfold bind at 1 2. rewrite Hd by reflexivity. cbn iota beta. rewrite H by reflexivity.
  unfold ret. cbn [ediv]. same.
Qed.

(** * The configuration is sensible *)
Lemma ex_sub_in s : sub_space ex_in s -> s = ex_in.
Proof.
  intros H. inversion H as [|? ? s1 ? Hin]; subst; auto.
  cbn in Hin. destruct Hin as [E|[]]; discriminate E.
Qed.
Lemma ex_sub s : sub_space ex_vor s -> s = ex_vor \/ s = ex_in.
Proof.
  intros H. inversion H as [|? ? s1 ? Hin Hs]; subst; auto.
  cbn in Hin. destruct Hin as [E|[E|[]]]; [discriminate E|]. injection E as <- <-. right. now apply ex_sub_in.
Qed.
Lemma ex_prior_w : prior_ok ex_w.
Proof. repeat split; cbn; auto; intros; eexists; reflexivity. Qed.
Lemma ex_prior_v : prior_ok ex_v.
Proof.
  split; [|split].
  - cbn. auto.
  - intros _. split; eexists; reflexivity.
  - cbn. intros at_ lo hi H1 H2. inversion H1; inversion H2; subst. lra.
Qed.
Lemma ex_setup : setup_ok [ex_vor] [ex_t].
Proof.
  split.
  - intros s [<-|[]] s' H. apply ex_sub in H. destruct H as [->| ->].
    + split; [cbn; lia|]. split; [cbn; lra|]. split; [cbn; lra|]. split; [|split; [|split]].
      * cbn. repeat constructor; cbn; intuition discriminate.
      * cbn. intuition discriminate.
      * cbn. intros k p [E|[E|[]]]; [|discriminate E]. injection E as <- <-. split; auto. apply ex_prior_v.
      * cbn. intros k p [E|[E|[]]]; [discriminate E|]. injection E as <- <-. reflexivity.
    + split; [cbn; lia|]. split; [cbn; lra|]. split; [exact I|]. split; [|split; [|split]].
      * cbn. repeat constructor; cbn; intuition discriminate.
      * cbn. intuition discriminate.
      * cbn. intros k p [E|[]]. injection E as <- <-. split; auto. apply ex_prior_w.
      * cbn. intros k p [E|[]]. discriminate E.
  - cbn. repeat constructor; cbn; intuition discriminate.
  - intros a b s s' [<-|[]] [<-|[]] H1 H2 E. apply ex_sub in H1. apply ex_sub in H2.
    destruct H1 as [->| ->], H2 as [->| ->]; auto; discriminate E.
  - intros t [<-|[]]. split; cbn; lra.
Qed.

(** * A run of one saved iteration *)
Definition ex_sched : sched := {| sc_burnin := 0; sc_every := 1; sc_verbose := false; sc_print_every := 0 |}.
Definition ex_chain0 : chain state ovalue := new_chain ex_env ex_start.
Lemma ex_chains tr :
  inversion_chains [ex_vor] ex_ll true 1
    (DInt 1 :: DU (1/2) :: DU (1/2) :: DVal 0 :: DZ (1/2) :: DU 0 :: DU 0 :: tr) = Ret [ex_chain0] tr.
Proof. apply repeatM_one. unfold bind. rewrite ex_starting. reflexivity. Qed.
Lemma ex_next_iteration c tr : c_cur c = ex_start -> c_temp c = 1 ->
  next_iteration ex_env c (DU (1/2) :: DInt 0 :: DU 0 :: DU (8/10) :: DU (3/4) :: DZ 1 :: DU (1/2) :: tr) =
  Ret (let '(c', x) := finish ex_env (psp_name ex_own) true (with_pred ex_next) (set_cur (with_pred ex_start) c) in
    (c', match x with Done => None | Stop e => Some e | Retry => Some ERuntime end)) tr.
Proof.
  intros H1 H2.
  eapply (one_accepted ex_env c _ 1%nat _ (psp_perturb ex_own) _ ex_next 0 _ (with_pred ex_start) (with_pred ex_next) 0).
  - change (length (e_funcs ex_env)) with 3%nat.
    assert (Hw : e_weights ex_env = [3; 6; 1]).
    { cbn -[Rplus]. same. }
    rewrite Hw. run. reflexivity.
  - reflexivity.
  - rewrite H1. apply ex_birth.
  - rewrite H1, H2. apply ex_like.
  - lra.
  - rewrite Rplus_0_l. rewrite <- ln_1. apply ln_increasing; lra.
Qed.
Definition ex_saved : dict (list ovalue) :=
  [("vor.n_dimensions", [OInt 2]); ("vor.discretization", [OArr (Arr [5; 8])]); ("vor.v", [OArr (Arr [2; 5/2])]);
   ("vor.in", [OList [[("vor.in.n_dimensions", OInt 1); ("vor.in.w", OArr (Arr [1/2]))];
                      [("vor.in.n_dimensions", OInt 1); ("vor.in.w", OArr (Arr [1]))]]]);
   ("d.std", [ONum 1]); ("d.correlation", [ONum 0]); ("d.dpred", [OArr (Arr [1; 1; 1])])].
Lemma ex_finish c : c_flag c = Some true -> c_temp c = 1 -> c_saved c = SDict [] -> exists c',
  finish ex_env (psp_name ex_own) true (with_pred ex_next) c = (c', Done) /\
  c_cur c' = with_pred ex_next /\ c_saved c' = SDict ex_saved.
Proof.
  intros H1 H2 H3. unfold finish. 
  assert (Hs : exists st, save_statistics ex_env (psp_name ex_own) true (with_pred ex_next) (set_cur (with_pred ex_next) c)
    = inl (put_stats st true (set_cur (with_pred ex_next) c))).
  { eexists. reflexivity. }
  destruct Hs as (st & ->). cbn [put_stats set_stats c_flag c_temp set_cur].
  rewrite H1, H2, Reqb_t by reflexivity. cbn [andb].
  unfold save_state. cbn [c_cur c_saved set_stats put_stats set_cur].
  change (s_kind (e_ops ex_env) (with_pred ex_next)) with KState. cbn iota. rewrite H3.
  assert (Hi : save_items ex_env (s_items (e_ops ex_env) (with_pred ex_next)) [] = (firstn 6 ex_saved, None)).
  { evalR. reflexivity. }
  rewrite Hi. eexists. split; [reflexivity|]. split; [reflexivity|].
  cbn [e_savedpred ex_env inversion_env chain_env c_saved set_saved]. evalR. reflexivity.
Qed.
Lemma ex_run tr : exists c o tr',
  inversion_run (vanilla [] [] [] []) (vanilla_run ex_env (vanilla [] [] [] []) (Some 1%Z) 1 ex_sched) false [ex_chain0]
    (DU (1/2) :: DInt 0 :: DU 0 :: DU (8/10) :: DU (3/4) :: DZ 1 :: DU (1/2) :: tr) = Ret ([c], o) tr' /\
  c_cur c = with_pred ex_next /\ c_saved c = SDict ex_saved.
Proof.
  destruct (ex_finish (set_cur (with_pred ex_start) (set_flag true ex_chain0)))
    as (c & Hf & H1 & H2); try reflexivity.
  exists c. eexists _, _. split; [|split; auto].
  unfold inversion_run. unfold bind at 1.
  change (initialize (vanilla [] [] [] []) [ex_chain0]) with (fun t : trace => Ret ([ex_chain0], @None exn) t).
  cbn iota beta. unfold vanilla_run, advance_chain. cbn [each_chain advance].
  unfold bind at 1 2 3 4, advance_one. change (c_nprop_tot ex_chain0) with 0%nat.
  change (save_flag ex_sched 1) with (@Ok bool true). cbn iota.
  unfold bind at 1. unfold call_hook at 1, begin_iteration at 1. cbn [call_all vanilla sm_on_begin sm_x_begin].
  unfold bind at 1, nothing at 1, ret at 1 2.
  unfold bind at 1, ret at 1. cbn iota beta. rewrite ex_next_iteration by reflexivity. rewrite Hf.
  reflexivity.
Qed.

(** The chain of the examples: its current state has two cells, and one sample has been
    saved. *)
Lemma ex_chain : exists c, chain_of [ex_vor] ex_ll true c /\
  c_cur c = with_pred ex_next /\ c_saved c = SDict ex_saved.
Proof.
  destruct (ex_run []) as (c & o & tr' & H & H1 & H2). exists c. split; auto.
  exists 1%nat. eexists. exists [ex_chain0], [], [c]. split; [apply (ex_chains [])|]. split; [|now left].
  eapply runs_more; [apply runs_none|]. eapply run_vanilla; [|exact H]. split; constructor.
Qed.

(** * A tessellation of the unit square with a kd-tree, inside a triangle *)
Definition ex_triangle (x : list R) : bool :=
  match x with [a; b] => Rleb 0 a && Rleb 0 b && Rleb (a + b) 1 | _ => false end.
Definition ex_2d : space :=
  Space "map" (Some 1%nat) 1 1 0 (VorN 2 [0; 0] [1; 1] [1; 1] (Some ex_triangle) true false) [("v", PPrior ex_v)].
Definition ex_2d_state : psstate :=
  PS 1 [("discretization", ArrN [[1/4; 1/2]]); ("v", Arr [2])]
       [("discretization", ArrN [[1/4; 1/2]]); ("v", Arr [2])] [("kdtree", ArrN [[1/4; 1/2]])].
Definition ex_2d_ll : loglike := mkLL [] [] None (Some (fun _ => ret (Fin 0))) MLike [].
Lemma ex_2d_init : loglike_init None None None (Some (fun _ => ret (Fin 0))) = Ok ex_2d_ll.
Proof. reflexivity. Qed.
Lemma ex_2d_setup : setup_ok [ex_2d] [].
Proof.
  assert (Hsub : forall s, sub_space ex_2d s -> s = ex_2d).
  { intros s H. inversion H as [|? ? s1 ? Hin]; subst; auto. cbn in Hin. destruct Hin as [E|[]]; discriminate E. }
  split.
  - intros s [<-|[]] s' H. apply Hsub in H. subst s'.
    split; [cbn; lia|]. split; [cbn; lra|]. split; [|split; [|split; [|split]]].
    + cbn. split; [reflexivity|]. split; [reflexivity|]. split.
      * intros [|[|i]] a b; cbn; try (intros [= <-] [= <-]; lra); destruct i; discriminate.
      * intros [|a [|b [|c x]]] H; try discriminate H. unfold ex_triangle in H.
        apply andb_true_iff in H. destruct H as [H H3]. apply andb_true_iff in H. destruct H as [H1 H2].
        apply Rleb_true in H1. apply Rleb_true in H2. apply Rleb_true in H3.
        intros [|[|i]] u v y; cbn; try (intros [= <-] [= <-] [= <-]; lra); destruct i; discriminate.
    + cbn. repeat constructor; cbn; intuition discriminate.
    + cbn. intuition discriminate.
    + cbn. intros k p [E|[]]. injection E as <- <-. split; auto. apply ex_prior_v.
    + cbn. intros k p [E|[]]. discriminate E.
  - cbn. repeat constructor; cbn; intuition discriminate.
  - intros a b s s' [<-|[]] [<-|[]] H1 H2 E. apply Hsub in H1. apply Hsub in H2. congruence.
  - intros t [].
Qed.
(** The first candidate site is outside the triangle. *)
Lemma ex_2d_starting :
  starting_state [ex_2d] ex_2d_ll [DU (3/4); DU (3/4); DU (1/4); DU (1/2); DU (1/2)] =
  Ret (mkState [("map", EPS ex_2d_state)] [("map", EPS ex_2d_state)] 1 [] []) [].
Proof. run. same. Qed.
Lemma ex_2d_chain : exists c, chain_of [ex_2d] ex_2d_ll true c /\
  st_get "map" (c_cur c) = Some (EPS ex_2d_state).
Proof.
  eexists. split.
  - exists 1%nat. eexists. eexists [_], _, _. split; [|split; [apply runs_none|now left]].
    apply repeatM_one. unfold bind. rewrite ex_2d_starting. reflexivity.
  - reflexivity.
Qed.
