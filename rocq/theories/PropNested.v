(** Properties of nested parameter spaces: C54 and C55. *)
From Verif Require Import Base ModelUtils1D ModelPrior ModelState ModelSpace ModelPerturb ModelChain ModelSampler
  ModelLikelihood SpecUtils1D SpecPrior SpecState SpecSpace SpecPerturb SpecChain SpecRun SpecMoves
  ProofUtils1D ProofChain ProofChainB ProofChainC ProofSampler ProofInversion
  ProofState ProofSpace ProofSpaceB ProofSpaceC ProofSpaceD ProofSpaceE ProofPerturb ProofTree ProofRun
  ProofRunB ProofRunC ProofNested PropChain ExampleRun ExampleSpace PropSpace.
Local Open Scope R_scope.
Local Open Scope string_scope.

(** * C54: perturbations act on their own space *)
(** [space_at s w s']: going down along [w] from the space [s] one comes to [s']. *)
Inductive space_at : space -> place -> space -> Prop :=
| space_at_here s : space_at s [] s
| space_at_in s k i s1 w s' : In (k, PSpace s1) (sp_params s) -> space_at s1 w s' ->
    space_at s ((k, i) :: w) s'.

Lemma nested_list s p k l : valid s -> wf s p -> ps_get k p = Some (Lst l) ->
  exists s1, In (k, PSpace s1) (sp_params s).
Proof.
  intros Hv Hw Hg. destruct (wf_local _ _ Hw) as (_ & (Hk & _ & Hp & _) & Hs & _).
  assert (Hin : In k (dkeys (ps_vals p))) by (eapply dget_in_keys; exact Hg).
  rewrite Hk in Hin. unfold names in Hin. apply in_app_or in Hin. destruct Hin as [Hin|Hin].
  - destruct (is_disc s) eqn:Ed; [|destruct Hin]. destruct Hin as [<-|[]]. exfalso.
    unfold is_disc in Ed. unfold sites_ok in Hs. destruct (sp_cls s); [discriminate| |];
      destruct Hs as (l0 & E & _); congruence.
  - apply in_map_iff in Hin. destruct Hin as ([k' [pr|s1]] & <- & Hin); cbn [fst] in *; eauto.
    destruct (Hp _ _ Hin) as (l0 & E). congruence.
Qed.
Lemma space_at_sub s w s' : space_at s w s' -> sub_space s s'.
Proof. induction 1; [constructor|econstructor; eauto]. Qed.
Lemma holds_space p w q : holds_at p w q -> forall s, valid s -> wf s p ->
  exists s', space_at s w s' /\ wf s' q.
Proof.
  induction 1 as [p|p k i l c w q Hg Hn Hq IH]; intros s Hv Hw.
  - exists s. split; [constructor|auto].
  - destruct (nested_list _ _ _ _ Hv Hw Hg) as (s1 & Hin).
    destruct (IH s1) as (s' & H1 & H2).
    + eapply valid_in; eauto.
    + intros s2 p2 Hp. apply Hw. eapply part_in; eauto. cbn. eapply nth_error_In; eauto.
    + exists s'. split; auto. econstructor; eauto.
Qed.
Lemma space_at_name s w s' : valid s -> space_at s w s' ->
  forall w0 k i, w = (w0 ++ [(k, i)])%list -> sp_name s' = k.
Proof.
  intros Hv H. induction H as [s|s k1 i1 s1 w s' Hin H IH]; intros w0 k i E.
  - destruct w0; discriminate.
  - destruct w0 as [|a w0]; cbn in E; [injection E as E1 E2 E3|injection E as E1 E2].
    + subst. inversion H; subst.
      destruct (valid_here _ Hv) as (_ & _ & _ & _ & _ & _ & Hn). symmetry. eapply Hn; eauto.
    + subst. eapply IH; eauto. eapply valid_in; eauto.
Qed.

(** Two spaces with a nested space of the same name but other priors are accepted; the
    perturbation of the second one changes a value of the first one and takes it outside its
    prior (0 to 1), with a ratio that can be accepted. *)
Definition cl_w (lo hi : R) : prior := mkPrior "w" false (Uniform (HS lo) (HS hi)) (HS 1) (HS 1).
Definition cl_in (lo hi : R) : space := Space "in" (Some 1%nat) 1 1 0 Plain [("w", PPrior (cl_w lo hi))].
Definition cl_top (name : string) (lo hi : R) : space :=
  Space name (Some 1%nat) 1 1 0 Plain [("in", PSpace (cl_in lo hi))].
Definition cl_spaces : list space := [cl_top "A" 0 1; cl_top "B" 10 20].
Lemma cl_in_valid lo hi : lo <= hi -> valid (cl_in lo hi).
Proof.
  intros H s Hs. inversion Hs as [|? k s1 ? Hin]; subst.
  - split; [cbn; lia|]. split; [cbn; lra|]. split; [exact I|]. split; [|split; [|split]].
    + constructor; [intros []|constructor].
    + intros [E|[]]; discriminate.
    + intros k p [E|[]]. injection E as <- <-. split; auto. split; [split; exact I|]. split.
      * intros _. split; eexists; reflexivity.
      * intros at_ a b -> ->. exact H.
    + intros k s' [E|[]]; discriminate.
  - destruct Hin as [E|[]]; discriminate.
Qed.
Lemma cl_top_valid name lo hi : lo <= hi -> valid (cl_top name lo hi).
Proof.
  intros H s Hs. inversion Hs as [|? k s1 ? Hin Hsub]; subst.
  - split; [cbn; lia|]. split; [cbn; lra|]. split; [exact I|]. split; [|split; [|split]].
    + constructor; [intros []|constructor].
    + intros [E|[]]; discriminate.
    + intros k p [E|[]]; discriminate.
    + intros k s' [E|[]]. injection E as <- <-. reflexivity.
  - destruct Hin as [E|[]]. injection E as <- <-. eapply cl_in_valid; eauto.
Qed.
Local Opaque Rleb Rltb Reqb py_int.
Definition cl_sub (w : R) : psstate := PS 1 [("w", Arr [w])] [("w", Arr [w])] [].
Definition cl_top_state (w : R) : psstate := PS 1 [("in", Lst [cl_sub w])] [("in", Lst [cl_sub w])] [].
Definition cl_psp : psp := fst (own_psp (cl_in 10 20)).
Definition cl_state (a b : R) : state := mk_state [("A", EPS (cl_top_state a)); ("B", EPS (cl_top_state b))] 1 [].
Lemma cl_init : initialize_all cl_spaces [DVal 0; DU (1/2); DVal 0; DU (1/2)] = Ret (cl_state (1/2) 15) [].
Proof. run. same. Qed.
Lemma cl_ps tr : psp_perturb_ps cl_psp (cl_sub (1/2)) (DU (1/2) :: DInt 0 :: DZ 14 :: tr) =
  Ret (PS 1 [("w", Arr [29/2])] [("w", Arr [1/2])] [], Fin 0, "ParamPerturbation(in.w)") tr.
Proof. run. same. Qed.
Lemma cl_walk fs a b p' r ty tr tr' :
  psp_perturb_ps (mkPsp "in" fs) (cl_sub a) tr = Ret (p', r, ty) tr' ->
  exists s', psp_perturb (mkPsp "in" fs) (cl_state a b) (DInt 0 :: tr) = Ret (s', eadd (Fin 0) r) tr' /\
    st_get "A" s' = Some (EPS (PS 1 [("in", Lst [p'])] [("in", Lst [p'])] [])) /\
    st_get "B" s' = Some (EPS (cl_top_state b)).
Proof.
  intros H. unfold psp_perturb.
  change (st_copy false (cl_state a b)) with (Ok (cl_state a b)). unfold lift at 1, bind at 1, ret at 1.
  change (count_loop (st_size (cl_state a b)) (psp_space (mkPsp "in" fs)) [st_children (cl_state a b)] 0) with (Ok 2%nat).
  unfold lift at 1, bind at 1, ret at 1. unfold bind at 1.
  change (randint_below 2 (DInt 0 :: tr)) with (Ret 0%nat tr). cbn iota beta.
  change (st_size (cl_state a b)) with (S (S (S (S (S O))))).
  assert (E : walk_loop (S (S (S (S (S O))))) (mkPsp "in" fs) 0
     (mkWalk (cl_state a b) 0 (Fin 0) [] [([], st_children (cl_state a b))]) tr =
     Ret (mkWalk (mk_state [("A", EPS (PS 1 [("in", Lst [p'])] [("in", Lst [p'])] [])); ("B", EPS (cl_top_state b))] 1 [])
           1 (eadd (Fin 0) r) [(ty, 1%nat)] [([("B", 0%nat)], [("in", CMany [cl_sub b])])]) tr').
  { assert (HL : walk_list (mkPsp "in" fs) 0 [cl_sub a] 0 (Fin 0) [] tr =
      Ret ([p'], 1%nat, eadd (Fin 0) r, [(ty, 1%nat)]) tr').
    { cbn [walk_list Nat.eqb]. rewrite (bind_ret _ _ _ _ _ H). reflexivity. }
    assert (HN : walk_node (mkPsp "in" fs) 0 [("A", 0%nat)] [("in", CMany [cl_sub a])]
        (mkWalk (cl_state a b) 0 (Fin 0) [] [([("B", 0%nat)], [("in", CMany [cl_sub b])])]) tr =
      Ret (mkWalk (mk_state [("A", EPS (PS 1 [("in", Lst [p'])] [("in", Lst [p'])] [])); ("B", EPS (cl_top_state b))] 1 [])
           1 (eadd (Fin 0) r) [(ty, 1%nat)] [([("B", 0%nat)], [("in", CMany [cl_sub b])])]) tr').
    { cbn [walk_node psp_space]. change (String.eqb "in" "in") with true. cbn iota.
      rewrite (bind_ret _ _ _ _ _ HL). reflexivity. }
    cbn [walk_loop w_queue w_i]. change (0 <=? 0)%nat with true. cbn iota.
    erewrite bind_ret by reflexivity. cbn [w_queue w_i].
    etransitivity; [apply (bind_ret _ _ _ _ _ HN)|reflexivity]. }
  unfold bind. rewrite E. eexists. split; [reflexivity|]. split; reflexivity.
Qed.

Theorem C54_same_name_refuted : exists spaces q s tr s' tr' sp p,
  mk_parameterization spaces = Ok spaces /\ (forall x, In x spaces -> valid x) /\
  In q (map fst (all_funcs spaces)) /\
  (exists tr0, initialize_all spaces tr0 = Ret s []) /\
  psp_perturb q s tr = Ret (s', Fin 0) tr' /\
  (* a value of the space [sp], whose prior is 0 to 1, is 29/2 now *)
  In sp spaces /\ st_get (sp_name sp) s' = Some (EPS p) /\
  exists p1, part sp p (cl_in 0 1) p1 /\ ps_get "w" p1 = Some (Arr [29/2]).
Proof.
  exists cl_spaces, cl_psp, (cl_state (1/2) 15), (DInt 0 :: [DU (1/2); DInt 0; DZ 14]).
  destruct (cl_walk (own_elems (cl_in 10 20)) (1/2) 15 _ _ _ _ _ (cl_ps [])) as (s' & H1 & H2 & _).
  exists s', [], (cl_top "A" 0 1). eexists.
  split; [reflexivity|]. split; [|split; [|split; [|split; [|split; [|split; [exact H2|]]]]]].
  - intros x [<-|[<-|[]]]; apply cl_top_valid; lra.
  - right. right. left. reflexivity.
  - exists [DVal 0; DU (1/2); DVal 0; DU (1/2)]. apply cl_init.
  - rewrite eadd_0_l in H1. exact H1.
  - left. reflexivity.
  - eexists. split.
    + eapply part_in; [left; reflexivity|reflexivity|left; reflexivity|constructor].
    + reflexivity.
Qed.

(** When a nested name always denotes the same space ([setup_ok]), a perturbation configured for
    the space [sq] changes one state of [sq] and nothing else, and all values keep respecting
    their priors. *)
Theorem C54_partial spaces ts q wt s tr s' r tr' : setup_ok spaces ts -> state_ok spaces ts s ->
  In (q, wt) (all_funcs spaces) -> psp_perturb q s tr = Ret (s', r) tr' ->
  exists sq top w p p',
    (q, wt) = own_psp sq /\ In top spaces /\ space_at top w sq /\
    st_holds s ((sp_name top, 0%nat) :: w) p /\ wf sq p /\
    st_changed_at (fun _ x => x = p') ((sp_name top, 0%nat) :: w) s s' /\
    (live r -> state_ok spaces ts s').
Proof.
  intros Hset Hok Hq H. destruct (all_funcs_in _ _ _ Hq) as (s0 & sq & Hs0 & Hsq & E).
  destruct (C16_one_substate q s (state_ok_sane _ _ _ Hset Hok)) as (os & _ & Hos & Hrun & _).
  destruct (Hrun _ _ _ _ H) as (t & tr1 & w & p & i & tr2 & e & we & p' & _ & Hn & _ & _ & _ & Hch & _).
  assert (Hin : In (w, p) os) by (eapply nth_error_In; eauto).
  apply Hos in Hin. destruct Hin as [(w0 & j & Ew & _) Hh].
  destruct Hh as (k & w' & p0 & Ew' & Hg & Hh). 
  assert (Hk : exists sk, In sk spaces /\ k = sp_name sk).
  { assert (Hk : In k (dkeys (st_vals s))) by (eapply dget_in_keys; exact Hg).
    apply (so_keys _ _ _ Hok) in Hk. destruct Hk as [Hk|(tg & Htg & Hu & ->)]; auto.
    destruct (so_noise _ _ _ Hok tg Htg Hu) as (d & E' & _). congruence. }
  destruct Hk as (top & Htop & ->).
  destruct (so_spaces _ _ _ Hok top Htop) as (p0' & E' & Hwf0). rewrite Hg in E'. injection E' as <-.
  destruct (holds_space _ _ _ Hh top (se_valid _ _ Hset _ Htop) Hwf0) as (s1 & Hat & Hwf).
  assert (En : sp_name s1 = sp_name sq).
  { assert (Eq : psp_space q = sp_name sq) by (unfold own_psp in E; injection E as -> _; reflexivity).
    rewrite Eq in Ew. rewrite Ew in Ew'. destruct w0 as [|x w0]; cbn in Ew'; [injection Ew' as E1 E2 E3|injection Ew' as E1 E2].
    - subst w'. inversion Hat; subst. auto.
    - eapply space_at_name; [apply (se_valid _ _ Hset _ Htop)|exact Hat|symmetry; exact E2]. }
  assert (s1 = sq) by (eapply (se_nested _ _ Hset top s0); eauto using space_at_sub). subst s1.
  exists sq, top, w', p, p'. split; auto. split; auto. split; auto. split.
  - exists (sp_name top), w', p0. auto.
  - split; auto. split; [rewrite <- Ew'; exact Hch|]. intros Hl. eapply psp_run; eauto.
Qed.
(** The worked example: a tessellation with a nested space, and a birth. *)
Example C54_case : setup_ok [ex_vor] [ex_t] /\ state_ok [ex_vor] [ex_t] ex_start /\
  In (own_psp ex_vor) (all_funcs [ex_vor]) /\
  psp_perturb ex_own ex_start [DInt 0; DU 0; DU (8/10); DU (3/4); DZ 1] = Ret (ex_next, Fin 0) [].
Proof.
  split; [apply ex_setup|]. split; [|split].
  - eapply (starting_ok [ex_vor] ex_ll); [apply ex_setup|apply (ex_starting [])].
  - right. left. reflexivity.
  - apply ex_birth.
Qed.

(** * C55: sample and initialize give the same structure *)
(** Arrays for priors and lists of states for nested spaces, one per dimension, at every level. *)
Definition structured (s : space) (p : psstate) : Prop := forall s' p', part s p s' p' ->
  dkeys (ps_vals p') = names s' /\
  (forall k pr, In (k, PPrior pr) (sp_params s') ->
     exists l, ps_get k p' = Some (Arr l) /\ length l = ps_n p') /\
  (forall k s1, In (k, PSpace s1) (sp_params s') ->
     exists l, ps_get k p' = Some (Lst l) /\ length l = ps_n p').
(** No tessellation is nested directly in a plain parameter space. *)
Definition no_disc_in_plain (s : space) : Prop := forall s1 k s2, sub_space s s1 ->
  is_disc s1 = false -> In (k, PSpace s2) (sp_params s1) -> is_disc s2 = false.


Inductive no_obj : psstate -> Prop :=
| no_obj_intro p : (forall k l, ~ In (k, AObj l) (ps_vals p)) ->
    (forall k v q, In (k, v) (ps_vals p) -> In q (states_in v) -> no_obj q) -> no_obj p.
Lemma no_obj_part s p s' p' : part s p s' p' -> no_obj p -> no_obj p'.
Proof.
  induction 1 as [|s p k s1 v q s' p' Hin Hg Hq Hp IH]; intros H; auto.
  apply IH. inversion H as [? H1 H2]; subst. eapply H2; eauto. eapply dget_some_in. exact Hg.
Qed.
Lemma no_obj_structured s p : valid s -> wf s p -> no_obj p -> structured s p.
Proof.
  intros Hv Hw Hn s' p' Hp. pose proof (no_obj_part _ _ _ _ Hp Hn) as Hn'.
  destruct (Hw _ _ Hp) as (_ & (Hk & Hl & Hpr & Hsp) & _ & _). split; auto. split.
  - intros k pr Hin. destruct (Hpr _ _ Hin) as (l & E). exists l. split; auto. exact (Hl _ _ E).
  - intros k s1 Hin. destruct (Hsp _ _ Hin) as (l & [E|E]); exists l.
    + split; auto. exact (Hl _ _ E).
    + exfalso. inversion Hn' as [? H1 _]; subst. apply (H1 k l). now apply dget_some_in.
Qed.
Lemma initialize_no_obj s : forall tr p tr', ModelSpace.initialize s tr = Ret p tr' -> no_obj p.
Proof.
  induction s as [s IH] using space_ind'. intros tr p tr' H. apply initialize_made in H. destruct H as [H _].
  constructor.
  - intros k l Hin. apply H in Hin. destruct Hin as [[a E]|[[a E]|(a & s' & E & _)]]; discriminate.
  - intros k v q Hin Hq. apply H in Hin. destruct Hin as [[a ->]|[[a ->]|(a & s' & -> & Hin & Ha)]]; try destruct Hq.
    cbn in Hq. destruct (Ha q Hq) as (t & t' & E). eapply IH; eauto.
Qed.
Lemma sample_no_obj s : no_disc_in_plain s -> forall tr p tr', ModelSpace.sample s tr = Ret p tr' -> no_obj p.
Proof.
  induction s as [s IH] using space_ind'. intros Hs tr p tr' H. apply sample_made in H. destruct H as [H _].
  assert (Hf : forall k s', In (k, PSpace s') (sp_params s) -> (negb (is_disc s) && is_disc s')%bool = false).
  { intros k s' Hin. destruct (is_disc s) eqn:Ed; auto. cbn. eapply Hs; eauto. constructor. }
  constructor.
  - intros k l Hin. apply H in Hin. destruct Hin as [[a E]|[[a E]|(a & s' & E & Hin & _)]]; try discriminate.
    rewrite (Hf _ _ Hin) in E. discriminate.
  - intros k v q Hin Hq. apply H in Hin. destruct Hin as [[a ->]|[[a ->]|(a & s' & -> & Hin & Ha)]]; try destruct Hq.
    rewrite (Hf _ _ Hin) in Hq. cbn in Hq. destruct (Ha q Hq) as (t & t' & E).
    apply (IH _ _ Hin) with (tr := t) (tr' := t'); auto.
    intros s1 k1 s2 Hsub. apply Hs. econstructor; eauto.
Qed.

Theorem C55_initialize s tr p tr' : valid s -> ModelSpace.initialize s tr = Ret p tr' -> structured s p.
Proof. intros Hv H. apply no_obj_structured; auto; [eapply initialize_wf; eauto|eapply initialize_no_obj; eauto]. Qed.
(** sample gives that structure too if no tessellation is nested directly in a plain space ... *)
Theorem C55_sample_partial s tr p tr' : valid s -> no_disc_in_plain s -> ModelSpace.sample s tr = Ret p tr' -> structured s p.
Proof. intros Hv Hd H. apply no_obj_structured; auto; [eapply sample_wf; eauto|eapply sample_no_obj; eauto]. Qed.
(** ... and otherwise it never does, unless it has no dimension at all: the states are in an
    array of objects. *)
Theorem C55_array_of_objects s k s1 tr p tr' : valid s -> is_disc s = false ->
  In (k, PSpace s1) (sp_params s) -> is_disc s1 = true -> ModelSpace.sample s tr = Ret p tr' ->
  exists l, ps_get k p = Some (AObj l).
Proof.
  intros Hv Hd Hin Hd1 H. pose proof (sample_wf s Hv _ _ _ H) as Hw.
  destruct (wf_local _ _ Hw) as (_ & (_ & _ & _ & Hsp) & _). destruct (Hsp _ _ Hin) as (l & [E|E]); eauto.
  exfalso. apply sample_made in H. destruct H as [H _]. specialize (H k (Lst l) (dget_some_in _ _ _ E)).
  destruct (valid_here _ Hv) as (_ & _ & _ & Hnd & _).
  destruct H as [[a E']|[[a E']|(a & s' & E' & Hin' & _)]]; try discriminate.
  assert (PSpace s' = PSpace s1).
  { pose proof (dget_in_nodup _ _ _ Hnd Hin). pose proof (dget_in_nodup _ _ _ Hnd Hin'). congruence. }
  injection H as ->. rewrite Hd, Hd1 in E'. discriminate.
Qed.
Definition so_vor : space := Space "vor" (Some 1%nat) 1 1 0 (Vor1 0 10 1 true) [("v", PPrior ex_v)].
Definition so_top : space := Space "top" (Some 1%nat) 1 1 0 Plain [("vor", PSpace so_vor)].
Lemma so_top_valid : valid so_top.
Proof.
  intros s Hs. inversion Hs as [|? k s1 ? Hin Hsub]; subst.
  - split; [cbn; lia|]. split; [cbn; lra|]. split; [exact I|]. split; [|split; [|split]].
    + constructor; [intros []|constructor].
    + intros [E|[]]; discriminate.
    + intros k p [E|[]]; discriminate.
    + intros k s' [E|[]]. injection E as <- <-. reflexivity.
  - destruct Hin as [E|[]]. injection E as <- <-. inversion Hsub as [|? k s1 ? Hin2]; subst.
    + split; [cbn; lia|]. split; [cbn; lra|]. split; [cbn; lra|]. split; [|split; [|split]].
      * constructor; [intros []|constructor].
      * intros [E|[]]; discriminate.
      * intros k p [E|[]]. injection E as <- <-. split; auto. apply ex_prior_v.
      * intros k s' [E|[]]; discriminate.
    + destruct Hin2 as [E|[]]; discriminate.
Qed.
Definition so_sub : psstate :=
  PS 1 [("discretization", Arr [5]); ("v", Arr [2])] [("discretization", Arr [5]); ("v", Arr [2])] [].
Theorem C55_structure_refuted : exists s tr p q,
  valid s /\ ModelSpace.initialize s tr = Ret p [] /\ ModelSpace.sample s tr = Ret q [] /\
  ps_get "vor" p = Some (Lst [so_sub]) /\ ps_get "vor" q = Some (AObj [so_sub]) /\
  ~ structured s q.
Proof.
  exists so_top, [DU (1/2); DU (1/2)].
  exists (PS 1 [("vor", Lst [so_sub])] [("vor", Lst [so_sub])] []).
  exists (PS 1 [("vor", AObj [so_sub])] [("vor", AObj [so_sub])] []).
  split; [apply so_top_valid|]. split; [run; same|]. split; [run; same|].
  split; [reflexivity|]. split; [reflexivity|]. intros H.
  destruct (H so_top _ (part_here _ _)) as (_ & _ & H3). destruct (H3 "vor" so_vor) as (l & E & _).
  - left. reflexivity.
  - discriminate.
Qed.
Example C55_case : valid ex_vor /\ no_disc_in_plain ex_vor /\
  ModelSpace.sample ex_vor [DInt 1; DU (1/2); DU (1/2); DZ (1/2)] = Ret ex_p0 [].
Proof.
  split; [apply (se_valid _ _ ex_setup); left; reflexivity|]. split.
  - intros s1 k s2 H Hd Hin. apply ExampleRun.ex_sub in H. destruct H as [->| ->]; [discriminate|].
    destruct Hin as [E|[]]; discriminate.
  - run. same.
Qed.
