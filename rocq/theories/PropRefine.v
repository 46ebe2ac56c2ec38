(** C67: moves in memory, where objects are shared and changed in place, do what the models with
    values say.  The code is ModelHeap.v; the moves with values are those of ModelPerturb.v and
    ModelLikelihood.v, about which the other properties speak. *)
From Verif Require Import Base ModelUtils1D ModelPrior ModelState ModelSpace ModelChain ModelPerturb ModelLikelihood ModelHeap
  SpecState SpecHeap SpecRefine ProofState ProofSpace ProofHeap ProofHeapB ProofRefine ProofRefineB ProofRefineD ProofRefineE
  ProofRefineF ProofRefineK ExampleRun PropHeap.
Local Open Scope string_scope.
Local Open Scope R_scope.
Local Opaque Rleb Rltb Reqb py_int.

(** * What an object that stands for a state shows
    Reading the objects gives the values of the state. *)
Theorem C67_shown h a s : rep_state h a s ->
  read_state h a = Some (mkState (SpecState.view_state s) [] (st_temp s) (st_cache s) (st_extra s)).
Proof.
  intros H. pose proof (run_view_state h a s [] H) as E. unfold ModelHeap.view_state in E.
  destruct (read_state h a) as [x|]; [|discriminate]. now injection E as ->.
Qed.

(** * Moves of one kind on a parameter-space state *)
Theorem C67_elementary e h a p tr : rep h a p ->
  agree (fun h' x y => untouched h h' /\ rep h' a p /\ rep h' (fst x) (fst y) /\ snd x = snd y)
    (h_elem_perturb e a h tr) (elem_perturb e p tr).
Proof.
  intros H. pose proof (sim_elem e h a p H tr) as S. unfold agree in *.
  destruct (h_elem_perturb e a h tr) as [[x t|x t| |] h']; destruct (elem_perturb e p tr) as [y t'|y t'| |]; cbn in *; auto.
  destruct S as (-> & U & [R E]). repeat split; auto. eapply rep_kept; eauto.
Qed.
(** * The moves of a chain
    From objects that stand for a state, whatever else is in memory and whatever they share, the
    move in memory makes the same draws, and raises the same exception or returns an object that
    stands for the state that the move with values returns, and the same ratio; the state before
    the move is still what it was. *)
Theorem C67_move f h a s tr : rep_state h a s -> sane_state s ->
  agree (fun h' x y => untouched h h' /\ rep_state h' a s /\ rep_state h' (fst x) (fst y) /\ snd x = snd y)
    (h_pfunc f a h tr) (pfunc_perturb f s tr).
Proof.
  intros R Ss. destruct (ok_pfunc f (length h) h a (le_n _) tr) as [V _].
  pose proof (sim_pfunc f h a s R Ss tr) as S. unfold agree in *.
  destruct (h_pfunc f a h tr) as [[x t|x t| |] h']; destruct (pfunc_perturb f s tr) as [y t'|y t'| |]; cbn in *; auto.
  destruct S as (-> & U & [R' E]). repeat split; auto. eapply rep_state_ev; eauto.
Qed.
(** The same for the method [perturb] of a birth, a death, or a move of values. *)
Theorem C67_own_perturb e h a s tr : rep_state h a s ->
  agree (fun h' x y => untouched h h' /\ rep_state h' a s /\ rep_state h' (fst x) (fst y) /\ snd x = snd y)
    (h_elem_perturb_state e a h tr) (elem_perturb_state e s tr).
Proof.
  intros R. destruct (ok_elem_perturb_state (length h) h e a (le_n _) tr) as [V _].
  pose proof (sim_elem_state e h a s R tr) as S. unfold agree in *.
  destruct (h_elem_perturb_state e a h tr) as [[x t|x t| |] h']; destruct (elem_perturb_state e s tr) as [y t'|y t'| |]; cbn in *; auto.
  destruct S as (-> & U & [R' E]). repeat split; auto. eapply rep_state_ev; eauto.
Qed.

(** ** A case
    Two states share an array; a move of the second value of the first of them. *)
Definition ex_value : state := mkState [("ps", EPS (PS 2 [("v", Arr [2; 5/2])] [("v", Arr [2; 5/2])] []))]
  [("ps", EPS (PS 2 [("v", Arr [2; 5/2])] [("v", Arr [2; 5/2])] []))] 1 [] [].
Lemma ex_heap_rep d a : (d = 1%nat /\ a = 2%nat) \/ (d = 5%nat /\ a = 6%nat) ->
  rep ex_heap a (PS 2 [("v", Arr [2; 5/2])] [("v", Arr [2; 5/2])] []).
Proof.
  intros [[-> ->]|[-> ->]].
  - apply (rep_ps ex_heap 2%nat 2 1%nat [("v", 0%nat)] [] [("v", 0%nat)]); try reflexivity.
    + repeat constructor.
    + intros k b E. cbn in E. destruct (String.eqb k "v") eqn:Ek; [|discriminate]. injection E as <-. apply String.eqb_eq in Ek. subst k.
      exists (Arr [2; 5/2]). split; [reflexivity|]. now constructor.
  - apply (rep_ps ex_heap 6%nat 2 5%nat [("v", 0%nat)] [] [("v", 0%nat)]); try reflexivity.
    + repeat constructor.
    + intros k b E. cbn in E. destruct (String.eqb k "v") eqn:Ek; [|discriminate]. injection E as <-. apply String.eqb_eq in Ek. subst k.
      exists (Arr [2; 5/2]). split; [reflexivity|]. now constructor.
Qed.
Lemma ex_heap_state d b a : (d = 3%nat /\ b = 2%nat /\ a = 4%nat) \/ (d = 7%nat /\ b = 6%nat /\ a = 8%nat) -> rep_state ex_heap a ex_value.
Proof.
  intros H. assert (R : rep ex_heap b (PS 2 [("v", Arr [2; 5/2])] [("v", Arr [2; 5/2])] [])).
  { destruct H as [(_ & -> & _)|(_ & -> & _)]; [apply (ex_heap_rep 1)|apply (ex_heap_rep 5)]; auto. }
  exists d, [("ps", b)], [("ps", b)]. destruct H as [(-> & -> & ->)|(-> & -> & ->)]; (split; [reflexivity|]); (split; [reflexivity|]); (split;
    [repeat constructor; exact R|]);
    intros k x E; cbn in E |- *; destruct (String.eqb k "ps") eqn:Ek; try discriminate; injection E as <-; eexists; (split; [reflexivity|]);
    constructor; exact R.
Qed.
Lemma ex_value_sane : sane_state ex_value.
Proof.
  split; [repeat constructor; cbn; tauto|]. intros k p [E|[]]. injection E as <- <-. constructor.
  - repeat constructor; cbn; tauto.
  - intros k' v [E'|[]]. injection E' as <- <-. split; [reflexivity|discriminate].
  - intros k' v q [E'|[]]. injection E' as <- <-. intros [].
Qed.
(** The move in memory (PropHeap.v) returns the object 13; the move with values returns a state with the value
    2.7, and the two states that share the array still have 2.5. *)
Example C67_case tr : exists y h',
  h_pfunc (FSpace (mkPsp "ps" (own_elems ex_plain))) 4%nat ex_heap (DInt 0 :: DU 0 :: DInt 1 :: DZ 2 :: tr) = (Ret (13%nat, Fin 0) tr, h') /\
  pfunc_perturb (FSpace (mkPsp "ps" (own_elems ex_plain))) ex_value (DInt 0 :: DU 0 :: DInt 1 :: DZ 2 :: tr) = Ret (y, Fin 0) tr /\
  rep_state h' 13%nat y /\ SpecState.view_state y = [("ps", EPS (PS 2 [("v", Arr [2; 27/10])] [] []))] /\
  rep_state h' 4%nat ex_value /\ untouched ex_heap h'.
Proof.
  destruct (ex_hmove tr) as (x & -> & E).
  assert (R4 : rep_state ex_heap 4%nat ex_value) by (apply (ex_heap_state 3 2); auto).
  pose proof (C67_move (FSpace (mkPsp "ps" (own_elems ex_plain))) ex_heap 4%nat ex_value (DInt 0 :: DU 0 :: DInt 1 :: DZ 2 :: tr)
    R4 ex_value_sane) as A.
  unfold agree in A. change (h_pfunc (FSpace (mkPsp "ps" (own_elems ex_plain)))) with (h_psp_perturb (mkPsp "ps" (own_elems ex_plain))) in *.
  rewrite E in *. cbn [fst snd] in A.
  destruct (pfunc_perturb _ ex_value _) as [[y r] t'|e t'| |]; try contradiction.
  destruct A as (<- & U & R & Ry & Er). cbn [fst snd] in Ry, Er. subst r. exists y, ex_h3. repeat split; auto.
  pose proof (C67_shown _ _ _ Ry) as Sh.
  assert (Es : read_state ex_h3 13%nat = Some (mkState [("ps", EPS (PS 2 [("v", Arr [2; 27/10])] [] []))] [] 1
    [("perturb_stats", CStats [("ParamPerturbation(ps.v)", INR 1 / INR 1)])] [])) by reflexivity.
  rewrite Es in Sh. injection Sh as Ev _ _ _. now symmetry.
Qed.
Example C67_shared : rep_state ex_heap 4%nat ex_value /\ rep_state ex_heap 8%nat ex_value.
Proof. split; [apply (ex_heap_state 3 2)|apply (ex_heap_state 7 6)]; auto. Qed.
