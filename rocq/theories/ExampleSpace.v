(** A tessellation whose newborn cells take their values from the neighbour, with a nested
    tessellation, used in the examples. *)
From Verif Require Import Base ModelUtils1D ModelPrior ModelState ModelSpace ModelPerturb ModelChain 
  SpecUtils1D SpecPrior SpecState SpecSpace SpecPerturb SpecMoves
  ProofUtils1D ProofChain 
  ProofState ProofSpace ProofSpaceB ProofSpaceC ProofSpaceD ProofSpaceE ProofPerturb ProofTree ExampleRun.
Local Open Scope R_scope.
Local Open Scope string_scope.
Local Opaque Rleb Rltb Reqb py_int.
Lemma sqrt_2pi : 0 < sqrt (2 * PI).
Proof. apply sqrt_lt_R0. pose proof PI_RGT_0. lra. Qed.
Ltac num ::= evalR; first [lra | cbn [INR]; lra | pose proof sqrt_2pi; lra].
Definition ex_sub : space := Space "sub" (Some 1%nat) 1 1 0 (Vor1 0 1 1 false) [("w", PPrior ex_w)].
Definition ex_nb : space :=
  Space "nb" None 1 4 1 (Vor1 0 10 1 false) [("v", PPrior ex_v); ("sub", PSpace ex_sub)].
Definition ex_sub0 : psstate :=
  PS 1 [("discretization", Arr [1/2]); ("w", Arr [0])] [("discretization", Arr [1/2]); ("w", Arr [0])] [].
Definition ex_nb0 : psstate :=
  PS 1 [("discretization", Arr [5]); ("v", Arr [2]); ("sub", Lst [ex_sub0])]
       [("discretization", Arr [5]); ("v", Arr [2]); ("sub", Lst [ex_sub0])] [].
Lemma ex_nb_init tr : ModelSpace.initialize ex_nb
   (DInt 1 :: DU (1/2) :: DU (1/2) :: DU (1/2) :: DZ 0 :: tr) = Ret ex_nb0 tr.
Proof. run. same. Qed.
Lemma ex_nb_birth tr : exists q r, 
  vor_birth ex_nb ex_nb0 (DU (8/10) :: DZ 1 :: DU (1/4) :: DVal 77 :: DZ 2 :: tr) = Ret (q, Fin r) tr /\ ps_n q = 2%nat.
Proof. eexists _, _. split; [run; reflexivity|reflexivity]. Qed.

Lemma ex_sub_is s : sub_space ex_sub s -> s = ex_sub.
Proof.
  intros H. inversion H as [|? ? s1 ? Hin]; subst; auto. cbn in Hin. destruct Hin as [E|[]]; discriminate E.
Qed.
Lemma ex_nb_is s : sub_space ex_nb s -> s = ex_nb \/ s = ex_sub.
Proof.
  intros H. inversion H as [|? ? s1 ? Hin Hs]; subst; auto.
  cbn in Hin. destruct Hin as [E|[E|[]]]; [discriminate E|]. injection E as <- <-. right. now apply ex_sub_is.
Qed.
Lemma ex_nb_valid : valid ex_nb.
Proof.
  intros s' H. apply ex_nb_is in H. destruct H as [->| ->].
  - split; [cbn; lia|]. split; [cbn; lra|]. split; [cbn; lra|]. split; [|split; [|split]].
    + cbn. repeat constructor; cbn; intuition discriminate.
    + cbn. intuition discriminate.
    + cbn. intros k p [E|[E|[]]]; [|discriminate E]. injection E as <- <-. split; auto. apply ex_prior_v.
    + cbn. intros k p [E|[E|[]]]; [discriminate E|]. injection E as <- <-. reflexivity.
  - split; [cbn; lia|]. split; [cbn; lra|]. split; [cbn; lra|]. split; [|split; [|split]].
    + cbn. repeat constructor; cbn; intuition discriminate.
    + cbn. intuition discriminate.
    + cbn. intros k p [E|[]]. injection E as <- <-. split; auto. apply ex_prior_w.
    + cbn. intros k p [E|[]]. discriminate E.
Qed.
Lemma ex_nb_wf : wf ex_nb ex_nb0.
Proof. eapply initialize_wf; [apply ex_nb_valid|apply (ex_nb_init [])]. Qed.
