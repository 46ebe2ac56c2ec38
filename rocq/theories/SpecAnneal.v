(** Specification of runs whose rule changes from iteration to iteration.  Independent of the model. *)
From Verif Require Import Base.
Local Open Scope R_scope.

(** The states after each of the iterations, where [next i] is the rule of iteration [i]. *)
Fixpoint visited_at {X D} (next : nat -> X -> D -> X) (i : nat) (x : X) (ds : list D) : list X :=
  match ds with [] => [] | z :: ds' => next i x z :: visited_at next (S i) (next i x z) ds' end.
