(** Specification of estimates from the samples of a run: the states visited, those that are on the schedule, their
    average, and means over the draws of all iterations.  Independent of the model. *)
From Verif Require Import Base.
Local Open Scope R_scope.

(** The states after each of the iterations; [z] stands for all that one iteration draws. *)
Fixpoint visited {X D} (next : X -> D -> X) (x : X) (ds : list D) : list X :=
  match ds with [] => [] | z :: ds' => next x z :: visited next (next x z) ds' end.
(** The entries on the schedule; the first of the list belongs to iteration [i + 1]. *)
Fixpoint scheduled {X} (burnin every i : nat) (l : list X) : list X :=
  match l with
  | [] => []
  | x :: l' =>
      if (burnin <? S i)%nat && ((S i - burnin) mod every =? 0)%nat
      then x :: scheduled burnin every (S i) l' else scheduled burnin every (S i) l'
  end.
Definition average (l : list R) : R := rsum l / INR (length l).
(** [m] is the mean of [h] over the draws of [n] iterations, where [M k m'] means that [m'] is the mean of [k] over
    the draws of one iteration, and [D0] says which draws there are. *)
Fixpoint mean_rounds {D} (M : (D -> R) -> R -> Prop) (D0 : D -> Prop) (n : nat) (h : list D -> R) (m : R) : Prop :=
  match n with
  | O => m = h []
  | S n' => exists k, (forall z, D0 z -> mean_rounds M D0 n' (fun ds => h (z :: ds)) (k z)) /\ M k m
  end.
(** The same where the draws of an iteration depend on the state it starts from. *)
Fixpoint mean_path {X D} (next : X -> D -> X) (M : X -> (D -> R) -> R -> Prop) (D0 : X -> D -> Prop) (n : nat) (x : X) (h : list D -> R) (m : R) : Prop :=
  match n with
  | O => m = h []
  | S n' => exists k, (forall z, D0 x z -> mean_path next M D0 n' (next x z) (fun ds => h (z :: ds)) (k z)) /\ M x k m
  end.
