(** Specification for pairs of tempered chains: integrals over two boxes, and quantities that do not depend on
    the order of the chains.  Independent of the model. *)
From Coq Require Import Permutation.
From Coquelicot Require Import Coquelicot.
From Verif Require Import Base SpecInvariance.
Local Open Scope R_scope.

(** [v] is the integral of [f] over pairs of points of the box. *)
Definition pair_integral (lo hi : R) (n : nat) (f : list R -> list R -> R) (v : R) : Prop :=
  exists h, (forall xs, in_box lo hi n xs -> box_integral lo hi n (f xs) (h xs)) /\ box_integral lo hi n h v.
(** Uniform continuity on pairs of points of the box. *)
Definition cont_pair (lo hi : R) (n : nat) (f : list R -> list R -> R) : Prop :=
  forall eps, 0 < eps -> exists d, 0 < d /\
    forall xs ys xs' ys', in_box lo hi n xs -> in_box lo hi n ys -> in_box lo hi n xs' -> in_box lo hi n ys' ->
      near d xs xs' -> near d ys ys' -> Rabs (f xs ys - f xs' ys') < eps.
(** [G] does not depend on the order of a list. *)
Definition order_free {A} (G : list A -> R) : Prop := forall l l', Permutation l l' -> G l = G l'.
