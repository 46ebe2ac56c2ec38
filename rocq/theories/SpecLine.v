(** Specification for chains over numbers without limits: integrals over all of R^n, and densities of
    distributions without limits. *)
From Coquelicot Require Import Coquelicot.
From Verif Require Import Base SpecInvariance.
Local Open Scope R_scope.

(** [v] is the integral over all lists of [n] numbers: the limit of the integrals over boxes.  (Used for
    functions bounded by a multiple of a probability density.) *)
Definition whole_integral (n : nat) (f : list R -> R) (v : R) : Prop :=
  exists J : R -> R, (forall r, 0 < r -> box_integral (- r) r n f (J r)) /\ is_lim J p_infty v.
(** Continuous, and bounded. *)
Definition cont (n : nat) (f : list R -> R) : Prop := forall r, 0 < r -> cont_on (- r) r n f.
Definition bounded (n : nat) (f : list R -> R) : Prop := exists B, forall xs, length xs = n -> Rabs (f xs) <= B.
(** Density of independent numbers with the density [f]. *)
Definition independent (f : R -> R) (xs : list R) : R := fold_right (fun x a => f x * a) 1 xs.
