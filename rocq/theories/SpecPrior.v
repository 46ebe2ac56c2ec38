(** Specification of the priors: densities, and hyper-parameters that depend on the
    position.  Nothing of the model's arithmetic is used. *)
From Verif Require Import Base SpecUtils1D ModelPrior.
Local Open Scope R_scope.

(** Piecewise-linear function through the nodes [x] with values [y], constant outside. *)
Definition linear_value (x y : list R) (q v : R) : Prop :=
  (exists a, nth_error x 0 = Some a /\ q <= a /\ nth_error y 0 = Some v) \/
  (exists a z, nth_error x 0 = Some a /\ a < q /\
     nth_error x (length x - 1) = Some z /\ z <= q /\ nth_error y (length x - 1) = Some v) \/
  (exists i c d u w z,
     nth_error x i = Some c /\ nth_error x (S i) = Some d /\
     nth_error y i = Some u /\ nth_error y (S i) = Some w /\
     nth_error x (length x - 1) = Some z /\ q < z /\ c < q <= d /\
     v = u + (q - c) * ((w - u) / (d - c))).

(** [r] is the value of the hyper-parameter [h] at [at_]. *)
Definition hyper_is (h : hyper) (at_ : option pos) (r : R) : Prop :=
  match h with
  | HS c => r = c
  | HI x y => exists q, at_ = Some (P1 q) /\ linear_value x y q r
  | HN f => exists v, at_ = Some (PN v) /\ f v = Some r
  end.

(** Nodes in order, one value per node: what add_hyper_params demands of arrays, and
    the docstring of the positions. *)
Definition hyper_ok (h : hyper) : Prop :=
  match h with
  | HI x y => x <> [] /\ sortedR x /\ length y = length x
  | _ => True
  end.

(** Probability densities. *)
Definition in_interval (lo hi v : R) : Prop := lo <= v <= hi.
Definition gauss_pdf (mu sd v : R) : R := exp (- ((v - mu) ^ 2 / (2 * sd ^ 2))) / (sd * sqrt (2 * PI)).
Definition laplace_pdf (mu b v : R) : R := exp (- (Rabs (v - mu) / b)) / (2 * b).

(** [f] is the density at [v] of the distribution [d] at position [at_]. *)
Inductive has_density (d : dist) (at_ : option pos) (v : R) : R -> Prop :=
| HD_in a b lo hi : d = Uniform a b -> hyper_is a at_ lo -> hyper_is b at_ hi -> lo < hi ->
    in_interval lo hi v -> has_density d at_ v (/ (hi - lo))
| HD_out a b lo hi : d = Uniform a b -> hyper_is a at_ lo -> hyper_is b at_ hi -> lo < hi ->
    ~ in_interval lo hi v -> has_density d at_ v 0
| HD_gauss m s mu sd : d = Gauss m s -> hyper_is m at_ mu -> hyper_is s at_ sd -> 0 < sd ->
    has_density d at_ v (gauss_pdf mu sd v)
| HD_laplace m b mu sc : d = Laplace m b -> hyper_is m at_ mu -> hyper_is b at_ sc -> 0 < sc ->
    has_density d at_ v (laplace_pdf mu sc v).

Definition dist_ok (d : dist) : Prop :=
  match d with
  | Uniform a b | Gauss a b | Laplace a b => hyper_ok a /\ hyper_ok b
  | Custom _ _ _ => True
  end.

(** Logarithm of a density, with log 0 = -inf. *)
Definition log_density (f : R) (l : ext) : Prop :=
  (f = 0 /\ l = MInf) \/ (0 < f /\ l = Fin (ln f)).
