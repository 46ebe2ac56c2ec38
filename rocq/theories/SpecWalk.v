(** Specification of bounded random walks: a Gaussian step is drawn again until the new value
    is within the limits. *)
From Verif Require Import Base.
Local Open Scope R_scope.

(** The distribution function of the standard normal law: [F v - F u] is the probability of a
    deviate between [u] and [v].  It is the only distribution function with a density
    proportional to exp(-u^2/2) (the factor is 1/sqrt(2 pi), which is not used). *)
Definition bell (u : R) : R := exp (- (u * u) / 2).
Record normal_cdf (F : R -> R) : Prop := {
  nc_density : exists c, 0 < c /\ forall u, derivable_pt_lim F u (c * bell u);
  nc_range : forall u, 0 < F u < 1;
  nc_low : forall eps, 0 < eps -> exists u, F u < eps;
  nc_high : forall eps, 0 < eps -> exists u, 1 - eps < F u
}.

(** Probability that one step of width [sd] from [x] ends within the limits, and within
    [lo, y]. *)
Definition hit (F : R -> R) (lo hi sd x : R) : R := F ((hi - x) / sd) - F ((lo - x) / sd).
(** Probability that the walk, after [n] steps that were thrown away, ends at most at [y]. *)
Definition after (F : R -> R) (lo hi sd x y : R) (n : nat) : R :=
  (1 - hit F lo hi sd x) ^ n * (F ((y - x) / sd) - F ((lo - x) / sd)).
(** [q] is the density of the value at which the walk from [x] ends. *)
Definition walk_density (F : R -> R) (lo hi sd x : R) (q : R -> R) : Prop :=
  exists C : R -> R, (forall y, lo <= y <= hi -> infinite_sum (after F lo hi sd x y) (C y)) /\
    forall y, lo < y < hi -> derivable_pt_lim C y (q y).

(** log q(old|new) / q(new|old) *)
Definition log_proposal_ratio (q : R -> R -> R) (old new : R) : R := ln (q new old / q old new).
Definition walks (F : R -> R) (lo hi sd : R) (q : R -> R -> R) : Prop :=
  forall x, lo <= x <= hi -> walk_density F lo hi sd x (q x).

(** The walk from [x] throws away the steps [zs] and ends at [y] with the step [z]. *)
Definition first_try (lo hi sd x : R) (zs : list R) (z y : R) : Prop :=
  y = x + z * sd /\ lo <= y <= hi /\ Forall (fun z' => ~ lo <= x + z' * sd <= hi) zs.
