(** Specification for chains over values and a noise level: integrals over both, and the mean over the draws
    of an iteration that moves one or the other. *)
From Coquelicot Require Import Coquelicot.
From Verif Require Import Base SpecWalk SpecInvariance SpecSites.
Local Open Scope R_scope.

(** A noise level between [a] and [b] and [n] numbers between [lo] and [hi]. *)
Definition joint_cont (a b lo hi : R) (n : nat) (f : R -> list R -> R) : Prop :=
  forall eps, 0 < eps -> exists d, 0 < d /\
    forall s t xs ys, a <= s <= b -> a <= t <= b -> in_box lo hi n xs -> in_box lo hi n ys ->
      Rabs (s - t) < d -> near d xs ys -> Rabs (f s xs - f t ys) < eps.
Definition joint_integral (a b lo hi : R) (n : nat) (f : R -> list R -> R) (v : R) : Prop :=
  exists h, (forall s, a <= s <= b -> box_integral lo hi n (f s) (h s)) /\ is_RInt h a b v.

(** [m] is the mean when with probability [p] one of [n] numbers makes a Gaussian step (index, deviate, uniform
    number), and otherwise the noise level [s] walks to a level with the density [w s] (level, uniform number). *)
Definition mean_either (p : R) (phi : R -> R) (n : nat) (w : R -> R -> R) (a b s : R)
    (hv : nat -> R -> R -> R) (hn : R -> R -> R) (m : R) : Prop :=
  exists mv mn, mean_draws phi n hv mv /\ mean_moves w a b 1 [s] (fun _ => hn) mn /\ m = p * mv + (1 - p) * mn.
