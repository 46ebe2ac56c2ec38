(** Specification for several numbers with ranges of their own: integrals over the ranges, and the mean of a
    quantity over one deviate per number and a uniform number.  Independent of the model. *)
From Coquelicot Require Import Coquelicot.
From Verif Require Import Base SpecInvariance.
Local Open Scope R_scope.

(** One number per range. *)
Definition in_ranges (rs : list (R * R)) (xs : list R) : Prop := Forall2 (fun r x => fst r <= x <= snd r) rs xs.
(** Uniform continuity on the ranges. *)
Definition cont_ranges (rs : list (R * R)) (f : list R -> R) : Prop :=
  forall eps, 0 < eps -> exists d, 0 < d /\
    forall xs ys, in_ranges rs xs -> in_ranges rs ys -> near d xs ys -> Rabs (f xs - f ys) < eps.
(** [v] is the integral of [f] over the ranges: one Riemann integral per number. *)
Fixpoint ranges_integral (rs : list (R * R)) (f : list R -> R) (v : R) : Prop :=
  match rs with
  | [] => v = f []
  | r :: rs' => exists h, (forall x, fst r <= x <= snd r -> ranges_integral rs' (fun xs => f (x :: xs)) (h x)) /\
      is_RInt h (fst r) (snd r) v
  end.
(** [m] is the mean of [h] over [d] independent deviates with the density [phi]; over the deviates and then a
    uniform number. *)
Fixpoint mean_deviates (phi : R -> R) (d : nat) (h : list R -> R) (m : R) : Prop :=
  match d with
  | O => m = h []
  | S d' => exists k, (forall z, mean_deviates phi d' (fun zs => h (z :: zs)) (k z)) /\ mean_deviate phi k m
  end.
Definition mean_many (phi : R -> R) (d : nat) (h : list R -> R -> R) (m : R) : Prop :=
  exists hz, (forall zs, length zs = d -> mean_unit (h zs) (hz zs)) /\ mean_deviates phi d hz m.
