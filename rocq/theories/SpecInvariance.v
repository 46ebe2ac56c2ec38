(** Specification of invariant distributions on a box of real numbers: integrals over the box,
    and the mean of a quantity over the draws of one iteration.  Independent of the model. *)
From Coquelicot Require Import Coquelicot.
From Verif Require Import Base.
Local Open Scope R_scope.

(** [n] numbers between [lo] and [hi]. *)
Definition in_box (lo hi : R) (n : nat) (xs : list R) : Prop :=
  length xs = n /\ Forall (fun x => lo <= x <= hi) xs.

(** Uniform continuity on the box (on a box the same as continuity). *)
Definition near (d : R) : list R -> list R -> Prop := Forall2 (fun x y => Rabs (x - y) < d).
Definition cont_on (lo hi : R) (n : nat) (f : list R -> R) : Prop :=
  forall eps, 0 < eps -> exists d, 0 < d /\
    forall xs ys, in_box lo hi n xs -> in_box lo hi n ys -> near d xs ys -> Rabs (f xs - f ys) < eps.

(** [v] is the integral of [f] over the box: one Riemann integral per number. *)
Fixpoint box_integral (lo hi : R) (n : nat) (f : list R -> R) (v : R) : Prop :=
  match n with
  | O => v = f []
  | S m => exists h, (forall x, lo <= x <= hi -> box_integral lo hi m (fun xs => f (x :: xs)) (h x)) /\
      is_RInt h lo hi v
  end.

(** [m] is the mean of [h] over a number uniform on the unit interval; over a deviate with
    the density [phi]; over an index uniform below [n], a deviate and a uniform number. *)
Definition mean_unit (h : R -> R) (m : R) : Prop := is_RInt h 0 1 m.
Definition mean_deviate (phi : R -> R) (h : R -> R) (m : R) : Prop :=
  exists part : R -> R, (forall t, 0 < t -> is_RInt (fun z => phi z * h z) (- t) t (part t)) /\
    is_lim part p_infty m.
Definition mean_draws (phi : R -> R) (n : nat) (h : nat -> R -> R -> R) (m : R) : Prop :=
  exists (hz : nat -> R -> R) (hm : nat -> R),
    (forall i z, (i < n)%nat -> mean_unit (h i z) (hz i z)) /\
    (forall i, (i < n)%nat -> mean_deviate phi (hz i) (hm i)) /\
    m = rsum (map hm (seq 0 n)) / INR n.
