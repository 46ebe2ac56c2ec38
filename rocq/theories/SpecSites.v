(** Specification for chains that move the sites of a tessellation: lists in increasing order, mean over
    the draws of one iteration, and the probability that steps from all sites stay within the limits. *)
From Coquelicot Require Import Coquelicot.
From Verif Require Import Base SpecWalk SpecInvariance.
Local Open Scope R_scope.

(** The same numbers in increasing order. *)
Fixpoint place (x : R) (l : list R) : list R :=
  match l with
  | [] => [x]
  | y :: t => if Rle_dec x y then x :: y :: t else y :: place x t
  end.
Fixpoint in_order (l : list R) : list R := match l with [] => [] | x :: t => place x (in_order t) end.

(** [m] is the mean of [h] over an index uniform below [n], the end of a walk from the number at this
    index with density [w], and a uniform number. *)
Definition mean_moves (w : R -> R -> R) (lo hi : R) (n : nat) (xs : list R) (h : nat -> R -> R -> R) (m : R) : Prop :=
  exists (hy : nat -> R -> R) (hm : nat -> R),
    (forall i y, (i < n)%nat -> lo <= y <= hi -> mean_unit (h i y) (hy i y)) /\
    (forall i, (i < n)%nat -> is_RInt (fun y => w (nth i xs 0) y * hy i y) lo hi (hm i)) /\
    m = rsum (map hm (seq 0 n)) / INR n.

(** Probability that one step from each of [xs] ends within the limits. *)
Definition stays (F : R -> R) (lo hi sd : R) (xs : list R) : R := fold_right (fun x p => hit F lo hi sd x * p) 1 xs.
