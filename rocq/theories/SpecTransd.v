(** Specification of invariant distributions on lists of real numbers of varying length:
    integrals over all lengths, and the mean of a quantity over the draws of one iteration.
    Independent of the model. *)
From Coquelicot Require Import Coquelicot.
From Verif Require Import Base SpecInvariance.
Local Open Scope R_scope.

(** [v] is the sum of the integrals of [f] over the boxes with [kmin] to [kmax] numbers. *)
Definition trans_integral (lo hi : R) (kmin kmax : nat) (f : list R -> R) (v : R) : Prop :=
  exists h, (forall k, (kmin <= k <= kmax)%nat -> box_integral lo hi k f (h k)) /\
    v = rsum (map h (seq kmin (S kmax - kmin))).

(** Means over an index uniform among [n], and uniform numbers. *)
Definition mean_index_two (n : nat) (h : nat -> R -> R -> R) (m : R) : Prop :=
  exists hu hm, (forall i a, (i < n)%nat -> 0 < a < 1 -> mean_unit (h i a) (hu i a)) /\
    (forall i, (i < n)%nat -> mean_unit (hu i) (hm i)) /\ m = rsum (map hm (seq 0 n)) / INR n.
Definition mean_index_one (n : nat) (h : nat -> R -> R) (m : R) : Prop :=
  exists hm, (forall i, (i < n)%nat -> mean_unit (h i) (hm i)) /\ m = rsum (map hm (seq 0 n)) / INR n.

(** One iteration from [k] numbers: a uniform number [w] chooses a birth with probability 1/5
    ([hb], index among [k + 1] and two uniform numbers), a death with probability 1/5 ([hd],
    index among [k] and a uniform number) or a change of one number ([hv], index, deviate and
    uniform number).  Births at [kmax] and deaths at [kmin] keep what is there ([gx]). *)
Definition mean_iteration (phi : R -> R) (kmin kmax k : nat) (gx : R)
    (hb : nat -> R -> R -> R) (hd : nat -> R -> R) (hv : nat -> R -> R -> R) (m : R) : Prop :=
  exists b d v,
    (if (k <? kmax)%nat then mean_index_two (S k) hb b else b = gx) /\
    (if (kmin <? k)%nat then mean_index_one k hd d else d = gx) /\
    mean_draws phi k hv v /\
    mean_unit (fun w => if Rlt_dec (5 * w) 1 then b else if Rlt_dec (5 * w) 2 then d else v) m.
