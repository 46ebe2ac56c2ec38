(** Independent specification for samplers: temperature ladder, cooling, batches, exchange
    probability, callbacks. *)
From Verif Require Import Base SpecChain.
Local Open Scope R_scope.

(** [m] is the integer part of [x >= 0]. *)
Definition is_floor (x : R) (m : nat) : Prop := INR m <= x < INR m + 1.

(** Documented ladder for [n] chains, [m] of them at unit temperature, up to [T]. *)
Record ladder (n m : nat) (T : R) (ts : list R) : Prop := {
  lad_length : length ts = n;
  lad_bounds : forall i t, nth_error ts i = Some t -> 1 <= t <= T;
  lad_sorted : forall i t t',
    nth_error ts i = Some t -> nth_error ts (S i) = Some t' -> t <= t';
  lad_ones : forall i t, nth_error ts i = Some t -> (t = 1 <-> (i < m)%nat);
  lad_last : (m < n)%nat -> nth_error ts (n - 1) = Some T;
  lad_geometric : exists q, forall i t t', (m - 1 <= i)%nat ->
    nth_error ts i = Some t -> nth_error ts (S i) = Some t' -> t' = q * t
}.

(** Temperature of iteration [i] (from 0) while annealing from [T0] over [B] iterations. *)
Definition cool (T0 : R) (B i : nat) : R :=
  if (i <? B)%nat then Rpower T0 (1 - INR i / INR B) else 1.

(** Numbers of iterations of the batches that make up [n] iterations. *)
Definition batch_sizes (swap_every n : nat) : list nat :=
  repeat swap_every (n / swap_every) ++
  (if (n mod swap_every =? 0)%nat then [] else [n mod swap_every]).

(** The rule for exchanging two tempered chains: chain 1 at [T1] with log likelihood [L1],
    chain 2 at [T2] with [L2]. *)
Definition exchange_prob (T1 T2 L1 L2 : R) : R :=
  Rmin 1 (exp ((1 / T1 - 1 / T2) * (L2 - L1))).
(** Tempered likelihood. *)
Definition tempered (T L : R) : R := exp (L / T).

(** A schedule performs [n] steps of each of [m] workers. *)
Definition fair (m n : nat) (sch : list nat) : Prop :=
  (forall i, In i sch -> (i < m)%nat) /\
  (forall i, (i < m)%nat -> count_occ Nat.eq_dec sch i = n).
