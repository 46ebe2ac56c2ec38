(** What one iteration of a trans-dimensional chain draws, and means over it.  Independent of the model. *)
From Verif Require Import Base SpecInvariance SpecTransd.
Local Open Scope R_scope.

(** A birth (index, where, uniform number), a death, a change of a number (index, deviate, uniform number), or a
    birth or death that is refused. *)
Inductive event := Born (i : nat) (a u : R) | Died (i : nat) (u : R) | Moved (i : nat) (z u : R) | Refused.
(** The events possible from the numbers [xs]. *)
Definition events (kmin kmax : nat) (xs : list R) (z : event) : Prop :=
  match z with
  | Born i a u => (length xs < kmax)%nat /\ (i <= length xs)%nat /\ 0 < a < 1 /\ 0 < u < 1
  | Died i u => (kmin < length xs)%nat /\ (i < length xs)%nat /\ 0 < u < 1
  | Moved i _ u => (i < length xs)%nat /\ 0 < u < 1
  | Refused => True
  end.
Definition event_mean (phi : R -> R) (kmin kmax : nat) (xs : list R) (k : event -> R) (m : R) : Prop :=
  mean_iteration phi kmin kmax (length xs) (k Refused) (fun i a u => k (Born i a u)) (fun i u => k (Died i u)) (fun i z u => k (Moved i z u)) m.
