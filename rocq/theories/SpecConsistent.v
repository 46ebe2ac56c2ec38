(** Specification: an event is likely.  Independent of the model. *)
From Verif Require Import Base SpecEstimate SpecPool.
Local Open Scope R_scope.

(** What [p] chains draw, [n] iterations each. *)
Definition drawn_by_chains {D} (D0 : D -> Prop) (n p : nat) (dss : list (list D)) : Prop :=
  length dss = p /\ Forall (drawn_by_chain D0 n) dss.
(** The event [A] has at least the probability [c]: the mean of some function that is at most 1, and at most 0 outside
    [A], is at least [c].  (The event need not have an integrable indicator.) *)
Definition likely {D} (M : (D -> R) -> R -> Prop) (D0 : D -> Prop) (n p : nat) (A : list (list D) -> Prop) (c : R) : Prop :=
  exists f m, (forall dss, drawn_by_chains D0 n p dss -> f dss <= 1 /\ (~ A dss -> f dss <= 0)) /\
    mean_chains M D0 n p f m /\ c <= m.
(** [c] is the probability of [A]. *)
Definition probability {D} (M : (D -> R) -> R -> Prop) (D0 : D -> Prop) (n p : nat) (A : list (list D) -> Prop) (c : R) : Prop :=
  exists f, (forall dss, drawn_by_chains D0 n p dss -> (A dss -> f dss = 1) /\ (~ A dss -> f dss = 0)) /\
    mean_chains M D0 n p f c.
