(** Specification of estimates from several chains.  Independent of the model. *)
From Verif Require Import Base SpecEstimate.
Local Open Scope R_scope.

(** What one chain draws in [n] iterations. *)
Definition drawn_by_chain {D} (D0 : D -> Prop) (n : nat) (ds : list D) : Prop := length ds = n /\ Forall D0 ds.
(** [m] is the mean of [h] over the draws of [p] chains that run independently, [n] iterations each. *)
Definition mean_chains {D} (M : (D -> R) -> R -> Prop) (D0 : D -> Prop) (n p : nat) (h : list (list D) -> R) (m : R) : Prop :=
  mean_rounds (mean_rounds M D0 n) (drawn_by_chain D0 n) p h m.
(** The samples of all chains, those of the first chain first. *)
Definition pooled {X D} (samples : X -> list D -> list X) (starts : list X) (dss : list (list D)) : list X :=
  concat (map (fun xd => samples (fst xd) (snd xd)) (combine starts dss)).
