(** Independent specification of what a Markov chain iteration should do. *)
From Verif Require Import Base.
Local Open Scope R_scope.

(** The Metropolis-Hastings-Green rule: log ratio [a], uniform deviate [u]. *)
Definition mhg_accepts (a : ext) (u : R) : Prop :=
  match a with
  | Fin x => u < Rmin 1 (exp x)
  | PInf => True
  | MInf => False
  | NaN => False
  end.

(** Iteration number [i] (counted from 1) is on the saving schedule. *)
Definition on_schedule (burnin every i : nat) : Prop :=
  (burnin < i)%nat /\ exists q, (i - burnin = q * every)%nat.

(** The part of the weights before entry [i]. *)
Definition weight_before (ws : list R) (i : nat) : R := rsum (firstn i ws).

(** Values of the pairs with key [k], in order. *)
Definition values_of {A} (k : string) (l : list (string * A)) : list A :=
  map snd (filter (fun kv => String.eqb (fst kv) k) l).
(** The list stored under a key; nothing stored is the empty list. *)
Definition stored {A} (k : string) (d : dict (list A)) : list A :=
  match dget k d with Some l => l | None => [] end.

(** [sel] is the sublist of the elements of [l] with property [P], in order. *)
Inductive selects {A} (P : A -> Prop) : list A -> list A -> Prop :=
| sel_nil : selects P [] []
| sel_yes a l sel : P a -> selects P l sel -> selects P (a :: l) (a :: sel)
| sel_no a l sel : ~ P a -> selects P l sel -> selects P (a :: l) sel.

(** Number of dimensions of fixed-dimension spaces are not part of a sample;
    [fixed k] tells the names of such entries. *)
Definition sample_values {A} (fixed : string -> bool) (with_dpred : bool) (k : string)
    (items cache : list (string * A)) : list A :=
  (if fixed k then [] else values_of k items) ++
  (if with_dpred && contains "dpred" k then values_of k cache else []).

(** Total of the values of a dictionary. *)
Definition dict_total {A} (f : A -> R) (d : dict A) : R := rsum (map (fun kv => f (snd kv)) d).
