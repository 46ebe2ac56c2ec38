(** Specifications for ModelInversion.v, independent of its helpers. *)
From Verif Require Import Base ModelChain ModelInversion.

(** The documented forms of a function specification, with the function, the additional
    arguments and the keyword arguments they stand for. *)
Inductive documented {fn value} : spec fn value -> fn -> list value -> dict value -> Prop :=
| doc_plain f : documented (SItem (IFun f)) f [] []
| doc_single f : documented (STuple [IFun f]) f [] []
| doc_args f a : documented (STuple [IFun f; ISeq a]) f a []
| doc_kwargs f k : documented (STuple [IFun f; IDict k]) f [] k
| doc_both f a k : documented (STuple [IFun f; ISeq a; IDict k]) f a k.

(** Position [i] of the list holds the birth (death) perturbation of space [n]. *)
Definition birth_at {fn value} (fs : list (func fn value)) (n : string) (i : nat) : Prop :=
  nth_error fs i = Some (FPert (PBirth n)).
Definition death_at {fn value} (fs : list (func fn value)) (n : string) (i : nat) : Prop :=
  nth_error fs i = Some (FPert (PDeath n)).

(** Every space that has a birth or a death has exactly one of each. *)
Definition paired {fn value} (fs : list (func fn value)) : Prop :=
  forall n i, birth_at fs n i \/ death_at fs n i ->
    (exists! b, birth_at fs n b) /\ (exists! d, death_at fs n d).

(** Weights after equalisation. *)
Definition equalised {fn value} (fs : list (func fn value)) (ws ws' : list R) : Prop :=
  length ws' = length ws /\
  (forall n b d, birth_at fs n b -> death_at fs n d -> nth_error ws' d = nth_error ws b) /\
  (forall k, (forall n, ~ death_at fs n k) -> nth_error ws' k = nth_error ws k).

(** The key passes the filter. *)
Definition requested (keys : option (list string)) (k : string) : Prop :=
  match keys with None => True | Some ks => In k ks end.
