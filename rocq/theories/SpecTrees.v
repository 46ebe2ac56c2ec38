(** Specification of the cached kd-trees (C60). *)
From Verif Require Import Base ModelState ModelSpace SpecState.

(** [inside p q]: [q] is [p] itself or a state stored in it, at any depth. *)
Inductive inside : psstate -> psstate -> Prop :=
| inside_here p : inside p p
| inside_in p k v c q : In (k, v) (ps_vals p) -> In c (states_in v) -> inside c q -> inside p q.
(** The tree, if there is one, was built from the sites of the state.  A tree is represented
    by the sites from which it was built. *)
Definition own_tree (p : psstate) : Prop :=
  forall sites, dget "kdtree" (ps_cache p) = Some sites -> ps_get disc_key p = Some sites.
Definition has_tree (p : psstate) : Prop := exists sites, dget "kdtree" (ps_cache p) = Some sites.
(** compute_kdtree=True *)
Definition wants_tree (s : space) : Prop :=
  match sp_cls s with VorN _ _ _ _ _ true _ => True | _ => False end.
