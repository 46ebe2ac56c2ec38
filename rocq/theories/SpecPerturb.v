(** Specification of perturbations of a state: places in the tree of parameter-space states
    and changes confined to one place. *)
From Verif Require Import Base ModelState SpecState.
Local Open Scope R_scope.

(** A place: names of the entries on the way down, with the index in the list stored there
    (0 for the entries of the State itself, which are single states). *)
Definition place := list (string * nat).
(** [holds_at p w q]: going down from [p] along [w] one finds [q]. *)
Inductive holds_at : psstate -> place -> psstate -> Prop :=
| holds_here p : holds_at p [] p
| holds_in p k i l c w q :
    ps_get k p = Some (Lst l) -> nth_error l i = Some c -> holds_at c w q ->
    holds_at p ((k, i) :: w) q.
Definition st_holds (s : state) (w : place) (q : psstate) : Prop :=
  exists k w' p, w = (k, 0%nat) :: w' /\ st_get k s = Some (EPS p) /\ holds_at p w' q.
(** The place is that of a state stored under [name] (and not inside another one stored
    under that name). *)
Definition stored (name : string) (w : place) : Prop :=
  exists w0 i, w = w0 ++ [(name, i)] /\ ~ In name (map fst w0).

(** [changed_at Q w p p']: [p'] is [p] with the state at [w] replaced by one in relation [Q]
    to it; numbers of dimensions, names and all other values are equal. *)
Inductive changed_at (Q : psstate -> psstate -> Prop) : place -> psstate -> psstate -> Prop :=
| changed_here p p' : Q p p' -> changed_at Q [] p p'
| changed_in p p' k i l l' c c' w :
    ps_n p' = ps_n p -> dkeys (ps_vals p') = dkeys (ps_vals p) ->
    ps_get k p = Some (Lst l) -> ps_get k p' = Some (Lst l') ->
    nth_error l i = Some c -> nth_error l' i = Some c' -> changed_at Q w c c' ->
    length l' = length l ->
    (forall j, j <> i -> option_map view (nth_error l' j) = option_map view (nth_error l j)) ->
    (forall k', k' <> k -> option_map view_value (ps_get k' p') = option_map view_value (ps_get k' p)) ->
    changed_at Q ((k, i) :: w) p p'.
Definition st_changed_at (Q : psstate -> psstate -> Prop) (w : place) (s s' : state) : Prop :=
  exists k w' p p', w = (k, 0%nat) :: w' /\ st_get k s = Some (EPS p) /\ st_get k s' = Some (EPS p') /\
    changed_at Q w' p p' /\ dkeys (st_vals s') = dkeys (st_vals s) /\
    (forall k', k' <> k -> option_map view_entry (st_get k' s') = option_map view_entry (st_get k' s)).
