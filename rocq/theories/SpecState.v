(** Specification vocabulary for states: what can be observed by item access. *)
From Verif Require Import Base ModelState.
Local Open Scope R_scope.

(** The states listed in a value. *)
Definition states_in (v : value) : list psstate :=
  match v with Lst l => l | AObj l => l | _ => [] end.

(** A state without attributes and caches, at all levels: only n_dimensions and the
    parameter values are left. *)
Fixpoint view (p : psstate) : psstate :=
  match p with
  | PS n vals _ _ =>
      PS n ((fix go (l : list (string * value)) : list (string * value) :=
               match l with
               | [] => []
               | (k, v) :: t =>
                   (k, match v with
                       | Arr a => Arr a
                       | ArrN a => ArrN a
                       | AObj ps => AObj ((fix each (q : list psstate) : list psstate :=
                                             match q with [] => [] | x :: r => view x :: each r end) ps)
                       | Lst ps => Lst ((fix each (q : list psstate) : list psstate :=
                                           match q with [] => [] | x :: r => view x :: each r end) ps)
                       end) :: go t
               end) vals) [] []
  end.
Definition view_value (v : value) : value :=
  match v with
  | Arr a => Arr a
  | ArrN a => ArrN a
  | AObj ps => AObj (map view ps)
  | Lst ps => Lst (map view ps)
  end.
Definition view_vals (l : dict value) : dict value :=
  map (fun kv => (fst kv, view_value (snd kv))) l.

Definition view_entry (e : entry) : entry :=
  match e with EPS p => EPS (view p) | ENoise d => ENoise d end.
Definition view_state (s : state) : dict entry :=
  map (fun ke => (fst ke, view_entry (snd ke))) (st_vals s).

(** Keys are pairwise distinct and all lists non-empty, at all levels: what every Python
    dictionary is, and what the constructor of ParameterSpaceState demands. *)
Inductive sane : psstate -> Prop :=
| sane_intro n vals attrs cache :
    NoDup (dkeys vals) ->
    (forall k v, In (k, v) vals -> value_len v = n /\ v <> Lst []) ->
    (forall k v q, In (k, v) vals -> In q (states_in v) -> sane q) ->
    sane (PS n vals attrs cache).
Definition sane_state (s : state) : Prop :=
  NoDup (dkeys (st_vals s)) /\ forall k p, In (k, EPS p) (st_vals s) -> sane p.

(** Attributes in step with the values, at all levels. *)
Inductive in_step : psstate -> Prop :=
| in_step_intro n vals attrs cache :
    (forall k v, dget k vals = Some v -> dget k attrs = Some v) ->
    (forall k v q, In (k, v) vals -> In q (states_in v) -> in_step q) ->
    in_step (PS n vals attrs cache).
