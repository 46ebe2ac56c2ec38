(** Specification of parameter spaces: valid configurations, parts of a state, and what has
    to hold of each part.  Only the data types of the model are used, none of its
    functions that create or change states. *)
From Verif Require Import Base ModelPrior ModelState ModelSpace SpecUtils1D SpecPrior SpecState.
Local Open Scope R_scope.

(** * Configurations *)
(** [sub_space s s']: [s'] is [s] or is nested in it, at any depth. *)
Inductive sub_space : space -> space -> Prop :=
| sub_here s : sub_space s s
| sub_in s k s1 s' : In (k, PSpace s1) (sp_params s) -> sub_space s1 s' -> sub_space s s'.

(** A prior as its constructor makes it from sensible arguments: nodes in order, lower
    bound below upper bound at every position; without attribute position all
    hyper-parameters are scalars. *)
Definition scalar (h : hyper) : Prop := exists r, h = HS r.
Definition scalar_dist (d : ModelPrior.dist) : Prop :=
  match d with
  | Uniform a b | Gauss a b | Laplace a b => scalar a /\ scalar b
  | Custom _ _ _ => True
  end.
Definition prior_ok (p : prior) : Prop :=
  dist_ok (p_dist p) /\
  (p_pos p = false -> scalar_dist (p_dist p)) /\
  match p_dist p with
  | Uniform a b => forall at_ lo hi, hyper_is a at_ lo -> hyper_is b at_ hi -> lo <= hi
  | _ => True
  end.

(** The box of a tessellation. *)
Definition boxed (lo hi x : list R) : Prop :=
  forall i a b y, nth_error lo i = Some a -> nth_error hi i = Some b -> nth_error x i = Some y ->
    a <= y <= b.
Definition class_ok (c : sclass) : Prop :=
  match c with
  | Plain => True
  | Vor1 lo hi _ _ => lo <= hi
  | VorN d lo hi _ poly _ _ =>
      length lo = d /\ length hi = d /\
      (forall i a b, nth_error lo i = Some a -> nth_error hi i = Some b -> a <= b) /\
      (* vmin and vmax are the bounds of the polygon *)
      match poly with Some inside => forall x, inside x = true -> boxed lo hi x | None => True end
  end.

Definition space_ok (s : space) : Prop :=
  (1 <= sp_min s <= sp_max s)%nat /\
  0 <= sp_range s <= 1 /\
  class_ok (sp_cls s) /\
  NoDup (dkeys (sp_params s)) /\
  ~ In disc_key (dkeys (sp_params s)) /\
  (forall k p, In (k, PPrior p) (sp_params s) -> k = p_name p /\ prior_ok p) /\
  (forall k s', In (k, PSpace s') (sp_params s) -> k = sp_name s').
(** At all depths. *)
Definition valid (s : space) : Prop := forall s', sub_space s s' -> space_ok s'.

(** * Parts of a state *)
(** [part s p s' p']: [p'] is the state [p] of the space [s] itself, or a state of the
    nested space [s'] stored in it, at any depth. *)
Inductive part : space -> psstate -> space -> psstate -> Prop :=
| part_here s p : part s p s p
| part_in s p k s1 v q s' p' :
    In (k, PSpace s1) (sp_params s) -> ps_get k p = Some v -> In q (states_in v) ->
    part s1 q s' p' -> part s p s' p'.

(** C01 *)
Definition dims_ok (s : space) (p : psstate) : Prop := (sp_min s <= ps_n p <= sp_max s)%nat.
(** C02: the names are the configured ones (after "discretization" for a tessellation);
    every prior has an array of numbers, every nested space its states, one per
    dimension. *)
Definition names (s : space) : list string :=
  (if is_disc s then [disc_key] else []) ++ dkeys (sp_params s).
Definition shape_ok (s : space) (p : psstate) : Prop :=
  dkeys (ps_vals p) = names s /\
  (forall k v, ps_get k p = Some v -> value_len v = ps_n p) /\
  (forall k pr, In (k, PPrior pr) (sp_params s) -> exists l, ps_get k p = Some (Arr l)) /\
  (forall k s', In (k, PSpace s') (sp_params s) ->
     exists l, ps_get k p = Some (Lst l) \/ ps_get k p = Some (AObj l)).
(** C03, C04: the sites. *)
Definition sites_ok (s : space) (p : psstate) : Prop :=
  match sp_cls s with
  | Plain => True
  | Vor1 lo hi _ _ =>
      exists l, ps_get disc_key p = Some (Arr l) /\ sortedR l /\ Forall (fun x => lo <= x <= hi) l
  | VorN d lo hi _ poly _ _ =>
      exists l, ps_get disc_key p = Some (ArrN l) /\
        Forall (fun x => length x = d /\ boxed lo hi x /\
                         match poly with Some inside => inside x = true | None => True end) l
  end.
(** The position of dimension [i]. *)
Definition position_of (s : space) (p : psstate) (i : nat) (at_ : option pos) : Prop :=
  match sp_cls s with
  | Plain => at_ = None
  | Vor1 _ _ _ _ => exists l x, ps_get disc_key p = Some (Arr l) /\ nth_error l i = Some x /\
                                at_ = Some (P1 x)
  | VorN _ _ _ _ _ _ _ => exists l x, ps_get disc_key p = Some (ArrN l) /\ nth_error l i = Some x /\
                                at_ = Some (PN x)
  end.
(** C05 *)
Definition in_support (pr : prior) (at_ : option pos) (v : R) : Prop :=
  match p_dist pr with
  | Uniform a b => forall lo hi, hyper_is a at_ lo -> hyper_is b at_ hi -> lo <= v <= hi
  | _ => True
  end.
Definition support_ok (s : space) (p : psstate) : Prop :=
  forall k pr l i v at_, In (k, PPrior pr) (sp_params s) -> ps_get k p = Some (Arr l) ->
    nth_error l i = Some v -> position_of s p i at_ -> in_support pr at_ v.

(** Everything, for every part. *)
Definition local_ok (s : space) (p : psstate) : Prop :=
  dims_ok s p /\ shape_ok s p /\ sites_ok s p /\ support_ok s p.
Definition wf (s : space) (p : psstate) : Prop := forall s' p', part s p s' p' -> local_ok s' p'.

(** * Insertions and removals *)
Definition inserted {A} (i : nat) (x : A) (l l' : list A) : Prop :=
  (i <= length l)%nat /\ l' = firstn i l ++ x :: skipn i l.
Definition removed {A} (i : nat) (l l' : list A) : Prop :=
  (i < length l)%nat /\ l' = firstn i l ++ skipn (S i) l.
(** [v'] is [v] with one more entry at [i]. *)
Definition grown (i : nat) (v v' : value) : Prop :=
  match v, v' with
  | Arr l, Arr l' => exists x, inserted i x l l'
  | ArrN l, ArrN l' => exists x, inserted i x l l'
  | Lst l, Lst l' => exists x, inserted i x l l'
  | _, _ => False
  end.
Definition shrunk (i : nat) (v v' : value) : Prop :=
  match v, v' with
  | Arr l, Arr l' => removed i l l'
  | ArrN l, ArrN l' => removed i l l'
  | AObj l, AObj l' => removed i l l'
  | Lst l, Lst l' => removed i l l'
  | _, _ => False
  end.
(** All parameters and the sites change in the same way. *)
Definition all_vals (R : value -> value -> Prop) (p p' : psstate) : Prop :=
  dkeys (ps_vals p') = dkeys (ps_vals p) /\
  forall k v, ps_get k p = Some v -> exists v', ps_get k p' = Some v' /\ R v v'.

(** A log ratio that a chain can accept. *)
Definition live (r : ext) : Prop := match r with Fin _ | PInf => True | _ => False end.
