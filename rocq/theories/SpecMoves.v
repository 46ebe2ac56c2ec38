(** Specification of single moves: the cells of a tessellation. *)
From Verif Require Import Base ModelPrior ModelState ModelSpace ModelPerturb SpecChain.
Local Open Scope R_scope.

(** The entry of one dimension in the values of a parameter (or in the sites). *)
Inductive item := INum (r : R) | IRow (x : list R) | IState (p : psstate).
Definition item_at (v : value) (j : nat) : option item :=
  match v with
  | Arr l => option_map INum (nth_error l j)
  | ArrN l => option_map IRow (nth_error l j)
  | AObj l => option_map IState (nth_error l j)
  | Lst l => option_map IState (nth_error l j)
  end.
(** Everything a state has in dimension [j]: its site and the value of every parameter, each with its
    name. *)
Definition cell (p : psstate) (j : nat) : list (string * option item) :=
  map (fun kv => (fst kv, item_at (snd kv) j)) (ps_vals p).
Definition cells (p : psstate) : list (list (string * option item)) := map (cell p) (seq 0 (ps_n p)).
(** The same cell at another site. *)
Definition pos_item (x : pos) : item := match x with P1 y => INum y | PN y => IRow y end.
Definition cell_to (x : pos) (c : list (string * option item)) : list (string * option item) :=
  map (fun kv => (fst kv, if String.eqb (fst kv) "discretization" then Some (pos_item x) else snd kv)) c.
(** [l'] is [l] with one entry replaced. *)
Definition replaced {A} (i : nat) (f : A -> A) (l l' : list A) : Prop :=
  length l' = length l /\
  forall j, nth_error l' j = if (j =? i)%nat then option_map f (nth_error l j) else nth_error l j.

(** * Densities (C11)
    [f k x]: prior density of the value [x] of parameter [k].  The density of a cell is the
    product over its parameters, that of a state the product over its cells. *)
Fixpoint rprod (l : list R) : R := match l with [] => 1 | x :: t => x * rprod t end.
Definition cell_density (f : string -> option item -> R) (c : list (string * option item)) : R :=
  rprod (map (fun kx => f (fst kx) (snd kx)) c).
Definition state_density (f : string -> option item -> R) (p : psstate) : R :=
  rprod (map (cell_density f) (cells p)).

(** * Elementary moves (C39)
    The moves of one space with their weights. *)
Definition is_prior (p : param) : bool := match p with PPrior _ => true | PSpace _ => false end.
Inductive move_of (s : space) : elem -> R -> Prop :=
| mv_birth : sp_fixed s = None -> move_of s (EBirth s) 1
| mv_death : sp_fixed s = None -> move_of s (EDeath s) 1
| mv_values l : l <> [] -> l = filter is_prior (map snd (sp_params s)) -> move_of s (EParam (sp_name s) l) 3
| mv_sites : sp_cls s <> Plain -> move_of s (EParam (sp_name s) [PSpace s]) 1.
(** Sum of the weights of all elementary moves of a space and of the spaces nested in it. *)
Definition own_weight (s : space) : R :=
  (match sp_fixed s with None => 2 | Some _ => 0 end) +
  (if existsb is_prior (map snd (sp_params s)) then 3 else 0) +
  (match sp_cls s with Plain => 0 | _ => 1 end).
Fixpoint tree_weight (s : space) : R :=
  match s with
  | Space name fixed nmin nmax range cls params =>
      own_weight (Space name fixed nmin nmax range cls params) +
      (fix go (l : list (string * param)) : R :=
         match l with
         | [] => 0
         | (_, PSpace s') :: t => tree_weight s' + go t
         | (_, PPrior _) :: t => go t
         end) params
  end.
(** The chance that [choices] selects entry [i]: the length of the segment of draws that select it. *)
Definition chance (ws : list R) (i : nat) : R := (weight_before ws (S i) - weight_before ws i) / rsum ws.
