(** Specification of the log ratio of births from a neighbour: for every number that is born, the
    density of the prior over the density of the proposal. *)
From Verif Require Import Base SpecUtils1D ModelPrior ModelState ModelSpace SpecPrior SpecSpace SpecEnsemble.
Local Open Scope R_scope.

(** Dimension [j] of a state with these sites is closest to [x]. *)
Definition closest (sites : option value) (x : pos) (j : nat) : Prop :=
  match x with
  | P1 y => exists l a, sites = Some (Arr l) /\ nth_error l j = Some a /\ forall b, In b l -> Rabs (y - a) <= Rabs (y - b)
  | PN y => exists l a, sites = Some (ArrN l) /\ nth_error l j = Some a /\ forall b, In b l -> sqdist a y <= sqdist b y
  end.
Definition site_is (sites : option value) (i : nat) (x : pos) : Prop :=
  match x with
  | P1 y => exists l, sites = Some (Arr l) /\ nth_error l i = Some y
  | PN y => exists l, sites = Some (ArrN l) /\ nth_error l i = Some y
  end.
Definition number_is (v : option value) (i : nat) (x : R) : Prop := exists l, v = Some (Arr l) /\ nth_error l i = Some x.
Definition state_is (v : option value) (i : nat) (x : psstate) : Prop :=
  exists l, (v = Some (Lst l) \/ v = Some (AObj l)) /\ nth_error l i = Some x.
Definition sites_number (v : option value) : nat :=
  match v with Some (Arr l) => length l | Some (ArrN l) => length l | _ => 0 end.

(** [v] at [x] is born from the value [nb]: prior density over the density of a normal step with the
    standard deviation for births at [x]. *)
Inductive value_ratio (p : prior) (x : pos) (nb v : R) : R -> Prop :=
| VR f sd : has_density (p_dist p) (Some x) v f -> hyper_is (p_stdb p) (Some x) sd -> 0 < sd ->
    value_ratio p x nb v (f / gauss_pdf nb sd v).

(** Dimension [i] of [new], at [x], born from dimension [j] of [old]: all parameters.  Nested
    tessellations are born from the nested tessellation of that dimension, each of their dimensions
    from the closest one; nested spaces that are not tessellations are drawn from the prior. *)
Inductive cell_ratio : psstate -> psstate -> pos -> nat -> nat -> dict param -> R -> Prop :=
| CR_nil old new x i j : cell_ratio old new x i j [] 1
| CR_prior old new x i j k p t nb v a b : number_is (ps_get k old) j nb -> number_is (ps_get k new) i v ->
    value_ratio p x nb v a -> cell_ratio old new x i j t b -> cell_ratio old new x i j ((k, PPrior p) :: t) (a * b)
| CR_nested old new x i j k s t o n a b : is_disc s = true -> state_is (ps_get k old) j o -> state_is (ps_get k new) i n ->
    cells_ratio s o n 0 (sites_number (ps_get disc_key n)) a ->
    cell_ratio old new x i j t b -> cell_ratio old new x i j ((k, PSpace s) :: t) (a * b)
| CR_plain old new x i j k s t b : is_disc s = false -> cell_ratio old new x i j t b -> cell_ratio old new x i j ((k, PSpace s) :: t) b
(** Dimensions [i], ..., [i + m - 1] of the tessellation [new] of [s]. *)
with cells_ratio : space -> psstate -> psstate -> nat -> nat -> R -> Prop :=
| CS_none s o n i : cells_ratio s o n i 0 1
| CS_next s o n i m x j a b : site_is (ps_get disc_key n) i x -> closest (ps_get disc_key o) x j ->
    cell_ratio o n x i j (sp_params s) a -> cells_ratio s o n (S i) m b -> cells_ratio s o n i (S m) (a * b).

(** Priors with a density: bounds in order, positive standard deviations, no user functions. *)
Definition proper (p : prior) : Prop :=
  hyper_ok (p_stdb p) /\ dist_ok (p_dist p) /\
  match p_dist p with
  | Uniform a b => forall at_ lo hi, hyper_is a at_ lo -> hyper_is b at_ hi -> lo < hi
  | Gauss _ s => forall at_ sd, hyper_is s at_ sd -> 0 < sd
  | Laplace _ _ => True
  | Custom _ _ _ => False
  end.
Definition all_proper (s : space) : Prop := forall s' k p, sub_space s s' -> In (k, PPrior p) (sp_params s') -> proper p.

(** The density of the prior of a tessellation without nested spaces.  Dimension [i] at [x]: *)
Inductive params_density (m : psstate) (x : pos) (i : nat) : dict param -> R -> Prop :=
| PD_nil : params_density m x i [] 1
| PD_next k p t v a b : number_is (ps_get k m) i v -> has_density (p_dist p) (Some x) v a ->
    params_density m x i t b -> params_density m x i ((k, PPrior p) :: t) (a * b).
Definition cell_density (s : space) (m : psstate) (i : nat) (d : R) : Prop :=
  exists x, site_is (ps_get disc_key m) i x /\ params_density m x i (sp_params s) d.
(** Sites are a set of [n] independent points of a domain of volume [vol]; all numbers of dimensions
    are equally probable. *)
Definition state_density (s : space) (vol : R) (m : psstate) (D : R) : Prop :=
  exists ds, length ds = ps_n m /\ (forall i d, nth_error ds i = Some d -> cell_density s m i d) /\
    D = INR (fact (ps_n m)) / vol ^ ps_n m * fold_right Rmult 1 ds.
(** The density of drawing the numbers of dimension [i] of [new] from dimension [j] of [old]. *)
Inductive params_proposal (old new : psstate) (x : pos) (i j : nat) : dict param -> R -> Prop :=
| PP_nil : params_proposal old new x i j [] 1
| PP_next k p t nb v sd b : number_is (ps_get k old) j nb -> number_is (ps_get k new) i v ->
    hyper_is (p_stdb p) (Some x) sd -> 0 < sd -> params_proposal old new x i j t b ->
    params_proposal old new x i j ((k, PPrior p) :: t) (gauss_pdf nb sd v * b).
