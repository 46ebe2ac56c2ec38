(** Specification of what sampling returns: how values, sites and whole states are made from the numbers of
    the random number generator.  Only data types of the model are used, and [hyper_is] of SpecPrior.
    A relation [P tr x tr'] says that [x] is made from the draws at the head of [tr], and [tr'] are the
    draws that are left. *)
From Coq Require Import Permutation.
From Verif Require Import Base SpecUtils1D ModelPrior ModelState ModelSpace SpecPrior.
Local Open Scope R_scope.

(** One after the other. *)
Inductive each {A B} (P : A -> trace -> B -> trace -> Prop) : list A -> trace -> list B -> trace -> Prop :=
| each_nil tr : each P [] tr [] tr
| each_cons a l b m tr tr1 tr2 : P a tr b tr1 -> each P l tr1 m tr2 -> each P (a :: l) tr (b :: m) tr2.

(** A value of a prior at a position.  [DU u]: uniform on [0, 1); [DZ z]: standard normal; [DLap z]:
    standard Laplace.  A value is the image of one such number under the affine map that takes the
    standard distribution to the one with the bounds, or mean and scale, at that position.  A custom prior
    calls the user's function with the position. *)
Inductive value_drawn (d : ModelPrior.dist) (at_ : option pos) : trace -> R -> trace -> Prop :=
| VD_uniform a b lo hi u tr : d = Uniform a b -> hyper_is a at_ lo -> hyper_is b at_ hi -> 0 <= u < 1 ->
    value_drawn d at_ (DU u :: tr) ((1 - u) * lo + u * hi) tr
| VD_gauss m s mu sd z tr : d = Gauss m s -> hyper_is m at_ mu -> hyper_is s at_ sd ->
    value_drawn d at_ (DZ z :: tr) (mu + sd * z) tr
| VD_laplace m b mu sc z tr : d = Laplace m b -> hyper_is m at_ mu -> hyper_is b at_ sc ->
    value_drawn d at_ (DLap z :: tr) (mu + sc * z) tr
| VD_custom f l2 l1 v tr tr' : d = Custom f l2 l1 -> f at_ tr = Ret v tr' -> value_drawn d at_ tr v tr'.

(** A point of a box, from one uniform number per coordinate. *)
Definition point_drawn (d : nat) (lo hi us x : list R) : Prop :=
  length lo = d /\ length hi = d /\ length us = d /\ length x = d /\ Forall (fun u => 0 <= u < 1) us /\
  forall i a b u, nth_error lo i = Some a -> nth_error hi i = Some b -> nth_error us i = Some u ->
    nth_error x i = Some ((1 - u) * a + u * b).

(** A site: uniform on the interval or on the box; with a polygon, points of the box are drawn until one
    is inside. *)
Inductive site_drawn (c : sclass) : trace -> pos -> trace -> Prop :=
| ST_line lo hi sd fp u tr : c = Vor1 lo hi sd fp -> 0 <= u < 1 ->
    site_drawn c (DU u :: tr) (P1 ((1 - u) * lo + u * hi)) tr
| ST_box d lo hi sd kd fp us x tr : c = VorN d lo hi sd None kd fp -> point_drawn d lo hi us x ->
    site_drawn c (map DU us ++ tr) (PN x) tr
| ST_inside d lo hi sd inside kd fp us x tr : c = VorN d lo hi sd (Some inside) kd fp ->
    point_drawn d lo hi us x -> inside x = true -> site_drawn c (map DU us ++ tr) (PN x) tr
| ST_outside d lo hi sd inside kd fp us x tr p tr' : c = VorN d lo hi sd (Some inside) kd fp ->
    point_drawn d lo hi us x -> inside x = false -> site_drawn c tr p tr' ->
    site_drawn c (map DU us ++ tr) p tr'.

(** The number of dimensions: fixed, or an integer [DInt n] that is uniform between the smallest number and
    the largest one; [first]: the largest one is lowered for the first state. *)
Inductive number_drawn (first : bool) (s : space) : trace -> nat -> trace -> Prop :=
| ND_fixed n tr : sp_fixed s = Some n -> number_drawn first s tr n tr
| ND_free n tr : sp_fixed s = None -> (sp_min s <= n)%nat ->
    INR n <= (if first then (INR (sp_max s) - INR (sp_min s)) * sp_range s + INR (sp_min s)
              else INR (sp_max s)) ->
    number_drawn first s (DInt n :: tr) n tr.

(** The stored sites: in increasing order on a line, as drawn otherwise. *)
Definition sites_are (xs : list pos) (sv : value) (ps : list pos) : Prop :=
  (exists l l', xs = map P1 l /\ Permutation l l' /\ sortedR l' /\ sv = Arr l' /\ ps = map P1 l') \/
  (exists l, xs = map PN l /\ sv = ArrN l /\ ps = map PN l).

(** A state of a space: number of dimensions, sites, then parameter by parameter and dimension by
    dimension, each value from the prior at the site of its dimension (without a position in a space
    without sites), each nested state in the same way.  [first]: for the first state of a chain; a space
    without sites then reads, for each of its priors, uninitialised memory first, which must not matter. *)
Inductive state_drawn (first : bool) : space -> trace -> psstate -> trace -> Prop :=
| SD_plain s n tr tr1 tr2 p : sp_cls s = Plain -> number_drawn first s tr n tr1 ->
    params_drawn first (if first then n else O) (repeat None n) (sp_params s) tr1 (ps_vals p) tr2 ->
    ps_n p = n -> state_drawn first s tr p tr2
| SD_sites s n tr tr1 xs tr2 sv ps vals tr3 p : sp_cls s <> Plain -> number_drawn first s tr n tr1 ->
    each (fun _ : unit => site_drawn (sp_cls s)) (repeat tt n) tr1 xs tr2 -> sites_are xs sv ps ->
    params_drawn first O (map Some ps) (sp_params s) tr2 vals tr3 ->
    ps_n p = n -> ps_vals p = ("discretization"%string, sv) :: vals -> state_drawn first s tr p tr3
with params_drawn (first : bool) : nat -> list (option pos) -> list (string * param) ->
    trace -> dict value -> trace -> Prop :=
| PD_nil m ats tr : params_drawn first m ats [] tr [] tr
| PD_prior m ats k pr l tr junk tr1 vs tr2 vals tr3 : tr = map DVal junk ++ tr1 -> length junk = m ->
    each (value_drawn (p_dist pr)) ats tr1 vs tr2 -> params_drawn first m ats l tr2 vals tr3 ->
    params_drawn first m ats ((k, PPrior pr) :: l) tr ((k, Arr vs) :: vals) tr3
| PD_space m ats k s l tr qs v tr2 vals tr3 :
    each (fun _ => state_drawn first s) ats tr qs tr2 -> v = Lst qs \/ v = AObj qs ->
    params_drawn first m ats l tr2 vals tr3 ->
    params_drawn first m ats ((k, PSpace s) :: l) tr ((k, v) :: vals) tr3.

(** A prior that does not depend on the position. *)
Definition settled (d : ModelPrior.dist) : Prop :=
  match d with
  | Uniform (HS _) (HS _) | Gauss (HS _) (HS _) | Laplace (HS _) (HS _) => True
  | Custom f _ _ => forall at_ at', f at_ = f at'
  | _ => False
  end.
Inductive nested : space -> space -> Prop :=
| nested_here s : nested s s
| nested_in s k s1 s' : In (k, PSpace s1) (sp_params s) -> nested s1 s' -> nested s s'.
(** Priors outside tessellations do not depend on the position. *)
Definition settled_space (s : space) : Prop :=
  forall s' k pr, nested s s' -> sp_cls s' = Plain -> In (k, PPrior pr) (sp_params s') -> settled (p_dist pr).

(** The value of one parameter of a new dimension: a number from the prior at the position, or a state of
    the nested space. *)
Inductive item_drawn (at_ : option pos) : param -> trace -> R + psstate -> trace -> Prop :=
| ID_number pr tr v tr' : value_drawn (p_dist pr) at_ tr v tr' -> item_drawn at_ (PPrior pr) tr (inl v) tr'
| ID_state s tr q tr' : state_drawn false s tr q tr' -> item_drawn at_ (PSpace s) tr (inr q) tr'.
(** [v'] is [v] with [x] put in at index [i]. *)
Inductive put_in (i : nat) : R + psstate -> value -> value -> Prop :=
| put_number r a b : length a = i -> put_in i (inl r) (Arr (a ++ b)) (Arr (a ++ r :: b))
| put_state q a b : length a = i -> put_in i (inr q) (Lst (a ++ b)) (Lst (a ++ q :: b)).
Inductive site_in (i : nat) : pos -> value -> value -> Prop :=
| site_line x a b : length a = i -> site_in i (P1 x) (Arr (a ++ b)) (Arr (a ++ x :: b))
| site_point x a b : length a = i -> site_in i (PN x) (ArrN (a ++ b)) (ArrN (a ++ x :: b)).
(** The items [xs], one per parameter, are put in at index [i]. *)
Definition grown_with (i : nat) (params : list (string * param)) (xs : list (R + psstate)) (old q : psstate) : Prop :=
  ps_n q = S (ps_n old) /\ (i <= ps_n old)%nat /\
  forall j k par, nth_error params j = Some (k, par) ->
    exists x v v', nth_error xs j = Some x /\ dget k (ps_vals old) = Some v /\ dget k (ps_vals q) = Some v' /\ put_in i x v v'.
