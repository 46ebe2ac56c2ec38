(** Specification of bounded random walks of points: a Gaussian step is drawn for all coordinates at once,
    again and again until the new point is inside. *)
From Verif Require Import Base SpecWalk.
Local Open Scope R_scope.

(** [y] is [x] moved by [zs], in units of [sd]. *)
Definition stepped (sd x zs y : list R) : Prop :=
  length sd = length x /\ length zs = length x /\ length y = length x /\
  forall i s a z, nth_error sd i = Some s -> nth_error x i = Some a -> nth_error zs i = Some z ->
    nth_error y i = Some (a + s * z).
(** The walk from [x] throws away the steps [tries] and ends at [y] with the step [zs]. *)
Definition first_point (inside : list R -> Prop) (sd x : list R) (tries : list (list R)) (zs y : list R) : Prop :=
  stepped sd x zs y /\ inside y /\ Forall (fun zs' => exists w, stepped sd x zs' w /\ ~ inside w) tries.

(** Limits and width of step along one axis. *)
Record axis := Axis { a_lo : R; a_hi : R; a_sd : R }.
Definition proper_axis (a : axis) : Prop := a_lo a < a_hi a /\ 0 < a_sd a.
Definition inner (a : axis) (x : R) : Prop := a_lo a < x < a_hi a.
Definition axes_of (ax : list axis) (lo hi sd : list R) : Prop :=
  map a_lo ax = lo /\ map a_hi ax = hi /\ map a_sd ax = sd.

(** Probability that one step from [xs] ends in the box, and below [ys] in the box: the coordinates of a
    step are independent. *)
Fixpoint box_hit (F : R -> R) (ax : list axis) (xs : list R) : R :=
  match ax, xs with
  | a :: ax, x :: xs => hit F (a_lo a) (a_hi a) (a_sd a) x * box_hit F ax xs
  | _, _ => 1
  end.
Fixpoint box_below (F : R -> R) (ax : list axis) (xs ys : list R) : R :=
  match ax, xs, ys with
  | a :: ax, x :: xs, y :: ys =>
      (F ((y - x) / a_sd a) - F ((a_lo a - x) / a_sd a)) * box_below F ax xs ys
  | _, _, _ => 1
  end.
(** Probability that the walk, after [n] steps that were thrown away, ends below [ys]. *)
Definition box_after (F : R -> R) (ax : list axis) (xs ys : list R) (n : nat) : R :=
  (1 - box_hit F ax xs) ^ n * box_below F ax xs ys.

(** log q(old|new) / q(new|old) of a density that is the product of densities along the axes. *)
Fixpoint log_point_ratio (ws : list (R -> R -> R)) (xs ys : list R) : R :=
  match ws, xs, ys with
  | w :: ws, x :: xs, y :: ys => log_proposal_ratio w x y + log_point_ratio ws xs ys
  | _, _, _ => 0
  end.
