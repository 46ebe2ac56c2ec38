(** What a drawing shows.  Independent of ModelPlot.v. *)
From Verif Require Import Base SpecUtils1D.
Local Open Scope R_scope.

(** [q] lies on the straight line from [a] to [b]; on the curve with the given corners. *)
Definition on_segment (a b q : R * R) : Prop :=
  exists t, 0 <= t <= 1 /\
    fst q = fst a + t * (fst b - fst a) /\ snd q = snd a + t * (snd b - snd a).
Definition on_curve (corners : list (R * R)) (q : R * R) : Prop :=
  exists i a b, nth_error corners i = Some a /\ nth_error corners (S i) = Some b /\ on_segment a b q.
(** The point of the drawing for a value at a position: values to the right and positions downwards
    when the axes are swapped. *)
Definition place (swap : bool) (position value : R) : R * R :=
  if swap then (value, position) else (position, value).

(** Site [k] is closer to [p] than all others. *)
Definition closest_site (sites : list R) (p : R) (k : nat) : Prop :=
  exists a, nth_error sites k = Some a /\
    forall j b, j <> k -> nth_error sites j = Some b -> Rabs (p - a) < Rabs (p - b).
(** [p] is inside the cell [k] of cells with the given extents, one after the other from [lb], which
    are followed by one without end. *)
Definition inside_cell (extents : list R) (lb p : R) (k : nat) : Prop :=
  (k <= length extents)%nat /\ lb + rsum (firstn k extents) < p /\
  ((k < length extents)%nat -> p < lb + rsum (firstn (S k) extents)).
(** The position of the last corner of a curve. *)
Definition ends_at (swap : bool) (corners : list (R * R)) (stop : R) : Prop :=
  exists v front, corners = front ++ [place swap stop v].

(** The plane: squared distance, the points closest to [g] among [points], bounded sets. *)
Definition sqdist (p q : R * R) : R := (fst p - fst q) ^ 2 + (snd p - snd q) ^ 2.
Definition cell (points : list (R * R)) (g q : R * R) : Prop :=
  forall o, In o points -> sqdist q g <= sqdist q o.
Definition bounded_set (S : R * R -> Prop) : Prop :=
  exists r, forall q, S q -> Rabs (fst q) <= r /\ Rabs (snd q) <= r.
(** The rectangle that is displayed: from the smallest to the largest coordinates of the sites. *)
Definition displayed (sites : list (R * R)) (q : R * R) : Prop :=
  (exists a b, In a sites /\ In b sites /\ fst a <= fst q <= fst b) /\
  (exists a b, In a sites /\ In b sites /\ snd a <= snd q <= snd b).
(** scipy finds the regions that are bounded. *)
Definition finds_bounded (scipy : list (R * R) -> nat -> bool) : Prop :=
  forall points i g, nth_error points i = Some g -> (scipy points i = true <-> bounded_set (cell points g)).
