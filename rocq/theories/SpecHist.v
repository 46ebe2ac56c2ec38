(** What drawings of ensembles show: rectangles, bins, boundaries between cells.  Independent of ModelHist.v. *)
From Verif Require Import Base ModelPlot SpecUtils1D SpecEnsemble SpecPlot.
Local Open Scope R_scope.

(** The rectangle from x0 to x1 and y0 to y1 is ((x0, x1), (y0, y1)). *)
Definition inside_rect (r : (R * R) * (R * R)) (q : R * R) : Prop :=
  fst (fst r) < fst q < snd (fst r) /\ fst (snd r) < snd q < snd (snd r).
Definition area (r : (R * R) * (R * R)) : R := (snd (fst r) - fst (fst r)) * (snd (snd r) - fst (snd r)).
(** The coloured rectangles show the value [v] at the point [q]. *)
Definition shows (ps : list ((R * R) * (R * R) * R)) (q : R * R) (v : R) : Prop :=
  exists r, In (r, v) ps /\ inside_rect r q.
(** [x] is inside bin [i], not on an edge. *)
Definition inside_bin (edges : list R) (i : nat) (x : R) : Prop :=
  exists a b, nth_error edges i = Some a /\ nth_error edges (S i) = Some b /\ a < x < b.
(** The bar over positions from [a] to [b] of height [h]. *)
Definition bar (swap : bool) (a b h : R) : (R * R) * (R * R) := if swap then ((0, h), (a, b)) else ((a, b), (0, h)).

(** [l] are the positions of the boundaries between neighbouring cells: half way between sites; sums of
    thicknesses of layers, counted from the top of the first one.  The last layer may have no end. *)
Definition boundaries (lb : option R) (c : cells) (l : list R) : Prop :=
  match c with
  | OfNuclei s => length l = (length s - 1)%nat /\
      forall i a b, nth_error s i = Some a -> nth_error s (S i) = Some b -> nth_error l i = Some ((a + b) / 2)
  | OfExtents e => exists top, lb = Some top /\ length l = (length e - 1)%nat /\
      exists es, map Fin es = firstn (length e - 1) e /\
      forall i, (i < length l)%nat -> nth_error l i = Some (top + rsum (firstn (S i) es))
  end.
