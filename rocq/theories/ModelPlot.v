(** Model of the drawing functions in /repo/src/bayesbay/discretization/_voronoi.py: what they
    hand to matplotlib and what matplotlib then draws.  Colours of curves, labels, limits of the
    axes and legends are left out. *)
From Verif Require Import Base ModelUtils1D.
Local Open Scope R_scope.

(** matplotlib's [step(x, y, where="post")]: the corners of the curve (x0,y0), (x1,y0), (x1,y1),
    (x2,y1), ... (cbook.pts_to_poststep); ValueError when the lengths differ. *)
Fixpoint post_path (x0 y0 : R) (xs ys : list R) : list (R * R) :=
  (x0, y0) ::
  match xs, ys with
  | x1 :: xs', y1 :: ys' => (x1, y0) :: post_path x1 y1 xs' ys'
  | _, _ => []
  end.
Definition step_post (x y : list R) : res (list (R * R)) :=
  if (length x =? length y)%nat then
    match x, y with
    | x0 :: xs, y0 :: ys => Ok (post_path x0 y0 xs ys)
    | _, _ => Ok []
    end
  else Raise EValue.

(** _voronoi.py:650-683 [compute_interface_positions].  Extents may be infinite or NaN; positions that
    are not finite are not modelled (Undef). *)
Inductive cells := OfNuclei (s : list R) | OfExtents (e : list ext).
Fixpoint all_finite (l : list ext) : option (list R) :=
  match l with
  | [] => Some []
  | Fin x :: t => option_map (cons x) (all_finite t)
  | _ => None
  end.
Definition interface_positions (c : cells) (lb : R) : res (list R) :=
  match c with
  | OfNuclei s => Ok (interfaces_nuclei s)
  | OfExtents e =>
      p <-? interfaces_extents e (Some lb) ;;
      match all_finite p with Some l => Ok l | None => Undef end
  end.

(** np.max(np.abs(l)) of a list that is not empty *)
Definition max_abs (l : list R) : R := fold_right (fun x m => Rmax (Rabs x) m) 0 l.
(** _voronoi.py:1048-1066 [Voronoi1D.plot_tessellation]; the lower bound is a number. *)
Definition plot_tessellation (c : cells) (vals : list R) (lb : R) (ub : option R) (swap : bool)
    : res (list (R * R)) :=
  ip <-? interface_positions c lb ;;
  match rev ip with
  | [] => Raise EIndex
  | last :: _ =>
      stop <-? match ub with
               | Some u => if Rltb last u then Ok u else Raise EAssert
               | None => Ok (last + max_abs ip / 2)
               end ;;
      match vals with
      | [] => Raise EIndex
      | v0 :: _ =>
          let x := lb :: ip ++ [stop] in
          let y := v0 :: vals in
          if swap then step_post y x else step_post x y
      end
  end.

(** _voronoi.py:1127-1164 [Voronoi1D.plot_tessellations]; [swap_xy_axes] is used for labels and the
    direction of the axis only. *)
Fixpoint rmap {A B} (f : A -> res B) (l : list A) : res (list B) :=
  match l with
  | [] => Ok []
  | a :: t => b <-? f a ;; bs <-? rmap f t ;; Ok (b :: bs)
  end.
Definition to_extents (lb : R) (c : cells) : res (list ext) :=
  match c with
  | OfNuclei s => compute_voronoi1d_cell_extents s (Some lb) None (Fin 0)
  | OfExtents e => Ok e
  end.
Definition plot_tessellations (cs : list cells) (vals : list (list R)) (lb : R) (ub : option R) (swap : bool)
    : res (list (list (R * R))) :=
  es <-? rmap (to_extents lb) cs ;;
  rmap (fun ev => plot_tessellation (OfExtents (fst ev)) (snd ev) lb ub true) (combine es vals).

(** ** Voronoi2D.plot_tessellation *)
(** _voronoi.py:1578-1589: the sites and four points far away; [np.max] refuses empty arrays. *)
Definition framed (sites : list (R * R)) : res (list (R * R)) :=
  match sites with
  | [] => Raise EValue
  | _ =>
      let xmax := max_abs (map fst sites) in
      let ymax := max_abs (map snd sites) in
      Ok (sites ++ [(xmax * 100, ymax * 100); (- xmax * 100, ymax * 100);
                    (xmax * 100, - ymax * 100); (- xmax * 100, - ymax * 100)])
  end.
Definition Req2b (p q : R * R) : bool := Reqb (fst p) (fst q) && Reqb (snd p) (snd q).
(** Equality of two points, as [np.all(p == points, axis=1)] at _voronoi.py:1597. *)
(** _voronoi.py:1595-1599: [np.flatnonzero(...).item()] raises ValueError unless there is one. *)
Definition index_of (points : list (R * R)) (p : R * R) : res nat :=
  match filter (fun i => match nth_error points i with Some q => Req2b p q | None => false end)
          (seq 0 (length points)) with
  | [i] => Ok i
  | _ => Raise EValue
  end.
(** _voronoi.py:1621-1642 [_fill_tessellation], without the map from values to colours: the points whose region is filled, with the value of the
    colour.  [bounded]: which regions scipy found to be bounded. *)
Fixpoint fill (bounded : nat -> bool) (vals : list R) (points : list (R * R)) (i : nat)
    : res (list ((R * R) * R)) :=
  match points with
  | [] => Ok []
  | g :: t =>
      if bounded i then
        match nth_error vals i with
        | Some v => r <-? fill bounded vals t (S i) ;; Ok ((g, v) :: r)
        | None => Raise EIndex
        end
      else fill bounded vals t (S i)
  end.
(** _voronoi.py:1509-1618 with [param_values] given, without lines and dots; scipy.spatial.Voronoi is a function argument that says which regions are bounded; it
    keeps the points as they are given.  Points that are all on one line, which it refuses, are not
    excluded here. *)
Definition plot_tessellation_2d (scipy : list (R * R) -> nat -> bool) (sites : list (R * R)) (vals : list R)
    : res (list ((R * R) * R)) :=
  points <-? framed sites ;;
  isort <-? rmap (index_of points) sites ;;
  vs <-? rmap (fun j => match nth_error vals j with Some v => Ok v | None => Raise EIndex end) isort ;;
  fill (scipy points) vs points 0.
