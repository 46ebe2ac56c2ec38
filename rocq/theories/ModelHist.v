(** Model of the drawings of ensembles in /repo/src/bayesbay/discretization/_voronoi.py: densities,
    histograms of interfaces, statistics.  Rectangles and curves that matplotlib draws are modelled;
    labels, colour maps, legends, the colour bar and the direction of the axes are left out. *)
From Verif Require Import Base ModelUtils1D ModelSpace ModelEnsemble ModelPlot.
Local Open Scope R_scope.

(** Pairs of successive numbers. *)
Definition pairs (e : list R) : list (R * R) := combine e (skipn 1 e).
(** matplotlib's [pcolormesh(X, Y, C)] with the edges X, Y: the entry C[i, j] colours the rectangle from
    X[j] to X[j+1] and from Y[i] to Y[i+1].  TypeError when the shape does not fit.  (When C has the
    shape of the coordinates themselves they are taken as centres; not modelled: Undef.) *)
Definition pcolormesh (X Y : list R) (C : list (list R)) : res (list ((R * R) * (R * R) * R)) :=
  let nrows := length C in
  let ncols := match C with [] => O | r :: _ => length r end in
  if ((length X =? ncols) && (length Y =? nrows))%nat then Undef
  else if ((length X =? ncols + 1) && (length Y =? nrows + 1))%nat then
    Ok (flat_map (fun yr => map (fun xv => (fst xv, fst yr, snd xv)) (combine (pairs X) (snd yr))) (combine (pairs Y) C))
  else Raise EType.
(** _voronoi.py:928-948 [Voronoi1D.plot_tessellation_density] *)
Definition plot_tessellation_density (cells values : list (list R)) (pb : pbins) (vb : bins)
    (ty : tess_input) (swap : bool) : res (list ((R * R) * (R * R) * R)) :=
  dxy <-? get_tessellation_density cells values pb vb ty ;;
  let '(density, X, Y) := dxy in
  if swap then pcolormesh Y X density else pcolormesh X Y density.

(** np.histogram(data, bins, density=True); NaN (no datum in a bin) and bins without width: Undef.
    NumPy finds bins of equal width by a division and corrects the result by comparing with the
    edges; here the edges are compared directly. *)
Definition in_bin_b (e : list R) (i : nat) (x : R) : bool :=
  match bin_of e x with Some k => (k =? i)%nat | None => false end.
Definition histogram (data : list R) (b : bins) : res (list R * list R) :=
  e <-? edges_of b data ;;
  let w := widths e in
  let counts := map (fun i => length (filter (in_bin_b e i) data)) (seq 0 (length w)) in
  let total := nsum counts in
  if (total =? 0)%nat || existsb (fun v => Reqb v 0) w then Undef else
  Ok (map (fun cw => INR (fst cw) / snd cw / INR total) (combine counts w), e).
(** _voronoi.py:650-683 [compute_interface_positions] with a lower bound that may be None; positions that
    are not finite are not modelled (Undef). *)
Definition interfaces (lb : option R) (c : cells) : res (list R) :=
  match c with
  | OfNuclei s => Ok (interfaces_nuclei s)
  | OfExtents e =>
      p <-? interfaces_extents e lb ;;
      match all_finite p with Some l => Ok l | None => Undef end
  end.
(** _voronoi.py:988-1006 [Voronoi1D.plot_interface_hist]: the bars as rectangles ([ax.barh] and [ax.bar]
    with align="edge" start at the given edges and at zero). *)
Definition plot_interface_hist (cs : list cells) (lb : option R) (b : bins) (swap : bool)
    : res (list ((R * R) * (R * R))) :=
  ls <-? ModelPlot.rmap (interfaces lb) cs ;;
  he <-? histogram (concat ls) b ;;
  let '(hist, e) := he in
  Ok (map (fun eh => let '(a, w, h) := eh in if swap then ((0, h), (a, a + w)) else ((a, a + w), (0, h)))
          (combine (combine (removelast e) (widths e)) hist)).

(** _voronoi.py:32-36 [_plot] *)
Definition curve (swap : bool) (x y : list R) : list (R * R) := if swap then combine y x else combine x y.
(** _voronoi.py:1214-1277 [Voronoi1D.plot_tessellation_statistics]; percentiles is a sequence. *)
Definition plot_tessellation_statistics (cells values : list (list R)) (qs percentiles : list R)
    (ty : tess_input) (swap : bool) : res (list (list (R * R))) :=
  st <-? get_tessellation_statistics cells values qs percentiles ty ;;
  let both f := map (fun ms => f (fst ms) (snd ms)) (combine (ts_mean st) (ts_std st)) in
  p0 <-? idx (ts_percentiles st) 0 ;;
  p1 <-? idx (ts_percentiles st) 1 ;;
  Ok (map (curve swap qs) [ts_mean st; both Rminus; both Rplus; ts_median st; p0; p1]).
