(** Model of the statistics of ensembles of tessellations:
    /repo/src/bayesbay/discretization/_voronoi.py, Voronoi1D._interpolate_tessellations,
    get_tessellation_statistics, get_tessellation_density, and the same methods of Voronoi2D.
    The NumPy functions used there (mean, median, std, percentile, linspace, histogram2d) are
    transcribed from their documentation over real numbers. *)
From Verif Require Import Base ModelUtils1D ModelPrior ModelState ModelSpace.
Local Open Scope R_scope.

(** ** Interpolation of all samples *)
(** _voronoi.py:719-735 and 1459-1470: an array of zeros with one row per list of values is
    filled row by row; zip stops with the shorter argument. *)
Definition interpolate_rows {C} (interp : C -> list R -> res (list R)) (cells : list C)
    (values : list (list R)) (nq : nat) : res (list (list R)) :=
  rows <-? rmap (fun cv => interp (fst cv) (snd cv)) (combine cells values) ;;
  Ok (rows ++ repeat (repeat 0 nq) (length values - length rows)).
(** _voronoi.py:719-735 *)
Definition interpolate_tessellations (cells values : list (list R)) (qs : list R) (ty : tess_input)
    : res (list (list R)) :=
  interpolate_rows (fun c v => interpolate_tessellation c v qs ty) cells values (length qs).
(** _voronoi.py:1432-1456 [Voronoi2D.interpolate_tessellation]; KDTree.query returns a nearest
    site, taken here as the first of the nearest. *)
Definition interpolate_2d (sites : list (list R)) (vals : list R) (qs : list (list R))
    : res (list R) :=
  rmap (fun q => i <-? nearest_neighbour (Some (ArrN sites)) (PN q) ;; idx vals i) qs.
(** _voronoi.py:1459-1470 *)
Definition interpolate_tessellations_2d (sites : list (list (list R))) (values : list (list R))
    (qs : list (list R)) : res (list (list R)) :=
  interpolate_rows (fun c v => interpolate_2d c v qs) sites values (length qs).

(** ** Statistics along the samples *)
(** np.mean, np.std (with ddof=0) of a non-empty array. *)
Definition np_mean (l : list R) : R := rsum l / INR (length l).
Definition np_std (l : list R) : R :=
  sqrt (np_mean (map (fun x => (x - np_mean l) ^ 2) l)).
(** np.percentile with the default method "linear": the sorted values are interpolated at the
    position (n-1) q / 100. *)
Definition np_percentile (l : list R) (q : R) : res R :=
  if Rltb q 0 || Rltb 100 q then Raise EValue else
  let s := rsort l in
  let h := INR (length l - 1) * (q / 100) in
  let k := Z.to_nat (Int_part h) in
  a <-? idx s k ;;
  match nth_error s (S k) with
  | Some b => Ok (a + (h - INR k) * (b - a))
  | None => Ok a
  end.
(** np.median: the middle value, or the mean of the two middle values. *)
Definition np_median (l : list R) : res R :=
  let s := rsort l in
  let n := length l in
  if Nat.even n then
    a <-? idx s (n / 2 - 1) ;; b <-? idx s (n / 2) ;; Ok ((a + b) / 2)
  else idx s (n / 2).
(** Column [j] of the rows. *)
Definition column (rows : list (list R)) (j : nat) : res (list R) := rmap (fun r => idx r j) rows.

Record tess_stats := mkStats {
  ts_mean : list R;
  ts_median : list R;
  ts_std : list R;
  ts_percentiles : list (list R)
}.
(** The dictionary made in _voronoi.py:775-780 and 1500-1505.  Without samples NumPy returns NaN
    with a warning; this case is left out (Undef). *)
Definition statistics (rows : list (list R)) (nq : nat) (percentiles : list R) : res tess_stats :=
  match rows with
  | [] => Undef
  | _ =>
      cols <-? rmap (column rows) (seq 0 nq) ;;
      med <-? rmap np_median cols ;;
      per <-? rmap (fun q => rmap (fun c => np_percentile c q) cols) percentiles ;;
      Ok (mkStats (map np_mean cols) med (map np_std cols) per)
  end.
(** _voronoi.py:738-781 *)
Definition get_tessellation_statistics (cells values : list (list R)) (qs : list R)
    (percentiles : list R) (ty : tess_input) : res tess_stats :=
  rows <-? interpolate_tessellations cells values qs ty ;;
  statistics rows (length qs) percentiles.
(** _voronoi.py:1472-1506 *)
Definition get_tessellation_statistics_2d (sites : list (list (list R))) (values : list (list R))
    (qs : list (list R)) (percentiles : list R) : res tess_stats :=
  rows <-? interpolate_tessellations_2d sites values qs ;;
  statistics rows (length qs) percentiles.

(** ** Density *)
(** np.linspace(a, b, n) *)
Definition linspace (a b : R) (n : nat) : list R :=
  map (fun i => a + INR i * ((b - a) / INR (n - 1))) (seq 0 n).
Definition rmax (l : list R) : res R :=
  match l with [] => Raise EValue | x :: t => Ok (fold_left Rmax t x) end.
Definition rmin (l : list R) : res R :=
  match l with [] => Raise EValue | x :: t => Ok (fold_left Rmin t x) end.
Fixpoint cumsumR (acc : R) (l : list R) : list R :=
  match l with [] => [] | x :: t => (acc + x) :: cumsumR (acc + x) t end.

(** The argument bins of np.histogram2d along one axis. *)
Inductive bins := NBins (n : nat) | Edges (l : list R).
(** Edges: equally spaced between smallest and largest value (widened by 0.5 on both sides when
    they are equal; 0 and 1 without data); given edges have to be in order. *)
Definition edges_of (b : bins) (data : list R) : res (list R) :=
  match b with
  | NBins n =>
      if (n =? 0)%nat then Raise EValue else
      match data with
      | [] => Ok (linspace 0 1 (S n))
      | _ =>
          lo <-? rmin data ;;
          hi <-? rmax data ;;
          if Reqb lo hi then Ok (linspace (lo - 1/2) (hi + 1/2) (S n)) else Ok (linspace lo hi (S n))
      end
  | Edges l =>
      if forallb (fun ab => Rleb (fst ab) (snd ab)) (combine l (skipn 1 l)) then Ok l else Raise EValue
  end.
(** The bin of a value: searchsorted(edges, x, side="right") - 1, where a value equal to the last
    edge belongs to the last bin; None for values outside. *)
Definition bin_of (edges : list R) (x : R) : option nat :=
  let c := length (filter (fun e => Rleb e x) edges) in
  let c' := match rev edges with
            | e :: _ => if Reqb x e then (c - 1)%nat else c
            | [] => c
            end in
  if ((1 <=? c') && (c' <? length edges))%nat then Some (c' - 1)%nat else None.
Definition in_cell (ex ey : list R) (i j : nat) (xy : R * R) : bool :=
  match bin_of ex (fst xy), bin_of ey (snd xy) with
  | Some a, Some b => ((a =? i) && (b =? j))%nat
  | _, _ => false
  end.
Definition widths (e : list R) : list R := map (fun ab => snd ab - fst ab) (combine e (skipn 1 e)).
(** np.histogram2d(x, y, bins, density=True): counts divided by their sum and by the area of the
    bins.  When all counts are zero or a bin has no width NumPy returns NaN or infinities; left
    out (Undef). *)
Definition histogram2d (pts : list (R * R)) (bx by_ : bins) : res (list (list R) * list R * list R) :=
  ex <-? edges_of bx (map fst pts) ;;
  ey <-? edges_of by_ (map snd pts) ;;
  let wx := widths ex in
  let wy := widths ey in
  let counts := map (fun i => map (fun j => length (filter (in_cell ex ey i j) pts))
                                  (seq 0 (length wy))) (seq 0 (length wx)) in
  let total := nsum (map nsum counts) in
  if (total =? 0)%nat || existsb (fun w => Reqb w 0) (wx ++ wy) then Undef else
  Ok (map (fun rw => map (fun cw => INR (fst cw) / snd rw / snd cw / INR total)
                         (combine (fst rw) wy)) (combine counts wx), ex, ey).

(** The argument position_bins. *)
Inductive pbins := PNum (n : nat) | PArr (l : list R).
(** _voronoi.py:833-862 [get_tessellation_density] *)
Definition density_positions (cells : list (list R)) (pb : pbins) (ty : tess_input) : res (list R) :=
  match pb with
  | PArr l => Ok l
  | PNum n =>
      ub <-? match ty with
             | Nuclei => ms <-? rmap rmax cells ;; rmax ms
             | Extents => ms <-? rmap (fun e => rmax (cumsumR 0 e)) cells ;; Ok (fold_left Rmax ms 0)
             end ;;
      Ok (linspace 0 ub n)
  end.
Definition get_tessellation_density (cells values : list (list R)) (pb : pbins) (vb : bins)
    (ty : tess_input) : res (list (list R) * list R * list R) :=
  qs <-? density_positions cells pb ty ;;
  rows <-? interpolate_tessellations cells values qs ty ;;
  histogram2d (flat_map (fun row => combine qs row) rows) (NBins (length qs)) vb.
