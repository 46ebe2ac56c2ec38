(** Model of /repo/src/bayesbay/_utils_1d.pyx, function by function.

    All these functions are compiled with bounds checks switched off, so reads and
    writes outside an array and reads of uninitialised C variables are the outcome
    [Undef].  C doubles are real numbers here (no rounding).  [Raise EZeroDiv] marks a
    division by zero, which with cdivision(True) silently yields inf or NaN in C. *)
From Verif Require Import Base.
Local Open Scope R_scope.

(** _utils_1d.pyx:18-24 [is_sorted]: size-1 wraps around for an empty array. *)
Fixpoint is_sorted_loop (arr : list R) (is : list nat) : res bool :=
  match is with
  | [] => Ok true
  | i :: t =>
      a <-? rd arr i ;; b <-? rd arr (S i) ;;
      if Rltb b a then Ok false else is_sorted_loop arr t
  end.
Definition is_sorted (arr : list R) : res bool :=
  match arr with
  | [] => Undef
  | _ => is_sorted_loop arr (seq 0 (length arr - 1))
  end.

(** _utils_1d.pyx:46-49, the loop of [compute_voronoi1d_cell_extents].
    [oi] and [od2] are the C variables i and d2, None while uninitialised. *)
Fixpoint extents_loop (sites : list R) (is : list nat)
    (oi : option nat) (d1 : R) (od2 : option R) (e : list ext)
    : res (option nat * option R * list ext) :=
  match is with
  | [] => Ok (oi, od2, e)
  | i :: t =>
      a <-? rd sites i ;; b <-? rd sites (S i) ;;
      let d2 := (a + b) / 2 in
      e' <-? upd e i (Fin (d2 - d1)) ;;
      extents_loop sites t (Some i) d2 (Some d2) e'
  end.

(** _utils_1d.pyx:30-52 [compute_voronoi1d_cell_extents].  [lb = None] is -inf and
    [ub = None] is +inf (compute_cell_extents in discretization/_voronoi.py:643-647 maps
    Python None to these).  For an empty array size-1 wraps around. *)
Definition compute_voronoi1d_cell_extents
    (sites : list R) (lb ub : option R) (fill : ext) : res (list ext) :=
  let size := length sites in
  if (size =? 0)%nat then Undef else
  let extent := repeat (Fin 0) size in
  '(istart, d1, extent) <-?
    (match lb with
     | Some l => Ok (0%nat, l, extent)
     | None =>
         e <-? upd extent 0 fill ;;
         s0 <-? rd sites 0 ;; s1 <-? rd sites 1 ;;
         Ok (1%nat, (s0 + s1) / 2, e)
     end) ;;
  '(oi, od2, extent) <-?
    extents_loop sites (seq istart (size - 1 - istart)) None d1 None extent ;;
  match oi with
  | None => Undef
  | Some i =>
      match ub with
      | Some u => match od2 with
                  | Some d2 => upd extent (S i) (Fin (u - d2))
                  | None => Undef
                  end
      | None => upd extent (S i) fill
      end
  end.

(** _utils_1d.pyx:57-61 [floor_index]; a C function that falls off its end returns 0. *)
Fixpoint floor_index_loop (xp : R) (x : list R) (is : list nat) : res nat :=
  match is with
  | [] => Ok 0%nat
  | i :: t =>
      a <-? rd x i ;;
      if Rleb a xp then
        b <-? rd x (S i) ;;
        if Rleb xp b then Ok i else floor_index_loop xp x t
      else floor_index_loop xp x t
  end.
Definition floor_index (xp : R) (x : list R) : res nat :=
  floor_index_loop xp x (seq 0 (length x)).

(** _utils_1d.pyx:67-81 [_interpolate_linear_1d]. *)
Definition interp_linear (xp : R) (x y : list R) : res R :=
  a <-? rd x 0 ;;
  if Rleb xp a then rd y 0 else
  b <-? rd x (length x - 1) ;;
  if Rleb b xp then rd y (length x - 1) else
  i <-? floor_index xp x ;;
  x0 <-? rd x i ;; x1 <-? rd x (S i) ;;
  y0 <-? rd y i ;; y1 <-? rd y (S i) ;;
  if Reqb (x1 - x0) 0 then Raise EZeroDiv
  else Ok (y0 + (xp - x0) * (y1 - y0) / (x1 - x0)).

(** _utils_1d.pyx:102-114 [nearest_neighbour_1d] with xlen = x.size (its only use). *)
Fixpoint nearest_loop (xp : R) (x : list R) (is : list nat) (last : option nat)
    : res nat :=
  match is with
  | [] => match last with Some i => Ok (S i) | None => Undef end
  | i :: t =>
      x0 <-? rd x i ;; x1 <-? rd x (S i) ;;
      if Rleb x0 xp && Rleb xp x1 then
        if Rltb (Rabs (x0 - xp)) (Rabs (x1 - xp)) then Ok i else Ok (S i)
      else nearest_loop xp x t (Some i)
  end.
Definition nearest_neighbour_1d (xp : R) (x : list R) : res nat :=
  if (length x =? 1)%nat then Ok 0%nat else
  a <-? rd x 0 ;;
  if Rltb xp a then Ok 0%nat else
  nearest_loop xp x (seq 0 (length x - 1)) None.

(** _utils_1d.pyx:87-97 [_interpolate_nearest_1d]. *)
Definition interp_nearest (xp : R) (x y : list R) : res R :=
  a <-? rd x 0 ;;
  if Rleb xp a then rd y 0 else
  b <-? rd x (length x - 1) ;;
  if Rleb b xp then rd y (length x - 1) else
  i <-? nearest_neighbour_1d xp x ;;
  rd y i.

(** _utils_1d.pyx:145-166 and 171-192, the array versions. *)
Definition interpolate_linear_1d (xps x y : list R) : res (list R) :=
  rmap (fun xp => interp_linear xp x y) xps.
Definition interpolate_nearest_1d (xps x y : list R) : res (list R) :=
  rmap (fun xp => interp_nearest xp x y) xps.

(** _utils_1d.pyx:131-139, the [while True] loop for one query; [fuel] bounds the number
    of layers still available (ilayer strictly increases up to x_len - 1). *)
Fixpoint depth_step (fuel : nat) (x y : list R) (xi : R)
    (ilayer : nat) (lower upper : R) : res (R * nat * R * R) :=
  if (Rleb lower xi && Rltb xi upper) || (length x <=? ilayer + 1)%nat then
    v <-? rd y ilayer ;; Ok (v, ilayer, lower, upper)
  else
    match fuel with
    | O => Undef
    | S f =>
        w <-? rd x (S ilayer) ;;
        depth_step f x y xi (S ilayer) upper (upper + w)
    end.
(** _utils_1d.pyx:129-140, the loop over the queries; the layer is never reset. *)
Fixpoint depth_loop (x y : list R) (qs : list R)
    (ilayer : nat) (lower upper : R) : res (list R) :=
  match qs with
  | [] => Ok []
  | q :: t =>
      '(v, il, lo, up) <-? depth_step (length x) x y q ilayer lower upper ;;
      vs <-? depth_loop x y t il lo up ;; Ok (v :: vs)
  end.
(** _utils_1d.pyx:119-140 [interpolate_depth_profile]. *)
Definition interpolate_depth_profile (x y x0 : list R) : res (list R) :=
  w <-? rd x 0 ;; depth_loop x y x0 0 0 w.

(** _utils_1d.pyx:198-211 [inverse_covariance]; matrices are lists of rows.  The C loop
    variable i is used after the loop; for n = 0 the bound n-1 wraps around. *)
Definition upd2 (m : list (list R)) (i j : nat) (v : R) : res (list (list R)) :=
  row <-? rd m i ;; row' <-? upd row j v ;; upd m i row'.
Fixpoint invcov_loop (f r : R) (is : list nat) (oi : option nat)
    (m : list (list R)) : res (option nat * list (list R)) :=
  match is with
  | [] => Ok (oi, m)
  | i :: t =>
      m <-? upd2 m i i ((1 + r ^ 2) * f) ;;
      m <-? upd2 m i (i - 1) (- r * f) ;;
      m <-? upd2 m (i - 1) i (- r * f) ;;
      invcov_loop f r t (Some i) m
  end.
Definition inverse_covariance (sigma r : R) (n : nat) : res (list (list R)) :=
  let d := sigma ^ 2 * (1 - r ^ 2) in
  if Reqb d 0 then Raise EZeroDiv else
  if (n =? 0)%nat then Undef else
  let factor := 1 / d in
  '(oi, m) <-? invcov_loop factor r (seq 1 (n - 2)) None (repeat (repeat 0 n) n) ;;
  m <-? upd2 m 0 0 factor ;;
  m <-? upd2 m (n - 1) (n - 1) factor ;;
  match oi with
  | None => Undef
  | Some i =>
      m <-? upd2 m (S i) i (- r * factor) ;;
      upd2 m i (S i) (- r * factor)
  end.

(** _utils_1d.pyx:216-228 [insert_1d]. *)
Fixpoint insert_loop (values : list R) (index : nat) (value : R)
    (is : list nat) (j : nat) (new : list R) : res (list R) :=
  match is with
  | [] => Ok new
  | i :: t =>
      if (i =? index)%nat then
        new' <-? upd new i value ;; insert_loop values index value t j new'
      else
        v <-? rd values j ;;
        new' <-? upd new i v ;; insert_loop values index value t (S j) new'
  end.
Definition insert_1d (values : list R) (index : nat) (value : R) : res (list R) :=
  let new_size := S (length values) in
  insert_loop values index value (seq 0 new_size) 0 (repeat 0 new_size).

(** _utils_1d.pyx:233-241 [delete_1d]; for an empty array np.zeros gets a wrapped
    negative size and raises. *)
Fixpoint delete_loop (values : list R) (index : nat)
    (is : list nat) (j : nat) (new : list R) : res (list R) :=
  match is with
  | [] => Ok new
  | i :: t =>
      if (i =? index)%nat then delete_loop values index t j new
      else
        v <-? rd values i ;;
        new' <-? upd new j v ;; delete_loop values index t (S j) new'
  end.
Definition delete_1d (values : list R) (index : nat) : res (list R) :=
  let size := length values in
  if (size =? 0)%nat then Raise EValue else
  delete_loop values index (seq 0 size) 0 (repeat 0 (size - 1)).

(** discretization/_voronoi.py:650-683 [compute_interface_positions], nuclei and
    extents. *)
Fixpoint midpoints (s : list R) : list R :=
  match s with
  | a :: ((b :: _) as t) => (a + b) / 2 :: midpoints t
  | _ => []
  end.
Fixpoint cumsum_from (acc : ext) (l : list ext) : list ext :=
  match l with
  | [] => []
  | x :: t => eadd acc x :: cumsum_from (eadd acc x) t
  end.
Definition interfaces_nuclei (s : list R) : list R := midpoints s.
Definition interfaces_extents (e : list ext) (lb : option R) : res (list ext) :=
  match lb with
  | None => Raise EAssert
  | Some l => Ok (map (fun c => eadd c (Fin l)) (removelast (cumsum_from (Fin 0) e)))
  end.

(** discretization/_voronoi.py:686-716 [Voronoi1D.interpolate_tessellation]. *)
Inductive tess_input := Nuclei | Extents.
Definition interpolate_tessellation (cells vals qs : list R) (ty : tess_input)
    : res (list R) :=
  match ty with
  | Nuclei => interpolate_nearest_1d qs cells vals
  | Extents => interpolate_depth_profile cells vals qs
  end.
