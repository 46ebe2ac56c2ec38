(** Model of /repo/src/bayesbay/parameterization/_parameter_space.py (ParameterSpace),
    discretization/_discretization.py (Discretization) and
    discretization/_voronoi.py (Voronoi, Voronoi1D, Voronoi2D without plotting).

    Numbers of dimensions and their limits are natural numbers.  A parameter is a prior or
    a nested space. *)
From Verif Require Import Base ModelUtils1D ModelPrior ModelState.
Local Open Scope R_scope.

(** The class of a space with its own arguments.
    - [Plain]: ParameterSpace;
    - [Vor1 vmin vmax std from_prior]: Voronoi with spatial_dimensions = 1;
    - [VorN d vmin vmax std polygon kdtree from_prior]: Voronoi in [d] > 1 dimensions
      (Voronoi2D when d = 2, the only one with polygon and kd-tree); bounds and standard
      deviation given once per dimension; [polygon] is polygon.contains of shapely.
    [from_prior]: birth_from == "prior". *)
Inductive sclass :=
| Plain
| Vor1 (vmin vmax std : R) (from_prior : bool)
| VorN (d : nat) (vmin vmax std : list R) (polygon : option (list R -> bool))
       (kdtree : bool) (from_prior : bool).

(** _parameter_space.py:44-67.  [sp_fixed] is the argument n_dimensions. *)
Inductive space :=
| Space (name : string) (fixed : option nat) (nmin nmax : nat) (range : R) (cls : sclass)
        (params : list (string * param))
with param :=
| PPrior (p : prior)
| PSpace (s : space).

Definition sp_name (s : space) := match s with Space n _ _ _ _ _ _ => n end.
Definition sp_fixed (s : space) := match s with Space _ f _ _ _ _ _ => f end.
Definition sp_min (s : space) : nat :=
  match s with Space _ f m _ _ _ _ => match f with Some n => n | None => m end end.
Definition sp_max (s : space) : nat :=
  match s with Space _ f _ m _ _ _ => match f with Some n => n | None => m end end.
Definition sp_range (s : space) := match s with Space _ _ _ _ r _ _ => r end.
Definition sp_cls (s : space) := match s with Space _ _ _ _ _ c _ => c end.
Definition sp_params (s : space) : dict param := match s with Space _ _ _ _ _ _ p => p end.
Definition sp_transd (s : space) : bool := match sp_fixed s with None => true | Some _ => false end.

(** isinstance(param, Discretization) for a nested space. *)
Definition is_disc (s : space) : bool := match sp_cls s with Plain => false | _ => true end.

(** while True: x = m(); if ok(x): return x -- every pass consumes draws, so the length of
    the trace bounds the number of passes. *)
Fixpoint until_loop {A} (fuel : nat) (m : M A) (ok : A -> bool) : M A := fun tr =>
  match fuel with
  | O => Starve
  | S f =>
      match m tr with
      | Ret a tr' => if ok a then Ret a tr' else until_loop f m ok tr'
      | Err e tr' => Err e tr'
      | UBeh => UBeh
      | Starve => Starve
      end
  end.
Definition until {A} (m : M A) (ok : A -> bool) : M A := fun tr =>
  until_loop (S (length tr)) m ok tr.

(** int(x): truncation towards zero. *)
Definition py_int (x : R) : Z := if Rltb x 0 then (- Int_part (- x))%Z else Int_part x.
(** random.randint(a, b) with an upper end that may be negative. *)
Definition randint_to (a : nat) (b : Z) : M nat :=
  if (b <? Z.of_nat a)%Z then err EValue else randint a (Z.to_nat b).

(** _parameter_space.py:148-155 and _voronoi.py:160-167 *)
Definition init_n (s : space) : M nat :=
  match sp_fixed s with
  | Some n => ret n
  | None =>
      let init_max := py_int ((INR (sp_max s) - INR (sp_min s)) * sp_range s + INR (sp_min s)) in
      randint_to (sp_min s) init_max
  end.
(** _parameter_space.py:175-180 and _voronoi.py:127-132 *)
Definition sample_n (s : space) : M nat :=
  match sp_fixed s with
  | Some n => ret n
  | None => randint (sp_min s) (sp_max s)
  end.

(** np.random.uniform(vmin, vmax, d) and np.random.normal(0, std, d), componentwise;
    arguments of another length do not broadcast. *)
Definition uniform_vec (d : nat) (lo hi : list R) : M (list R) :=
  if (length lo =? d)%nat && (length hi =? d)%nat
  then mapM (fun ab => uniform (fst ab) (snd ab)) (combine lo hi) else err EValue.
Definition normal_vec (d : nat) (sd : list R) : M (list R) :=
  if (length sd =? d)%nat then
    if neg_any sd then err EValue else mapM (fun s => normal 0 s) sd
  else err EValue.
Definition vadd (a b : list R) : list R := map (fun xy => fst xy + snd xy) (combine a b).
(** all((x >= vmin) & (x <= vmax)) *)
Definition in_box (lo hi x : list R) : bool :=
  forallb (fun abx => Rleb (fst (fst abx)) (snd abx) && Rleb (snd abx) (snd (fst abx)))
    (combine (combine lo hi) x).

(** _voronoi.py:121-123 and 1364-1371 [sample_site]. *)
Definition sample_site (c : sclass) : M pos :=
  match c with
  | Plain => err EAttr
  | Vor1 lo hi _ _ => x <- uniform lo hi ;; ret (P1 x)
  | VorN d lo hi _ poly _ _ =>
      match poly with
      | Some contains_pt =>
          x <- until (uniform_vec d lo hi) contains_pt ;; ret (PN x)
      | None => x <- uniform_vec d lo hi ;; ret (PN x)
      end
  end.

(** _voronoi.py:180-207 and 1385-1409 [_perturb_site]. *)
Definition perturb_site (c : sclass) (site : pos) : M pos :=
  match c, site with
  | Vor1 lo hi sd _, P1 x =>
      y <- until (d <- normal 0 sd ;; ret (x + d)) (fun y => Rleb lo y && Rleb y hi) ;;
      ret (P1 y)
  | VorN d lo hi sd poly _ _, PN x =>
      y <- until (dv <- normal_vec d sd ;; ret (vadd x dv))
             (match poly with Some contains_pt => contains_pt | None => in_box lo hi end) ;;
      ret (PN y)
  | _, _ => ubeh
  end.

(** np.sort on numbers. *)
Fixpoint rinsert (x : R) (l : list R) : list R :=
  match l with
  | [] => [x]
  | y :: t => if Rleb x y then x :: l else y :: rinsert x t
  end.
Definition rsort (l : list R) : list R := fold_right rinsert [] l.
(** np.argsort: indices in the order of the values.  Ties keep their order here; NumPy's
    default sort may order ties differently. *)
Fixpoint ainsert (x : R * nat) (l : list (R * nat)) : list (R * nat) :=
  match l with
  | [] => [x]
  | y :: t => if Rleb (fst x) (fst y) then x :: l else y :: ainsert x t
  end.
Definition argsort (l : list R) : list nat :=
  map snd (fold_right ainsert [] (combine l (seq 0 (length l)))).

(** Entries of a dictionary of values as positions or sites. *)
Definition positions_of (v : option value) : res (list pos) :=
  match v with
  | Some (Arr l) => Ok (map P1 l)
  | Some (ArrN l) => Ok (map PN l)
  | Some _ => Undef
  | None => Raise EType
  end.
(** array[i] for numbers and lists[i] for states; None[i] raises TypeError. *)
Definition num_at (v : option value) (i : nat) : res R :=
  match v with
  | Some (Arr l) => idx l i
  | Some _ => Undef
  | None => Raise EType
  end.
Definition state_at (v : option value) (i : nat) : res psstate :=
  match v with
  | Some (Lst l) => idx l i
  | Some (AObj l) => idx l i
  | Some _ => Undef
  | None => Raise EType
  end.
Definition site_at (v : option value) (i : nat) : res pos :=
  ps <-? positions_of v ;; idx ps i.

Definition disc_key : string := "discretization".

(** np.array([...]) of drawn sites, sorted in one dimension (134-137, 169-172). *)
Definition ravel (ps : list pos) : list R :=
  flat_map (fun p => match p with P1 x => [x] | PN v => v end) ps.
Definition rows (ps : list pos) : list (list R) :=
  map (fun p => match p with P1 x => [x] | PN v => v end) ps.
Definition sites_value (c : sclass) (ps : list pos) : value :=
  match c with
  | VorN _ _ _ _ _ _ _ => ArrN (rows ps)
  | _ => Arr (rsort (ravel ps))
  end.

(** _voronoi.py:1379-1383 [_add_kdtree_to_ps_state] and the flag compute_kdtree. *)
Definition add_kdtree (c : sclass) (p : psstate) : res psstate :=
  match c with
  | VorN _ _ _ _ _ true _ =>
      match ps_get disc_key p with
      | Some v => Ok (ps_save_cache "kdtree" v p)
      | None => Raise EValue
      end
  | _ => Ok p
  end.

(** _voronoi.py:125-141 [sample_discretization]. *)
Definition sample_discretization (s : space) : M psstate :=
  n <- sample_n s ;;
  sites <- repeatM n (sample_site (sp_cls s)) ;;
  lift (mk_ps n [(disc_key, sites_value (sp_cls s) sites)]).

(** _parameter_space.py:118-160 and _voronoi.py:143-178, 1373-1377 [initialize].
    ParameterSpace passes np.empty(n) as positions: arbitrary numbers, one draw each. *)
Fixpoint initialize (s : space) : M psstate :=
  match s with
  | Space name fixed nmin nmax range cls params =>
      n <- init_n (Space name fixed nmin nmax range cls params) ;;
      match cls with
      | Plain =>
          vals <- (fix go (l : list (string * param)) : M (dict value) :=
                     match l with
                     | [] => ret []
                     | (k, PPrior p) :: t =>
                         g <- repeatM n drawVal ;;
                         a <- p_initialize p (map P1 g) ;;
                         r <- go t ;; ret ((k, Arr a) :: r)
                     | (k, PSpace s') :: t =>
                         a <- repeatM n (initialize s') ;;
                         r <- go t ;; ret ((k, Lst a) :: r)
                     end) params ;;
          lift (mk_ps n vals)
      | _ =>
          sites <- repeatM n (sample_site cls) ;;
          let sv := sites_value cls sites in
          positions <- lift (positions_of (Some sv)) ;;
          vals <- (fix go (l : list (string * param)) (acc : dict value) : M (dict value) :=
                     match l with
                     | [] => ret acc
                     | (k, PPrior p) :: t =>
                         a <- p_initialize p positions ;; go t (dset k (Arr a) acc)
                     | (k, PSpace s') :: t =>
                         a <- repeatM (length positions) (initialize s') ;;
                         go t (dset k (Lst a) acc)
                     end) params [(disc_key, sv)] ;;
          p <- lift (mk_ps n vals) ;;
          lift (add_kdtree cls p)
      end
  end.

(** _parameter_space.py:162-187 and _discretization.py:86-98 [sample].  A Discretization
    nested in a ParameterSpace is an instance of Prior, so its samples are put in an array of
    objects (184-186). *)
Fixpoint sample (s : space) : M psstate :=
  match s with
  | Space name fixed nmin nmax range cls params =>
      match cls with
      | Plain =>
          n <- sample_n (Space name fixed nmin nmax range cls params) ;;
          vals <- (fix go (l : list (string * param)) : M (dict value) :=
                     match l with
                     | [] => ret []
                     | (k, PPrior p) :: t =>
                         a <- repeatM n (p_sample p None) ;;
                         r <- go t ;; ret ((k, Arr a) :: r)
                     | (k, PSpace s') :: t =>
                         a <- repeatM n (sample s') ;;
                         r <- go t ;;
                         ret ((k, if is_disc s' then AObj a else Lst a) :: r)
                     end) params ;;
          lift (mk_ps n vals)
      | _ =>
          p0 <- sample_discretization (Space name fixed nmin nmax range cls params) ;;
          (fix go (l : list (string * param)) (q : psstate) : M psstate :=
             match l with
             | [] => ret q
             | (k, PPrior p) :: t =>
                 positions <- lift (positions_of (ps_get disc_key q)) ;;
                 a <- mapM (fun x => p_sample p (Some x)) positions ;;
                 q' <- lift (ps_set k (Arr a) q) ;; go t q'
             | (k, PSpace s') :: t =>
                 positions <- lift (positions_of (ps_get disc_key q)) ;;
                 a <- repeatM (length positions) (sample s') ;;
                 q' <- lift (ps_set k (Lst a) q) ;; go t q'
             end) params p0
      end
  end.

(** _parameter_space.py:189-195 [log_prior]; nested spaces: Voronoi.log_prior raises
    NotImplementedError (_voronoi.py:448-461), ParameterSpace.log_prior does not accept two
    arguments.  sum() is a left-to-right sum. *)
Fixpoint esum (acc : ext) (l : list ext) : ext :=
  match l with [] => acc | x :: t => esum (eadd acc x) t end.
Fixpoint log_prior_loop (l : list (string * param)) (p : psstate) (acc : ext) : res ext :=
  match l with
  | [] => Ok acc
  | (k, PPrior pr) :: t =>
      match ps_get k p with
      | Some (Arr vs) =>
          ls <-? rmap (fun v => p_log_prior pr v None) vs ;;
          log_prior_loop t p (eadd acc (esum (Fin 0) ls))
      | Some _ => Undef
      | None => Raise EType
      end
  | (k, PSpace s') :: t =>
      match ps_get k p with
      | Some v => if (value_len v =? 0)%nat then log_prior_loop t p (eadd acc (Fin 0))
                  else Raise (if is_disc s' then ENotImpl else EType)
      | None => Raise EType
      end
  end.
Definition plain_log_prior (s : space) (p : psstate) : res ext :=
  log_prior_loop (sp_params s) p (Fin 0).

(** values[:i] + [x] + values[i:] and values[:i] + values[i+1:] on lists. *)
Definition list_insert {A} (i : nat) (x : A) (l : list A) : list A := firstn i l ++ x :: skipn i l.
Definition list_delete {A} (i : nat) (l : list A) : list A := firstn i l ++ skipn (S i) l.

(** random.randint(0, n - 1) *)
Definition randint_below (n : nat) : M nat :=
  match n with O => err EValue | S m => randint 0 m end.

(** A value of a newborn dimension: a number or a state. *)
Inductive newborn := NNum (r : R) | NState (p : psstate).

(** self.parameters[name].sample() as called by ParameterSpace.birth. *)
Definition param_sample (pr : param) (at_ : option pos) : M newborn :=
  match pr with
  | PPrior p => x <- p_sample p at_ ;; ret (NNum x)
  | PSpace s => q <- sample s ;; ret (NState q)
  end.

(** insert_1d for arrays, slices for lists; an array of objects or of rows given to insert_1d
    (a memoryview of doubles) raises ValueError. *)
Definition insert_value (i : nat) (x : newborn) (v : value) : res value :=
  match v, x with
  | Arr l, NNum r => l' <-? insert_1d l i r ;; Ok (Arr l')
  | Arr _, NState _ => Raise EType
  | AObj _, _ => Raise EValue
  | ArrN _, _ => Raise EValue
  | Lst l, NState p => Ok (Lst (list_insert i p l))
  | Lst _, NNum _ => Undef
  end.
(** _parameter_space.py:197-275 [birth] *)
Fixpoint plain_birth_vals (params : dict param) (i : nat) (l : dict value) : M (dict value) :=
  match l with
  | [] => ret []
  | (k, v) :: t =>
      match dget k params with
      | None => err EKey
      | Some pr =>
          x <- param_sample pr None ;;
          v' <- lift (insert_value i x v) ;;
          r <- plain_birth_vals params i t ;; ret ((k, v') :: r)
      end
  end.
Definition plain_birth (s : space) (p : psstate) : M (psstate * ext) :=
  if (ps_n p =? sp_max s)%nat then ret (p, MInf) else
  i <- randint 0 (ps_n p) ;;
  vals <- plain_birth_vals (sp_params s) i (ps_vals p) ;;
  q <- lift (mk_ps (S (ps_n p)) vals) ;;
  ret (q, Fin 0).

(** delete_1d for arrays, slices for lists. *)
Definition delete_value (i : nat) (v : value) : res value :=
  match v with
  | Arr l => l' <-? delete_1d l i ;; Ok (Arr l')
  | AObj _ => Raise EValue
  | ArrN _ => Raise EValue
  | Lst l => Ok (Lst (list_delete i l))
  end.
(** _parameter_space.py:277-322 [death] *)
Definition plain_death (s : space) (p : psstate) : M (psstate * ext) :=
  if (ps_n p =? sp_min s)%nat then ret (p, MInf) else
  i <- randint_below (ps_n p) ;;
  vals <- lift (rmap (fun kv => v <-? delete_value i (snd kv) ;; Ok (fst kv, v)) (ps_vals p)) ;;
  q <- lift (mk_ps (ps_n p - 1) vals) ;;
  ret (q, Fin 0).

(** _voronoi.py:525-532 [nearest_neighbour]; np.argmin is the first smallest distance. *)
Fixpoint dist2 (a b : list R) : R :=
  match a, b with
  | x :: s, y :: t => (x - y) ^ 2 + dist2 s t
  | _, _ => 0
  end.
Fixpoint argmin_loop (l : list R) (i best : nat) (m : R) : nat :=
  match l with
  | [] => best
  | x :: t => if Rltb x m then argmin_loop t (S i) i x else argmin_loop t (S i) best m
  end.
Definition argmin (l : list R) : res nat :=
  match l with [] => Raise EValue | x :: t => Ok (argmin_loop t 1 0 x) end.
Definition nearest_neighbour (sites : option value) (q : pos) : res nat :=
  match sites, q with
  | Some (Arr l), P1 x => nearest_neighbour_1d x l
  | Some (ArrN l), PN v => argmin (map (fun s => sqrt (dist2 s v)) l)
  | None, _ => Raise EAttr
  | _, _ => Undef
  end.

(** math.log(std * SQRT_TWO_PI) + (new - old)**2 / (2 * std**2)
    (_discretization.py:365-367, 429-431, 459-461, 489-491) *)
Definition log_proposal (sd new old : R) : res R :=
  l <-? py_log (sd * sqrt (2 * PI)) ;; Ok (l + (new - old) ^ 2 / (2 * sd ^ 2)).

(** _discretization.py:377-433 [_sample_from_neighbour]: [new] is filled in place and
    returned.  log_prob_initialize_discretization is 0 (_voronoi.py:534-537). *)
Definition log_init_disc : ext := Fin 0.
Definition set_num (v : option value) (i : nat) (x : R) : res value :=
  match v with
  | Some (Arr l) => if (i <? length l)%nat then Ok (Arr (set_nth l i x)) else Raise EIndex
  | Some _ => Undef
  | None => Raise EType
  end.
Definition set_state (v : option value) (i : nat) (x : psstate) : res value :=
  match v with
  | Some (Lst l) => if (i <? length l)%nat then Ok (Lst (set_nth l i x)) else Raise EIndex
  | Some _ => Undef
  | None => Raise EType
  end.
(** 392-411: the parameters filled with initial values. *)
Fixpoint fill_params (params : dict param) (q : psstate) (acc : ext) : M (psstate * ext) :=
  match params with
  | [] => ret (q, acc)
  | (k, PPrior _) :: t =>
      g <- repeatM (ps_n q) drawVal ;;
      q' <- lift (ps_set k (Arr g) q) ;; fill_params t q' acc
  | (k, PSpace s') :: t =>
      if is_disc s' then
        a <- repeatM (ps_n q) (sample_discretization s') ;;
        q' <- lift (ps_set k (Lst a) q) ;;
        fill_params t q' (eadd acc (esum (Fin 0) (map (fun _ => log_init_disc) a)))
      else
        a <- repeatM (ps_n q) (sample s') ;;
        q' <- lift (ps_set k (Lst a) q) ;; fill_params t q' acc
  end.
Fixpoint sample_from_neighbour (s : space) : psstate -> psstate -> M (psstate * ext) :=
  match s with
  | Space name fixed nmin nmax range cls params => fun old new =>
      '(q0, acc0) <- fill_params params new (Fin 0) ;;
      positions <- lift (positions_of (ps_get disc_key q0)) ;;
      (fix points (is : list (nat * pos)) (q : psstate) (acc : ext) : M (psstate * ext) :=
         match is with
         | [] => ret (q, acc)
         | (i, x) :: more =>
             j <- lift (nearest_neighbour (ps_get disc_key old) x) ;;
             '(q2, acc2) <-
               (fix each (l : list (string * param)) (q : psstate) (acc : ext) : M (psstate * ext) :=
                  match l with
                  | [] => ret (q, acc)
                  | (k, PPrior p) :: t =>
                      nb <- lift (num_at (ps_get k old) j) ;;
                      '(nv, _) <- p_perturb p nb (Some x) true ;;
                      v' <- lift (set_num (ps_get k q) i nv) ;;
                      q' <- lift (ps_set k v' q) ;;
                      lp <- lift (p_log_prior p nv (Some x)) ;;
                      sd <- lift (perturb_std_of p true (Some x)) ;;
                      lq <- lift (log_proposal sd nv nb) ;;
                      each t q' (eadd acc (eadd lp (Fin lq)))
                  | (k, PSpace s') :: t =>
                      if is_disc s' then
                        o <- lift (state_at (ps_get k old) j) ;;
                        n <- lift (state_at (ps_get k q) i) ;;
                        '(n', l') <- sample_from_neighbour s' o n ;;
                        v' <- lift (set_state (ps_get k q) i n') ;;
                        q' <- lift (ps_set k v' q) ;;
                        each t q' (eadd acc l')
                      else each t q acc
                  end) params q acc ;;
             points more q2 acc2
         end) (combine (seq 0 (length positions)) positions) q0 acc0
  end.

(** _discretization.py:323-375 [_initialize_params_from_neighbour]; a ParameterSpace that
    is not a Discretization: [new_value, _ = param.sample()] unpacks a
    ParameterSpaceState, whose __getitem__(0) raises TypeError. *)
Fixpoint newborn_from_neighbour (params : dict param) (x : pos) (j : nat) (old : psstate)
    (acc : ext) : M (dict newborn * ext) :=
  match params with
  | [] => ret ([], acc)
  | (k, PPrior p) :: t =>
      nb <- lift (num_at (ps_get k old) j) ;;
      '(nv, _) <- p_perturb p nb (Some x) true ;;
      sd <- lift (perturb_std_of p true (Some x)) ;;
      lp <- lift (p_log_prior p nv (Some x)) ;;
      lq <- lift (log_proposal sd nv nb) ;;
      '(r, acc') <- newborn_from_neighbour t x j old (eadd acc (eadd lp (Fin lq))) ;;
      ret ((k, NNum nv) :: r, acc')
  | (k, PSpace s') :: t =>
      if is_disc s' then
        (* old_ps_state[param.name]: the key in the dictionary is the name *)
        o <- lift (state_at (ps_get (sp_name s') old) j) ;;
        n <- sample_discretization s' ;;
        '(n', l') <- sample_from_neighbour s' o n ;;
        '(r, acc') <- newborn_from_neighbour t x j old (eadd acc l') ;;
        ret ((k, NState n') :: r, acc')
      else
        _ <- sample s' ;; err EType
  end.
(** _discretization.py:299-321 [_initialize_params_from_prior] *)
Fixpoint newborn_from_prior (params : dict param) (x : pos) : M (dict newborn) :=
  match params with
  | [] => ret []
  | (k, pr) :: t =>
      v <- param_sample pr (Some x) ;; r <- newborn_from_prior t x ;; ret ((k, v) :: r)
  end.
(** _discretization.py:268-297 [_initialize_newborn_params] *)
Definition newborn_params (s : space) (x : pos) (old : psstate) : M (dict newborn * ext) :=
  match sp_cls s with
  | Plain => err EAttr
  | Vor1 _ _ _ true | VorN _ _ _ _ _ _ true =>
      r <- newborn_from_prior (sp_params s) x ;; ret (r, Fin 0)
  | _ =>
      j <- lift (nearest_neighbour (ps_get disc_key old) x) ;;
      newborn_from_neighbour (sp_params s) x j old (Fin 0)
  end.

(** Lib/bisect.py bisect_left (_voronoi.py:373) *)
Fixpoint bisect_left_loop (fuel : nat) (a : list R) (x : R) (lo hi : nat) : res nat :=
  if (lo <? hi)%nat then
    match fuel with
    | O => Undef
    | S f =>
        let mid := ((lo + hi) / 2)%nat in
        am <-? idx a mid ;;
        if Rltb am x then bisect_left_loop f a x (S mid) hi else bisect_left_loop f a x lo mid
    end
  else Ok lo.
Definition bisect_left (a : list R) (x : R) : res nat :=
  bisect_left_loop (length a) a x 0 (length a).

(** np.append / list + [value] (389-393) *)
Definition append_value (x : newborn) (v : option value) : res value :=
  match v, x with
  | Some (Arr l), NNum r => Ok (Arr (l ++ [r]))
  | Some (Lst l), NState p => Ok (Lst (l ++ [p]))
  | None, _ => Raise EType
  | _, _ => Undef
  end.
(** old_ps_state[name] with the newborn value inserted (376-383). *)
Definition insert_newborn (i : nat) (x : newborn) (v : option value) : res value :=
  match v with Some w => insert_value i x w | None => Raise EType end.
Fixpoint add_newborns (put : newborn -> option value -> res value) (old : psstate)
    (l : dict newborn) (acc : dict value) : res (dict value) :=
  match l with
  | [] => Ok acc
  | (k, x) :: t => v <-? put x (ps_get k old) ;; add_newborns put old t (dset k v acc)
  end.
(** _voronoi.py:272-395, 1417-1423 [birth] *)
Definition vor_birth (s : space) (old : psstate) : M (psstate * ext) :=
  '(q, l) <-
    (if (ps_n old =? sp_max s)%nat then ret (old, MInf) else
     x <- sample_site (sp_cls s) ;;
     '(born, l) <- newborn_params s x old ;;
     vals <- lift (match x with
       | P1 y =>
           match ps_get disc_key old with
           | Some (Arr sites) =>
               i <-? bisect_left sites y ;;
               sites' <-? insert_1d sites i y ;;
               add_newborns (insert_newborn i) old born [(disc_key, Arr sites')]
           | Some _ => Undef
           | None => Raise EType
           end
       | PN y =>
           match ps_get disc_key old with
           | Some (ArrN sites) => add_newborns append_value old born [(disc_key, ArrN (sites ++ [y]))]
           | Some _ => Undef
           | None => Raise EValue
           end
       end) ;;
     q <- lift (mk_ps (S (ps_n old)) vals) ;;
     ret (q, l)) ;;
  q' <- lift (add_kdtree (sp_cls s) q) ;;
  ret (q', l).

(** _discretization.py:467-494 [_log_prob_death_ps_state] *)
Fixpoint log_prob_death_ps_state (s : space) : psstate -> psstate -> res ext :=
  match s with
  | Space name fixed nmin nmax range cls params => fun old new =>
      positions <-? positions_of (ps_get disc_key old) ;;
      (fix points (is : list (nat * pos)) (acc : ext) : res ext :=
         match is with
         | [] => Ok acc
         | (i, x) :: more =>
             j <-? nearest_neighbour (ps_get disc_key new) x ;;
             acc2 <-?
               (fix each (l : list (string * param)) (acc : ext) : res ext :=
                  match l with
                  | [] => Ok acc
                  | (k, PPrior p) :: t =>
                      ov <-? num_at (ps_get k old) i ;;
                      nv <-? num_at (ps_get k new) j ;;
                      sd <-? perturb_std_of p true (Some x) ;;
                      lp <-? p_log_prior p ov (Some x) ;;
                      lq <-? log_proposal sd ov nv ;;
                      each t (esub (esub acc lp) (Fin lq))
                  | (k, PSpace s') :: t =>
                      if is_disc s' then
                        o <-? state_at (ps_get k old) i ;;
                        n <-? state_at (ps_get k new) j ;;
                        l' <-? log_prob_death_ps_state s' o n ;;
                        each t (eadd (esub acc log_init_disc) l')
                      else each t acc
                  end) params acc ;;
             points more acc2
         end) (combine (seq 0 (length positions)) positions) (Fin 0)
  end.
(** _discretization.py:435-465 [_log_prob_death_parameters] *)
Fixpoint log_prob_death_loop (params : dict param) (x : pos) (i j : nat) (old new : psstate)
    (acc : ext) : res ext :=
  match params with
  | [] => Ok acc
  | (k, PPrior p) :: t =>
      ov <-? num_at (ps_get k old) i ;;
      nv <-? num_at (ps_get k new) j ;;
      sd <-? perturb_std_of p true (Some x) ;;
      lp <-? p_log_prior p ov (Some x) ;;
      lq <-? log_proposal sd ov nv ;;
      log_prob_death_loop t x i j old new (esub (esub acc lp) (Fin lq))
  | (k, PSpace s') :: t =>
      o <-? state_at (ps_get k old) i ;;
      n <-? state_at (ps_get k new) j ;;
      if is_disc s' then
        l' <-? log_prob_death_ps_state s' o n ;;
        log_prob_death_loop t x i j old new (eadd (esub acc log_init_disc) l')
      else log_prob_death_loop t x i j old new acc
  end.
Definition log_prob_death_parameters (s : space) (old new : psstate) (i : nat) : res ext :=
  match sp_cls s with
  | Plain => Raise EAttr
  | Vor1 _ _ _ true | VorN _ _ _ _ _ _ true => Ok (Fin 0)
  | _ =>
      x <-? site_at (ps_get disc_key old) i ;;
      j <-? nearest_neighbour (ps_get disc_key new) x ;;
      log_prob_death_loop (sp_params s) x i j old new (Fin 0)
  end.

(** delete_1d in one dimension, np.delete(..., axis=0) otherwise, slices for lists
    (435-442). *)
Definition vor_delete_value (c : sclass) (i : nat) (v : value) : res value :=
  match c with
  | VorN _ _ _ _ _ _ _ =>
      match v with
      | Arr l => if (i <? length l)%nat then Ok (Arr (list_delete i l)) else Raise EIndex
      | ArrN l => if (i <? length l)%nat then Ok (ArrN (list_delete i l)) else Raise EIndex
      | AObj l => if (i <? length l)%nat then Ok (AObj (list_delete i l)) else Raise EIndex
      | Lst l => Ok (Lst (list_delete i l))
      end
  | _ => delete_value i v
  end.
(** _voronoi.py:397-446, 1425-1429 [death] *)
Definition vor_death (s : space) (old : psstate) : M (psstate * ext) :=
  '(q, l) <-
    (if (ps_n old =? sp_min s)%nat then ret (old, MInf) else
     i <- randint_below (ps_n old) ;;
     vals <- lift (rmap (fun kv => v <-? vor_delete_value (sp_cls s) i (snd kv) ;;
                                   Ok (fst kv, v)) (ps_vals old)) ;;
     q <- lift (mk_ps (ps_n old - 1) vals) ;;
     l <- lift (log_prob_death_parameters s old q i) ;;
     ret (q, l)) ;;
  q' <- lift (add_kdtree (sp_cls s) q) ;;
  ret (q', l).

Definition birth (s : space) : psstate -> M (psstate * ext) :=
  if is_disc s then vor_birth s else plain_birth s.
Definition death (s : space) : psstate -> M (psstate * ext) :=
  if is_disc s then vor_death s else plain_death s.

(** values[isort] for arrays, [values[i] for i in isort] for lists (250-254). *)
Definition reorder (is : list nat) (v : value) : res value :=
  match v with
  | Arr l => l' <-? pick l is ;; Ok (Arr l')
  | ArrN l => l' <-? pick l is ;; Ok (ArrN l')
  | AObj l => l' <-? pick l is ;; Ok (AObj l')
  | Lst l => l' <-? pick l is ;; Ok (Lst l')
  end.
(** _voronoi.py:209-270, 1411-1415 [perturb_value]. *)
Fixpoint perturb_value_loop (params : dict param) (old : psstate) (i : nat) (x x' : pos)
    (put : value -> res value) (vals : dict value) (acc : ext) : res (dict value * ext) :=
  match params with
  | [] => Ok (vals, acc)
  | (k, pr) :: t =>
      acc' <-? match pr with
               | PPrior p =>
                   if p_pos p then
                     v <-? num_at (ps_get k old) i ;;
                     lo <-? p_log_prior p v (Some x) ;;
                     ln_ <-? p_log_prior p v (Some x') ;;
                     Ok (eadd acc (esub ln_ lo))
                   else Ok acc
               | PSpace _ => Ok acc
               end ;;
      v <-? match ps_get k old with Some w => put w | None => Raise EType end ;;
      perturb_value_loop t old i x x' put (dset k v vals) acc'
  end.
Definition perturb_value (s : space) (old : psstate) (i : nat) : M (psstate * ext) :=
  x <- lift (site_at (ps_get disc_key old) i) ;;
  x' <- perturb_site (sp_cls s) x ;;
  '(vals, l) <- lift (match ps_get disc_key old, x' with
    | Some (Arr sites), P1 y =>
        let sites1 := set_nth sites i y in
        let isort := argsort sites1 in
        sites2 <-? pick sites1 isort ;;
        perturb_value_loop (sp_params s) old i x x' (reorder isort) [(disc_key, Arr sites2)] (Fin 0)
    | Some (ArrN sites), PN y =>
        perturb_value_loop (sp_params s) old i x x' (fun v => Ok v)
          [(disc_key, ArrN (set_nth sites i y))] (Fin 0)
    | _, _ => Undef
    end) ;;
  q <- lift (mk_ps (ps_n old) vals) ;;
  q' <- lift (add_kdtree (sp_cls s) q) ;;
  ret (q', l).
