(** Model of /repo/src/bayesbay/perturbations/_birth_death.py, _param_values.py,
    _param_space.py, of the perturbation functions that the spaces create, and of
    parameterization/_parameterization.py. *)
From Verif Require Import Base ModelPrior ModelState ModelSpace ModelChain.
Local Open Scope R_scope.

(** An elementary perturbation: BirthPerturbation, DeathPerturbation, or
    ParamPerturbation(param_space_name, parameters). *)
Inductive elem :=
| EBirth (s : space)
| EDeath (s : space)
| EParam (spname : string) (l : list param).

Definition param_name (p : param) : string :=
  match p with PPrior q => p_name q | PSpace s => sp_name s end.

(** _param_values.py:56-84 [perturb_param_space_state].  The new state is a copy whose
    param_values are updated; its attributes are not. *)
Fixpoint perturb_params (l : list param) (p : psstate) (i : nat) (new : dict value)
    (acc : ext) : M (psstate * ext) :=
  match l with
  | [] =>
      c <- lift (ps_copy p) ;;
      ret (PS (ps_n c) (dupdate (ps_vals c) new) (ps_attrs c) (ps_cache c), acc)
  | PSpace s :: _ => if is_disc s then perturb_value s p i else err EAttr
  | PPrior pr :: t =>
      match ps_get (p_name pr) p with
      | None => err EAttr
      | Some v =>
          old <- lift (num_at (Some v) i) ;;
          at_ <- lift (match ps_get disc_key p with
                       | None => Ok None
                       | Some d => x <-? site_at (Some d) i ;; Ok (Some x)
                       end) ;;
          '(nv, r) <- p_perturb pr old at_ false ;;
          v' <- lift (set_num (Some v) i nv) ;;
          perturb_params t p i (dset (p_name pr) v' new) (eadd acc r)
      end
  end.
Definition param_perturb (l : list param) (p : psstate) : M (psstate * ext) :=
  i <- randint_below (ps_n p) ;; perturb_params l p i [] (Fin 0).

(** perturb_param_space_state of the three classes (_birth_death.py:53-56, 119-122). *)
Definition elem_perturb (e : elem) (p : psstate) : M (psstate * ext) :=
  match e with
  | EBirth s => birth s p
  | EDeath s => death s p
  | EParam _ l => param_perturb l p
  end.

(** __name__ (_birth_death.py:58-61, 124-127; _param_values.py:86-99).  str() of a list of
    names: quotation marks inside names are not escaped here. *)
Fixpoint join (sep : string) (l : list string) : string :=
  match l with
  | [] => ""
  | [x] => x
  | x :: t => (x ++ sep ++ join sep t)%string
  end.
Definition elem_name (e : elem) : string :=
  match e with
  | EBirth s => ("BirthPerturbation(" ++ sp_name s ++ ")")%string
  | EDeath s => ("DeathPerturbation(" ++ sp_name s ++ ")")%string
  | EParam n l =>
      let names := map (fun p => match p with
                                 | PSpace s => (sp_name s ++ ".discretization")%string
                                 | PPrior q => (n ++ "." ++ p_name q)%string
                                 end) l in
      ("ParamPerturbation(" ++
       match names with
       | [x] => x
       | _ => "[" ++ join ", " (map (fun x => "'" ++ x ++ "'") names) ++ "]"
       end ++ ")")%string
  end.

(** A ParamSpacePerturbation (_param_space.py:11-22). *)
Record psp := mkPsp { psp_space : string; psp_funcs : list (elem * R) }.
Definition psp_name (q : psp) : string :=
  ("ParamSpacePerturbation(param_space_name=" ++ psp_space q ++ ")")%string.

(** What the traversal of _param_space.py looks at in an entry of param_values: one state, a
    list of states, or something else (arrays, data noise). *)
Inductive child := COne (p : psstate) | CMany (l : list psstate) | CNone.
Definition entry_child (e : entry) : child :=
  match e with EPS p => COne p | ENoise _ => CNone end.
Definition value_child (v : value) : child :=
  match v with Lst l => CMany l | _ => CNone end.
Definition st_children (s : state) : dict child :=
  map (fun ke => (fst ke, entry_child (snd ke))) (st_vals s).
Definition ps_children (p : psstate) : dict child :=
  map (fun kv => (fst kv, value_child (snd kv))) (ps_vals p).

(** Number of states in a tree: bound on the passes of the breadth-first loops. *)
Fixpoint ps_size (p : psstate) : nat :=
  match p with
  | PS _ vals _ _ =>
      S ((fix go (l : list (string * value)) : nat :=
            match l with
            | [] => O
            | (_, v) :: t =>
                (match v with
                 | Lst ps => (fix each (q : list psstate) : nat :=
                                match q with [] => O | x :: r => ps_size x + each r end) ps
                 | _ => O
                 end + go t)%nat
            end) vals)
  end.
Definition st_size (s : state) : nat :=
  S (nsum (map (fun ke => match snd ke with EPS p => ps_size p | ENoise _ => O end) (st_vals s)))%nat.

(** _param_space.py:26-37: one pass of the counting loop. *)
Fixpoint count_node (name : string) (l : dict child) (n : nat) (queue : list (dict child))
    : res (nat * list (dict child)) :=
  match l with
  | [] => Ok (n, queue)
  | (k, c) :: t =>
      match c with
      | COne p =>
          if String.eqb k name then count_node name t (S n) queue
          else count_node name t n (queue ++ [ps_children p])
      | CMany ps =>
          if String.eqb k name then count_node name t (n + length ps) queue
          else match ps with
               | [] => Raise EIndex
               | _ => count_node name t n (queue ++ map ps_children ps)
               end
      | CNone => count_node name t n queue
      end
  end.
Fixpoint count_loop (fuel : nat) (name : string) (queue : list (dict child)) (n : nat) : res nat :=
  match queue with
  | [] => Ok n
  | l :: rest =>
      match fuel with
      | O => Undef
      | S f => '(n', queue') <-? count_node name l n rest ;; count_loop f name queue' n'
      end
  end.

(** The position of a state in the tree below a State: names of the entries and index in
    the list (0 for the state directly in the State). *)
Definition path := list (string * nat).

(** new_ps_state.set_param_values(k, v) on the node at [w] of the new state.  The copy made
    in line 25 has its attributes and param_values in step, so an in-place change of a
    nested state shows in both. *)
Fixpoint set_in_ps (w : path) (k : string) (v : value) (p : psstate) : res psstate :=
  match w with
  | [] => ps_set k v p
  | (k1, i) :: w' =>
      match ps_get k1 p with
      | Some (Lst l) =>
          c <-? idx l i ;;
          c' <-? set_in_ps w' k v c ;;
          ps_set k1 (Lst (set_nth l i c')) p
      | Some _ => Undef
      | None => Raise EType
      end
  end.
Definition set_in_state (w : path) (k : string) (v : value) (s : state) : res state :=
  match w with
  | [] => Undef
  | (k0, _) :: w' =>
      match st_get k0 s with
      | Some (EPS p) => p' <-? set_in_ps w' k v p ;; Ok (st_set k0 (EPS p') s)
      | Some _ => Undef
      | None => Raise EType
      end
  end.

(** _param_space.py:78-91 [perturb_param_space_state]. *)
Definition psp_perturb_ps (q : psp) (p : psstate) : M (psstate * ext * string) :=
  i <- choices (length (psp_funcs q)) (map snd (psp_funcs q)) ;;
  ew <- lift (idx (psp_funcs q) i) ;;
  '(p', r) <- elem_perturb (fst ew) p ;;
  ret (p', r, elem_name (fst ew)).

(** The variables of the second loop (38-44). *)
Record walk := mkWalk {
  w_new : state;
  w_i : nat;
  w_ratio : ext;
  w_stats : dict nat;
  w_queue : list (path * dict child)
}.
Definition bump_type (ty : string) (d : dict nat) : dict nat :=
  dset ty (S (match dget ty d with Some n => n | None => O end)) d.
(** 54-64: the loop over the states of a list. *)
Fixpoint walk_list (q : psp) (target : nat) (vs : list psstate) (i : nat) (ratio : ext)
    (stats : dict nat) : M (list psstate * nat * ext * dict nat) :=
  match vs with
  | [] => ret ([], i, ratio, stats)
  | v :: t =>
      if (i =? target)%nat then
        '(v', r, ty) <- psp_perturb_ps q v ;;
        '(t', i', ratio', stats') <- walk_list q target t (S i) (eadd ratio r) (bump_type ty stats) ;;
        ret (v' :: t', i', ratio', stats')
      else
        v' <- lift (ps_copy v) ;;
        '(t', i', ratio', stats') <- walk_list q target t (S i) ratio stats ;;
        ret (v' :: t', i', ratio', stats')
  end.
(** 45-71: one pass of the second loop. *)
Fixpoint walk_node (q : psp) (target : nat) (w : path) (l : dict child) (s : walk) : M walk :=
  match l with
  | [] => ret s
  | (k, c) :: t =>
      match c with
      | COne p =>
          if String.eqb k (psp_space q) then
            if (w_i s =? target)%nat then
              '(p', r, ty) <- psp_perturb_ps q p ;;
              (* a single state is an entry of the State itself *)
              walk_node q target w t
                (mkWalk (st_set k (EPS p') (w_new s)) (S (w_i s)) (eadd (w_ratio s) r)
                   (bump_type ty (w_stats s)) (w_queue s))
            else
              walk_node q target w t
                (mkWalk (w_new s) (S (w_i s)) (w_ratio s) (w_stats s) (w_queue s))
          else
            walk_node q target w t
              (mkWalk (w_new s) (w_i s) (w_ratio s) (w_stats s)
                 (w_queue s ++ [(w ++ [(k, 0%nat)], ps_children p)]))
      | CMany ps =>
          if String.eqb k (psp_space q) then
            '(ps', i', ratio', stats') <- walk_list q target ps (w_i s) (w_ratio s) (w_stats s) ;;
            new' <- lift (set_in_state w k (Lst ps') (w_new s)) ;;
            walk_node q target w t (mkWalk new' i' ratio' stats' (w_queue s))
          else
            match ps with
            | [] => err EIndex
            | _ =>
                walk_node q target w t
                  (mkWalk (w_new s) (w_i s) (w_ratio s) (w_stats s)
                     (w_queue s ++ map (fun ip => (w ++ [(k, fst ip)], ps_children (snd ip)))
                                       (combine (seq 0 (length ps)) ps)))
            end
      | CNone => walk_node q target w t s
      end
  end.
Fixpoint walk_loop (fuel : nat) (q : psp) (target : nat) (s : walk) : M walk :=
  match w_queue s with
  | [] => ret s
  | (w, l) :: rest =>
      if (w_i s <=? target)%nat then
        match fuel with
        | O => ubeh
        | S f =>
            s' <- walk_node q target w l
                    (mkWalk (w_new s) (w_i s) (w_ratio s) (w_stats s) rest) ;;
            walk_loop f q target s'
        end
      else ret s
  end.
(** _param_space.py:24-76 [perturb]. *)
Definition psp_perturb (q : psp) (s : state) : M (state * ext) :=
  new <- lift (st_copy false s) ;;
  n <- lift (count_loop (st_size s) (psp_space q) [st_children s] 0) ;;
  target <- randint_below n ;;
  w <- walk_loop (st_size s) q target
         (mkWalk new 0 (Fin 0) [] [([], st_children s)]) ;;
  let total := INR (nsum (map snd (w_stats w))) in
  let stats := map (fun kn => (fst kn, INR (snd kn) / total)) (w_stats w) in
  ret (st_save_cache "perturb_stats" (CStats stats) (w_new w), w_ratio w).

(** The methods [perturb] of the elementary perturbations (_birth_death.py:46-51, 112-117;
    _param_values.py:50-54). *)
Definition elem_space (e : elem) : string :=
  match e with EBirth s => sp_name s | EDeath s => sp_name s | EParam n _ => n end.
Definition elem_perturb_state (e : elem) (s : state) : M (state * ext) :=
  match st_get (elem_space e) s with
  | Some (EPS p) =>
      '(p', r) <- elem_perturb e p ;;
      new <- lift (st_copy false s) ;;
      ret (st_set (elem_space e) (EPS p') new, r)
  | Some (ENoise _) => ubeh
  | None => err EAttr
  end.

(** [_init_perturbation_funcs] of ParameterSpace (_parameter_space.py:324-352) and of
    Voronoi (_voronoi.py:463-493): the functions with their weights, those of nested spaces
    first. *)
Definition priors_of (l : dict param) : list param :=
  filter (fun p => match p with PPrior _ => true | PSpace _ => false end) (map snd l).
Definition own_elems (s : space) : list (elem * R) :=
  (if sp_transd s then [(EBirth s, 1); (EDeath s, 1)] else []) ++
  (match priors_of (sp_params s) with
   | [] => []
   | l => [(EParam (sp_name s) l, 3)]
   end) ++
  (if is_disc s then [(EParam (sp_name s) [PSpace s], 1)] else []).
Definition own_psp (s : space) : psp * R :=
  (mkPsp (sp_name s) (own_elems s), rsum (map snd (own_elems s))).
Fixpoint space_funcs (s : space) : list (psp * R) :=
  match s with
  | Space name fixed nmin nmax range cls params =>
      (fix go (l : list (string * param)) : list (psp * R) :=
         match l with
         | [] => []
         | (_, PSpace s') :: t => space_funcs s' ++ go t
         | (_, PPrior _) :: t => go t
         end) params
      ++ [own_psp (Space name fixed nmin nmax range cls params)]
  end.

(** self._parameters[param.name] = param (_parameter_space.py:56-59): later parameters
    replace earlier ones of the same name. *)
Definition params_dict (l : list param) : dict param :=
  fold_left (fun d p => dset (param_name p) p d) l [].

(** A Parameterization (_parameterization.py:10-53). *)
Fixpoint dup_name (l : list string) : bool :=
  match l with
  | [] => false
  | x :: t => existsb (String.eqb x) t || dup_name t
  end.
Definition mk_parameterization (spaces : list space) : res (list space) :=
  if dup_name (map sp_name spaces) then Raise EValue
  else if existsb (fun s => dup_name (dkeys (sp_params s))) spaces then Raise EValue
  else Ok spaces.
Definition all_funcs (spaces : list space) : list (psp * R) := flat_map space_funcs spaces.
(** _parameterization.py:55-66 *)
Definition initialize_all (spaces : list space) : M state :=
  vals <- mapM (fun s => p <- initialize s ;; ret (sp_name s, EPS p)) spaces ;;
  ret (mk_state vals 1 []).
(** parameterization.perturbation_funcs as the chain uses them. *)
Definition chain_funcs (spaces : list space) : list (string * (state -> M (state * ext))) :=
  map (fun qw => (psp_name (fst qw), psp_perturb (fst qw))) (all_funcs spaces).
