(** Model of /repo/src/bayesbay/_state.py: DataNoiseState, ParameterSpaceState, State.

    Objects are values here: sharing between objects is not represented (ModelHeap.v is
    about it).  The entries of [param_values] and the attributes created by setattr are
    kept apart, because code outside the class updates the one without the other. *)
From Verif Require Import Base.
Local Open Scope R_scope.

(** A ParameterSpaceState (49-73): [n_dimensions], [param_values], attributes set with
    setattr, [cache].  Values of a parameter: an array of numbers, an array of rows (sites in
    more than one dimension), an array of objects, or a list of states.  A kd-tree in the
    cache is represented by the sites it was built from. *)
Inductive psstate :=
| PS (n : nat) (vals : list (string * value)) (attrs : list (string * value))
     (cache : list (string * value))
with value :=
| Arr (l : list R)
| ArrN (l : list (list R))
| AObj (l : list psstate)
| Lst (l : list psstate).

Definition ps_n (p : psstate) : nat := match p with PS n _ _ _ => n end.
Definition ps_vals (p : psstate) : dict value := match p with PS _ v _ _ => v end.
Definition ps_attrs (p : psstate) : dict value := match p with PS _ _ a _ => a end.
Definition ps_cache (p : psstate) : dict value := match p with PS _ _ _ c => c end.

(** len(values) *)
Definition value_len (v : value) : nat :=
  match v with
  | Arr l => length l
  | ArrN l => length l
  | AObj l => length l
  | Lst l => length l
  end.

(** _state.py:104-127 [set_param_values]: values[0] of an empty list raises IndexError. *)
Definition ps_set (k : string) (v : value) (p : psstate) : res psstate :=
  match v with
  | Lst [] => Raise EIndex
  | _ => Ok (PS (ps_n p) (dset k v (ps_vals p)) (dset k v (ps_attrs p)) (ps_cache p))
  end.

(** _state.py:75-86 [__post_init__], the loop over param_values.items(). *)
Fixpoint post_init (todo : dict value) (p : psstate) : res psstate :=
  match todo with
  | [] => Ok p
  | (k, v) :: t =>
      if negb (value_len v =? ps_n p)%nat then Raise EValue
      else p' <-? ps_set k v p ;; post_init t p'
  end.
(** ParameterSpaceState(n_dimensions, param_values) *)
Definition mk_ps (n : nat) (vals : dict value) : res psstate := post_init vals (PS n vals [] []).

(** _state.py:129-146 [get_param_values] *)
Definition ps_get (k : string) (p : psstate) : option value := dget k (ps_vals p).
(** Attribute access: instance attribute made by setattr. *)
Definition ps_attr (k : string) (p : psstate) : option value := dget k (ps_attrs p).

(** _state.py:148-188: the cache. *)
Definition ps_save_cache (k : string) (v : value) (p : psstate) : psstate :=
  PS (ps_n p) (ps_vals p) (ps_attrs p) (dset k v (ps_cache p)).

(** _state.py:190-205 [copy]. *)
Fixpoint ps_copy (p : psstate) : res psstate :=
  match p with
  | PS n vals _ cache =>
      vals' <-?
        (fix copy_vals (l : list (string * value)) : res (list (string * value)) :=
           match l with
           | [] => Ok []
           | (k, v) :: t =>
               v' <-? match v with
                      | Lst ps =>
                          ps' <-? (fix copy_list (q : list psstate) : res (list psstate) :=
                                     match q with
                                     | [] => Ok []
                                     | x :: r => x' <-? ps_copy x ;; r' <-? copy_list r ;; Ok (x' :: r')
                                     end) ps ;;
                          Ok (Lst ps')
                      | a => Ok a
                      end ;;
               t' <-? copy_vals t ;; Ok ((k, v') :: t')
           end) vals ;;
      p' <-? mk_ps n vals' ;;
      Ok (PS (ps_n p') (ps_vals p') (ps_attrs p') cache)
  end.

(** _state.py:93-100, [__getitem__] with a list of (non-negative) indices. *)
Definition pick {A} (l : list A) (is : list nat) : res (list A) := rmap (idx l) is.
Fixpoint ps_select_vals (l : dict value) (is : list nat) : res (dict value) :=
  match l with
  | [] => Ok []
  | (k, v) :: t =>
      v' <-? match v with
             | Arr a => a' <-? pick a is ;; Ok (Arr a')
             | ArrN a => a' <-? pick a is ;; Ok (ArrN a')
             | AObj a => a' <-? pick a is ;; Ok (AObj a')
             | Lst a => a' <-? pick a is ;; c <-? rmap ps_copy a' ;; Ok (Lst c)
             end ;;
      t' <-? ps_select_vals t is ;; Ok ((k, v') :: t')
  end.
Definition ps_select (p : psstate) (is : list nat) : res psstate :=
  vals <-? ps_select_vals (ps_vals p) is ;; mk_ps (length is) vals.

(** _state.py:8-46 [DataNoiseState]; copy returns an equal tuple. *)
Record noise := mkNoise { dn_std : R; dn_corr : option R }.

(** What the dictionaries of results hold. *)
Inductive ovalue :=
| OInt (n : nat)
| ONum (r : R)
| OArr (v : value)
| OList (l : list (list (string * ovalue)))
| OAny (n : nat).

(** _state.py:207-232 [todict]; arrays (of numbers, rows or objects) are stored as they
    are. *)
Fixpoint ps_todict (name : string) (p : psstate) : dict ovalue :=
  match p with
  | PS n vals _ _ =>
      (fix go (l : list (string * value)) (acc : dict ovalue) : dict ovalue :=
         match l with
         | [] => acc
         | (k, v) :: t =>
             let key := (name ++ "." ++ k)%string in
             let o := match v with
                      | Lst ps => OList ((fix each (q : list psstate) : list (dict ovalue) :=
                                            match q with
                                            | [] => []
                                            | x :: r => ps_todict key x :: each r
                                            end) ps)
                      | a => OArr a
                      end in
             go t (dset key o acc)
         end) vals [((name ++ ".n_dimensions")%string, OInt n)]
  end.
(** _state.py:26-46 *)
Definition noise_todict (name : string) (d : noise) : dict ovalue :=
  ((name ++ ".std")%string, ONum (dn_std d)) ::
  match dn_corr d with
  | Some r => [((name ++ ".correlation")%string, ONum r)]
  | None => []
  end.

(** Entries of a State (261): parameter-space states or noise. *)
Inductive entry := EPS (p : psstate) | ENoise (d : noise).
(** Entries of the cache of a State: predicted data, the statistics of
    ParamSpacePerturbation, anything else. *)
Inductive centry := CPred (d : list R) | CStats (l : list (string * R)) | CAny (n : nat).

(** A State (235-266). *)
Record state := mkState {
  st_vals : dict entry;
  st_attrs : dict entry;
  st_temp : R;
  st_cache : dict centry;
  st_extra : dict ovalue
}.

(** _state.py:279-300 [set_param_values] *)
Definition st_set (k : string) (e : entry) (s : state) : state :=
  mkState (dset k e (st_vals s)) (dset k e (st_attrs s)) (st_temp s) (st_cache s) (st_extra s).
(** _state.py:268-274: State(param_values, temperature, cache). *)
Definition mk_state (vals : dict entry) (t : R) (cache : dict centry) : state :=
  fold_left (fun s ke => st_set (fst ke) (snd ke) s) vals (mkState vals [] t cache []).
(** _state.py:302-320 *)
Definition st_get (k : string) (s : state) : option entry := dget k (st_vals s).
Definition st_attr (k : string) (s : state) : option entry := dget k (st_attrs s).
(** _state.py:352-362, 395-405 *)
Definition st_save_cache (k : string) (e : centry) (s : state) : state :=
  mkState (st_vals s) (st_attrs s) (st_temp s) (dset k e (st_cache s)) (st_extra s).
Definition st_save_extra (k : string) (o : ovalue) (s : state) : state :=
  mkState (st_vals s) (st_attrs s) (st_temp s) (st_cache s) (dset k o (st_extra s)).
(** state.temperature = t *)
Definition st_settemp (t : R) (s : state) : state :=
  mkState (st_vals s) (st_attrs s) t (st_cache s) (st_extra s).
(** state.param_values.update(d): attributes are not touched. *)
Definition st_update_vals (d : dict entry) (s : state) : state :=
  mkState (dupdate (st_vals s) d) (st_attrs s) (st_temp s) (st_cache s) (st_extra s).

(** _state.py:428-461 [copy]. *)
Definition entry_copy (e : entry) : res entry :=
  match e with
  | EPS p => p' <-? ps_copy p ;; Ok (EPS p')
  | ENoise d => Ok (ENoise d)
  end.
Definition st_copy (keep_dpred : bool) (s : state) : res state :=
  vals <-? rmap (fun ke => e <-? entry_copy (snd ke) ;; Ok (fst ke, e)) (st_vals s) ;;
  Ok (mk_state vals (st_temp s)
        (if keep_dpred
         then filter (fun kc => String.eqb (fst kc) "dpred") (st_cache s) else [])).

(** _state.py:407-426 [_vars], [items]. *)
Definition st_items (s : state) : dict ovalue :=
  dupdate
    (fold_left (fun acc ke => dupdate acc
        match snd ke with
        | EPS p => ps_todict (fst ke) p
        | ENoise d => noise_todict (fst ke) d
        end) (st_vals s) [])
    (st_extra s).
