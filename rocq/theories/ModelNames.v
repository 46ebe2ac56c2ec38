(** Model of /repo/src/bayesbay/_state.py with the namespace of the objects: an instance is
    its __dict__, in which the fields of the dataclass (n_dimensions, param_values, cache,
    temperature, extra_storage) and the attributes made by setattr live side by side, and
    which hides the methods of the class.

    ModelState.v keeps fields, methods and parameters apart; PropNames.v proves for which
    names the two agree.  Sharing of mutable objects is not represented (a dictionary or an
    array is its content). *)
From Verif Require Import Base ModelState.
Local Open Scope R_scope.

(** A ParameterSpaceState instance (49-73): its __dict__.  A slot holds an int, a dict of
    values or the values of a parameter (as in ModelState.v). *)
Inductive pyobj := Obj (d : list (string * slot))
with slot :=
| SInt (n : nat)
| SMap (d : list (string * pval))
| SVal (v : pval)
with pval :=
| VArr (l : list R)
| VArrN (l : list (list R))
| VObj (l : list pyobj)
| VLst (l : list pyobj).

Definition odict (o : pyobj) : dict slot := match o with Obj d => d end.

(** self.k, for a field *)
Definition o_attr (k : string) (o : pyobj) : res slot :=
  match dget k (odict o) with Some s => Ok s | None => Raise EAttr end.
(** self.m(...), for a method of the class: functions are non-data descriptors, so an
    instance attribute of this name comes first, and arrays, lists, ints and dicts are not
    callable. *)
Definition o_call {A} (m : string) (o : pyobj) (body : res A) : res A :=
  match dget m (odict o) with Some _ => Raise EType | None => body end.
(** setattr(self, k, v) (125, 298) with a value that is neither a class nor a dict: the
    data descriptors of a Python class refuse it. *)
Definition py_refuses (k : string) : option exn :=
  if String.eqb k "__class__" then Some EType
  else if String.eqb k "__dict__" then Some EType
  else if String.eqb k "__weakref__" then Some EAttr
  else None.
Definition o_setattr (k : string) (v : pval) (o : pyobj) : res pyobj :=
  match py_refuses k with
  | Some e => Raise e
  | None => Ok (Obj (dset k (SVal v) (odict o)))
  end.

Definition pval_len (v : pval) : nat :=
  match v with
  | VArr l => length l
  | VArrN l => length l
  | VObj l => length l
  | VLst l => length l
  end.

(** _state.py:104-127 [set_param_values]: the body.  self.param_values[name] = values on an
    array is an IndexError, on a list a TypeError. *)
Definition o_set_body (k : string) (v : pval) (o : pyobj) : res pyobj :=
  match v with
  | VLst [] => Raise EIndex
  | _ =>
      s <-? o_attr "param_values" o ;;
      match s with
      | SMap d => o_setattr k v (Obj (dset "param_values" (SMap (dset k v d)) (odict o)))
      | SVal (VLst _) => Raise EType
      | SVal _ => Raise EIndex
      | SInt _ => Raise EType
      end
  end.
Definition o_set (k : string) (v : pval) (o : pyobj) : res pyobj :=
  o_call "set_param_values" o (o_set_body k v o).

(** bool(len != self.n_dimensions) (81): elementwise on arrays, whose truth value is that of
    the only element, False without elements, and a ValueError otherwise. *)
Definition ne_len (len : nat) (s : slot) : res bool :=
  let nums := fun l => match l with
                       | [] => Ok false
                       | [x] => Ok (negb (Reqb (INR len) x))
                       | _ => Raise EValue
                       end in
  match s with
  | SInt n => Ok (negb (len =? n)%nat)
  | SMap _ => Ok true
  | SVal (VArr l) => nums l
  | SVal (VArrN l) => nums (concat l)
  | SVal (VObj []) => Ok false
  | SVal (VObj [_]) => Ok true
  | SVal (VObj _) => Raise EValue
  | SVal (VLst _) => Ok true
  end.
(** _state.py:75-86 [__post_init__]; the loop runs over the dictionary given to the
    constructor, also after self.param_values has been set to something else. *)
Fixpoint o_post_init (todo : dict pval) (o : pyobj) : res pyobj :=
  match todo with
  | [] => Ok o
  | (k, v) :: t =>
      s <-? o_attr "n_dimensions" o ;;
      b <-? ne_len (pval_len v) s ;;
      if b then Raise EValue else
      o' <-? o_set k v o ;; o_post_init t o'
  end.
(** ParameterSpaceState(n_dimensions, param_values): 76-77 for the type of n_dimensions. *)
Definition o_new (n : slot) (vals : dict pval) : res pyobj :=
  match n with
  | SInt _ => o_post_init vals (Obj [("n_dimensions", n); ("param_values", SMap vals); ("cache", SMap [])]%string)
  | _ => Raise EType
  end.

(** _state.py:129-146 [get_param_values]: .get of a dict; arrays, lists and ints have none. *)
Definition o_get (k : string) (o : pyobj) : res (option pval) :=
  o_call "get_param_values" o
    (s <-? o_attr "param_values" o ;;
     match s with SMap d => Ok (dget k d) | _ => Raise EAttr end).

(** _state.py:148-188.  [c in self.cache] is False on arrays and lists; indexing an array
    with a string is an IndexError, a list a TypeError. *)
Definition o_saved_in_cache (c : string) (o : pyobj) : res bool :=
  o_call "saved_in_cache" o
    (s <-? o_attr "cache" o ;;
     match s with SMap d => Ok (dmem c d) | SVal _ => Ok false | SInt _ => Raise EType end).
Definition o_load_cache (c : string) (o : pyobj) : res pval :=
  o_call "load_from_cache" o
    (s <-? o_attr "cache" o ;;
     match s with
     | SMap d => match dget c d with Some v => Ok v | None => Raise EKey end
     | SVal (VLst _) => Raise EType
     | SVal _ => Raise EIndex
     | SInt _ => Raise EType
     end).
Definition o_save_cache (c : string) (v : pval) (o : pyobj) : res pyobj :=
  o_call "save_to_cache" o
    (s <-? o_attr "cache" o ;;
     match s with
     | SMap d => Ok (Obj (dset "cache" (SMap (dset c v d)) (odict o)))
     | SVal (VLst _) => Raise EType
     | SVal _ => Raise EIndex
     | SInt _ => Raise EType
     end).

(** _state.py:190-205 [copy].  The inner [fix]es are self.param_values.items() and the
    loops over it; .copy() exists on dicts, arrays and lists. *)
Fixpoint o_copy (o : pyobj) : res pyobj :=
  match o with
  | Obj d =>
      match dget "copy" d with
      | Some _ => Raise EType
      | None =>
          vals' <-?
            (fix param_values (l : list (string * slot)) : res (list (string * pval)) :=
               match l with
               | [] => Raise EAttr
               | (k, s) :: t =>
                   if String.eqb "param_values" k then
                     match s with
                     | SMap vals =>
                         (fix copy_vals (l : list (string * pval)) : res (list (string * pval)) :=
                            match l with
                            | [] => Ok []
                            | (k, v) :: t =>
                                v' <-? match v with
                                       | VLst ps =>
                                           ps' <-? (fix copy_list (q : list pyobj) : res (list pyobj) :=
                                                      match q with
                                                      | [] => Ok []
                                                      | x :: r => x' <-? o_copy x ;; r' <-? copy_list r ;; Ok (x' :: r')
                                                      end) ps ;;
                                           Ok (VLst ps')
                                       | a => Ok a
                                       end ;;
                                t' <-? copy_vals t ;; Ok ((k, v') :: t')
                            end) vals
                     | _ => Raise EAttr
                     end
                   else param_values t
               end) d ;;
          n <-? o_attr "n_dimensions" o ;;
          o' <-? o_new n vals' ;;
          c <-? o_attr "cache" o ;;
          match c with
          | SInt _ => Raise EAttr
          | _ => Ok (Obj (dset "cache" c (odict o')))
          end
      end
  end.

(** What the dictionaries of results hold. *)
Inductive pout :=
| PSlot (s : slot)
| PNum (r : R)
| PDicts (l : list (list (string * pout)))
| PAny (n : nat).

(** _state.py:207-232 [todict] *)
Fixpoint o_todict (name : string) (o : pyobj) : res (dict pout) :=
  match o with
  | Obj d =>
      match dget "todict" d with
      | Some _ => Raise EType
      | None =>
          n <-? o_attr "n_dimensions" o ;;
          (fix param_values (l : list (string * slot)) : res (dict pout) :=
             match l with
             | [] => Raise EAttr
             | (k, s) :: t =>
                 if String.eqb "param_values" k then
                   match s with
                   | SMap vals =>
                       (fix go (l : list (string * pval)) (acc : dict pout) : res (dict pout) :=
                          match l with
                          | [] => Ok acc
                          | (k, v) :: t =>
                              let key := (name ++ "." ++ k)%string in
                              p <-? match v with
                                    | VLst ps =>
                                        l' <-? (fix each (q : list pyobj) : res (list (dict pout)) :=
                                                  match q with
                                                  | [] => Ok []
                                                  | x :: r => x' <-? o_todict key x ;; r' <-? each r ;; Ok (x' :: r')
                                                  end) ps ;;
                                        Ok (PDicts l')
                                    | a => Ok (PSlot (SVal a))
                                    end ;;
                              go t (dset key p acc)
                          end) vals [((name ++ ".n_dimensions")%string, PSlot n)]
                   | _ => Raise EAttr
                   end
                 else param_values t
             end) d
      end
  end.

(** A State instance (235-266): its __dict__.  Entries are ParameterSpaceState instances or
    DataNoiseState tuples. *)
Inductive sentry := NObj (o : pyobj) | NNoise (d : noise).
Inductive sslot :=
| TNum (t : R)
| TEnts (d : dict sentry)
| TCache (d : dict centry)
| TExtra (d : dict pout)
| TEnt (e : sentry).
Definition sobj := dict sslot.

Definition t_attr (k : string) (o : sobj) : res sslot :=
  match dget k o with Some s => Ok s | None => Raise EAttr end.
(** Neither kind of entry is callable. *)
Definition t_call {A} (m : string) (o : sobj) (body : res A) : res A :=
  match dget m o with Some _ => Raise EType | None => body end.
Definition t_setattr (k : string) (e : sentry) (o : sobj) : res sobj :=
  match py_refuses k with
  | Some x => Raise x
  | None => Ok (dset k (TEnt e) o)
  end.

(** _state.py:279-300 [set_param_values]: neither kind of entry supports item assignment. *)
Definition t_set (k : string) (e : sentry) (o : sobj) : res sobj :=
  t_call "set_param_values" o
    (s <-? t_attr "param_values" o ;;
     match s with
     | TEnts d => t_setattr k e (dset "param_values" (TEnts (dset k e d)) o)
     | _ => Raise EType
     end).
(** _state.py:268-274 [__post_init__] *)
Fixpoint t_post_init (todo : dict sentry) (o : sobj) : res sobj :=
  match todo with
  | [] => Ok o
  | (k, e) :: t => o' <-? t_set k e o ;; t_post_init t o'
  end.
(** State(param_values, temperature, cache): 269-270 for the type of temperature. *)
Definition t_new (vals : dict sentry) (t : sslot) (cache : dict centry) : res sobj :=
  match t with
  | TNum _ =>
      t_post_init vals [("param_values", TEnts vals); ("temperature", t);
                        ("cache", TCache cache); ("extra_storage", TExtra [])]%string
  | _ => Raise EType
  end.

(** _state.py:276-277, 302-320: [__getitem__] is found on the class. *)
Definition t_get (k : string) (o : sobj) : res (option sentry) :=
  t_call "get_param_values" o
    (s <-? t_attr "param_values" o ;;
     match s with TEnts d => Ok (dget k d) | _ => Raise EAttr end).

(** _state.py:322-405: cache and extra storage.  A ParameterSpaceState answers [in] through
    __getitem__ (TypeError on an int); a tuple compares (False) and cannot be indexed with a
    string. *)
Definition t_in {A} (get : sslot -> option (dict A)) (c : string) (s : sslot) : res bool :=
  match get s with
  | Some d => Ok (dmem c d)
  | None => match s with TEnt (NNoise _) => Ok false | _ => Raise EType end
  end.
Definition as_cache (s : sslot) : option (dict centry) := match s with TCache d => Some d | _ => None end.
Definition as_extra (s : sslot) : option (dict pout) := match s with TExtra d => Some d | _ => None end.
Definition t_saved_in_cache (c : string) (o : sobj) : res bool :=
  t_call "saved_in_cache" o (s <-? t_attr "cache" o ;; t_in as_cache c s).
Definition t_saved_in_extra (c : string) (o : sobj) : res bool :=
  t_call "saved_in_extra_storage" o (s <-? t_attr "extra_storage" o ;; t_in as_extra c s).
(** Simplified: a ParameterSpaceState in place of the cache answers self.cache[name] with
    None or its values; here TypeError. *)
Definition t_load {A} (get : sslot -> option (dict A)) (c : string) (s : sslot) : res A :=
  match get s with
  | Some d => match dget c d with Some v => Ok v | None => Raise EKey end
  | None => Raise EType
  end.
Definition t_load_cache (c : string) (o : sobj) : res centry :=
  t_call "load_from_cache" o (s <-? t_attr "cache" o ;; t_load as_cache c s).
Definition t_load_extra (c : string) (o : sobj) : res pout :=
  t_call "load_from_extra_storage" o (s <-? t_attr "extra_storage" o ;; t_load as_extra c s).
Definition t_save_cache (c : string) (v : centry) (o : sobj) : res sobj :=
  t_call "save_to_cache" o
    (s <-? t_attr "cache" o ;;
     match s with TCache d => Ok (dset "cache" (TCache (dset c v d)) o) | _ => Raise EType end).
Definition t_save_extra (c : string) (v : pout) (o : sobj) : res sobj :=
  t_call "save_to_extra_storage" o
    (s <-? t_attr "extra_storage" o ;;
     match s with TExtra d => Ok (dset "extra_storage" (TExtra (dset c v d)) o) | _ => Raise EType end).
(** state.temperature = t (_markov_chain.py:73) *)
Definition t_settemp (t : R) (o : sobj) : sobj := dset "temperature" (TNum t) o.

(** _state.py:428-461 [copy]; DataNoiseState.copy (14-22) returns an equal tuple. *)
Definition sentry_copy (e : sentry) : res sentry :=
  match e with
  | NObj o => o' <-? o_copy o ;; Ok (NObj o')
  | NNoise d => Ok (NNoise d)
  end.
Definition t_copy (keep_dpred : bool) (o : sobj) : res sobj :=
  t_call "copy" o
    (s <-? t_attr "param_values" o ;;
     match s with
     | TEnts d =>
         vals <-? rmap (fun ke => e <-? sentry_copy (snd ke) ;; Ok (fst ke, e)) d ;;
         t <-? t_attr "temperature" o ;;
         cache <-? (if keep_dpred then
                      c <-? t_attr "cache" o ;;
                      match c with
                      | TCache d => Ok (filter (fun kc => String.eqb (fst kc) "dpred") d)
                      | _ => Raise EAttr
                      end
                    else Ok []) ;;
         t_new vals t cache
     | _ => Raise EAttr
     end).

(** _state.py:26-46, 407-426 [todict], [_vars], [items]. *)
Definition n_todict (name : string) (d : noise) : dict pout :=
  ((name ++ ".std")%string, PNum (dn_std d)) ::
  match dn_corr d with
  | Some r => [((name ++ ".correlation")%string, PNum r)]
  | None => []
  end.
Fixpoint t_vars_loop (l : dict sentry) (acc : dict pout) : res (dict pout) :=
  match l with
  | [] => Ok acc
  | (k, e) :: t =>
      d <-? match e with
            | NObj o => o_todict k o
            | NNoise d => Ok (n_todict k d)
            end ;;
      t_vars_loop t (dupdate acc d)
  end.
Definition t_vars (o : sobj) : res (dict pout) :=
  t_call "_vars" o
    (s <-? t_attr "param_values" o ;;
     match s with
     | TEnts d =>
         all <-? t_vars_loop d [] ;;
         x <-? t_attr "extra_storage" o ;;
         match x with TExtra e => Ok (dupdate all e) | _ => Raise EType end
     | _ => Raise EAttr
     end).
Definition t_items (o : sobj) : res (dict pout) := t_call "items" o (t_vars o).
