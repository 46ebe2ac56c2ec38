(** Model of the perturbations and of one iteration of a chain with objects that are shared
    and changed in place: /repo/src/bayesbay/_state.py, discretization/_voronoi.py,
    parameterization/_parameter_space.py, perturbations/*.py, _markov_chain.py.

    The other models treat objects as values.  Here objects have addresses; arrays, lists and
    dictionaries are objects of their own, and the code decides which of them the new state
    shares with the old one.

    What is computed from numbers alone (probability ratios, positions, indices) is taken from
    ModelSpace.v and ModelPrior.v, applied to the values read back from the objects.
    Simplifications: a state made from nothing (sample, sample_discretization,
    _sample_from_neighbour) is allocated when complete; its caches, which hold nothing, are
    left out. *)
From Verif Require Import Base ModelUtils1D ModelPrior ModelState ModelSpace ModelChain ModelPerturb
  ModelLikelihood.
Local Open Scope R_scope.

Definition loc := nat.

(** Objects: an array of numbers, of rows, of objects; a list of states; a dictionary
    param_values; a ParameterSpaceState (number of dimensions, its param_values, the attributes
    made by setattr, the cache -- of which a kd-tree refers to the array it was built from);
    a DataNoiseState; a State.  The dictionaries cache and extra_storage of a State are never
    shared and are kept in the State; numbers and predictions in them are values. *)
Inductive obj :=
| HArr (l : list R)
| HArrN (l : list (list R))
| HObj (l : list loc)
| HLst (l : list loc)
| HDict (d : dict loc)
| HPS (n : nat) (vals : loc) (attrs : dict loc) (cache : dict loc)
| HNoise (d : noise)
| HState (vals : loc) (attrs : dict loc) (temp : R) (cache : dict centry) (extra : dict ovalue).
Definition heap := list obj.

(** Code that reads and changes the objects and consumes random draws.  The objects stay as
    they are when an exception is raised. *)
Definition HM (A : Type) := heap -> trace -> out A * heap.
Definition hret {A} (a : A) : HM A := fun h tr => (Ret a tr, h).
Definition hbind {A B} (m : HM A) (f : A -> HM B) : HM B := fun h tr =>
  match m h tr with
  | (Ret a tr', h') => f a h' tr'
  | (Err e tr', h') => (Err e tr', h')
  | (UBeh, h') => (UBeh, h')
  | (Starve, h') => (Starve, h')
  end.
(** Code that does not touch objects. *)
Definition hdo {A} (m : M A) : HM A := fun h tr => (m tr, h).
Definition hlift {A} (r : res A) : HM A := hdo (lift r).
Definition htry {A} (m : HM A) : HM (A + exn) := fun h tr =>
  match m h tr with
  | (Ret a tr', h') => (Ret (inl a) tr', h')
  | (Err e tr', h') => (Ret (inr e) tr', h')
  | (UBeh, h') => (UBeh, h')
  | (Starve, h') => (Starve, h')
  end.
Notation "x <~ m ;; k" := (hbind m (fun x => k))
  (at level 61, m at next level, right associativity).
Notation "' pat <~ m ;; k" := (hbind m (fun x => match x with pat => k end))
  (at level 61, pat pattern, m at next level, right associativity).

Definition alloc (o : obj) : HM loc := fun h tr => (Ret (length h) tr, h ++ [o]).
Definition load (a : loc) : HM obj := fun h tr =>
  (match nth_error h a with Some o => Ret o tr | None => UBeh end, h).
Definition store (a : loc) (o : obj) : HM unit := fun h tr =>
  if (a <? length h)%nat then (Ret tt tr, set_nth h a o) else (UBeh, h).

Fixpoint hmap {A B} (f : A -> HM B) (l : list A) : HM (list B) :=
  match l with
  | [] => hret []
  | x :: t => y <~ f x ;; ys <~ hmap f t ;; hret (y :: ys)
  end.

(** Reading objects of a given class; another class is outside the model. *)
Definition load_ps (a : loc) : HM (nat * loc * dict loc * dict loc) :=
  o <~ load a ;; match o with HPS n d at_ c => hret (n, d, at_, c) | _ => hdo ubeh end.
Definition load_dict (a : loc) : HM (dict loc) :=
  o <~ load a ;; match o with HDict d => hret d | _ => hdo ubeh end.
Definition load_state (a : loc) : HM (loc * dict loc * R * dict centry * dict ovalue) :=
  o <~ load a ;;
  match o with HState d at_ t c x => hret (d, at_, t, c, x) | _ => hdo ubeh end.

(** ** Values read back *)
(** The values below a ParameterSpaceState, without attributes and caches; [fuel] bounds the
    depth. *)
Fixpoint omap {A B} (f : A -> option B) (l : list A) : option (list B) :=
  match l with
  | [] => Some []
  | x :: t => match f x, omap f t with Some y, Some ys => Some (y :: ys) | _, _ => None end
  end.
Fixpoint read_ps (fuel : nat) (h : heap) (a : loc) : option psstate :=
  match fuel with
  | O => None
  | S f =>
      match nth_error h a with
      | Some (HPS n d _ _) =>
          match nth_error h d with
          | Some (HDict dl) =>
              match omap (fun kb =>
                match nth_error h (snd kb) with
                | Some (HArr l) => Some (fst kb, Arr l)
                | Some (HArrN l) => Some (fst kb, ArrN l)
                | Some (HObj l) => option_map (fun q => (fst kb, AObj q)) (omap (read_ps f h) l)
                | Some (HLst l) => option_map (fun q => (fst kb, Lst q)) (omap (read_ps f h) l)
                | _ => None
                end) dl with
              | Some vals => Some (PS n vals [] [])
              | None => None
              end
          | _ => None
          end
      | _ => None
      end
  end.
Definition read_entry (h : heap) (b : loc) : option ModelState.entry :=
  match nth_error h b with
  | Some (HNoise d) => Some (ENoise d)
  | Some (HPS _ _ _ _) => option_map EPS (read_ps (length h) h b)
  | _ => None
  end.
Definition read_state (h : heap) (a : loc) : option state :=
  match nth_error h a with
  | Some (HState d _ t c x) =>
      match nth_error h d with
      | Some (HDict dl) =>
          match omap (fun kb => option_map (fun e => (fst kb, e)) (read_entry h (snd kb))) dl with
          | Some vals => Some (mkState vals [] t c x)
          | None => None
          end
      | _ => None
      end
  | _ => None
  end.
Definition view_ps (a : loc) : HM psstate := fun h tr =>
  (match read_ps (length h) h a with Some p => Ret p tr | None => UBeh end, h).
Definition view_state (a : loc) : HM state := fun h tr =>
  (match read_state h a with Some s => Ret s tr | None => UBeh end, h).

(** ** ParameterSpaceState *)
(** len(values) *)
Definition h_len (b : loc) : HM nat :=
  o <~ load b ;;
  match o with
  | HArr l => hret (length l)
  | HArrN l => hret (length l)
  | HObj l => hret (length l)
  | HLst l => hret (length l)
  | _ => hdo ubeh
  end.
(** _state.py:104-127 [set_param_values]: the dictionary, then the attribute. *)
Definition h_set (k : string) (b : loc) (a : loc) : HM unit :=
  o <~ load b ;;
  match o with
  | HLst [] => hdo (err EIndex)
  | HArr _ | HArrN _ | HObj _ | HLst _ =>
      '(n, d, at_, c) <~ load_ps a ;;
      dl <~ load_dict d ;;
      _ <~ store d (HDict (dset k b dl)) ;;
      store a (HPS n d (dset k b at_) c)
  | _ => hdo (err EType)
  end.
(** _state.py:75-86 [__post_init__] *)
Fixpoint h_post_init (todo : dict loc) (n : nat) (a : loc) : HM unit :=
  match todo with
  | [] => hret tt
  | (k, b) :: t =>
      m <~ h_len b ;;
      if negb (m =? n)%nat then hdo (err EValue)
      else _ <~ h_set k b a ;; h_post_init t n a
  end.
(** ParameterSpaceState(n_dimensions, param_values) with the dictionary at [d]. *)
Definition h_mk_ps (n : nat) (d : loc) : HM loc :=
  dl <~ load_dict d ;;
  a <~ alloc (HPS n d [] []) ;;
  _ <~ h_post_init dl n a ;;
  hret a.
(** _state.py:129-146 [get_param_values] *)
Definition h_get (k : string) (a : loc) : HM (option loc) :=
  '(_, d, _, _) <~ load_ps a ;; dl <~ load_dict d ;; hret (dget k dl).

(** _state.py:190-205 [copy]; ndarray.copy of an array of objects copies the references.
    [fuel] bounds the depth. *)
Fixpoint h_copy (fuel : nat) (a : loc) : HM loc :=
  match fuel with
  | O => hdo ubeh
  | S f =>
      '(n, d, _, c) <~ load_ps a ;;
      dl <~ load_dict d ;;
      dl' <~ hmap (fun kb =>
               o <~ load (snd kb) ;;
               b' <~ match o with
                     | HArr l => alloc (HArr l)
                     | HArrN l => alloc (HArrN l)
                     | HObj l => alloc (HObj l)
                     | HLst l => l' <~ hmap (h_copy f) l ;; alloc (HLst l')
                     | _ => hdo ubeh
                     end ;;
               hret (fst kb, b')) dl ;;
      d' <~ alloc (HDict dl') ;;
      a' <~ h_mk_ps n d' ;;
      '(n', e, at_, _) <~ load_ps a' ;;
      _ <~ store a' (HPS n' e at_ c) ;;
      hret a'
  end.
Definition copy_ps (a : loc) : HM loc := fun h tr => h_copy (length h) a h tr.

(** A state made from nothing, allocated with all that is below it. *)
Fixpoint h_new (p : psstate) : HM loc :=
  match p with
  | PS n vals _ _ =>
      dl <~ (fix each (l : list (string * value)) : HM (dict loc) :=
               match l with
               | [] => hret []
               | (k, v) :: t =>
                   b <~ match v with
                        | Arr x => alloc (HArr x)
                        | ArrN x => alloc (HArrN x)
                        | AObj ps =>
                            ls <~ (fix all (q : list psstate) : HM (list loc) :=
                                     match q with
                                     | [] => hret []
                                     | x :: r => y <~ h_new x ;; ys <~ all r ;; hret (y :: ys)
                                     end) ps ;;
                            alloc (HObj ls)
                        | Lst ps =>
                            ls <~ (fix all (q : list psstate) : HM (list loc) :=
                                     match q with
                                     | [] => hret []
                                     | x :: r => y <~ h_new x ;; ys <~ all r ;; hret (y :: ys)
                                     end) ps ;;
                            alloc (HLst ls)
                        end ;;
                   r <~ each t ;; hret ((k, b) :: r)
               end) vals ;;
      d <~ alloc (HDict dl) ;;
      alloc (HPS n d dl [])
  end.

(** _voronoi.py:1379-1383 [_add_kdtree_to_ps_state]: the cache of the object is changed and
    the object returned. *)
Definition h_add_kdtree (c : sclass) (a : loc) : HM loc :=
  match c with
  | VorN _ _ _ _ _ true _ =>
      ob <~ h_get disc_key a ;;
      match ob with
      | Some b =>
          '(n, d, at_, ca) <~ load_ps a ;;
          _ <~ store a (HPS n d at_ (dset "kdtree"%string b ca)) ;;
          hret a
      | None => hdo (err EValue)
      end
  | _ => hret a
  end.

(** ** Births and deaths *)
(** insert_1d makes an array, slices make a list that holds the same states. *)
Definition h_insert (i : nat) (x : newborn) (b : loc) : HM loc :=
  o <~ load b ;;
  match o, x with
  | HArr l, NNum r => l' <~ hlift (insert_1d l i r) ;; alloc (HArr l')
  | HArr _, NState _ => hdo (err EType)
  | HObj _, _ => hdo (err EValue)
  | HArrN _, _ => hdo (err EValue)
  | HLst l, NState p => q <~ h_new p ;; alloc (HLst (list_insert i q l))
  | _, _ => hdo ubeh
  end.
(** _parameter_space.py:197-275 [birth] *)
Fixpoint h_plain_birth_vals (params : dict param) (i : nat) (l : dict loc) : HM (dict loc) :=
  match l with
  | [] => hret []
  | (k, b) :: t =>
      match dget k params with
      | None => hdo (err EKey)
      | Some pr =>
          x <~ hdo (param_sample pr None) ;;
          b' <~ h_insert i x b ;;
          r <~ h_plain_birth_vals params i t ;; hret ((k, b') :: r)
      end
  end.
Definition h_plain_birth (s : space) (a : loc) : HM (loc * ext) :=
  '(n, d, _, _) <~ load_ps a ;;
  if (n =? sp_max s)%nat then hret (a, MInf) else
  i <~ hdo (randint 0 n) ;;
  dl <~ load_dict d ;;
  dl' <~ h_plain_birth_vals (sp_params s) i dl ;;
  d' <~ alloc (HDict dl') ;;
  q <~ h_mk_ps (S n) d' ;;
  hret (q, Fin 0).

(** delete_1d and np.delete make arrays, slices make a list. *)
Definition h_delete (i : nat) (b : loc) : HM loc :=
  o <~ load b ;;
  match o with
  | HArr l => l' <~ hlift (delete_1d l i) ;; alloc (HArr l')
  | HObj _ => hdo (err EValue)
  | HArrN _ => hdo (err EValue)
  | HLst l => alloc (HLst (list_delete i l))
  | _ => hdo ubeh
  end.
(** _parameter_space.py:277-322 [death] *)
Definition h_plain_death (s : space) (a : loc) : HM (loc * ext) :=
  '(n, d, _, _) <~ load_ps a ;;
  if (n =? sp_min s)%nat then hret (a, MInf) else
  i <~ hdo (randint_below n) ;;
  dl <~ load_dict d ;;
  dl' <~ hmap (fun kb => b <~ h_delete i (snd kb) ;; hret (fst kb, b)) dl ;;
  d' <~ alloc (HDict dl') ;;
  q <~ h_mk_ps (n - 1) d' ;;
  hret (q, Fin 0).

(** np.append makes an array, + a list (_voronoi.py:389-393). *)
Definition h_append (x : newborn) (b : loc) : HM loc :=
  o <~ load b ;;
  match o, x with
  | HArr l, NNum r => alloc (HArr (l ++ [r]))
  | HLst l, NState p => q <~ h_new p ;; alloc (HLst (l ++ [q]))
  | _, _ => hdo ubeh
  end.
(** _voronoi.py:376-383, 388-393; old_ps_state[name] is None when missing. *)
Fixpoint h_add_newborns (put : newborn -> loc -> HM loc) (a : loc) (l : dict newborn)
    (acc : dict loc) : HM (dict loc) :=
  match l with
  | [] => hret acc
  | (k, x) :: t =>
      ob <~ h_get k a ;;
      b <~ match ob with Some b => put x b | None => hdo (err EType) end ;;
      h_add_newborns put a t (dset k b acc)
  end.
(** _voronoi.py:272-395, 1417-1423 [birth] *)
Definition h_vor_birth (s : space) (a : loc) : HM (loc * ext) :=
  '(n, _, _, _) <~ load_ps a ;;
  '(q, l) <~
    (if (n =? sp_max s)%nat then hret (a, MInf) else
     x <~ hdo (sample_site (sp_cls s)) ;;
     old <~ view_ps a ;;
     '(born, l) <~ hdo (newborn_params s x old) ;;
     ob <~ h_get disc_key a ;;
     dl <~ match x, ob with
       | P1 y, Some b =>
           o <~ load b ;;
           match o with
           | HArr sites =>
               i <~ hlift (bisect_left sites y) ;;
               sites' <~ hlift (insert_1d sites i y) ;;
               e <~ alloc (HArr sites') ;;
               h_add_newborns (h_insert i) a born [(disc_key, e)]
           | _ => hdo ubeh
           end
       | P1 _, None => hdo (err EType)
       | PN y, Some b =>
           o <~ load b ;;
           match o with
           | HArrN sites =>
               e <~ alloc (HArrN (sites ++ [y])) ;;
               h_add_newborns h_append a born [(disc_key, e)]
           | _ => hdo ubeh
           end
       | PN _, None => hdo (err EValue)
       end ;;
     d' <~ alloc (HDict dl) ;;
     q <~ h_mk_ps (S n) d' ;;
     hret (q, l)) ;;
  q' <~ h_add_kdtree (sp_cls s) q ;;
  hret (q', l).

(** _voronoi.py:435-442 *)
Definition h_vor_delete (c : sclass) (i : nat) (b : loc) : HM loc :=
  match c with
  | VorN _ _ _ _ _ _ _ =>
      o <~ load b ;;
      match o with
      | HArr l => if (i <? length l)%nat then alloc (HArr (list_delete i l)) else hdo (err EIndex)
      | HArrN l => if (i <? length l)%nat then alloc (HArrN (list_delete i l)) else hdo (err EIndex)
      | HObj l => if (i <? length l)%nat then alloc (HObj (list_delete i l)) else hdo (err EIndex)
      | HLst l => alloc (HLst (list_delete i l))
      | _ => hdo ubeh
      end
  | _ => h_delete i b
  end.
(** _voronoi.py:397-446, 1425-1429 [death] *)
Definition h_vor_death (s : space) (a : loc) : HM (loc * ext) :=
  '(n, d, _, _) <~ load_ps a ;;
  '(q, l) <~
    (if (n =? sp_min s)%nat then hret (a, MInf) else
     i <~ hdo (randint_below n) ;;
     dl <~ load_dict d ;;
     dl' <~ hmap (fun kb => b <~ h_vor_delete (sp_cls s) i (snd kb) ;; hret (fst kb, b)) dl ;;
     d' <~ alloc (HDict dl') ;;
     q <~ h_mk_ps (n - 1) d' ;;
     old <~ view_ps a ;;
     new <~ view_ps q ;;
     l <~ hlift (log_prob_death_parameters s old new i) ;;
     hret (q, l)) ;;
  q' <~ h_add_kdtree (sp_cls s) q ;;
  hret (q', l).
Definition h_birth (s : space) : loc -> HM (loc * ext) :=
  if is_disc s then h_vor_birth s else h_plain_birth s.
Definition h_death (s : space) : loc -> HM (loc * ext) :=
  if is_disc s then h_vor_death s else h_plain_death s.

(** ** Moves of sites and values *)
(** values[isort] is a new array, [[values[i] for i in isort]] a new list of the same states
    (_voronoi.py:250-254). *)
Definition h_reorder (is : list nat) (b : loc) : HM loc :=
  o <~ load b ;;
  match o with
  | HArr l => l' <~ hlift (pick l is) ;; alloc (HArr l')
  | HArrN l => l' <~ hlift (pick l is) ;; alloc (HArrN l')
  | HObj l => l' <~ hlift (pick l is) ;; alloc (HObj l')
  | HLst l => l' <~ hlift (pick l is) ;; alloc (HLst l')
  | _ => hdo ubeh
  end.
(** new_sites[isite] = new_site and values[idx] = new_value, on the object at [b]. *)
Definition h_put_num (b : loc) (i : nat) (x : R) : HM unit :=
  o <~ load b ;;
  match o with
  | HArr l => if (i <? length l)%nat then store b (HArr (set_nth l i x)) else hdo (err EIndex)
  | _ => hdo ubeh
  end.
Definition h_put_row (b : loc) (i : nat) (x : list R) : HM unit :=
  o <~ load b ;;
  match o with
  | HArrN l => if (i <? length l)%nat then store b (HArrN (set_nth l i x)) else hdo (err EIndex)
  | _ => hdo ubeh
  end.
(** array.copy() *)
Definition h_copy_arr (b : loc) : HM loc :=
  o <~ load b ;;
  match o with
  | HArr l => alloc (HArr l)
  | HArrN l => alloc (HArrN l)
  | HObj l => alloc (HObj l)
  | _ => hdo ubeh
  end.
(** The loops over the parameters in _voronoi.py:237-262; in more than one dimension the new
    state gets the old arrays and lists themselves (262). *)
Fixpoint h_perturb_value_loop (params : dict param) (a : loc) (i : nat) (x x' : pos)
    (put : loc -> HM loc) (vals : dict loc) (acc : ext) : HM (dict loc * ext) :=
  match params with
  | [] => hret (vals, acc)
  | (k, pr) :: t =>
      ob <~ h_get k a ;;
      acc' <~ match pr with
              | PPrior p =>
                  if p_pos p then
                    old <~ view_ps a ;;
                    v <~ hlift (num_at (ps_get k old) i) ;;
                    lo <~ hlift (p_log_prior p v (Some x)) ;;
                    ln_ <~ hlift (p_log_prior p v (Some x')) ;;
                    hret (eadd acc (esub ln_ lo))
                  else hret acc
              | PSpace _ => hret acc
              end ;;
      b <~ match ob with Some w => put w | None => hdo (err EType) end ;;
      h_perturb_value_loop t a i x x' put (dset k b vals) acc'
  end.
(** _voronoi.py:209-270, 1411-1415 [perturb_value] *)
Definition h_perturb_value (s : space) (a : loc) (i : nat) : HM (loc * ext) :=
  '(n, _, _, _) <~ load_ps a ;;
  old <~ view_ps a ;;
  x <~ hlift (site_at (ps_get disc_key old) i) ;;
  x' <~ hdo (perturb_site (sp_cls s) x) ;;
  ob <~ h_get disc_key a ;;
  '(dl, l) <~ match ob with
    | None => hdo ubeh
    | Some b =>
        e <~ h_copy_arr b ;;
        match x' with
        | P1 y =>
            _ <~ h_put_num e i y ;;
            o <~ load e ;;
            match o with
            | HArr sites1 =>
                let isort := argsort sites1 in
                e2 <~ h_reorder isort e ;;
                h_perturb_value_loop (sp_params s) a i x x' (h_reorder isort) [(disc_key, e2)] (Fin 0)
            | _ => hdo ubeh
            end
        | PN y =>
            _ <~ h_put_row e i y ;;
            h_perturb_value_loop (sp_params s) a i x x' hret [(disc_key, e)] (Fin 0)
        end
    end ;;
  d' <~ alloc (HDict dl) ;;
  q <~ h_mk_ps n d' ;;
  q' <~ h_add_kdtree (sp_cls s) q ;;
  hret (q', l).

(** _param_values.py:56-84 [perturb_param_space_state]: the array is copied, then written. *)
Fixpoint h_perturb_params (l : list param) (a : loc) (i : nat) (new : dict loc) (acc : ext)
    : HM (loc * ext) :=
  match l with
  | [] =>
      c <~ copy_ps a ;;
      '(_, d, _, _) <~ load_ps c ;;
      dl <~ load_dict d ;;
      _ <~ store d (HDict (dupdate dl new)) ;;
      hret (c, acc)
  | PSpace s :: _ => if is_disc s then h_perturb_value s a i else hdo (err EAttr)
  | PPrior pr :: t =>
      ob <~ h_get (p_name pr) a ;;
      match ob with
      | None => hdo (err EAttr)
      | Some b =>
          p <~ view_ps a ;;
          old <~ hlift (num_at (ps_get (p_name pr) p) i) ;;
          e <~ h_copy_arr b ;;
          at_ <~ hlift (match ps_get disc_key p with
                        | None => Ok None
                        | Some d => x <-? site_at (Some d) i ;; Ok (Some x)
                        end) ;;
          '(nv, r) <~ hdo (p_perturb pr old at_ false) ;;
          _ <~ h_put_num e i nv ;;
          h_perturb_params t a i (dset (p_name pr) e new) (eadd acc r)
      end
  end.
Definition h_param_perturb (l : list param) (a : loc) : HM (loc * ext) :=
  '(n, _, _, _) <~ load_ps a ;;
  i <~ hdo (randint_below n) ;; h_perturb_params l a i [] (Fin 0).

Definition h_elem_perturb (e : elem) (a : loc) : HM (loc * ext) :=
  match e with
  | EBirth s => h_birth s a
  | EDeath s => h_death s a
  | EParam _ l => h_param_perturb l a
  end.

(** ** States *)
(** _state.py:279-300 [set_param_values] *)
Definition h_st_set (k : string) (b : loc) (a : loc) : HM unit :=
  o <~ load b ;;
  match o with
  | HPS _ _ _ _ | HNoise _ =>
      '(d, at_, t, c, x) <~ load_state a ;;
      dl <~ load_dict d ;;
      _ <~ store d (HDict (dset k b dl)) ;;
      store a (HState d (dset k b at_) t c x)
  | _ => hdo (err EType)
  end.
Fixpoint h_st_post_init (todo : dict loc) (a : loc) : HM unit :=
  match todo with
  | [] => hret tt
  | (k, b) :: t => _ <~ h_st_set k b a ;; h_st_post_init t a
  end.
(** _state.py:268-274: State(param_values, temperature, cache) *)
Definition h_mk_state (d : loc) (t : R) (c : dict centry) : HM loc :=
  dl <~ load_dict d ;;
  a <~ alloc (HState d [] t c []) ;;
  _ <~ h_st_post_init dl a ;;
  hret a.
(** _state.py:428-461 [copy] *)
Definition h_entry_copy (b : loc) : HM loc :=
  o <~ load b ;;
  match o with
  | HPS _ _ _ _ => copy_ps b
  | HNoise n => alloc (HNoise n)
  | _ => hdo ubeh
  end.
Definition h_st_copy (keep_dpred : bool) (a : loc) : HM loc :=
  '(d, _, t, c, _) <~ load_state a ;;
  dl <~ load_dict d ;;
  dl' <~ hmap (fun kb => b <~ h_entry_copy (snd kb) ;; hret (fst kb, b)) dl ;;
  d' <~ alloc (HDict dl') ;;
  h_mk_state d' t
    (if keep_dpred then filter (fun kc => String.eqb (fst kc) "dpred") c else []).
(** _state.py:352-362 [save_to_cache] *)
Definition h_st_save_cache (k : string) (e : centry) (a : loc) : HM unit :=
  '(d, at_, t, c, x) <~ load_state a ;; store a (HState d at_ t (dset k e c) x).

(** ** ParamSpacePerturbation (perturbations/_param_space.py) *)
(** 78-91 *)
Definition h_psp_ps (q : psp) (a : loc) : HM (loc * ext * string) :=
  i <~ hdo (choices (length (psp_funcs q)) (map snd (psp_funcs q))) ;;
  ew <~ hlift (idx (psp_funcs q) i) ;;
  '(a', r) <~ h_elem_perturb (fst ew) a ;;
  hret (a', r, elem_name (fst ew)).
(** new_ps_state.set_param_values(k, v) and new_ps_state[k], for a State or a
    ParameterSpaceState. *)
Definition h_any_set (k : string) (b : loc) (a : loc) : HM unit :=
  o <~ load a ;;
  match o with
  | HState _ _ _ _ _ => h_st_set k b a
  | HPS _ _ _ _ => h_set k b a
  | _ => hdo ubeh
  end.
Definition h_any_vals (a : loc) : HM (dict loc) :=
  o <~ load a ;;
  match o with
  | HState d _ _ _ _ => load_dict d
  | HPS _ d _ _ => load_dict d
  | _ => hdo ubeh
  end.
(** The variables of the second loop; the queue holds pairs (new state, old state). *)
Record hwalk := mkHwalk {
  hw_i : nat;
  hw_ratio : ext;
  hw_stats : dict nat;
  hw_queue : list (loc * loc)
}.
(** 54-64 *)
Fixpoint h_walk_list (q : psp) (target : nat) (vs : list loc) (i : nat) (ratio : ext)
    (stats : dict nat) : HM (list loc * nat * ext * dict nat) :=
  match vs with
  | [] => hret ([], i, ratio, stats)
  | v :: t =>
      if (i =? target)%nat then
        '(v', r, ty) <~ h_psp_ps q v ;;
        '(t', i', ratio', stats') <~
          h_walk_list q target t (S i) (eadd ratio r) (bump_type ty stats) ;;
        hret (v' :: t', i', ratio', stats')
      else
        v' <~ copy_ps v ;;
        '(t', i', ratio', stats') <~ h_walk_list q target t (S i) ratio stats ;;
        hret (v' :: t', i', ratio', stats')
  end.
(** 45-71: [a] is new_ps_state, [l] the items of old_ps_state.param_values. *)
Fixpoint h_walk_node (q : psp) (target : nat) (a : loc) (l : dict loc) (s : hwalk) : HM hwalk :=
  match l with
  | [] => hret s
  | (k, b) :: t =>
      o <~ load b ;;
      match o with
      | HPS _ _ _ _ =>
          if String.eqb k (psp_space q) then
            if (hw_i s =? target)%nat then
              '(b', r, ty) <~ h_psp_ps q b ;;
              _ <~ h_any_set k b' a ;;
              h_walk_node q target a t
                (mkHwalk (S (hw_i s)) (eadd (hw_ratio s) r) (bump_type ty (hw_stats s)) (hw_queue s))
            else
              h_walk_node q target a t
                (mkHwalk (S (hw_i s)) (hw_ratio s) (hw_stats s) (hw_queue s))
          else
            dl <~ h_any_vals a ;;
            match dget k dl with
            | Some b' =>
                h_walk_node q target a t
                  (mkHwalk (hw_i s) (hw_ratio s) (hw_stats s) (hw_queue s ++ [(b', b)]))
            | None => hdo ubeh
            end
      | HLst vs =>
          if String.eqb k (psp_space q) then
            '(vs', i', ratio', stats') <~
              h_walk_list q target vs (hw_i s) (hw_ratio s) (hw_stats s) ;;
            b' <~ alloc (HLst vs') ;;
            _ <~ h_any_set k b' a ;;
            h_walk_node q target a t (mkHwalk i' ratio' stats' (hw_queue s))
          else
            match vs with
            | [] => hdo (err EIndex)
            | _ =>
                dl <~ h_any_vals a ;;
                match dget k dl with
                | Some b' =>
                    o' <~ load b' ;;
                    match o' with
                    | HLst vs' =>
                        h_walk_node q target a t
                          (mkHwalk (hw_i s) (hw_ratio s) (hw_stats s) (hw_queue s ++ combine vs' vs))
                    | _ => hdo ubeh
                    end
                | None => hdo ubeh
                end
            end
      | _ => h_walk_node q target a t s
      end
  end.
Fixpoint h_walk_loop (fuel : nat) (q : psp) (target : nat) (s : hwalk) : HM hwalk :=
  match hw_queue s with
  | [] => hret s
  | (a, b) :: rest =>
      if (hw_i s <=? target)%nat then
        match fuel with
        | O => hdo ubeh
        | S f =>
            l <~ h_any_vals b ;;
            s' <~ h_walk_node q target a l (mkHwalk (hw_i s) (hw_ratio s) (hw_stats s) rest) ;;
            h_walk_loop f q target s'
        end
      else hret s
  end.
(** 24-76 [perturb]; the counting loop only reads. *)
Definition h_psp_perturb (q : psp) (a : loc) : HM (loc * ext) :=
  new <~ h_st_copy false a ;;
  s <~ view_state a ;;
  n <~ hlift (count_loop (st_size s) (psp_space q) [st_children s] 0) ;;
  target <~ hdo (randint_below n) ;;
  w <~ h_walk_loop (st_size s) q target (mkHwalk 0 (Fin 0) [] [(new, a)]) ;;
  let total := INR (nsum (map snd (hw_stats w))) in
  let stats := map (fun kn => (fst kn, INR (snd kn) / total)) (hw_stats w) in
  _ <~ h_st_save_cache "perturb_stats" (CStats stats) new ;;
  hret (new, hw_ratio w).

(** _birth_death.py:46-51, 112-117; _param_values.py:50-54 *)
Definition h_elem_perturb_state (e : elem) (a : loc) : HM (loc * ext) :=
  dl <~ h_any_vals a ;;
  match dget (elem_space e) dl with
  | Some b =>
      o <~ load b ;;
      match o with
      | HPS _ _ _ _ =>
          '(b', r) <~ h_elem_perturb e b ;;
          new <~ h_st_copy false a ;;
          _ <~ h_st_set (elem_space e) b' new ;;
          hret (new, r)
      | _ => hdo ubeh
      end
  | None => hdo (err EAttr)
  end.

(** ** NoisePerturbation (perturbations/_data_noise.py:21-77) *)
Fixpoint h_perturb_targets (ts : list target) (a : loc) (new : dict loc) : HM (dict loc) :=
  match ts with
  | [] => hret new
  | t :: ts' =>
      s <~ view_state a ;;
      d <~ hlift (noise_of t s) ;;
      d' <~ hdo (perturb_target t d) ;;
      b <~ alloc (HNoise d') ;;
      h_perturb_targets ts' a (dset (t_name t) b new)
  end.
Definition h_noise_perturb (ts : list target) (a : loc) : HM (loc * ext) :=
  new <~ h_perturb_targets ts a [] ;;
  a' <~ h_st_copy true a ;;
  '(d, _, _, _, _) <~ load_state a' ;;
  dl <~ load_dict d ;;
  _ <~ store d (HDict (dupdate dl new)) ;;
  hret (a', Fin 0).

(** A perturbation function of a chain. *)
Definition h_pfunc (f : pfunc) : loc -> HM (loc * ext) :=
  match f with FSpace q => h_psp_perturb q | FNoise ts => h_noise_perturb ts end.

(** ** One iteration of a chain (_markov_chain.py) *)
(** What is saved: numbers, arrays (the objects themselves, not copies), lists of dictionaries,
    what is in extra_storage, predictions. *)
Inductive hout :=
| QInt (n : nat)
| QNum (r : R)
| QArr (a : loc)
| QList (l : list (list (string * hout)))
| QAny (o : ovalue)
| QPred (c : centry).
(** _state.py:207-232 [todict]; [fuel] bounds the depth. *)
Fixpoint h_todict (fuel : nat) (h : heap) (name : string) (a : loc) : option (dict hout) :=
  match fuel with
  | O => None
  | S f =>
      match nth_error h a with
      | Some (HPS n d _ _) =>
          match nth_error h d with
          | Some (HDict dl) =>
              option_map
                (fun its => fold_left (fun acc ko => dset (fst ko) (snd ko) acc) its
                              [((name ++ ".n_dimensions")%string, QInt n)])
                (omap (fun kb =>
                   let key := (name ++ "." ++ fst kb)%string in
                   match nth_error h (snd kb) with
                   | Some (HLst l) =>
                       option_map (fun ds => (key, QList ds)) (omap (h_todict f h key) l)
                   | Some (HArr _) | Some (HArrN _) | Some (HObj _) => Some (key, QArr (snd kb))
                   | _ => None
                   end) dl)
          | _ => None
          end
      | _ => None
      end
  end.
(** _state.py:26-46 *)
Definition h_noise_todict (name : string) (d : noise) : dict hout :=
  ((name ++ ".std")%string, QNum (dn_std d)) ::
  match dn_corr d with
  | Some r => [((name ++ ".correlation")%string, QNum r)]
  | None => []
  end.
(** _state.py:407-426 [items] *)
Definition h_items (h : heap) (a : loc) : option (dict hout) :=
  match nth_error h a with
  | Some (HState d _ _ _ x) =>
      match nth_error h d with
      | Some (HDict dl) =>
          option_map
            (fun ds => dupdate (fold_left dupdate ds []) (map (fun kv => (fst kv, QAny (snd kv))) x))
            (omap (fun kb =>
               match nth_error h (snd kb) with
               | Some (HPS _ _ _ _) => h_todict (length h) h (fst kb) (snd kb)
               | Some (HNoise d) => Some (h_noise_todict (fst kb) d)
               | _ => None
               end) dl)
      | _ => None
      end
  | _ => None
  end.

(** What a chain uses of its states, in a given heap. *)
Definition heap_ops (h : heap) : state_ops loc hout :=
  {| s_kind := fun _ => KState;
     s_items := fun a => match h_items h a with Some l => l | None => [] end;
     s_cache := fun a => match nth_error h a with
                         | Some (HState _ _ _ c _) => Some (map (fun kc => (fst kc, QPred (snd kc))) c)
                         | _ => None
                         end;
     s_pstats := fun a => match nth_error h a with
                          | Some (HState _ _ _ c _) =>
                              match dget "perturb_stats" c with
                              | Some (CStats l) => inl l
                              | Some _ => inr EAttr
                              | None => inr EKey
                              end
                          | _ => inr EAttr
                          end;
     s_settemp := fun _ a => a |}.

(** The fixed attributes of a chain.  [he_like]: log_likelihood_ratio(old, new, temperature)
    may read every object and saves into cache and extra_storage of the two states; user
    functions are assumed not to change other objects. *)
Record henv := mkHenv {
  he_funcs : list (string * (loc -> HM (loc * ext)));
  he_weights : list R;
  he_like : heap -> loc -> loc -> R ->
            M ((dict centry * dict ovalue) * (dict centry * dict ovalue) * (ext + exn));
  he_savedpred : bool;
  he_transd : option (string -> option bool)
}.
Definition h_save (a : loc) (cx : dict centry * dict ovalue) : HM unit :=
  '(d, at_, t, _, _) <~ load_state a ;; store a (HState d at_ t (fst cx) (snd cx)).
Definition h_like (E : henv) (old new : loc) (T : R) : HM (ext + exn) :=
  '(co, cn, l) <~ (fun h tr => (he_like E h old new T tr, h)) ;;
  _ <~ h_save old co ;;
  _ <~ h_save new cn ;;
  hret l.
(** The parts of [attempt] that touch no object are those of ModelChain.v. *)
Definition env_at (E : henv) (h : heap) : env loc hout :=
  {| e_ops := heap_ops h; e_funcs := []; e_weights := [];
     e_like := fun o n _ => ret (o, n, inl (Fin 0));
     e_savedpred := he_savedpred E; e_transd := he_transd E |}.
Definition h_decide (E : henv) (ty : string) (new : loc) (lpr llr : ext) (c : chain loc hout)
    : HM (chain loc hout * verdict) := fun h tr =>
  match h_items h (c_cur c), h_items h new with
  | Some _, Some _ => (decide (env_at E h) ty new lpr llr c tr, h)
  | _, _ => (UBeh, h)
  end.
(** _markov_chain.py:203-241: one pass. *)
Definition h_attempt (E : henv) (c : chain loc hout) : HM (chain loc hout * verdict) :=
  oi <~ hdo (try (choices (length (he_funcs E)) (he_weights E))) ;;
  match oi with
  | inr e => hret (c, Stop e)
  | inl i =>
      match nth_error (he_funcs E) i with
      | None => hret (c, Stop EIndex)
      | Some (ty, f) =>
          r <~ htry (f (c_cur c)) ;;
          match r with
          | inr EUser => hret (count_exc EUser c, Retry)
          | inr e => hret (c, Stop e)
          | inl (new, lpr) =>
              if eisinf lpr then h_decide E ty new lpr (Fin 0) c
              else
                l <~ h_like E (c_cur c) new (c_temp c) ;;
                match l with
                | inr EUser => hret (count_exc EUser c, Retry)
                | inr EForward => hret (count_exc EForward c, Retry)
                | inr e => hret (c, Stop e)
                | inl llr => h_decide E ty new lpr llr c
                end
          end
      end
  end.
(** _markov_chain.py:201-244 *)
Fixpoint h_tries (E : henv) (k : nat) (c : chain loc hout) : HM (chain loc hout * option exn) :=
  match k with
  | O => hret (c, Some ERuntime)
  | S k' =>
      '(c', v) <~ h_attempt E c ;;
      match v with
      | Retry => h_tries E k' c'
      | Stop e => hret (c', Some e)
      | Done => hret (c', None)
      end
  end.
(** _markov_chain.py:246-294 [advance_chain] without hooks and printing. *)
Fixpoint h_advance (E : henv) (n : nat) (sc : sched) (c : chain loc hout)
    : HM (chain loc hout * option exn) :=
  match n with
  | O => hret (c, None)
  | S n' =>
      match save_flag sc (S (c_nprop_tot c)) with
      | Raise x => hret (c, Some x)
      | Undef => hdo ubeh
      | Ok flag =>
          '(c', o) <~ h_tries E 500 (set_flag flag c) ;;
          match o with
          | Some x => hret (c', Some x)
          | None => h_advance E n' sc c'
          end
      end
  end.
(** The chain of an inversion. *)
Definition h_inversion_env (spaces : list space) (ll : loglike) (save : bool)
    (like : heap -> loc -> loc -> R ->
            M ((dict centry * dict ovalue) * (dict centry * dict ovalue) * (ext + exn))) : henv :=
  {| he_funcs := map (fun fw => (pfunc_name (fst fw), h_pfunc (fst fw))) (inv_pfuncs spaces ll);
     he_weights := map snd (inv_pfuncs spaces ll);
     he_like := like;
     he_savedpred := save;
     he_transd := Some (fun name => option_map sp_transd (space_named spaces name)) |}.
