(** What it means that code leaves the objects of a program alone.  Independent of the code in
    ModelHeap.v; only its objects are mentioned. *)
From Verif Require Import Base ModelState ModelHeap.

(** Two conditions of one object that differ at most in caches (of a State: cache and
    extra_storage). *)
Definition same_data (o o' : obj) : Prop :=
  match o with
  | HPS n d at_ _ => exists c', o' = HPS n d at_ c'
  | HState d at_ t _ _ => exists c' x', o' = HState d at_ t c' x'
  | _ => o' = o
  end.
(** Every object that exists in [h] is in [h'], with the same data. *)
Definition untouched (h h' : heap) : Prop :=
  forall a o, nth_error h a = Some o -> exists o', nth_error h' a = Some o' /\ same_data o o'.

(** The objects reachable from an address. *)
Inductive reach (h : heap) : loc -> loc -> Prop :=
| reach_self a : reach h a a
| reach_step a b c : reach h a b ->
    match nth_error h b with
    | Some (HObj l) | Some (HLst l) => In c l
    | Some (HDict d) => In c (map snd d)
    | Some (HPS _ d at_ _) => c = d \/ In c (map snd at_)
    | Some (HState d at_ _ _ _) => c = d \/ In c (map snd at_)
    | _ => False
    end -> reach h a c.

(** What a saved item shows when it is looked at in the heap [h]: numbers, the content of the
    array that was saved (an array of states shows the values of the states). *)
Fixpoint show (h : heap) (o : hout) : option ovalue :=
  match o with
  | QInt n => Some (OInt n)
  | QNum r => Some (ONum r)
  | QArr a =>
      match nth_error h a with
      | Some (HArr l) => Some (OArr (Arr l))
      | Some (HArrN l) => Some (OArr (ArrN l))
      | Some (HObj l) => option_map (fun q => OArr (AObj q)) (omap (read_ps (length h) h) l)
      | _ => None
      end
  | QList l =>
      option_map OList
        ((fix dicts (q : list (list (string * hout))) : option (list (list (string * ovalue))) :=
            match q with
            | [] => Some []
            | d :: r =>
                match (fix items (e : list (string * hout)) : option (list (string * ovalue)) :=
                         match e with
                         | [] => Some []
                         | (k, x) :: t =>
                             match show h x, items t with
                             | Some y, Some ys => Some ((k, y) :: ys)
                             | _, _ => None
                             end
                         end) d, dicts r with
                | Some y, Some ys => Some (y :: ys)
                | _, _ => None
                end
            end) l)
  | QAny x => Some x
  | QPred (CPred d) => Some (OArr (Arr d))
  | QPred (CStats _) => None
  | QPred (CAny n) => Some (OAny n)
  end.
