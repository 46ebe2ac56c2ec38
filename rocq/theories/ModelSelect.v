(** ParameterSpaceState.__getitem__ with any argument (_state.py:88-102, 129-146). *)
From Verif Require Import Base ModelState.
Local Open Scope Z_scope.

(** l[i] of Python lists and entries of NumPy arrays: negative indices count from the end, others out of range
    raise IndexError. *)
Definition idxz {A} (l : list A) (i : Z) : res A :=
  let n := Z.of_nat (length l) in
  if (0 <=? i) && (i <? n) then idx l (Z.to_nat i)
  else if (- n <=? i) && (i <? 0) then idx l (Z.to_nat (n + i))
  else Raise EIndex.
(** The arguments a user can give: a name, a list of integers, something else (lists of other things are not modelled). *)
Inductive key := KName (s : string) | KList (is : list Z) | KOther.
(** What comes back: the values of a parameter (None when there is none of this name), or a state. *)
Inductive item := IValues (v : option value) | IState (p : psstate).
(** _state.py:94-99 *)
Fixpoint getitem_vals (l : dict value) (is : list Z) : res (dict value) :=
  match l with
  | [] => Ok []
  | (k, v) :: t =>
      v' <-? match v with
             | Arr a => a' <-? rmap (idxz a) is ;; Ok (Arr a')
             | ArrN a => a' <-? rmap (idxz a) is ;; Ok (ArrN a')
             | AObj a => a' <-? rmap (idxz a) is ;; Ok (AObj a')
             | Lst a => c <-? rmap (fun i => q <-? idxz a i ;; ps_copy q) is ;; Ok (Lst c)
             end ;;
      t' <-? getitem_vals t is ;; Ok ((k, v') :: t')
  end.
(** 88-102 *)
Definition ps_getitem (p : psstate) (k : key) : res item :=
  match k with
  | KName s => Ok (IValues (ps_get s p))
  | KList is => vals <-? getitem_vals (ps_vals p) is ;; q <-? mk_ps (length is) vals ;; Ok (IState q)
  | KOther => Raise EType
  end.
