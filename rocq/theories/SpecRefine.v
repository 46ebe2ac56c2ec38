(** What it means that objects in memory are what the models with values say.  Independent of
    the code in ModelHeap.v; only its objects are mentioned. *)
From Verif Require Import Base ModelState ModelHeap SpecHeap.

(** The object at an address is a ParameterSpaceState with the given number of dimensions,
    the given entries of param_values in the given order, and attributes that show what the
    model with values has for them, at all levels below.  Caches are not looked at. *)
Inductive rep (h : heap) : loc -> psstate -> Prop :=
| rep_ps a n d al cl dl vals attrs cache :
    nth_error h a = Some (HPS n d al cl) ->
    nth_error h d = Some (HDict dl) ->
    Forall2 (fun kb kv => fst kb = fst kv /\ repv h (snd kb) (snd kv)) dl vals ->
    (forall k b, dget k al = Some b -> exists v, dget k attrs = Some v /\ repv h b v) ->
    rep h a (PS n vals attrs cache)
with repv (h : heap) : loc -> value -> Prop :=
| repv_arr b l : nth_error h b = Some (HArr l) -> repv h b (Arr l)
| repv_arrn b l : nth_error h b = Some (HArrN l) -> repv h b (ArrN l)
| repv_obj b ls ps : nth_error h b = Some (HObj ls) -> Forall2 (rep h) ls ps -> repv h b (AObj ps)
| repv_lst b ls ps : nth_error h b = Some (HLst ls) -> Forall2 (rep h) ls ps -> repv h b (Lst ps).

(** An entry of a State, and a State: its entries, attributes, temperature, cache and
    extra_storage. *)
Inductive rep_entry (h : heap) : loc -> ModelState.entry -> Prop :=
| rep_e_ps b p : rep h b p -> rep_entry h b (EPS p)
| rep_e_noise b d : nth_error h b = Some (HNoise d) -> rep_entry h b (ENoise d).
Definition rep_state (h : heap) (a : loc) (s : state) : Prop :=
  exists d al dl,
    nth_error h a = Some (HState d al (st_temp s) (st_cache s) (st_extra s)) /\
    nth_error h d = Some (HDict dl) /\
    Forall2 (fun kb ke => fst kb = fst ke /\ rep_entry h (snd kb) (snd ke)) dl (st_vals s) /\
    (forall k b, dget k al = Some b -> exists e, dget k (st_attrs s) = Some e /\ rep_entry h b e).

(** The run with objects and the run with values end in the same way: the same exception, or
    results that stand for each other, after the same random draws. *)
Definition agree {A B} (R : heap -> A -> B -> Prop) (x : out A * heap) (y : out B) : Prop :=
  match fst x, y with
  | Ret a tr, Ret b tr' => tr = tr' /\ R (snd x) a b
  | Err e tr, Err e' tr' => e = e' /\ tr = tr'
  | UBeh, UBeh => True
  | Starve, Starve => True
  | _, _ => False
  end.
