(** Model of /repo/src/bayesbay/_utils.py (_preprocess_func, _FunctionWrapper) and of the
    bookkeeping of BaseBayesianInversion in /repo/src/bayesbay/_bayes_inversion.py:
    set_perturbation_funcs, the setter of chains, get_results.  The method run is in
    ModelSampler.v. *)
From Verif Require Import Base ModelChain.
Local Open Scope R_scope.

(** * Function specifications, _utils.py *)
Section Func.
(** Functions of the user, the values they take and return, and their behaviour: a call
    with positional and keyword arguments returns a value or raises. *)
Variables fn value : Type.
Variable call : fn -> list value -> dict value -> value + exn.

(** An entry of a tuple or list given as specification. *)
Inductive item :=
| IFun (f : fn)
| ISeq (args : list value)
| IDict (kwargs : dict value)
| IOther.

(** What can be handed to _preprocess_func: None, a Perturbation object (birth or death of
    a space, or another one; [n] its name), a tuple or list, anything else. *)
Inductive pert := PBirth (space : string) | PDeath (space : string) | POther (n : string).
Inductive spec :=
| SNone
| SPert (p : pert)
| STuple (l : list item)
| SItem (x : item).

(** _FunctionWrapper (33-39) *)
Record wrapper := { w_func : item; w_args : list value; w_kwargs : dict value }.
Inductive func := FNone | FPert (p : pert) | FWrap (w : wrapper).

(** _utils.py:5-30.  A list of values is an [ISeq] item; a list given in place of a function
    is a [STuple]. *)
Definition preprocess_func (s : spec) : res func :=
  match s with
  | SNone => Ok FNone
  | SPert p => Ok (FPert p)
  | STuple l =>
      match l with
      | [] => Raise EIndex
      | [f] => Ok (FWrap {| w_func := f; w_args := []; w_kwargs := [] |})
      | f :: x1 :: rest =>
          match x1 with
          | ISeq args =>
              match rest with
              | IDict kw :: _ => Ok (FWrap {| w_func := f; w_args := args; w_kwargs := kw |})
              | _ => Ok (FWrap {| w_func := f; w_args := args; w_kwargs := [] |})
              end
          | IDict kw => Ok (FWrap {| w_func := f; w_args := []; w_kwargs := kw |})
          | _ => Raise EType
          end
      end
  | SItem x => Ok (FWrap {| w_func := x; w_args := []; w_kwargs := [] |})
  end.

(** _FunctionWrapper.__call__ (41-45); calling something that is not callable raises inside
    the try block.  Exceptions are those derived from Exception. *)
Definition wrapper_call (w : wrapper) (args : list value) : res value :=
  match w_func w with
  | IFun f =>
      match call f (args ++ w_args w) (w_kwargs w) with
      | inl v => Ok v
      | inr _ => Raise EUser
      end
  | _ => Raise EUser
  end.

(** * set_perturbation_funcs, _bayes_inversion.py:116-174 *)

(** isinstance(func, (BirthPerturbation, DeathPerturbation)) and func.param_space_name *)
Definition bd_space (f : func) : option string :=
  match f with FPert (PBirth n) | FPert (PDeath n) => Some n | _ => None end.
Definition is_birth (f : func) : bool := match f with FPert (PBirth _) => true | _ => false end.
Definition is_death (f : func) : bool := match f with FPert (PDeath _) => true | _ => false end.

(** 134-137: birth_death_pairs, a defaultdict(list) *)
Fixpoint collect_pairs (i : nat) (fs : list func) (d : dict (list nat)) : dict (list nat) :=
  match fs with
  | [] => d
  | f :: t =>
      collect_pairs (S i) t
        (match bd_space f with
         | Some n => dset n (match dget n d with Some l => l | None => [] end ++ [i]) d
         | None => d
         end)
  end.
Definition at_index (p : func -> bool) (fs : list func) (i : nat) : bool :=
  match nth_error fs i with Some f => p f | None => false end.

(** 138-167: the loop over the pairs; the weights are a list changed in place, so the changes
    made before an exception stay.  Weights are finite numbers. *)
Fixpoint equalise (fs : list func) (pairs : dict (list nat)) (ws : list R)
    : list R * option exn :=
  match pairs with
  | [] => (ws, None)
  | (_, is) :: t =>
      let bs := filter (at_index is_birth fs) is in
      let ds := filter (at_index is_death fs) is in
      match bs with
      | [b] =>
          match ds with
          | [d] =>
              match nth_error ws b, nth_error ws d with
              | Some wb, Some wd =>
                  equalise fs t (if Reqb wb wd then ws else set_nth ws d wb)
              | _, _ => (ws, Some EIndex)
              end
          | _ => (ws, Some EValue)
          end
      | _ => (ws, Some EValue)
      end
  end.

(** The fields of a chain set by BaseMarkovChain.set_perturbation_funcs
    (_markov_chain.py:88-91); [cf_named]: perturbation_types could be computed. *)
Record chain_funcs := { cf_funcs : list func; cf_weights : list R }.
(** func.__name__ of None raises AttributeError, after the functions have been assigned. *)
Definition no_name (f : func) : bool := match f with FNone => true | _ => false end.
Definition chain_set (fs : list func) (ws : list R) (c : chain_funcs) : chain_funcs * option exn :=
  if existsb no_name fs then ({| cf_funcs := fs; cf_weights := cf_weights c |}, Some EAttr)
  else ({| cf_funcs := fs; cf_weights := ws |}, None).
Fixpoint chains_set (fs : list func) (ws : list R) (cs : list chain_funcs)
    : list chain_funcs * option exn :=
  match cs with
  | [] => ([], None)
  | c :: t =>
      match chain_set fs ws c with
      | (c', Some e) => (c' :: t, Some e)
      | (c', None) => let '(t', o) := chains_set fs ws t in (c' :: t', o)
      end
  end.

(** The inversion; [iv_chains] is None before the attribute _chains exists. *)
Record inversion := {
  iv_funcs : list func;
  iv_weights : list R;
  iv_chains : option (list chain_funcs)
}.

(** The whole method.  Besides the inversion it returns the caller's list of weights, which
    is the very object the method works on (simplified: it is not the list held by the
    inversion already), and the exception. *)
Definition set_perturbation_funcs (specs : list spec) (weights : option (list R))
    (iv : inversion) : inversion * option (list R) * option exn :=
  match rmap preprocess_func specs with
  | Raise e => (iv, weights, Some e)
  | Undef => (iv, weights, Some EType)
  | Ok fs =>
      let ws := match weights with None => repeat 1 (length fs) | Some w => w end in
      let given w := match weights with None => None | Some _ => Some w end in
      if negb (length fs =? length ws)%nat then (iv, weights, Some EAssert)
      else
        match equalise fs (collect_pairs 0 fs []) ws with
        | (ws', Some e) => (iv, given ws', Some e)
        | (ws', None) =>
            match iv_chains iv with
            | None => ({| iv_funcs := fs; iv_weights := ws'; iv_chains := None |}, given ws', None)
            | Some cs =>
                let '(cs', o) := chains_set fs ws' cs in
                ({| iv_funcs := fs; iv_weights := ws'; iv_chains := Some cs' |}, given ws', o)
            end
        end
  end.
End Func.

Arguments IFun {fn value}. Arguments ISeq {fn value}. Arguments IDict {fn value}.
Arguments IOther {fn value}.
Arguments SNone {fn value}. Arguments SPert {fn value}. Arguments STuple {fn value}.
Arguments SItem {fn value}.
Arguments FNone {fn value}. Arguments FPert {fn value}. Arguments FWrap {fn value}.
Arguments w_func {fn value}. Arguments w_args {fn value}. Arguments w_kwargs {fn value}.
Arguments preprocess_func {fn value}. Arguments wrapper_call {fn value}.
Arguments bd_space {fn value}. Arguments is_birth {fn value}. Arguments is_death {fn value}.
Arguments collect_pairs {fn value}. Arguments at_index {fn value}. Arguments equalise {fn value}.
Arguments cf_funcs {fn value}. Arguments cf_weights {fn value}. Arguments chain_set {fn value}.
Arguments chains_set {fn value}. Arguments iv_funcs {fn value}. Arguments iv_weights {fn value}.
Arguments iv_chains {fn value}. Arguments set_perturbation_funcs {fn value}.
Arguments no_name {fn value}.

(** * Results and chains, _bayes_inversion.py:181-331 *)
Section Results.
Variables St V : Type.

(** A Python object standing where a chain is expected: a chain, of which only saved_states
    matters here, or something else. *)
Inductive obj := OChain (s : saved St V) | ONot.
(** An argument: a list of objects, or anything that is not a list. *)
Inductive arg := AList (l : list obj) | AOne (o : obj).

Definition is_chain (o : obj) : bool := match o with OChain _ => true | ONot => false end.

(** _bayes_inversion.py:181-200, the setter: the new (_chains, n_chains). *)
Definition set_chains (a : arg) : res (list obj * nat) :=
  match a with
  | AOne _ => Raise EType
  | AList l => if forallb is_chain l then Raise EType else Ok (l, length l)
  end.

(** What dict(...) sees when it iterates over a saved state of another type than State and
    dict: its elements, each hashable (its hash represented by a string) or not. *)
Inductive hashed := Hash (k : string) | NoHash.
Variable elements : St -> option (list hashed).
Variable hash_of : St -> hashed.

(** The result: a dictionary of lists of values, or of lists of lists, or what dict(...)
    makes of a list. *)
Inductive result :=
| RConcat (d : dict (list V))
| RSeparate (d : dict (list (list V)))
| RPairs (d : dict hashed)
| RList (l : list St)
| RLists (l : list (list St)).

(** dict(iterable of pairs) *)
Fixpoint py_dict (l : list (option (list hashed))) (d : dict hashed) : res (dict hashed) :=
  match l with
  | [] => Ok d
  | None :: _ => Raise EType
  | Some [Hash k; v] :: t => py_dict t (dset k v d)
  | Some [NoHash; _] :: _ => Raise EType
  | Some _ :: _ => Raise EValue
  end.

Definition wanted (keys : option (list string)) (k : string) : bool :=
  match keys with None => true | Some ks => existsb (String.eqb k) ks end.

(** 311-320, one chain, concatenating and not. *)
Fixpoint extend_results {A B} (f : A -> list B) (keys : option (list string))
    (its : dict A) (r : dict (list B)) : dict (list B) :=
  match its with
  | [] => r
  | (k, vs) :: t =>
      extend_results f keys t
        (if wanted keys k
         then dset k (match dget k r with Some l => l | None => [] end ++ f vs) r
         else r)
  end.
Fixpoint gather {B} (f : list V -> list B) (keys : option (list string)) (cs : list obj)
    (r : dict (list B)) : res (dict (list B)) :=
  match cs with
  | [] => Ok r
  | OChain (SDict d) :: t => gather f keys t (extend_results f keys d r)
  | _ :: _ => Raise EAttr
  end.
(** 321-328.  A dictionary of samples among lists (chains of different kinds) would
    contribute its keys; not modelled (Undef). *)
Fixpoint gather_list (cs : list obj) : res (list (list St)) :=
  match cs with
  | [] => Ok []
  | OChain (SList l) :: t => ls <-? gather_list t ;; Ok (l :: ls)
  | _ :: _ => Undef
  end.

(** _bayes_inversion.py:280-331; keys given as one string are the one-element list. *)
Definition get_results (a : arg) (keys : option (list string)) (concatenate : bool) : res result :=
  let cs := match a with AList l => l | AOne o => [o] end in
  if negb (forallb is_chain cs) then Raise EType else
  match cs with
  | [] => Raise EIndex
  | OChain (SDict _) :: _ =>
      if concatenate then
        d <-? gather (fun vs => vs) keys cs [] ;; Ok (RConcat d)
      else
        d <-? gather (fun vs => [vs]) keys cs [] ;; Ok (RSeparate d)
  | _ =>
      ls <-? gather_list cs ;;
      d <-? py_dict (if concatenate then map elements (concat ls)
                     else map (fun l => Some (map hash_of l)) ls) [] ;;
      Ok (RPairs d)
  end.
End Results.

Arguments OChain {St V}. Arguments ONot {St V}. Arguments AList {St V}. Arguments AOne {St V}.
Arguments is_chain {St V}. Arguments set_chains {St V}.
Arguments RConcat {St V}. Arguments RSeparate {St V}. Arguments RPairs {St V}.
Arguments RList {St V}. Arguments RLists {St V}.
Arguments gather {St V B}. Arguments gather_list {St V}. Arguments get_results {St V}.
