(** Model of /repo/src/bayesbay/_markov_chain.py (BaseMarkovChain, MarkovChain).

    The model is generic in the type of states.  A method that raises leaves the chain in
    the condition it had when the exception was raised, so methods return the chain
    together with an optional exception. *)
From Verif Require Import Base.
Local Open Scope R_scope.

(** Lib/random.py choices(range(n), weights)[0] (CPython), with
    Lib/bisect.py bisect_right: a standard-library call of _markov_chain.py:205-207 and
    perturbations/_param_space.py:86-88.  Weights that are not finite numbers are not
    modelled. *)
Fixpoint accumulate (acc : R) (ws : list R) : list R :=
  match ws with
  | [] => []
  | w :: t => (acc + w) :: accumulate (acc + w) t
  end.
Fixpoint bisect_right (fuel : nat) (a : list R) (x : R) (lo hi : nat) : res nat :=
  if (lo <? hi)%nat then
    match fuel with
    | O => Undef
    | S f =>
        let mid := ((lo + hi) / 2)%nat in
        am <-? idx a mid ;;
        if Rltb x am then bisect_right f a x lo mid else bisect_right f a x (S mid) hi
    end
  else Ok lo.
Definition choices (n : nat) (ws : list R) : M nat :=
  let cum := accumulate 0 ws in
  if negb (length cum =? n)%nat then err EValue else
  match rev cum with
  | [] => err EIndex
  | total :: _ =>
      if Rleb total 0 then err EValue else
      u <- drawU ;;
      lift (bisect_right n cum (u * total) 0 (n - 1))
  end.

Section Chain.

(** Type of states and of the values that states list for saving. *)
Variables St V : Type.

(** isinstance(state, (State, dict)) *)
Inductive kind := KState | KDict | KOther.

(** What the chain uses of a state:
    - [s_kind]: its class;
    - [s_items]: state.items() (State.items, _state.py:417-426, or dict.items);
    - [s_cache]: state.cache.items(), None when there is no attribute cache;
    - [s_pstats]: proposed_state.load_from_cache("perturb_stats").items();
    - [s_settemp]: state.temperature = value. *)
Record state_ops := {
  s_kind : St -> kind;
  s_items : St -> list (string * V);
  s_cache : St -> option (list (string * V));
  s_pstats : St -> list (string * R) + exn;
  s_settemp : R -> St -> St
}.

(** One entry of statistics["n_proposed_models"]: a number, or the nested dictionary
    used for ParamSpacePerturbation. *)
Inductive stat := Cnt (n : nat) | Sub (d : dict R).

(** self._saved_states (_markov_chain.py:97-101). *)
Inductive saved := SDict (d : dict (list V)) | SList (l : list St).

(** Attributes of the chain that change during a run.  [c_log] is not an attribute: it
    records calls of user hooks, for stating when they are called. *)
Record chain := mkChain {
  c_cur : St;
  c_temp : R;
  c_nprop : dict stat;
  c_nacc : dict stat;
  c_nprop_tot : nat;
  c_nacc_tot : nat;
  c_exc : dict nat;
  c_saved : saved;
  c_flag : option bool;
  c_log : list nat
}.

(** Attributes that do not change during a run.
    - [e_funcs]: perturbation_funcs with their __name__ (88-91);
    - [e_like]: self.log_likelihood.log_likelihood_ratio(old, new, temperature); it may
      update the caches of both states, hence returns them; an exception is a value;
    - [e_transd]: parameterization.parameter_spaces[name].trans_d, None for a
      BaseMarkovChain without attribute parameterization. *)
Record env := {
  e_ops : state_ops;
  e_funcs : list (string * (St -> M (St * ext)));
  e_weights : list R;
  e_like : St -> St -> R -> M (St * St * (ext + exn));
  e_savedpred : bool;
  e_transd : option (string -> option bool)
}.

Variable E : env.
Let ops := e_ops E.

Definition set_cur (s : St) (c : chain) : chain :=
  mkChain s (c_temp c) (c_nprop c) (c_nacc c) (c_nprop_tot c) (c_nacc_tot c)
    (c_exc c) (c_saved c) (c_flag c) (c_log c).
Definition set_saved (s : saved) (c : chain) : chain :=
  mkChain (c_cur c) (c_temp c) (c_nprop c) (c_nacc c) (c_nprop_tot c) (c_nacc_tot c)
    (c_exc c) s (c_flag c) (c_log c).
Definition set_flag (b : bool) (c : chain) : chain :=
  mkChain (c_cur c) (c_temp c) (c_nprop c) (c_nacc c) (c_nprop_tot c) (c_nacc_tot c)
    (c_exc c) (c_saved c) (Some b) (c_log c).
Definition set_exc (x : dict nat) (c : chain) : chain :=
  mkChain (c_cur c) (c_temp c) (c_nprop c) (c_nacc c) (c_nprop_tot c) (c_nacc_tot c)
    x (c_saved c) (c_flag c) (c_log c).
Definition set_stats (np na : dict stat) (tp ta : nat) (c : chain) : chain :=
  mkChain (c_cur c) (c_temp c) np na tp ta (c_exc c) (c_saved c) (c_flag c) (c_log c).
Definition add_log (k : nat) (c : chain) : chain :=
  mkChain (c_cur c) (c_temp c) (c_nprop c) (c_nacc c) (c_nprop_tot c) (c_nacc_tot c)
    (c_exc c) (c_saved c) (c_flag c) (c_log c ++ [k]).

(** _markov_chain.py:69-73, the setter of temperature. *)
Definition set_temperature (t : R) (c : chain) : chain :=
  let s := match s_kind ops (c_cur c) with
           | KState => s_settemp ops t (c_cur c)
           | _ => c_cur c
           end in
  mkChain s t (c_nprop c) (c_nacc c) (c_nprop_tot c) (c_nacc_tot c)
    (c_exc c) (c_saved c) (c_flag c) (c_log c).

(** _markov_chain.py:37-54 with 97-110: a new chain; temperature=1 is the default. *)
Definition init_saved (s : St) : saved :=
  match s_kind ops s with KOther => SList [] | _ => SDict [] end.
Definition new_chain (start : St) : chain :=
  mkChain start 1 [] [] 0 0 [] (init_saved start) None [].

(** e.__class__.__name__ *)
Definition exn_name (e : exn) : string :=
  match e with
  | EUser => "UserFunctionException"
  | EForward => "ForwardException"
  | _ => "other"
  end.
(** self._statistics["exceptions"][name] += 1 (216, 227) *)
Definition count_exc (e : exn) (c : chain) : chain :=
  let k := exn_name e in
  let n := match dget k (c_exc c) with Some n => n | None => 0%nat end in
  set_exc (dset k (S n) (c_exc c)) c.

(** self.saved_states[k].append(v) on the defaultdict(list). *)
Definition append_saved (k : string) (v : V) (d : dict (list V)) : dict (list V) :=
  let old := match dget k d with Some l => l | None => [] end in
  dset k (old ++ [v]) d.

(** k[: -len(".n_dimensions")] *)
Definition strip_ndim (k : string) : string :=
  String.substring 0 (String.length k - 13) k.

(** _markov_chain.py:114-125: is the entry skipped? *)
Definition skip_key (k : string) : res bool :=
  if contains "n_dimensions" k then
    match e_transd E with
    | None => Ok false
    | Some look =>
        match look (strip_ndim k) with
        | None => Raise EKey
        | Some trans_d => Ok (negb trans_d)
        end
    end
  else Ok false.

(** 114-125, the loop over the items; on an exception the entries already appended
    stay. *)
Fixpoint save_items (its : list (string * V)) (d : dict (list V))
    : dict (list V) * option exn :=
  match its with
  | [] => (d, None)
  | (k, v) :: t =>
      match skip_key k with
      | Ok true => save_items t d
      | Ok false => save_items t (append_saved k v d)
      | Raise e => (d, Some e)
      | Undef => (d, None)
      end
  end.
(** 126-129 *)
Fixpoint save_preds (cs : list (string * V)) (d : dict (list V)) : dict (list V) :=
  match cs with
  | [] => d
  | (k, v) :: t =>
      save_preds t (if contains "dpred" k then append_saved k v d else d)
  end.
(** _markov_chain.py:112-131 [_save_state].  A state of another kind than the starting
    state (returned by user code) makes the append fail; simplified in that the first
    item decides. *)
Definition save_state (c : chain) : chain * option exn :=
  match s_kind ops (c_cur c) with
  | KOther =>
      match c_saved c with
      | SList l => (set_saved (SList (l ++ [c_cur c])) c, None)
      | SDict _ => (c, Some EAttr)
      end
  | _ =>
      match c_saved c with
      | SList _ => (c, match s_items ops (c_cur c) with [] => None | _ => Some EType end)
      | SDict d =>
          let '(d1, oe) := save_items (s_items ops (c_cur c)) d in
          match oe with
          | Some e => (set_saved (SDict d1) c, Some e)
          | None =>
              if e_savedpred E then
                match s_cache ops (c_cur c) with
                | None => (set_saved (SDict d1) c, Some EAttr)
                | Some cs => (set_saved (SDict (save_preds cs d1)) c, None)
                end
              else (set_saved (SDict d1) c, None)
          end
      end
  end.

(** d[k] += v on a defaultdict(float) *)
Definition dadd (k : string) (v : R) (d : dict R) : dict R :=
  dset k (match dget k d with Some x => x | None => 0 end + v) d.
Definition get_sub (k : string) (d : dict stat) : dict R :=
  match dget k d with Some (Sub s) => s | _ => [] end.
(** _markov_chain.py:137-142: the loop over perturb_stats.  An entry of another shape
    under this name (impossible, the shape is decided by the name) would raise. *)
Fixpoint add_sub_stats (ty : string) (acc : bool) (vs : list (string * R))
    (np na : dict stat) : dict stat * dict stat :=
  match vs with
  | [] => (np, na)
  | (k, v) :: t =>
      let np' := dset ty (Sub (dadd k v (get_sub ty np))) np in
      let na' := dset ty (Sub (dadd k (if acc then v else 0) (get_sub ty na))) na in
      add_sub_stats ty acc t np' na'
  end.
(** _markov_chain.py:144-152: += on numbers; on a missing entry the defaultdict makes a
    nested dictionary, += raises TypeError and the except branch stores the number. *)
Definition add_cnt_stats (ty : string) (acc : bool) (np na : dict stat)
    : dict stat * dict stat :=
  let a := if acc then 1%nat else 0%nat in
  match dget ty np, dget ty na with
  | Some (Cnt p), Some (Cnt q) => (dset ty (Cnt (p + 1)) np, dset ty (Cnt (q + a)) na)
  | _, _ => (dset ty (Cnt 1) np, dset ty (Cnt a) na)
  end.
Definition psp_prefix : string := "ParamSpacePerturbation".
(** _markov_chain.py:133-154 [_save_statistics]. *)
Definition put_stats (st : dict stat * dict stat) (acc : bool) (c : chain) : chain :=
  set_stats (fst st) (snd st) (S (c_nprop_tot c))
    (c_nacc_tot c + (if acc then 1 else 0))%nat c.
Definition save_statistics (ty : string) (acc : bool) (proposed : St) (c : chain)
    : chain + exn :=
  if String.prefix psp_prefix ty then
    match s_pstats ops proposed with
    | inl vs => inl (put_stats (add_sub_stats ty acc vs (c_nprop c) (c_nacc c)) acc c)
    | inr e => inr e
    end
  else inl (put_stats (add_cnt_stats ty acc (c_nprop c) (c_nacc c)) acc c).

(** Outcome of one pass through the loop of [_next_iteration]. *)
Inductive verdict := Retry | Stop (e : exn) | Done.

(** _markov_chain.py:233-241: the state is replaced, statistics and sample saved. *)
Definition finish (ty : string) (acc : bool) (new : St) (c : chain) : chain * verdict :=
  let c1 := if acc then set_cur new c else c in
  match save_statistics ty acc new c1 with
  | inr e => (c1, Stop e)
  | inl c2 =>
      match c_flag c2 with
      | None => (c2, Stop EAttr)
      | Some flag =>
          if flag && Reqb (c_temp c2) 1 then
            let '(c3, oe) := save_state c2 in
            (c3, match oe with Some e => Stop e | None => Done end)
          else (c2, Done)
      end
  end.

(** _markov_chain.py:218-236: from the proposal to the decision. *)
Definition decide (ty : string) (new : St) (lpr llr : ext) (c : chain)
    : M (chain * verdict) :=
  u <- drawU ;;
  match py_log u with
  | Raise e => ret (c, Stop e)
  | Undef => ubeh
  | Ok lu =>
      let acc := egtb (eadd lpr llr) (Fin lu) in
      ret (finish ty acc new c)
  end.

(** _markov_chain.py:203-241: one pass. *)
Definition attempt (c : chain) : M (chain * verdict) :=
  oi <- try (choices (length (e_funcs E)) (e_weights E)) ;;
  match oi with
  | inr e => ret (c, Stop e)
  | inl i =>
      match nth_error (e_funcs E) i with
      | None => ret (c, Stop EIndex)
      | Some (ty, f) =>
          r <- try (f (c_cur c)) ;;
          match r with
          | inr EUser => ret (count_exc EUser c, Retry)
          | inr e => ret (c, Stop e)
          | inl (new, lpr) =>
              if eisinf lpr then decide ty new lpr (Fin 0) c
              else
                '(old', new', l) <- e_like E (c_cur c) new (c_temp c) ;;
                let c1 := set_cur old' c in
                match l with
                | inr EUser => ret (count_exc EUser c1, Retry)
                | inr EForward => ret (count_exc EForward c1, Retry)
                | inr e => ret (c1, Stop e)
                | inl llr => decide ty new' lpr llr c1
                end
          end
      end
  end.

(** _markov_chain.py:201-244 [_next_iteration] with the number of passes as argument. *)
Fixpoint tries (k : nat) (c : chain) : M (chain * option exn) :=
  match k with
  | O => ret (c, Some ERuntime)
  | S k' =>
      '(c', v) <- attempt c ;;
      match v with
      | Retry => tries k' c'
      | Stop e => ret (c', Some e)
      | Done => ret (c', None)
      end
  end.
Definition next_iteration (c : chain) : M (chain * option exn) := tries 500 c.

(** _markov_chain.py:156-194 [print_statistics]: only whether a division by zero is
    raised; formatting is not modelled. *)
Definition stat_zero (s : stat) : bool :=
  match s with
  | Cnt n => (n =? 0)%nat
  | Sub d => existsb (fun kv => Reqb (snd kv) 0) d
  end.
Definition print_statistics (c : chain) : res unit :=
  if (c_nprop_tot c =? 0)%nat then Raise EZeroDiv
  else if existsb (fun kv => stat_zero (snd kv)) (c_nprop c) then Raise EZeroDiv
  else Ok tt.

(** begin_iteration / end_iteration; None is the default value, which is not callable. *)
Definition hook := chain -> M (chain * option exn).
Definition call_hook (h : option hook) : hook := fun c =>
  match h with
  | None => ret (c, Some EType)
  | Some f => f c
  end.

(** Settings of advance_chain; counts are natural numbers. *)
Record sched := {
  sc_burnin : nat;
  sc_every : nat;
  sc_verbose : bool;
  sc_print_every : nat
}.

(** _markov_chain.py:282-286: the flag for iteration [i]. *)
Definition save_flag (sc : sched) (i : nat) : res bool :=
  if (i <=? sc_burnin sc)%nat then Ok false
  else if (sc_every sc =? 0)%nat then Raise EZeroDiv
  else Ok (((i - sc_burnin sc) mod sc_every sc) =? 0)%nat.

(** _markov_chain.py:281-292: one round of the loop of [advance_chain]. *)
Definition advance_one (sc : sched) (b e : option hook) (c : chain)
    : M (chain * option exn) :=
  let i := S (c_nprop_tot c) in
  match save_flag sc i with
  | Raise x => ret (c, Some x)
  | Undef => ubeh
  | Ok flag =>
      '(c1, o1) <- call_hook b (set_flag flag c) ;;
      match o1 with
      | Some x => ret (c1, Some x)
      | None =>
          '(c2, o2) <- next_iteration c1 ;;
          match o2 with
          | Some x => ret (c2, Some x)
          | None =>
              '(c3, o3) <- call_hook e c2 ;;
              match o3 with
              | Some x => ret (c3, Some x)
              | None =>
                  if sc_verbose sc then
                    if (sc_print_every sc =? 0)%nat then ret (c3, Some EZeroDiv)
                    else if (i mod sc_print_every sc =? 0)%nat then
                      match print_statistics c3 with
                      | Ok _ => ret (c3, None)
                      | Raise x => ret (c3, Some x)
                      | Undef => ubeh
                      end
                    else ret (c3, None)
                  else ret (c3, None)
              end
          end
      end
  end.

(** _markov_chain.py:246-294 [advance_chain]. *)
Fixpoint advance (n : nat) (sc : sched) (b e : option hook) (c : chain)
    : M (chain * option exn) :=
  match n with
  | O => ret (c, None)
  | S n' =>
      '(c', o) <- advance_one sc b e c ;;
      match o with
      | Some x => ret (c', Some x)
      | None => advance n' sc b e c'
      end
  end.

End Chain.

Arguments mkChain {St V}.
Arguments c_cur {St V}.  Arguments c_temp {St V}.  Arguments c_nprop {St V}.
Arguments c_nacc {St V}. Arguments c_nprop_tot {St V}. Arguments c_nacc_tot {St V}.
Arguments c_exc {St V}. Arguments c_saved {St V}. Arguments c_flag {St V}.
Arguments c_log {St V}.
Arguments SDict {St V}. Arguments SList {St V}.
Arguments e_ops {St V}. Arguments e_funcs {St V}. Arguments e_weights {St V}.
Arguments e_like {St V}. Arguments e_savedpred {St V}. Arguments e_transd {St V}.
Arguments s_kind {St V}. Arguments s_items {St V}. Arguments s_cache {St V}.
Arguments s_pstats {St V}. Arguments s_settemp {St V}.
Arguments set_cur {St V}. Arguments set_saved {St V}. Arguments set_flag {St V}.
Arguments set_exc {St V}. Arguments set_stats {St V}. Arguments add_log {St V}.
Arguments set_temperature {St V}. Arguments init_saved {St V}. Arguments new_chain {St V}.
Arguments count_exc {St V}. Arguments append_saved {V}. Arguments skip_key {St V}.
Arguments save_items {St V}. Arguments save_preds {V}. Arguments save_state {St V}.
Arguments put_stats {St V}. Arguments save_statistics {St V}. Arguments finish {St V}. Arguments decide {St V}.
Arguments attempt {St V}. Arguments tries {St V}. Arguments next_iteration {St V}.
Arguments print_statistics {St V}. Arguments call_hook {St V}.
Arguments advance_one {St V}. Arguments advance {St V}.
