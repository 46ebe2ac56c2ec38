(** Model of /repo/src/bayesbay/likelihood/_target.py, likelihood/_log_likelihood.py,
    perturbations/_data_noise.py, of class MarkovChain in _markov_chain.py and of class
    BayesianInversion in _bayes_inversion.py.

    Data and predictions are one-dimensional arrays of finite numbers. *)
From Verif Require Import Base ModelUtils1D ModelPrior ModelState ModelSpace ModelPerturb ModelChain.
Local Open Scope R_scope.

(** * Array arithmetic (NumPy) *)
(** Element-wise operation with broadcasting of arrays of length one. *)
Definition vop (f : R -> R -> R) (a b : list R) : res (list R) :=
  if (length a =? length b)%nat then Ok (map (fun xy => f (fst xy) (snd xy)) (combine a b))
  else match a, b with
       | [x], _ => Ok (map (f x) b)
       | _, [y] => Ok (map (fun x => f x y) a)
       | _, _ => Raise EValue
       end.
(** a @ b *)
Definition dot (a b : list R) : res R :=
  if (length a =? length b)%nat
  then Ok (rsum (map (fun xy => fst xy * snd xy) (combine a b))) else Raise EValue.
Definition matvec (m : list (list R)) (v : list R) : res (list R) := rmap (fun row => dot row v) m.

(** * Target *)
(** covariance_mat_inv when given: a number, an array with one axis, one with two. *)
Inductive covinv := CScalar (c : R) | CVec (l : list R) | CMat (m : list (list R)).
Record target := mkTarget {
  t_name : string;
  t_dobs : list R;
  t_cov : option covinv;
  t_corr : bool;
  t_std_min : R; t_std_max : R; t_std_step : R;
  t_cor_min : R; t_cor_max : R; t_cor_step : R
}.
(** _target.py:41-79: the assertions of the constructor. *)
Definition target_init (t : target) : res target :=
  if negb (Rleb (t_std_min t) (t_std_max t)) then Raise EAssert
  else if negb (Rleb 0 (t_std_min t)) then Raise EAssert
  else if negb (Rleb (t_cor_min t) (t_cor_max t)) then Raise EAssert
  else if negb (Rleb 0 (t_cor_min t)) then Raise EAssert
  else if negb (Rleb (t_cor_max t) 1) then Raise EAssert
  else Ok t.
(** 110-113 *)
Definition is_hier (t : target) : bool := match t_cov t with None => true | Some _ => false end.
(** 115-134 [initialize] *)
Definition target_initialize (t : target) (s : state) : M state :=
  if is_hier t then
    std <- uniform (t_std_min t) (t_std_max t) ;;
    cor <- (if t_corr t then c <- uniform (t_cor_min t) (t_cor_max t) ;; ret (Some c) else ret None) ;;
    ret (st_set (t_name t) (ENoise (mkNoise std cor)) s)
  else ret s.
(** state[self.name] and its attributes std, correlation.  A missing entry is None, which
    has no such attributes; simplified in that a parameter-space state has none either. *)
Definition noise_of (t : target) (s : state) : res noise :=
  match st_get (t_name t) s with
  | Some (ENoise d) => Ok d
  | _ => Raise EAttr
  end.
(** 136-170 *)
Definition inv_cov_times (t : target) (s : state) (v : list R) : res (list R) :=
  match t_cov t with
  | Some (CScalar c) => Ok (map (Rmult c) v)
  | Some (CMat m) => matvec m v
  | Some (CVec w) => vop Rmult w v
  | None =>
      d <-? noise_of t s ;;
      match dn_corr d with
      | None => if Reqb (dn_std d) 0 then Raise EZeroDiv
                else Ok (map (Rmult (1 / dn_std d ^ 2)) v)
      | Some r => m <-? inverse_covariance (dn_std d) r (length (t_dobs t)) ;; matvec m v
      end
  end.
(** 172-208 *)
Definition log_det_cov (t : target) (s : state) : res R :=
  d <-? noise_of t s ;;
  let r := match dn_corr d with None => 0 | Some r => r end in
  let n := INR (length (t_dobs t)) in
  a <-? py_log (dn_std d) ;;
  b <-? py_log (1 - r ^ 2) ;;
  Ok (2 * n * a + (n - 1) * b).

(** * NoisePerturbation, _data_noise.py *)
(** 70-75: the loop for one number.  [until] tries again while draws are left. *)
Definition perturb_noise_value (vmin vmax step old : R) : M R :=
  until (normal old step) (fun x => negb (Rltb x vmin || Rltb vmax x)).
(** 58-77 [_perturb_target] *)
Definition perturb_target (t : target) (d : noise) : M noise :=
  std <- perturb_noise_value (t_std_min t) (t_std_max t) (t_std_step t) (dn_std d) ;;
  if t_corr t then
    match dn_corr d with
    (* None + number *)
    | None => (z <- drawZ ;; err EType)
    | Some r =>
        cor <- perturb_noise_value (t_cor_min t) (t_cor_max t) (t_cor_step t) r ;;
        ret (mkNoise std (Some cor))
    end
  else ret (mkNoise std None).
Fixpoint perturb_targets (ts : list target) (s : state) (new : dict entry) : M (dict entry) :=
  match ts with
  | [] => ret new
  | t :: ts' =>
      d <- lift (noise_of t s) ;;
      d' <- perturb_target t d ;;
      perturb_targets ts' s (dset (t_name t) (ENoise d') new)
  end.
(** 21-56 [perturb] *)
Definition noise_perturb (ts : list target) (s : state) : M (state * ext) :=
  new <- perturb_targets ts s [] ;;
  s' <- lift (st_copy true s) ;;
  ret (st_update_vals new s', Fin 0).
(** 79-86 *)
Definition noise_name (ts : list target) : string :=
  ("NoisePerturbation(" ++
   match map t_name ts with
   | [x] => x
   | l => "[" ++ join ", " (map (fun x => "'" ++ x ++ "'") l) ++ "]"
   end ++ ")")%string.

(** * LogLikelihood *)
(** A forward function as given by the user: a callable, or a tuple with arguments that
    becomes callable only by _preprocess_func.  It maps states to predictions, possibly using
    random numbers or raising; it is assumed not to change the state. *)
Record fwd := mkFwd { f_fun : state -> M (list R); f_tuple : bool }.
Definition call_fwd (f : fwd) (s : state) : M (list R) :=
  if f_tuple f then err EType else f_fun f s.
Definition preprocess_fwd (f : fwd) : fwd := mkFwd (f_fun f) false.

(** _log_likelihood.py:308-332, the body of the loop after the prediction is there. *)
Definition target_misfit (t : target) (s : state) (dpred : list R) : res (R * R) :=
  r <-? vop Rminus dpred (t_dobs t) ;;
  w <-? inv_cov_times t s r ;;
  m <-? dot r w ;;
  ld <-? (if is_hier t then log_det_cov t s else Ok 0) ;;
  Ok (m, ld).
Definition dpred_key (t : target) : string := (t_name t ++ ".dpred")%string.
(** 308-332 [_get_misfit_and_det].  The state comes back with the predictions cached. *)
Definition get_dpred (t : target) (f : fwd) (s : state) : M (state * (list R + exn)) :=
  match dget (dpred_key t) (st_cache s) with
  | Some (CPred d) => ret (s, inl d)
  | Some _ => ubeh
  | None =>
      r <- try (call_fwd f s) ;;
      match r with
      | inl d => ret (st_save_cache (dpred_key t) (CPred d) s, inl d)
      | inr _ => ret (s, inr EForward)
      end
  end.
Fixpoint misfit_loop (l : list (target * fwd)) (s : state) (mis det : R)
    : M (state * (R * R + exn)) :=
  match l with
  | [] => ret (s, inl (mis, det))
  | (t, f) :: l' =>
      '(s1, od) <- get_dpred t f s ;;
      match od with
      | inr e => ret (s1, inr e)
      | inl d =>
          match target_misfit t s1 d with
          | Ok (m, ld) => misfit_loop l' s1 (mis + m) (det + ld)
          | Raise e => ret (s1, inr e)
          | Undef => ubeh
          end
      end
  end.

(** The method bound to self._log_likelihood_ratio. *)
Inductive mode := MTargets | MRatio | MLike.
Record loglike := mkLL {
  ll_targets : list target;
  ll_fwds : list fwd;
  ll_ratio : option (state -> state -> M ext);
  ll_func : option (state -> M ext);
  ll_mode : mode;
  ll_hier : list target      (** targets of the NoisePerturbation, [] for none *)
}.
(** A user function wrapped by _preprocess_func (_utils.py:41-45). *)
Definition wrapped {A} (m : M A) : M (A + exn) :=
  r <- try m ;; ret match r with inl a => inl a | inr _ => inr EUser end.
(** 245-251 *)
Definition ratio_from_targets (ll : loglike) (old new : state)
    : M (state * state * (ext + exn)) :=
  let l := combine (ll_targets ll) (ll_fwds ll) in
  '(old', r1) <- misfit_loop l old 0 0 ;;
  match r1 with
  | inr e => ret (old', new, inr e)
  | inl (m1, d1) =>
      '(new', r2) <- misfit_loop l new 0 0 ;;
      match r2 with
      | inr e => ret (old', new', inr e)
      | inl (m2, d2) => ret (old', new', inl (Fin ((d1 - d2 + m1 - m2) / 2)))
      end
  end.
(** 253-263 *)
Definition ratio_from_like (f : state -> M ext) (old new : state) : M (ext + exn) :=
  a <- wrapped (f old) ;;
  match a with
  | inr e => ret (inr e)
  | inl x =>
      b <- wrapped (f new) ;;
      ret match b with inr e => inr e | inl y => inl (esub y x) end
  end.
Definition raw_ratio (ll : loglike) (old new : state) : M (state * state * (ext + exn)) :=
  match ll_mode ll with
  | MTargets => ratio_from_targets ll old new
  | MRatio =>
      match ll_ratio ll with
      | Some f => r <- wrapped (f old new) ;; ret (old, new, r)
      | None => ubeh
      end
  | MLike =>
      match ll_func ll with
      | Some f => r <- ratio_from_like f old new ;; ret (old, new, r)
      | None => ubeh
      end
  end.
(** 204-243 [log_likelihood_ratio].  Temperature zero is outside the model. *)
Definition log_likelihood_ratio (ll : loglike) (old new : state) (T : R)
    : M (state * state * (ext + exn)) :=
  if Reqb T 0 then ubeh else
  '(old', new', r) <- raw_ratio ll old new ;;
  ret (old', new', match r with inl x => inl (ediv x T) | inr e => inr e end).

(** Arguments of add_targets: an object that is no Target, no function. *)
Inductive targ := ATarget (t : target) | ANoTarget.
Inductive farg := AFwd (f : fwd) | ANoFwd.
Fixpoint only_targets (l : list targ) : option (list target) :=
  match l with
  | [] => Some []
  | ATarget t :: l' => option_map (cons t) (only_targets l')
  | ANoTarget :: _ => None
  end.
Fixpoint only_fwds (l : list farg) : option (list fwd) :=
  match l with
  | [] => Some []
  | AFwd f :: l' => option_map (cons f) (only_fwds l')
  | ANoFwd :: _ => None
  end.
Definition set_lists (ts : list target) (fs : list fwd) (ll : loglike) : loglike :=
  mkLL ts fs (ll_ratio ll) (ll_func ll) (ll_mode ll) (ll_hier ll).
Definition set_hier (h : list target) (ll : loglike) : loglike :=
  mkLL (ll_targets ll) (ll_fwds ll) (ll_ratio ll) (ll_func ll) (ll_mode ll) h.
(** 162-200 [add_targets] up to the notification of the observers.  Lists are extended in
    place, so what has been added stays when a later check raises. *)
Definition extend_targets (ts : option (list targ)) (fs : option (list farg)) (ll : loglike)
    : loglike * option exn :=
  match (match ts with None => Some [] | Some l => only_targets l end) with
  | None => (ll, Some EType)
  | Some nt =>
      let ll1 := set_lists (ll_targets ll ++ nt) (ll_fwds ll) ll in
      match (match fs with None => Some [] | Some l => only_fwds l end) with
      | None => (ll1, Some EType)
      | Some nf =>
          let ll2 := set_lists (ll_targets ll1) (ll_fwds ll1 ++ nf) ll1 in
          if dup_name (map t_name (ll_targets ll2)) then (ll2, Some EValue)
          else (set_hier (filter is_hier (ll_targets ll2)) ll2, None)
      end
  end.
(** 67-78, 271-291: the constructor. *)
Definition loglike_init (ts : option (list targ)) (fs : option (list farg))
    (ratio : option (state -> state -> M ext)) (func : option (state -> M ext)) : res loglike :=
  let '(ll, o) := extend_targets ts fs (mkLL [] [] ratio func MTargets []) in
  match o with
  | Some e => Raise e
  | None =>
      match ll_targets ll, ll_fwds ll with
      | _ :: _, _ :: _ =>
          if (length (ll_fwds ll) =? length (ll_targets ll))%nat
          then Ok (mkLL (ll_targets ll) (map preprocess_fwd (ll_fwds ll)) ratio func MTargets (ll_hier ll))
          else Raise EAssert
      | _, _ =>
          match ratio, func with
          | Some _, _ => Ok (mkLL (ll_targets ll) (ll_fwds ll) ratio func MRatio (ll_hier ll))
          | None, Some _ => Ok (mkLL (ll_targets ll) (ll_fwds ll) ratio func MLike (ll_hier ll))
          | None, None => Raise EValue
          end
      end
  end.
(** 136-147 [initialize] *)
Fixpoint targets_initialize (ts : list target) (s : state) : M state :=
  match ts with
  | [] => ret s
  | t :: ts' => s' <- target_initialize t s ;; targets_initialize ts' s'
  end.
Definition ll_initialize (ll : loglike) : state -> M state := targets_initialize (ll_targets ll).

(** * BayesianInversion *)
(** The perturbation functions that the high-level classes create. *)
Inductive pfunc := FSpace (q : psp) | FNoise (ts : list target).
Definition pfunc_name (f : pfunc) : string :=
  match f with FSpace q => psp_name q | FNoise ts => noise_name ts end.
Definition pfunc_perturb (f : pfunc) : state -> M (state * ext) :=
  match f with FSpace q => psp_perturb q | FNoise ts => noise_perturb ts end.
(** _log_likelihood.py:293-306 and _bayes_inversion.py:446-453, with the weights. *)
Definition ll_pfuncs (ll : loglike) : list (pfunc * R) :=
  match ll_hier ll with [] => [] | ts => [(FNoise ts, 1)] end.
Definition inv_pfuncs (spaces : list space) (ll : loglike) : list (pfunc * R) :=
  map (fun qw => (FSpace (fst qw), snd qw)) (all_funcs spaces) ++ ll_pfuncs ll.
(** The cache as it is saved: predictions are arrays. *)
Definition cache_value (c : centry) : ovalue :=
  match c with CPred d => OArr (Arr d) | CStats _ => OAny 0 | CAny n => OAny n end.
(** What the chain does with a State (_state.py; load_from_cache is self.cache[name]). *)
Definition state_opsB : state_ops state ovalue :=
  {| s_kind := fun _ => KState;
     s_items := st_items;
     s_cache := fun s => Some (map (fun kc => (fst kc, cache_value (snd kc))) (st_cache s));
     s_pstats := fun s => match dget "perturb_stats" (st_cache s) with
                          | Some (CStats l) => inl l
                          | Some _ => inr EAttr
                          | None => inr EKey
                          end;
     s_settemp := st_settemp |}.
(** parameterization.parameter_spaces[name].trans_d (_parameterization.py:36-40: the last of
    equal names; names are distinct). *)
Definition space_named (spaces : list space) (name : string) : option space :=
  find (fun s => String.eqb (sp_name s) name) spaces.
(** A MarkovChain (_markov_chain.py:313-380) with the functions it has been given. *)
Definition chain_env (spaces : list space) (ll : loglike) (funcs : list (pfunc * R)) (save : bool)
    : env state ovalue :=
  {| e_ops := state_opsB;
     e_funcs := map (fun fw => (pfunc_name (fst fw), pfunc_perturb (fst fw))) funcs;
     e_weights := map snd funcs;
     e_like := log_likelihood_ratio ll;
     e_savedpred := save;
     e_transd := Some (fun name => option_map sp_transd (space_named spaces name)) |}.
Definition inversion_env (spaces : list space) (ll : loglike) (save : bool) : env state ovalue :=
  chain_env spaces ll (inv_pfuncs spaces ll) save.
(** _markov_chain.py:367-371 [_init_starting_state] *)
Definition starting_state (spaces : list space) (ll : loglike) : M state :=
  s <- initialize_all spaces ;; ll_initialize ll s.
(** _bayes_inversion.py:395-427: the chains of a new BayesianInversion. *)
Definition inversion_chains (spaces : list space) (ll : loglike) (save : bool) (n : nat)
    : M (list (chain state ovalue)) :=
  repeatM n (s <- starting_state spaces ll ;; ret (new_chain (inversion_env spaces ll save) s)).

(** A BayesianInversion as an observer of its likelihood: parameterization, functions, and
    for each chain its functions and its current state (the rest of a chain is not touched
    by adding targets). *)
Record observer := mkObs {
  ob_spaces : list space;
  ob_funcs : list (pfunc * R);
  ob_chains : list (list (pfunc * R) * state)
}.
(** _markov_chain.py:93-95; [ts] is the argument given to add_targets: None is not
    iterable. *)
Definition chain_update (ts : option (list target)) (s : state) : M (state * option exn) :=
  match ts with
  | None => ret (s, Some EType)
  | Some l => s' <- targets_initialize l s ;; ret (s', None)
  end.
Fixpoint update_chains (funcs : list (pfunc * R)) (ts : option (list target))
    (cs : list (list (pfunc * R) * state)) : M (list (list (pfunc * R) * state) * option exn) :=
  match cs with
  | [] => ret ([], None)
  | (_, s) :: cs' =>
      '(s', o) <- chain_update ts s ;;
      match o with
      | Some e => ret ((funcs, s') :: cs', Some e)
      | None => '(cs'', o') <- update_chains funcs ts cs' ;; ret ((funcs, s') :: cs'', o')
      end
  end.
(** _bayes_inversion.py:455-474 [update_log_likelihood_targets] *)
Definition update_observer (ll : loglike) (ts : option (list target)) (ob : observer)
    : M (observer * option exn) :=
  let funcs := inv_pfuncs (ob_spaces ob) ll in
  '(cs, o) <- update_chains funcs ts (ob_chains ob) ;;
  ret (mkObs (ob_spaces ob) funcs cs, o).
Fixpoint update_observers (ll : loglike) (ts : option (list target)) (obs : list observer)
    : M (list observer * option exn) :=
  match obs with
  | [] => ret ([], None)
  | ob :: obs' =>
      '(ob', o) <- update_observer ll ts ob ;;
      match o with
      | Some e => ret (ob' :: obs', Some e)
      | None => '(obs'', o') <- update_observers ll ts obs' ;; ret (ob' :: obs'', o')
      end
  end.
(** _log_likelihood.py:162-202 [add_targets] with the inversions that observe it. *)
Definition add_targets (ts : option (list targ)) (fs : option (list farg)) (ll : loglike)
    (obs : list observer) : M (loglike * list observer * option exn) :=
  let '(ll', o) := extend_targets ts fs ll in
  match o with
  | Some e => ret (ll', obs, Some e)
  | None =>
      '(obs', o') <- update_observers ll' (match ts with None => None | Some l => only_targets l end) obs ;;
      ret (ll', obs', o')
  end.
