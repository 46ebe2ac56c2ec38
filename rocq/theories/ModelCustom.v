(** Model of custom initialization: /repo/src/bayesbay/prior/_prior.py:140-171 and its use by the parameter spaces and
    the inversion. *)
From Verif Require Import Base ModelUtils1D ModelPrior ModelState ModelSpace ModelPerturb ModelChain ModelSampler ModelLikelihood.
Local Open Scope R_scope.

(** What the priors have as attribute "initialize": [Some f] after set_custom_initialize, where [f] stands for the
    user's function with the prior as its first argument (170-171 [_initializer]); it may draw numbers and raise.
    Simplifications: the function returns a one-dimensional array of numbers; priors are told apart by their attributes
    (name, distribution, ...), not by identity. *)
Definition inits := prior -> option (list pos -> M (list R)).
(** _prior.py:140-168 on one prior: [f] is None when the argument is not callable. *)
Definition set_custom_initialize (f : option (list pos -> M (list R))) : res (option (list pos -> M (list R))) :=
  match f with
  | None => Raise EValue
  | Some g => Ok (Some g)
  end.
(** param.initialize(positions): the instance attribute hides the method. *)
Definition p_initialize_with (own : inits) (p : prior) (ps : list pos) : M (list R) :=
  match own p with
  | Some f => f ps
  | None => p_initialize p ps
  end.
(** _parameter_space.py:118-160 and _voronoi.py:143-178, 1373-1377, as ModelSpace.initialize. *)
Fixpoint initialize_with (own : inits) (s : space) : M psstate :=
  match s with
  | Space name fixed nmin nmax range cls params =>
      n <- init_n (Space name fixed nmin nmax range cls params) ;;
      match cls with
      | Plain =>
          vals <- (fix go (l : list (string * param)) : M (dict value) :=
                     match l with
                     | [] => ret []
                     | (k, PPrior p) :: t =>
                         g <- repeatM n drawVal ;;
                         a <- p_initialize_with own p (map P1 g) ;;
                         r <- go t ;; ret ((k, Arr a) :: r)
                     | (k, PSpace s') :: t =>
                         a <- repeatM n (initialize_with own s') ;;
                         r <- go t ;; ret ((k, Lst a) :: r)
                     end) params ;;
          lift (mk_ps n vals)
      | _ =>
          sites <- repeatM n (sample_site cls) ;;
          let sv := sites_value cls sites in
          positions <- lift (positions_of (Some sv)) ;;
          vals <- (fix go (l : list (string * param)) (acc : dict value) : M (dict value) :=
                     match l with
                     | [] => ret acc
                     | (k, PPrior p) :: t =>
                         a <- p_initialize_with own p positions ;; go t (dset k (Arr a) acc)
                     | (k, PSpace s') :: t =>
                         a <- repeatM (length positions) (initialize_with own s') ;;
                         go t (dset k (Lst a) acc)
                     end) params [(disc_key, sv)] ;;
          p <- lift (mk_ps n vals) ;;
          lift (add_kdtree cls p)
      end
  end.
(** _parameterization.py:55-66, _markov_chain.py:367-371 and _bayes_inversion.py:395-427, as in ModelPerturb and
    ModelLikelihood. *)
Definition initialize_all_with (own : inits) (spaces : list space) : M state :=
  vals <- mapM (fun s => p <- initialize_with own s ;; ret (sp_name s, EPS p)) spaces ;;
  ret (mk_state vals 1 []).
Definition starting_with (own : inits) (spaces : list space) (ll : loglike) : M state :=
  s <- initialize_all_with own spaces ;; ll_initialize ll s.
Definition chains_with (own : inits) (spaces : list space) (ll : loglike) (save : bool) (n : nat)
    : M (list (chain state ovalue)) :=
  repeatM n (s <- starting_with own spaces ll ;; ret (new_chain (inversion_env spaces ll save) s)).
