(** Model of /repo/src/bayesbay/prior/_prior.py: hyper-parameters and the four priors.

    Positions in the discretization domain are numbers ([P1]) or vectors ([PN]).  NumPy
    arrays of size one (a site drawn by Voronoi1D is one) behave here like numbers, and
    are written as numbers. *)
From Verif Require Import Base ModelUtils1D.
Local Open Scope R_scope.

Inductive pos := P1 (x : R) | PN (v : list R).

(** A hyper-parameter after [_init_hyper_param] (288-298): a scalar, the partial
    application of interpolate_linear_1d to nodes and values, or an N-D interpolator
    (LinearNDInterpolator of SciPy, not modelled: a partial function, undefined where it
    returns NaN). *)
Inductive hyper :=
| HS (r : R)
| HI (x y : list R)
| HN (f : list R -> option R).

(** What the user passes: a scalar or an array; [position]: None, 1-D or 2-D array. *)
Inductive raw := RawS (r : R) | RawA (l : list R).
Inductive raw_pos := NoPos | Pos1 (x : list R) | PosN (l : list (list R)).
Definition raw_pos_len (p : raw_pos) : nat :=
  match p with NoPos => 0 | Pos1 x => length x | PosN l => length l end.

(** _prior.py:288-298 [_init_hyper_param]; [interp] is the constructor of SciPy's
    interpolator. *)
Definition init_hyper (interp : list (list R) -> list R -> list R -> option R)
    (p : raw_pos) (h : raw) : hyper :=
  match h with
  | RawS r => HS r
  | RawA l =>
      match p with
      | Pos1 x => HI x l
      | PosN ps => HN (interp ps l)
      | NoPos => HN (interp [] l)
      end
  end.
(** _prior.py:223-244 [add_hyper_params], one entry. *)
Definition add_hyper interp (p : raw_pos) (h : raw) : res hyper :=
  match p, h with
  | NoPos, RawA _ => Raise EAssert
  | NoPos, RawS _ => Ok (init_hyper interp p h)
  | _, RawS _ => Ok (init_hyper interp p h)
  | _, RawA l =>
      if (length l =? raw_pos_len p)%nat then Ok (init_hyper interp p h) else Raise EAssert
  end.

(** _prior.py:257-286 [get_hyper_param] with 1003-1009 [_interpolate_linear_nd].  A vector
    given to a 1-D interpolation, or a number to an N-D one, is outside the model. *)
Definition get_hyper (h : hyper) (p : option pos) : res R :=
  match h with
  | HS r => Ok r
  | HI x y =>
      match p with
      | None => Raise EValue
      | Some (P1 xp) => interp_linear xp x y
      | Some (PN _) => Undef
      end
  | HN f =>
      match p with
      | None => Raise EValue
      | Some (PN v) => match f v with Some r => Ok r | None => Raise EDomain end
      | Some (P1 _) => Undef
      end
  end.
(** The same with an array of positions, as used by GaussianPrior.initialize and
    LaplacePrior.initialize: 1-D interpolation works elementwise; the test for NaN of
    [_interpolate_linear_nd] on an array that has not exactly one entry raises
    ValueError. *)
Definition get_hyper_all (h : hyper) (ps : list pos) : res (list R) :=
  match h with
  | HS r => Ok (repeat r (length ps))
  | HI _ _ => rmap (fun p => get_hyper h (Some p)) ps
  | HN _ =>
      match ps with
      | [p] => rmap (fun p => get_hyper h (Some p)) [p]
      | _ => Raise EValue
      end
  end.

(** The distribution of a prior.  CustomPrior: [samp] is the user's sampling function,
    [logp2]/[logp1] their log density called with two and with one argument. *)
Inductive dist :=
| Uniform (vmin vmax : hyper)
| Gauss (mean std : hyper)
| Laplace (mean scale : hyper)
| Custom (samp : option pos -> M R) (logp2 : R -> option pos -> res ext) (logp1 : R -> res ext).

(** A Prior object: [p_pos] tells whether attribute position is not None;
    perturb_std_birth is always set by the constructors (343-349, 526-531, 724-729,
    912-915), to perturb_std when not given. *)
Record prior := mkPrior {
  p_name : string;
  p_pos : bool;
  p_dist : dist;
  p_std : hyper;
  p_stdb : hyper
}.

(** _prior.py:343-349, 526-531, 724-729, 912-915: the default of perturb_std_birth. *)
Definition birth_default (perturb_std : raw) (perturb_std_birth : option raw) : raw :=
  match perturb_std_birth with Some h => h | None => perturb_std end.
(** _prior.py:326-349 [UniformPrior.__init__]; attribute delta is not modelled.
    [Prior.__init__] (31-38) records whether a position is given. *)
Definition mk_uniform interp name (vmin vmax perturb_std : raw) (stdb : option raw)
    (p : raw_pos) : res prior :=
  a <-? add_hyper interp p vmin ;;
  b <-? add_hyper interp p vmax ;;
  s <-? add_hyper interp p perturb_std ;;
  sb <-? add_hyper interp p (birth_default perturb_std stdb) ;;
  Ok (mkPrior name (match p with NoPos => false | _ => true end) (Uniform a b) s sb).
(** _prior.py:509-531 [GaussianPrior.__init__]. *)
Definition mk_gaussian interp name (mean std perturb_std : raw) (stdb : option raw)
    (p : raw_pos) : res prior :=
  a <-? add_hyper interp p mean ;;
  b <-? add_hyper interp p std ;;
  s <-? add_hyper interp p perturb_std ;;
  sb <-? add_hyper interp p (birth_default perturb_std stdb) ;;
  Ok (mkPrior name (match p with NoPos => false | _ => true end) (Gauss a b) s sb).
(** _prior.py:708-729 [LaplacePrior.__init__]. *)
Definition mk_laplace interp name (mean scale perturb_std : raw) (stdb : option raw)
    (p : raw_pos) : res prior :=
  a <-? add_hyper interp p mean ;;
  b <-? add_hyper interp p scale ;;
  s <-? add_hyper interp p perturb_std ;;
  sb <-? add_hyper interp p (birth_default perturb_std stdb) ;;
  Ok (mkPrior name (match p with NoPos => false | _ => true end) (Laplace a b) s sb).
(** _prior.py:896-917 [CustomPrior.__init__]. *)
Definition mk_custom interp name samp logp2 logp1 (perturb_std : raw) (stdb : option raw)
    (p : raw_pos) : res prior :=
  s <-? add_hyper interp p perturb_std ;;
  sb <-? add_hyper interp p (birth_default perturb_std stdb) ;;
  Ok (mkPrior name (match p with NoPos => false | _ => true end) (Custom samp logp2 logp1) s sb).

(** _prior.py:391-393, 571-574, 769-772, 919-920 [sample]. *)
Definition p_sample (p : prior) (at_ : option pos) : M R :=
  match p_dist p with
  | Uniform a b =>
      lo <- lift (get_hyper a at_) ;; hi <- lift (get_hyper b at_) ;; uniform lo hi
  | Gauss m s =>
      mu <- lift (get_hyper m at_) ;; sd <- lift (get_hyper s at_) ;; normal mu sd
  | Laplace m b =>
      mu <- lift (get_hyper m at_) ;; sc <- lift (get_hyper b at_) ;; laplace mu sc
  | Custom f _ _ => f at_
  end.

(** _prior.py:395-397, 576-596, 774-794, 922-926 [initialize].  UniformPrior unpacks the
    transposed array of bounds, which fails without positions; a negative scale makes
    NumPy raise ValueError.  CustomPrior.initialize in more than one spatial dimension
    returns an array of rows (np.empty_like of the sites); this shape is not modelled, only
    the drawn values. *)
Definition neg_any (l : list R) : bool := existsb (fun s => Rltb s 0) l.
Definition p_initialize (p : prior) (ps : list pos) : M (list R) :=
  match p_dist p with
  | Uniform a b =>
      bs <- lift (rmap (fun x => lo <-? get_hyper a (Some x) ;; hi <-? get_hyper b (Some x) ;;
                                 Ok (lo, hi)) ps) ;;
      match bs with
      | [] => err EValue
      | _ => mapM (fun lh => uniform (fst lh) (snd lh)) bs
      end
  | Gauss m s =>
      mus <- lift (get_hyper_all m ps) ;; sds <- lift (get_hyper_all s ps) ;;
      if neg_any sds then err EValue else
      mapM (fun ms => normal (fst ms) (snd ms)) (combine mus sds)
  | Laplace m b =>
      mus <- lift (get_hyper_all m ps) ;; scs <- lift (get_hyper_all b ps) ;;
      if neg_any scs then err EValue else
      mapM (fun ms => laplace (fst ms) (snd ms)) (combine mus scs)
  | Custom f _ _ => mapM (fun x => f (Some x)) ps
  end.

(** Division of floats; by zero: ZeroDivisionError. *)
Definition py_div (a b : R) : res R := if Reqb b 0 then Raise EZeroDiv else Ok (a / b).

(** _prior.py:452-480, 651-679, 849-875, 977-1000 [log_prior]. *)
Definition p_log_prior (p : prior) (v : R) (at_ : option pos) : res ext :=
  match p_dist p with
  | Uniform a b =>
      lo <-? get_hyper a at_ ;; hi <-? get_hyper b at_ ;;
      if Rleb lo v && Rleb v hi then l <-? py_log (hi - lo) ;; Ok (Fin (- l)) else Ok MInf
  | Gauss m s =>
      mu <-? get_hyper m at_ ;; sd <-? get_hyper s at_ ;;
      q <-? py_div (v - mu) sd ;;
      Ok (esub (esub (Fin (- (1/2) * ln (2 * PI))) (np_log sd)) (Fin (1/2 * q ^ 2)))
  | Laplace m b =>
      mu <-? get_hyper m at_ ;; sc <-? get_hyper b at_ ;;
      l2 <-? py_log 2 ;; l <-? py_log sc ;; q <-? py_div (Rabs (v - mu)) sc ;;
      Ok (Fin (- l2 - l - q))
  | Custom _ f2 f1 =>
      match f2 v at_ with Ok x => Ok x | Raise _ => f1 v | Undef => Undef end
  end.

(** _prior.py:198-221 [get_perturb_std_birth], 173-196 [get_perturb_std]. *)
Definition perturb_std_of (p : prior) (birth : bool) (at_ : option pos) : res R :=
  get_hyper (if birth then p_stdb p else p_std p) at_.

(** _prior.py:399-450, 598-649, 796-847, 928-975 [perturb_value]. *)
Definition p_perturb (p : prior) (v : R) (at_ : option pos) (birth : bool) : M (R * ext) :=
  match p_dist p with
  | Uniform a b =>
      sd <- lift (perturb_std_of p birth at_) ;;
      lo <- lift (get_hyper a at_) ;; hi <- lift (get_hyper b at_) ;;
      d <- normal 0 sd ;;
      let nv := v + d in
      ret (nv, if Rleb lo nv && Rleb nv hi then Fin 0 else MInf)
  | Gauss m s =>
      sd <- lift (perturb_std_of p birth at_) ;;
      d <- normal 0 sd ;;
      let nv := v + d in
      mu <- lift (get_hyper m at_) ;; std <- lift (get_hyper s at_) ;;
      q <- lift (py_div ((v - nv) * (v + nv - 2 * mu)) (2 * std ^ 2)) ;;
      ret (nv, Fin q)
  | Laplace m b =>
      sd <- lift (perturb_std_of p birth at_) ;;
      d <- normal 0 sd ;;
      let nv := v + d in
      mu <- lift (get_hyper m at_) ;; sc <- lift (get_hyper b at_) ;;
      q <- lift (py_div (Rabs (v - mu) - Rabs (nv - mu)) sc) ;;
      ret (nv, Fin q)
  | Custom _ _ _ =>
      (* 970-972: perturb_std is bound in the branch is_birth only *)
      if birth then
        sd <- lift (perturb_std_of p true at_) ;;
        d <- normal 0 sd ;;
        let nv := v + d in
        ln_ <- lift (p_log_prior p nv at_) ;; lo <- lift (p_log_prior p v at_) ;;
        ret (nv, esub ln_ lo)
      else err EUnbound
  end.
