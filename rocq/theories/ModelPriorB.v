(** Model of UniformPrior.delta, /repo/src/bayesbay/prior/_prior.py. *)
From Verif Require Import Base ModelUtils1D ModelPrior.
Local Open Scope R_scope.

(** np.array(a) - np.array(b), with NumPy's broadcasting; the difference of two numbers is a
    number (np.isscalar). *)
Definition raw_sub (a b : raw) : res raw :=
  match a, b with
  | RawS x, RawS y => Ok (RawS (x - y))
  | RawS x, RawA m => Ok (RawA (map (fun y => x - y) m))
  | RawA l, RawS y => Ok (RawA (map (fun x => x - y) l))
  | RawA l, RawA m =>
      if (length l =? length m)%nat then Ok (RawA (map (fun xy => fst xy - snd xy) (combine l m)))
      else match l, m with
           | [x], _ => Ok (RawA (map (fun y => x - y) m))
           | _, [y] => Ok (RawA (map (fun x => x - y) l))
           | _, _ => Raise EValue
           end
  end.
(** _prior.py:326-349 [UniformPrior.__init__]: the difference is evaluated before
    add_hyper_params is called, and set after the others.  The prior and its attribute delta. *)
Definition uniform_init interp name (vmin vmax perturb_std : raw) (stdb : option raw) (p : raw_pos)
    : res (prior * hyper) :=
  d <-? raw_sub vmax vmin ;;
  pr <-? mk_uniform interp name vmin vmax perturb_std stdb p ;;
  h <-? add_hyper interp p d ;;
  Ok (pr, h).
(** 351-366 [get_delta] *)
Definition get_delta (ph : prior * hyper) (at_ : option pos) : res R := get_hyper (snd ph) at_.
(** 368-387 [get_vmin_vmax] *)
Definition get_vmin_vmax (pr : prior) (at_ : option pos) : res (R * R) :=
  match p_dist pr with
  | Uniform a b => lo <-? get_hyper a at_ ;; hi <-? get_hyper b at_ ;; Ok (lo, hi)
  | _ => Raise EAttr
  end.
