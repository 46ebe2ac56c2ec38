(** Probability vocabulary for detailed balance; independent of the model. *)
From Verif Require Import Base.
Local Open Scope R_scope.

(** Sum over a finite list of states. *)
Definition sum_over {S} (l : list S) (f : S -> R) : R := rsum (map f l).

(** A family of moves on [S]: proposal probability (or density) [mv_q x y], reported log
    ratio [mv_ratio x y] (prior and proposal), weight. *)
Record move (S : Type) := { mv_weight : R; mv_q : S -> S -> R; mv_ratio : S -> S -> ext }.
Arguments mv_weight {S}. Arguments mv_q {S}. Arguments mv_ratio {S}.

(** The move reports the log of prior(y) q(y,x) / (prior(x) q(x,y)) for every y it can
    propose: minus infinity when the way back is impossible. *)
Definition reports_ratio {S} (prior : S -> R) (m : move S) : Prop :=
  forall x y, 0 < prior x * mv_q m x y ->
    (0 < prior y * mv_q m y x ->
       mv_ratio m x y = Fin (ln (prior y * mv_q m y x / (prior x * mv_q m x y)))) /\
    (prior y * mv_q m y x = 0 -> mv_ratio m x y = MInf).

(** The tempered posterior, up to a constant. *)
Definition posterior {S} (prior loglike : S -> R) (T : R) (x : S) : R :=
  prior x * exp (loglike x / T).

(** Probability of going from [x] to another state [y] when the moves are chosen with their
    weights and accepted with probability [acc]. *)
Definition jump {S} (ms : list (move S)) (acc : move S -> S -> S -> R) (x y : S) : R :=
  sum_over ms (fun m => mv_weight m / sum_over ms mv_weight * (mv_q m x y * acc m x y)).

(** The transition matrix on the finite list [states]. *)
Definition kernel {S} (eqb : S -> S -> bool) (states : list S) (j : S -> S -> R) (x y : S) : R :=
  if eqb x y then 1 - sum_over states (fun z => if eqb x z then 0 else j x z) else j x y.
