(** What custom initialization functions are meant to do. *)
From Verif Require Import Base ModelPrior ModelState ModelSpace ModelChain ModelLikelihood ModelCustom SpecSpace SpecRun.
Local Open Scope R_scope.

(** When a function returns one value per position, the values can occur under the prior at these positions. *)
Definition supported (own : inits) : Prop := forall p f, own p = Some f -> forall ps tr l tr', f ps tr = Ret l tr' -> length l = length ps ->
  forall i x v, nth_error ps i = Some x -> nth_error l i = Some v -> in_support p (Some x) v.
(** [c] is a chain of an inversion whose priors have the functions [own], after any number of runs. *)
Definition chain_of_with (own : inits) (spaces : list space) (ll : loglike) (save : bool) (c : chain state ovalue) : Prop :=
  exists n tr cs0 tr' cs, chains_with own spaces ll save n tr = Ret cs0 tr' /\
    many_runs (inversion_env spaces ll save) cs0 cs /\ In c cs.
