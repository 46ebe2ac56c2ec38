(** What it means that the chains of an inversion in memory are those of the model with values, and
    that code changes no other object than some States.  Independent of the code in
    ModelHeapSampler.v, of which only the functions that a user calls are mentioned. *)
From Verif Require Import Base ModelState ModelSpace ModelChain ModelSampler ModelLikelihood ModelHeap ModelHeapSampler
  SpecHeap SpecRefine SpecRefineChain.
Local Open Scope Z_scope.

(** The chains stand for the chains of values one by one, and no two have the same State object as
    their current state (they may share everything below it). *)
Definition chains_stand (h : heap) (cs : list (chain loc hout)) (cs' : list (chain state ovalue)) : Prop :=
  Forall2 (chain_stands h) cs cs' /\ NoDup (map c_cur cs).

(** Of the objects in [h], only States at addresses in [S] have changed, in nothing but temperature,
    cache and extra_storage (and caches of parameter-space states). *)
Definition only (S : loc -> Prop) (h h' : heap) : Prop :=
  forall a o, nth_error h a = Some o -> exists o', nth_error h' a = Some o' /\
    match o with
    | HState d at_ _ _ _ => (exists t c x, o' = HState d at_ t c x) /\ (~ S a -> o' = o)
    | _ => same_data o o'
    end.
(** The State objects that are current in some chain. *)
Definition current (cs : list (chain loc hout)) (a : loc) : Prop := In a (map c_cur cs).

(** One call of the method run with one of the three samplers: from the memory and the chains of the
    inversion before it to those after it, whether or not it ends with an exception. *)
Inductive mem_run (E : henv) (h : heap) (cs : list hchain) : heap -> list hchain -> Prop :=
| mem_vanilla jobs n sc tr cs' o tr' h' :
    h_inversion_run h_nothing_l (h_vanilla_run E (Some jobs) n sc) (1 <? jobs) cs h tr = (Ret (cs', o) tr', h') ->
    mem_run E h cs h' cs'
| mem_tempering frac tmax fuel jobs swap n sc tr cs' o tr' h' :
    h_inversion_run (h_pt_on_initialize frac tmax) (h_pt_loop E fuel (Some jobs) swap n sc) (1 <? jobs) cs h tr
      = (Ret (cs', o) tr', h') ->
    mem_run E h cs h' cs'
| mem_annealing T0 jobs n sc tr cs' o tr' h' :
    h_inversion_run (h_sa_on_initialize T0) (h_sa_run E T0 (Some jobs) n sc) (1 <? jobs) cs h tr = (Ret (cs', o) tr', h') ->
    mem_run E h cs h' cs'.
Inductive mem_runs (E : henv) (h : heap) (cs : list hchain) : heap -> list hchain -> Prop :=
| mem_none : mem_runs E h cs h cs
| mem_more h1 cs1 h2 cs2 : mem_runs E h cs h1 cs1 -> mem_run E h1 cs1 h2 cs2 -> mem_runs E h cs h2 cs2.
(** [c] is a chain, in the memory [h], of an inversion that was created in some memory, after any
    number of runs. *)
Definition mem_chain_of (spaces : list space) (ll : loglike) (E : henv) (h : heap) (c : hchain) : Prop :=
  exists h0 n tr cs0 tr' h1 cs, h_inversion_chains spaces ll n h0 tr = (Ret cs0 tr', h1) /\
    mem_runs E h1 cs0 h cs /\ In c cs.
