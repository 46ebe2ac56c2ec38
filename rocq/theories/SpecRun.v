(** Specification of what has to hold of every state of a run: the high-level interface with
    its parameter spaces and targets. *)
From Verif Require Import Base ModelPrior ModelState ModelSpace ModelChain ModelSampler ModelLikelihood
  SpecState SpecSpace SpecChain.
Local Open Scope R_scope.
Local Open Scope string_scope.

(** C06: noise within the limits of its target; a correlation exactly when configured. *)
Definition noise_ok (t : target) (d : noise) : Prop :=
  t_std_min t <= dn_std d <= t_std_max t /\
  (if t_corr t then exists r, dn_corr d = Some r /\ t_cor_min t <= r <= t_cor_max t
   else dn_corr d = None).
(** The noise is an unknown. *)
Definition unknown_noise (t : target) : Prop := t_cov t = None.

(** A state with one well-formed entry for each space and for each target of unknown noise
    and no other entries. *)
Record state_ok (spaces : list space) (ts : list target) (s : state) : Prop := {
  so_nodup : NoDup (dkeys (st_vals s));
  so_keys : forall k, In k (dkeys (st_vals s)) <->
    (exists sp, In sp spaces /\ k = sp_name sp) \/
    (exists t, In t ts /\ unknown_noise t /\ k = t_name t);
  so_spaces : forall sp, In sp spaces -> exists p, st_get (sp_name sp) s = Some (EPS p) /\ wf sp p;
  so_noise : forall t, In t ts -> unknown_noise t ->
    exists d, st_get (t_name t) s = Some (ENoise d) /\ noise_ok t d
}.

(** Sensible configurations: valid spaces and targets, no name used twice among them, and a
    nested name always denotes the same space. *)
Definition target_ok (t : target) : Prop :=
  t_std_min t <= t_std_max t /\ t_cor_min t <= t_cor_max t.
Record setup_ok (spaces : list space) (ts : list target) : Prop := {
  se_valid : forall s, In s spaces -> valid s;
  se_names : NoDup (map sp_name spaces ++ map t_name ts);
  se_nested : forall a b s s', In a spaces -> In b spaces -> sub_space a s -> sub_space b s' ->
    sp_name s = sp_name s' -> s = s';
  se_targets : forall t, In t ts -> target_ok t
}.

(** Nothing in the extra storage, which only user code fills. *)
Definition good (spaces : list space) (ts : list target) (s : state) : Prop :=
  state_ok spaces ts s /\ st_extra s = [].

(** [shows name p k o]: the saved entry [o] under the key [k] displays the number of
    dimensions or a parameter of the state [p] of the space called [name]. *)
Inductive shows : string -> psstate -> string -> ovalue -> Prop :=
| shows_n name p : shows name p (name ++ ".n_dimensions") (OInt (ps_n p))
| shows_arr name p k v : ps_get k p = Some v -> (forall l, v <> Lst l) ->
    shows name p (name ++ "." ++ k) (OArr v)
| shows_list name p k l ds : ps_get k p = Some (Lst l) ->
    Forall2 (fun q d => forall k' o, In (k', o) d -> shows (name ++ "." ++ k) q k' o) l ds ->
    shows name p (name ++ "." ++ k) (OList ds).
Inductive shows_noise : string -> noise -> string -> ovalue -> Prop :=
| shows_std name d : shows_noise name d (name ++ ".std") (ONum (dn_std d))
| shows_cor name d r : dn_corr d = Some r -> shows_noise name d (name ++ ".correlation") (ONum r).

(** * What a chain holds and saves *)
Section ChainOk.
Context {St V : Type}.
Variable E : env St V.
Variable P : St -> Prop.
(** A saved entry is one of the entries (or cached predictions) of a state with property
    [P]. *)
Definition saved_value (k : string) (v : V) : Prop :=
  exists s, P s /\ (In (k, v) (s_items (e_ops E) s) \/
                    contains "dpred" k = true /\
                    exists cs, s_cache (e_ops E) s = Some cs /\ In (k, v) cs).
Definition saved_ok (sv : saved St V) : Prop :=
  match sv with
  | SDict d => forall k v, In v (SpecChain.stored k d) -> saved_value k v
  | SList l => Forall P l
  end.
Definition chain_ok (c : chain St V) : Prop := P (c_cur c) /\ saved_ok (c_saved c).
End ChainOk.

(** A saved entry shows a well-formed state of one of the spaces, noise within the limits of
    its target, or predictions. *)
Definition saved_shows (spaces : list space) (ts : list target) (k : string) (v : ovalue) : Prop :=
  (exists sp p, In sp spaces /\ wf sp p /\ shows (sp_name sp) p k v) \/
  (exists t d, In t ts /\ unknown_noise t /\ noise_ok t d /\ shows_noise (t_name t) d k v) \/
  (contains "dpred" k = true /\ ((exists d, v = OArr (Arr d)) \/ exists n, v = OAny n)).

(** * Histories of an inversion *)
(** Callbacks of the user that only look: they leave current and saved states alone. *)
Definition observes {St V} (h : hook St V) : Prop :=
  forall c tr c' o tr', h c tr = Ret (c', o) tr' -> c_cur c' = c_cur c /\ c_saved c' = c_saved c.
Definition observes_all {St V} (h : lhook St V) : Prop :=
  forall cs tr cs' o tr', h cs tr = Ret (cs', o) tr' ->
    Forall2 (fun c c' => c_cur c' = c_cur c /\ c_saved c' = c_saved c) cs cs'.
Record callbacks_ok {St V} (xi : list (lhook St V)) (xb xe : list (hook St V)) : Prop := {
  cb_init : Forall observes_all xi;
  cb_begin : Forall observes xb;
  cb_end : Forall observes xe
}.
(** One call of the method run with one of the three samplers, whatever its arguments and
    whether or not it ends with an exception; [C] says which callbacks are allowed. *)
Inductive one_run_with {St V} (C : list (lhook St V) -> list (hook St V) -> list (hook St V) -> Prop)
    (E : env St V) : list (chain St V) -> list (chain St V) -> Prop :=
| run_vanilla xi xb xe xa n_jobs n sc par cs tr cs' o tr' :
    C xi xb xe ->
    inversion_run (vanilla xi xb xe xa) (vanilla_run E (vanilla xi xb xe xa) n_jobs n sc) par cs tr
      = Ret (cs', o) tr' -> one_run_with C E cs cs'
| run_tempering xi xb xe xa frac tmax n_jobs swap n sc fuel par cs tr cs' o tr' :
    C xi xb xe ->
    inversion_run (parallel_tempering E frac tmax xi xb xe xa)
      (pt_loop E fuel (parallel_tempering E frac tmax xi xb xe xa) n_jobs swap n sc) par cs tr
      = Ret (cs', o) tr' -> one_run_with C E cs cs'
| run_annealing xi xb xe xa T0 rate n_jobs n sc par cs tr cs' o tr' :
    C xi xb xe ->
    inversion_run (simulated_annealing E T0 (sc_burnin sc) rate xi xb xe xa)
      (sa_run E T0 xi xb xe xa n_jobs n sc) par cs tr
      = Ret (cs', o) tr' -> one_run_with C E cs cs'.
Inductive many_runs_with {St V} (C : list (lhook St V) -> list (hook St V) -> list (hook St V) -> Prop)
    (E : env St V) (cs : list (chain St V)) : list (chain St V) -> Prop :=
| runs_none : many_runs_with C E cs cs
| runs_more cs1 cs2 : many_runs_with C E cs cs1 -> one_run_with C E cs1 cs2 -> many_runs_with C E cs cs2.
Notation one_run := (one_run_with callbacks_ok).
Notation many_runs := (many_runs_with callbacks_ok).

(** [c] is a chain of an inversion over [spaces] with likelihood [ll] after any number of
    runs. *)
Definition chain_of (spaces : list space) (ll : loglike) (save : bool) (c : chain state ovalue) : Prop :=
  exists n tr cs0 tr' cs, inversion_chains spaces ll save n tr = Ret cs0 tr' /\
    many_runs (inversion_env spaces ll save) cs0 cs /\ In c cs.

(** Saved under the key [k]. *)
Definition saved_under (c : chain state ovalue) (k : string) (v : ovalue) : Prop :=
  match c_saved c with
  | SDict d => In v (SpecChain.stored k d)
  | SList _ => False
  end.
(** [Q] holds of all parts of the current state, and every saved entry shows a state of which
    the same is true (or noise, or predictions). *)
Definition everywhere (spaces : list space) (ts : list target) (Q : space -> psstate -> Prop)
    (c : chain state ovalue) : Prop :=
  (forall sp, In sp spaces -> exists p, st_get (sp_name sp) (c_cur c) = Some (EPS p) /\
     forall s' p', part sp p s' p' -> Q s' p') /\
  (forall k v, saved_under c k v ->
     (exists sp p, In sp spaces /\ shows (sp_name sp) p k v /\ forall s' p', part sp p s' p' -> Q s' p') \/
     (exists t d, In t ts /\ unknown_noise t /\ shows_noise (t_name t) d k v) \/
     (contains "dpred" k = true /\ ((exists d, v = OArr (Arr d)) \/ exists n, v = OAny n))).
