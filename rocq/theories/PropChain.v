(** Properties of Markov chains: choice of perturbation, acceptance, failures, saving
    schedule, statistics, temperature. *)
From Verif Require Import Base ModelChain SpecChain ProofUtils1D ProofChain ProofChainB ProofChainC.
Local Open Scope R_scope.

(** * A toy chain used for the examples
    States are numbers; the only perturbation adds one, with log ratio [lpr]; the forward
    function of the likelihood predicts ten times the state. *)
Definition toy (k : kind) (dp : bool) (lpr llr : ext) : env nat nat :=
  {| e_ops := {| s_kind := fun _ => k; s_items := fun s => [("m"%string, s)];
                 s_cache := fun s => match k with
                            | KState => Some [("t.dpred"%string, 10 * s)%nat] | _ => None end;
                 s_pstats := fun _ => inr EKey; s_settemp := fun _ s => s |};
     e_funcs := [("move"%string, fun s => ret (S s, lpr))];
     e_weights := [1];
     e_like := fun old new _ => ret (old, new, inl llr);
     e_savedpred := dp;
     e_transd := None |}.
Definition idle : hook nat nat := fun c => ret (c, None).

Lemma choices_one u tr : 0 <= u < 1 -> choices 1 [1] (DU u :: tr) = Ret 0%nat tr.
Proof.
  intros Hu. change 1%nat with (length [1]). apply choices_spec; auto.
  - repeat constructor. lra.
  - cbn. lra.
  - cbn. split; [lia|lra].
Qed.
Lemma toy_next k dp c u v tr : 0 <= u < 1 -> 0 < v < 1 ->
  next_iteration (toy k dp (Fin 0) (Fin 0)) c (DU u :: DU v :: tr) =
  Ret (let '(c', x) := finish (toy k dp (Fin 0) (Fin 0)) "move" true (S (c_cur c)) c in
       (c', match x with Done => None | Stop e => Some e | Retry => Some ERuntime end)) tr.
Proof.
  intros Hu Hv. unfold next_iteration. change 500%nat with (S 499). generalize 499%nat. intros n.
  cbn [tries]. unfold bind at 1, attempt.
  cbn [e_funcs toy length e_weights].
  unfold bind at 1, try at 1. rewrite choices_one by auto.
  cbn [nth_error]. unfold bind at 1, try at 1, ret at 1. cbn [eisinf].
  unfold bind at 1. cbn [e_like toy]. unfold ret at 1.
  unfold decide, bind at 1. rewrite drawU_ok by lra.
  destruct (py_log_cases v ltac:(lra)) as [[? _]|[_ ->]]; [lra|].
  assert (Ha : egtb (eadd (Fin 0) (Fin 0)) (Fin (ln v)) = true).
  { apply accept_rule; auto. cbn. rewrite Rplus_0_l, exp_0. apply Rmin_glb_lt; lra. }
  rewrite Ha. unfold ret at 1.
  replace (set_cur (c_cur c) c) with c by now destruct c.
  destruct (finish _ _ _ _ c) as [c' x] eqn:Hf. destruct x; try reflexivity.
  exfalso. eapply finish_not_retry; eauto.
Qed.

(** * C39: each perturbation is chosen with its weight *)

(** One draw [u] selects entry [i] exactly when [u * total] lies in the [i]-th segment of
    the weights laid end to end. *)
Theorem C39_choice ws u tr i :
  Forall (fun w => 0 <= w) ws -> 0 < rsum ws -> 0 <= u < 1 ->
  choices (length ws) ws (DU u :: tr) = Ret i tr <->
  (i < length ws)%nat /\ weight_before ws i <= u * rsum ws < weight_before ws (S i).
Proof. exact (choices_spec ws u tr i). Qed.
Theorem C39_choice_total ws u tr :
  Forall (fun w => 0 <= w) ws -> 0 < rsum ws -> 0 <= u < 1 ->
  exists i, choices (length ws) ws (DU u :: tr) = Ret i tr.
Proof. exact (choices_total ws u tr). Qed.
Theorem C39_zero_weight ws u tr i tr' :
  Forall (fun w => 0 <= w) ws -> 0 < rsum ws -> 0 <= u < 1 ->
  choices (length ws) ws (DU u :: tr) = Ret i tr' -> nth_error ws i <> Some 0.
Proof.
  intros HF Ht Hu H. destruct (choices_total ws u tr HF Ht Hu) as (j & Hj).
  assert (tr' = tr) by congruence. subst tr'.
  apply choices_spec in H; auto. destruct H as (Hi & Hs).
  intros H0. unfold weight_before in Hs.
  rewrite (ProofUtils1DB.rsum_firstn_S ws i 0 H0) in Hs. lra.
Qed.
Example C39_case tr : choices 3 [1; 0; 3] (DU (1/2) :: tr) = Ret 2%nat tr.
Proof.
  change 3%nat with (length [1; 0; 3]). apply C39_choice.
  - repeat constructor; lra.
  - cbn. lra.
  - lra.
  - unfold weight_before. cbn. split; [lia|lra].
Qed.

(** * C14: acceptance *)

(** A completed iteration ends with one proposal, made after some failed attempts [es];
    with its log ratio [lpr + llr] and the uniform deviate [u] the new state replaces the
    old one exactly when the Metropolis-Hastings-Green rule says so.  [evaluates] gives the
    likelihood ratio at the chain's temperature, and the two states after the evaluation
    (which may fill their caches). *)
Theorem C14_acceptance {St V} (E : env St V) c tr c' tr' :
  next_iteration E c tr = Ret (c', None) tr' ->
  exists es c0 tr0 ty new lpr tr1 old' new' llr u,
    retries E es c tr c0 tr0 /\
    proposes E c0 tr0 ty new lpr tr1 /\
    evaluates E c0 new lpr tr1 old' new' llr (DU u :: tr') /\ 0 < u < 1 /\
    (mhg_accepts (eadd lpr llr) u ->
       c_cur c' = new' /\ c_nacc_tot c' = S (c_nacc_tot c)) /\
    (~ mhg_accepts (eadd lpr llr) u ->
       c_cur c' = old' /\ c_nacc_tot c' = c_nacc_tot c).
Proof.
  intros H. destruct (next_done _ _ _ _ _ H) as (es & c0 & tr0 & _ & Hr & Ha).
  apply attempt_done in Ha.
  destruct Ha as (ty & new & lpr & tr1 & old' & new' & llr & u & acc & Hp & He & Hu & Hacc & Hf).
  apply finish_done in Hf. destruct Hf as (F1 & _ & _ & _ & _ & _ & F7 & _).
  destruct (retries_frame _ _ _ _ _ _ Hr) as (_ & _ & _ & _ & R5 & _).
  cbn [set_cur c_nacc_tot c_cur] in F1, F7. rewrite R5 in F7.
  exists es, c0, tr0, ty, new, lpr, tr1, old', new', llr, u.
  repeat (split; auto).
  - destruct acc; auto. exfalso. apply Hacc in H0. discriminate.
  - destruct acc; [lia|]. exfalso. apply Hacc in H0. discriminate.
  - destruct acc; auto. exfalso. apply H0. now apply Hacc.
  - destruct acc; [|lia]. exfalso. apply H0. now apply Hacc.
Qed.

(** A rejected proposal leaves the current parameters as they were: for any relation
    "same parameters" that evaluating the likelihood respects. *)
Theorem C14_rejection_keeps_state {St V} (E : env St V) (same : St -> St -> Prop) c tr c' tr' :
  (forall s, same s s) -> (forall a b d, same a b -> same b d -> same a d) ->
  (forall old new t tr old' new' r tr',
     e_like E old new t tr = Ret (old', new', r) tr' -> same old old') ->
  next_iteration E c tr = Ret (c', None) tr' ->
  c_nacc_tot c' = c_nacc_tot c -> same (c_cur c) (c_cur c').
Proof.
  intros Hr Ht Hl H Hn. apply C14_acceptance in H.
  destruct H as (es & c0 & tr0 & ty & new & lpr & tr1 & old' & new' & llr & u & Hre & Hp & He & Hu & Hy & Hno).
  apply (Ht _ (c_cur c0)); [eapply retries_cur; eauto|].
  destruct Hno as [-> _].
  - intros HA. apply Hy in HA. lia.
  - destruct He; [auto|eauto].
Qed.

(** Conversely every proposal whose ratio can be evaluated is decided by the next draw. *)
Theorem C14_decided {St V} (E : env St V) c tr ty new lpr tr1 old' new' llr u tr' :
  proposes E c tr ty new lpr tr1 ->
  evaluates E c new lpr tr1 old' new' llr (DU u :: tr') -> 0 < u < 1 ->
  exists acc, (acc = true <-> mhg_accepts (eadd lpr llr) u) /\
    attempt E c tr = Ret (finish E ty acc new' (set_cur old' c)) tr'.
Proof.
  intros (i & f & tr0 & H1 & H2 & H3) He Hu.
  assert (HD : forall c new' llr, decide E ty new' lpr llr c (DU u :: tr') =
     Ret (finish E ty (egtb (eadd lpr llr) (Fin (ln u))) new' c) tr').
  { intros. unfold decide, bind. rewrite drawU_ok by lra.
    destruct (py_log_cases u ltac:(lra)) as [[? _]|[_ ->]]; [lra|]. reflexivity. }
  exists (egtb (eadd lpr llr) (Fin (ln u))). split; [now apply accept_rule|].
  unfold attempt, bind, try. rewrite H1, H2, H3.
  inversion He as [tr2 Hinf|? ? ? ? ? Hinf Hl]; subst; rewrite Hinf.
  - rewrite HD. now destruct c.
  - rewrite Hl. apply HD.
Qed.

(** random.random() may return 0.0: the iteration then raises ValueError (math.log(0))
    instead of accepting with probability min(1, exp a). *)
Theorem C14_zero_draw_refuted :
  exists (E : env nat nat) c tr tr',
    next_iteration E c tr = Ret (c, Some EValue) tr' /\ tr = [DU (1/2); DU 0].
Proof.
  exists (toy KOther false (Fin 0) (Fin 0)), (new_chain (toy KOther false (Fin 0) (Fin 0)) 0%nat),
    [DU (1/2); DU 0], []. split; [|reflexivity].
  unfold next_iteration. change 500%nat with (S 499). generalize 499%nat. intros n.
  cbn [tries]. unfold bind at 1, attempt.
  cbn [e_funcs toy length e_weights].
  unfold bind at 1, try at 1. rewrite choices_one by lra.
  cbn [nth_error]. unfold bind at 1, try at 1, ret at 1. cbn [eisinf].
  unfold bind at 1. cbn [e_like toy]. unfold ret at 1.
  unfold decide, bind at 1. rewrite drawU_ok by lra.
  destruct (py_log_cases 0 ltac:(lra)) as [[_ ->]|[? _]]; [|lra]. reflexivity.
Qed.
Example C14_case :
  let E := toy KOther false (Fin 0) (Fin 0) in
  exists c', next_iteration E (set_flag false (new_chain E 7%nat)) [DU (1/3); DU (1/2)] = Ret (c', None) []
    /\ c_cur c' = 8%nat.
Proof. cbn zeta. rewrite toy_next by lra. eexists. split; reflexivity. Qed.

(** * C25: failures are retried and counted *)

(** An iteration makes attempts until one does not fail with a user-function or forward
    exception; 500 failures in a row raise RuntimeError.  Failed attempts leave temperature,
    statistics, samples alone and are counted by class. *)
Theorem C25_retries {St V} (E : env St V) c tr c' o tr' :
  next_iteration E c tr = Ret (c', o) tr' ->
  exists es c0 tr0,
    retries E es c tr c0 tr0 /\
    (c_temp c0 = c_temp c /\ c_nprop c0 = c_nprop c /\ c_nacc c0 = c_nacc c /\
     c_nprop_tot c0 = c_nprop_tot c /\ c_nacc_tot c0 = c_nacc_tot c /\
     c_saved c0 = c_saved c /\ c_flag c0 = c_flag c) /\
    (forall e, e = EUser \/ e = EForward ->
       count_of (exn_name e) (c_exc c0) = (count_of (exn_name e) (c_exc c) + occurrences e es)%nat) /\
    ((length es = 500%nat /\ o = Some ERuntime /\ c' = c0 /\ tr' = tr0) \/
     ((length es < 500)%nat /\
      attempt E c0 tr0 = Ret (c', match o with None => Done | Some e => Stop e end) tr')).
Proof.
  intros H. unfold next_iteration in H. apply tries_cases in H.
  destruct H as [(es & Hl & -> & Hr)|(es & c0 & tr0 & Hl & Hr & Ha)].
  - exists es, c', tr'. split; auto.
    pose proof (retries_frame _ _ _ _ _ _ Hr) as (? & ? & ? & ? & ? & ? & ? & ?).
    split; [auto 10|]. split; [intros e He; eapply retries_counts; eauto|]. auto.
  - exists es, c0, tr0. split; auto.
    pose proof (retries_frame _ _ _ _ _ _ Hr) as (? & ? & ? & ? & ? & ? & ? & ?).
    split; [auto 10|]. split; [intros e He; eapply retries_counts; eauto|]. auto.
Qed.

(** Conversely: after fewer than 500 failures the next attempt decides; after 500 the
    iteration raises RuntimeError whatever would come next. *)
Theorem C25_retry_continues {St V} (E : env St V) es c tr c0 tr0 c1 v tr1 :
  retries E es c tr c0 tr0 -> (length es < 500)%nat ->
  attempt E c0 tr0 = Ret (c1, v) tr1 -> v <> Retry ->
  next_iteration E c tr =
  Ret (c1, match v with Stop e => Some e | _ => None end) tr1.
Proof.
  intros Hr Hl Ha Hv. unfold next_iteration.
  replace 500%nat with (length es + S (499 - length es))%nat by lia.
  rewrite (retries_tries E es _ _ _ _ _ Hr). cbn [tries].
  rewrite (bind_ret _ _ _ _ _ Ha). now destruct v.
Qed.
Theorem C25_runtime_error {St V} (E : env St V) es c tr c0 tr0 :
  retries E es c tr c0 tr0 -> length es = 500%nat ->
  next_iteration E c tr = Ret (c0, Some ERuntime) tr0.
Proof.
  intros Hr Hl. unfold next_iteration. rewrite <- Hl, <- (Nat.add_0_r (length es)).
  rewrite (retries_tries E es _ _ _ _ _ Hr). reflexivity.
Qed.

(** Any other exception of a perturbation propagates at once, the chain unchanged. *)
Theorem C25_other_exceptions {St V} (E : env St V) c tr i tr1 ty f e tr' :
  choices (length (e_funcs E)) (e_weights E) tr = Ret i tr1 ->
  nth_error (e_funcs E) i = Some (ty, f) -> f (c_cur c) tr1 = Err e tr' -> e <> EUser ->
  next_iteration E c tr = Ret (c, Some e) tr'.
Proof.
  intros H1 H2 H3 He.
  apply (C25_retry_continues E [] c tr c tr c (Stop e) tr'); cbn; try lia; try easy.
  - constructor.
  - unfold attempt, bind, try. rewrite H1, H2, H3. destruct e; easy.
Qed.

(** The current parameters survive failures, for any relation "same parameters" that
    evaluating the likelihood respects. *)
Theorem C25_failures_keep_state {St V} (E : env St V) (same : St -> St -> Prop) es c tr c0 tr0 :
  (forall s, same s s) -> (forall a b d, same a b -> same b d -> same a d) ->
  (forall old new t tr old' new' r tr',
     e_like E old new t tr = Ret (old', new', r) tr' -> same old old') ->
  retries E es c tr c0 tr0 -> same (c_cur c) (c_cur c0).
Proof. exact (retries_cur E same es c tr c0 tr0). Qed.

(** A chain whose perturbation fails while the state is 0 .. *)
Definition failing : env nat nat :=
  {| e_ops := e_ops (toy KOther false (Fin 0) (Fin 0));
     e_funcs := [("move"%string, fun s => err EUser)];
     e_weights := [1]; e_like := e_like (toy KOther false (Fin 0) (Fin 0));
     e_savedpred := false; e_transd := None |}.
Example C25_case tr : forall n, (exists c0,
  retries failing (repeat EUser n) (new_chain failing 0%nat) (repeat (DU (1/2)) n ++ tr) c0 tr).
Proof.
  intros n. generalize (new_chain failing 0%nat). induction n as [|n IH]; intros c; cbn.
  - exists c. constructor.
  - destruct (IH (count_exc EUser (set_cur (c_cur c) c))) as [c0 Hc0].
    exists c0. eapply retries_S; [|exact Hc0].
    apply (uf_perturb _ _ _ 0 (fun s => err EUser) "move" (repeat (DU (1/2)) n ++ tr)); auto.
    cbn [e_funcs e_weights failing length]. apply choices_one. lra.
Qed.

(** * C26: impossible proposals never reach the likelihood *)

(** With an infinite ratio the whole iteration is the same for any likelihood function put
    in place of the actual one (one that raises, counts its calls, ...), and the exception
    counters do not change. *)
Theorem C26_infinite_ratio {St V} (E : env St V) L c tr ty new lpr tr1 :
  proposes E c tr ty new lpr tr1 -> eisinf lpr = true ->
  next_iteration (with_like E L) c tr = next_iteration E c tr.
Proof. exact (infinite_next E L c tr ty new lpr tr1). Qed.
Theorem C26_no_exceptions {St V} (E : env St V) c tr ty new lpr tr1 c' o tr' :
  proposes E c tr ty new lpr tr1 -> eisinf lpr = true ->
  next_iteration E c tr = Ret (c', o) tr' -> c_exc c' = c_exc c.
Proof.
  intros Hp Hi H. unfold next_iteration in H. change 500%nat with (S 499) in H.
  revert H. generalize 499%nat. intros k H. cbn [tries] in H. minv.
  destruct a as [c1 v]. destruct (infinite_verdict _ _ _ _ _ _ _ _ _ _ Hp Hi H0) as [Hv Hx].
  destruct v; minv; subst; easy.
Qed.
Example C26_case tr :
  let E := toy KOther false MInf (Fin 0) in
  proposes E (new_chain E 5%nat) (DU (1/2) :: tr) "move" 6%nat MInf tr /\ eisinf MInf = true.
Proof.
  cbn zeta. split; auto. exists 0%nat, (fun s => ret (S s, MInf)), tr.
  split; [apply choices_one; lra|]. split; reflexivity.
Qed.

(** * C22: samples are saved exactly on schedule *)

(** [ces] are the chains right after each of the [n] iterations; the samples appended under
    each key are those of the chains at unit temperature whose iteration number is on the
    schedule, in order. *)
Theorem C22_schedule {St V} (E : env St V) n sc b e c tr c' tr' d :
  leaves_records b -> leaves_records e ->
  advance E n sc b e c tr = Ret (c', None) tr' -> c_saved c = SDict d ->
  exists ces sel d',
    rounds E sc b e c tr ces c' tr' /\ length ces = n /\
    (forall j ce, nth_error ces j = Some ce -> c_nprop_tot ce = (c_nprop_tot c + S j)%nat) /\
    selects (fun ce => on_schedule (sc_burnin sc) (sc_every sc) (c_nprop_tot ce) /\ c_temp ce = 1)
      ces sel /\
    c_saved c' = SDict d' /\
    forall k, stored k d' = stored k d ++ concat (map (fun ce => sample E k (c_cur ce)) sel).
Proof.
  intros Hb He H Hd. destruct (advance_rounds _ _ _ _ _ _ _ _ _ H) as (ces & Hl & Hr).
  destruct (rounds_dict E _ _ _ Hb He _ _ _ _ _ Hr d Hd) as (sel & d' & Hs & Hd' & Hst).
  destruct (rounds_counts E _ _ _ Hb He _ _ _ _ _ Hr) as (_ & _ & Hj).
  exists ces, sel, d'. auto 10.
Qed.
(** The same for states that are kept in a list. *)
Theorem C22_schedule_list {St V} (E : env St V) n sc b e c tr c' tr' l :
  leaves_records b -> leaves_records e -> (forall s, s_kind (e_ops E) s = KOther) ->
  advance E n sc b e c tr = Ret (c', None) tr' -> c_saved c = SList l ->
  exists ces sel,
    rounds E sc b e c tr ces c' tr' /\ length ces = n /\
    (forall j ce, nth_error ces j = Some ce -> c_nprop_tot ce = (c_nprop_tot c + S j)%nat) /\
    selects (fun ce => on_schedule (sc_burnin sc) (sc_every sc) (c_nprop_tot ce) /\ c_temp ce = 1)
      ces sel /\
    c_saved c' = SList (l ++ map c_cur sel).
Proof.
  intros Hb He Hk H Hd. destruct (advance_rounds _ _ _ _ _ _ _ _ _ H) as (ces & Hl & Hr).
  destruct (rounds_list E _ _ _ Hb He Hk _ _ _ _ _ Hr l Hd) as (sel & Hs & Hd').
  destruct (rounds_counts E _ _ _ Hb He _ _ _ _ _ Hr) as (_ & _ & Hj).
  exists ces, sel. auto 10.
Qed.
(** How many: at unit temperature, [n] iterations after the first [n0]. *)
Theorem C22_count {St V} (sc : sched) (ces sel : list (chain St V)) n0 :
  selects (fun ce => on_schedule (sc_burnin sc) (sc_every sc) (c_nprop_tot ce) /\ c_temp ce = 1)
    ces sel ->
  (forall j ce, nth_error ces j = Some ce -> c_nprop_tot ce = (n0 + S j)%nat) ->
  (forall ce, In ce ces -> c_temp ce = 1) ->
  (length sel + (n0 - sc_burnin sc) / sc_every sc =
   (n0 + length ces - sc_burnin sc) / sc_every sc)%nat.
Proof. exact (selects_count sc ces n0 sel). Qed.

Definition toy_sched := {| sc_burnin := 1; sc_every := 2; sc_verbose := false; sc_print_every := 0 |}.
Lemma idle_records : @leaves_records nat nat (Some idle).
Proof. intros c tr c' o tr' H. cbn in H. unfold idle in H. minv. subst. auto 10. Qed.
Lemma Reqb_1 : Reqb 1 1 = true.
Proof. unfold Reqb. destruct (Req_EM_T 1 1); auto; lra. Qed.
Lemma toy_round k dp sc c u v tr flag :
  0 <= u < 1 -> 0 < v < 1 -> sc_verbose sc = false ->
  save_flag sc (S (c_nprop_tot c)) = Ok flag ->
  advance_one (toy k dp (Fin 0) (Fin 0)) sc (Some idle) (Some idle) c (DU u :: DU v :: tr) =
  Ret (let '(c', x) := finish (toy k dp (Fin 0) (Fin 0)) "move" true (S (c_cur c)) (set_flag flag c) in
       (c', match x with Done => None | Stop e => Some e | Retry => Some ERuntime end)) tr.
Proof.
  intros Hu Hv Hvb Hf. unfold advance_one. rewrite Hf. unfold bind at 1.
  cbn [call_hook]. unfold idle at 1, ret at 1. unfold bind at 1.
  rewrite toy_next by auto. cbn [c_cur set_flag].
  destruct (finish _ _ _ _ _) as [c' [|x|]] eqn:Hfin; try reflexivity.
  unfold bind. cbn [call_hook]. unfold idle, ret. now rewrite Hvb.
Qed.
(** What an accepted move of these chains does. *)
Definition moved (m : nat) (c : chain nat nat) : chain nat nat :=
  put_stats (add_cnt_stats "move" true (c_nprop c) (c_nacc c)) true (set_cur m c).
Definition moved_saved (m : nat) (d : dict (list nat)) (c : chain nat nat) : chain nat nat :=
  set_saved (SDict (append_saved "t.dpred" (10 * m)%nat (append_saved "m" m d))) (moved m c).
Lemma toy_unsaved l m c : c_flag c = Some false \/ (c_flag c <> None /\ c_temp c <> 1) ->
  finish (toy KState true (Fin 0) l) "move" true m c = (moved m c, Done).
Proof.
  intros H. unfold finish. cbv zeta iota.
  change (save_statistics (toy KState true (Fin 0) l) "move" true m (set_cur m c))
    with (@inl (chain nat nat) exn (moved m c)).
  cbv iota beta.
  change (c_flag (moved m c)) with (c_flag c).
  change (c_temp (moved m c)) with (c_temp c).
  destruct H as [->|[H1 H2]]; [reflexivity|].
  destruct (c_flag c) as [fl|]; [|easy]. replace (Reqb (c_temp c) 1) with false by (unfold Reqb; destruct (Req_EM_T _ _); tauto). rewrite andb_false_r. reflexivity.
Qed.
Lemma toy_saved l m c d : c_flag c = Some true -> c_temp c = 1 -> c_saved c = SDict d ->
  finish (toy KState true (Fin 0) l) "move" true m c = (moved_saved m d c, Done).
Proof.
  intros H1 H2 H3. unfold finish. cbv zeta iota.
  change (save_statistics (toy KState true (Fin 0) l) "move" true m (set_cur m c))
    with (@inl (chain nat nat) exn (moved m c)).
  cbv iota beta.
  change (c_flag (moved m c)) with (c_flag c).
  change (c_temp (moved m c)) with (c_temp c).
  rewrite H1, H2, Reqb_1. cbn [andb]. unfold save_state.
  change (c_saved (moved m c)) with (c_saved c). rewrite H3. reflexivity.
Qed.
Lemma toy_advance l n sc b e c0 tr c1 tr1 r :
  advance_one (toy KState true (Fin 0) l) sc b e c0 tr = Ret (c1, None) tr1 ->
  advance (toy KState true (Fin 0) l) n sc b e c1 tr1 = r ->
  advance (toy KState true (Fin 0) l) (S n) sc b e c0 tr = r.
Proof. intros H <-. cbn [advance]. unfold bind. now rewrite H. Qed.
Lemma toy_move sc c c' u v tr flag :
  0 <= u < 1 -> 0 < v < 1 -> sc_verbose sc = false ->
  save_flag sc (S (c_nprop_tot c)) = Ok flag ->
  finish (toy KState true (Fin 0) (Fin 0)) "move" true (S (c_cur c)) (set_flag flag c) = (c', Done) ->
  advance_one (toy KState true (Fin 0) (Fin 0)) sc (Some idle) (Some idle) c (DU u :: DU v :: tr) = Ret (c', None) tr.
Proof. intros Hu Hv H1 H2 H3. rewrite (toy_round _ _ _ _ _ _ _ flag) by auto. now rewrite H3. Qed.
(** Six iterations with burn-in 1 and every second saved: iterations 3 and 5. *)
Example C22_case :
  let E := toy KState true (Fin 0) (Fin 0) in
  exists c', advance E 6 toy_sched (Some idle) (Some idle) (new_chain E 0%nat) (repeat (DU (1/2)) 12)
     = Ret (c', None) [] /\
    c_saved c' = SDict [("m"%string, [3; 5]); ("t.dpred"%string, [30; 50])]%nat.
Proof.
  cbn zeta. cbn [repeat]. eexists. split.
  - do 2 (eapply toy_advance; [eapply (toy_move _ _ _ _ _ _ false); try lra; try reflexivity;
      apply toy_unsaved; left; reflexivity|]).
    eapply toy_advance; [eapply (toy_move _ _ _ _ _ _ true); try lra; try reflexivity;
      apply toy_saved; reflexivity|].
    eapply toy_advance; [eapply (toy_move _ _ _ _ _ _ false); try lra; try reflexivity;
      apply toy_unsaved; left; reflexivity|].
    eapply toy_advance; [eapply (toy_move _ _ _ _ _ _ true); try lra; try reflexivity;
      apply toy_saved; reflexivity|].
    eapply toy_advance; [eapply (toy_move _ _ _ _ _ _ false); try lra; try reflexivity;
      apply toy_unsaved; left; reflexivity|].
    reflexivity.
  - reflexivity.
Qed.

(** * C23: splitting a run does not change it *)
Theorem C23_split {St V} (E : env St V) sc b e n1 n2 c tr :
  advance E (n1 + n2) sc b e c tr =
  match advance E n1 sc b e c tr with
  | Ret (c1, None) tr1 => advance E n2 sc b e c1 tr1
  | r => r
  end.
Proof. exact (advance_add E sc b e n1 n2 c tr). Qed.

(** * C24: statistics *)

(** After any run from a fresh chain (even one that ends with an exception) the statistics
    are consistent: accepted <= proposed in total, per perturbation type and per entry of
    composite perturbations, and the entries add up to the totals. *)
Theorem C24_statistics {St V} (E : env St V) n sc b e start tr c' o tr' :
  shares E -> leaves_records b -> leaves_records e ->
  advance E n sc b e (new_chain E start) tr = Ret (c', o) tr' ->
  (c_nacc_tot c' <= c_nprop_tot c')%nat /\
    (forall ty, match dget ty (c_nprop c'), dget ty (c_nacc c') with
              | None, None => True
              | Some (Cnt p), Some (Cnt q) => (q <= p)%nat
              | Some (Sub p), Some (Sub q) => forall k, 0 <= sub_value k q <= sub_value k p
              | _, _ => False
              end) /\
    dict_total stat_value (c_nprop c') = INR (c_nprop_tot c') /\
    dict_total stat_value (c_nacc c') = INR (c_nacc_tot c').
Proof.
  intros Hs Hb He H.
  pose proof (advance_stats _ _ _ _ _ _ _ _ _ _ Hs Hb He (new_chain_stats E start) H) as ((_ & H1) & H2 & H3 & H4).
  split; auto. split; [|auto]. intros ty. specialize (H1 ty). unfold entry_ok in H1.
  destruct (dget ty (c_nprop c')) as [[]|], (dget ty (c_nacc c')) as [[]|]; tauto.
Qed.
(** The totals count the iterations: every completed one is counted once. *)
Theorem C24_totals {St V} (E : env St V) n sc b e c tr c' tr' :
  leaves_records b -> leaves_records e ->
  advance E n sc b e c tr = Ret (c', None) tr' ->
  c_nprop_tot c' = (c_nprop_tot c + n)%nat /\
    (c_nacc_tot c <= c_nacc_tot c' <= c_nacc_tot c + n)%nat.
Proof.
  intros Hb He H. destruct (advance_rounds _ _ _ _ _ _ _ _ _ H) as (ces & <- & Hr).
  destruct (rounds_counts E _ _ _ Hb He _ _ _ _ _ Hr) as (? & ? & _). auto.
Qed.
(** Printing statistics after at least one iteration never divides by zero. *)
Theorem C24_print {St V} (E : env St V) n sc b e start tr c' o tr' :
  shares E -> leaves_records b -> leaves_records e ->
  advance E n sc b e (new_chain E start) tr = Ret (c', o) tr' ->
  (0 < c_nprop_tot c')%nat -> print_statistics c' = Ok tt.
Proof.
  intros Hs Hb He H Hn. apply print_ok; auto.
  exact (advance_stats _ _ _ _ _ _ _ _ _ _ Hs Hb He (new_chain_stats E start) H).
Qed.
(** .. but the settings print_every = 0 and save_every = 0 do. *)
Theorem C24_print_every_zero_refuted :
  exists (E : env nat nat) sc tr c' tr',
    sc_print_every sc = 0%nat /\
    advance E 1 sc (Some idle) (Some idle) (new_chain E 0%nat) tr = Ret (c', Some EZeroDiv) tr'.
Proof.
  exists (toy KOther false (Fin 0) (Fin 0)),
    {| sc_burnin := 0; sc_every := 2; sc_verbose := true; sc_print_every := 0 |},
    [DU (1/2); DU (1/2)].
  eexists _, []. split; [reflexivity|]. cbn [advance]. unfold bind at 1, advance_one, save_flag.
  cbn [sc_burnin sc_every c_nprop_tot new_chain Nat.leb Nat.eqb Nat.sub Nat.modulo Nat.divmod fst snd].
  unfold bind at 1. cbn [call_hook]. unfold idle at 1, ret at 1. unfold bind at 1.
  rewrite toy_next by lra. cbn. reflexivity.
Qed.
Theorem C22_save_every_zero_refuted :
  exists (E : env nat nat) sc, sc_every sc = 0%nat /\ forall tr,
    advance E 1 sc (Some idle) (Some idle) (new_chain E 0%nat) tr =
    Ret (new_chain E 0%nat, Some EZeroDiv) tr.
Proof.
  exists (toy KOther false (Fin 0) (Fin 0)),
    {| sc_burnin := 0; sc_every := 0; sc_verbose := true; sc_print_every := 1 |}.
  split; reflexivity.
Qed.
(** advance_chain called with its own default callbacks raises TypeError. *)
Theorem C34_default_callbacks_refuted {St V} (E : env St V) n sc e c tr :
  (0 < sc_every sc)%nat ->
  exists c', advance E (S n) sc None e c tr = Ret (c', Some EType) tr.
Proof.
  intros Hs. cbn [advance]. unfold bind at 1, advance_one, save_flag.
  destruct (_ <=? _)%nat; [eexists; reflexivity|].
  destruct (sc_every sc =? 0)%nat eqn:H0; [apply Nat.eqb_eq in H0; lia|].
  eexists. reflexivity.
Qed.
Example C24_case : shares (toy KState true (Fin 0) (Fin 0)).
Proof. intros s vs [=]. Qed.
(** Composite perturbations report one share of 1. *)
Definition composite : env nat nat :=
  {| e_ops := {| s_kind := fun _ => KState; s_items := fun s => [("m"%string, s)];
                 s_cache := fun s => Some []; s_settemp := fun _ s => s;
                 s_pstats := fun s => inl [("BirthPerturbation(m)"%string, 1)] |};
     e_funcs := [("ParamSpacePerturbation(m)"%string, fun s => ret (S s, Fin 0))];
     e_weights := [1]; e_like := fun old new _ => ret (old, new, inl (Fin 0));
     e_savedpred := true; e_transd := None |}.
Example C24_case_composite : shares composite.
Proof.
  intros s vs [= <-]. split; [repeat constructor; cbn; lra|]. unfold dict_total. cbn. lra.
Qed.

(** * C58 (one chain): an exception leaves whole iterations *)

(** When a run raises, the chain has completed a whole number [m] of iterations, as if
    advanced by [m]; the failing iteration has left no trace in the samples and counters of
    proposed models unless it is the saving or printing itself, or a callback, that raised. *)
Theorem C58_exception {St V} (E : env St V) n sc b e c tr c' x tr' :
  advance E n sc b e c tr = Ret (c', Some x) tr' ->
  exists m cm trm, (m < n)%nat /\ advance E m sc b e c tr = Ret (cm, None) trm /\
    advance_one E sc b e cm trm = Ret (c', Some x) tr'.
Proof.
  intros H. destruct (advance_fail _ _ _ _ _ _ _ _ _ _ H) as (m & ces & cm & trm & Hm & _ & _ & Ha & Ho).
  exists m, cm, trm. auto.
Qed.
Theorem C58_too_many_failures {St V} (E : env St V) c tr es c0 tr0 :
  retries E es c tr c0 tr0 -> length es = 500%nat ->
  next_iteration E c tr = Ret (c0, Some ERuntime) tr0 /\
    c_saved c0 = c_saved c /\ c_nprop c0 = c_nprop c /\ c_nacc c0 = c_nacc c /\
    c_nprop_tot c0 = c_nprop_tot c /\ c_nacc_tot c0 = c_nacc_tot c /\ c_temp c0 = c_temp c.
Proof.
  intros Hr Hl. split; [now apply (C25_runtime_error E es)|].
  apply retries_frame in Hr. tauto.
Qed.

(** * C61: temperature *)

(** If perturbations hand on the temperature of the state (as copies do) and the likelihood
    does not change it, then state and chain agree about it after any run, also with
    callbacks that set the chain's temperature. *)
Theorem C61_temperature {St V} (E : env St V) (temp_of : St -> R) n sc b e c tr c' o tr' :
  (forall ty f s new lpr tr tr',
     In (ty, f) (e_funcs E) -> f s tr = Ret (new, lpr) tr' -> temp_of new = temp_of s) ->
  (forall old new t tr old' new' r tr', e_like E old new t tr = Ret (old', new', r) tr' ->
     temp_of old' = temp_of old /\ temp_of new' = temp_of new) ->
  keeps_temp temp_of b -> keeps_temp temp_of e ->
  temp_of (c_cur c) = c_temp c ->
  advance E n sc b e c tr = Ret (c', o) tr' -> temp_of (c_cur c') = c_temp c'.
Proof.
  intros Hf Hl Hb He H0 H.
  exact (advance_temp E temp_of Hf Hl sc b e n c tr c' o tr' Hb He H0 H).
Qed.
(** Setting the temperature of a chain sets that of its state. *)
Theorem C61_setter {St V} (E : env St V) (temp_of : St -> R) t c :
  (forall t s, temp_of (s_settemp (e_ops E) t s) = t) ->
  (forall s, s_kind (e_ops E) s = KState) ->
  let c' := set_temperature E t c in c_temp c' = t /\ temp_of (c_cur c') = t.
Proof.
  intros Hs Hk. split; [reflexivity|].
  exact (set_temperature_agrees E temp_of Hs Hk t c).
Qed.
(** Example: states are pairs of value and temperature, a callback heats the chain. *)
Definition warm : env (nat * R) nat :=
  {| e_ops := {| s_kind := fun _ => KState; s_items := fun s => [("m"%string, fst s)];
                 s_cache := fun s => Some []; s_settemp := fun t s => (fst s, t);
                 s_pstats := fun s => inr EKey |};
     e_funcs := [("move"%string, fun s => ret ((S (fst s), snd s), Fin 0))];
     e_weights := [1]; e_like := fun old new _ => ret (old, new, inl (Fin 0));
     e_savedpred := true; e_transd := None |}.
Definition heat : hook (nat * R) nat := fun c => ret (set_temperature warm 3 c, None).
Example C61_case :
  keeps_temp snd (Some heat) /\
  (forall ty f s new lpr tr tr',
     In (ty, f) (e_funcs warm) -> f s tr = Ret (new, lpr) tr' -> snd new = snd s).
Proof.
  split.
  - intros c tr c' o tr' H _. cbn in H. unfold heat in H. minv. subst. reflexivity.
  - intros ty f s new lpr tr tr' [Hin|[]] H. injection Hin as <- <-. minv. reflexivity.
Qed.

(** * C62: dictionary states *)

(** With save_dpred=True (the default) the first saved sample of a chain of dictionaries
    raises AttributeError. *)
Theorem C62_dict_states_refuted :
  exists (E : env nat nat) c tr c' tr',
    (forall s, s_kind (e_ops E) s = KDict /\ s_cache (e_ops E) s = None) /\
    e_savedpred E = true /\ c = new_chain E 0%nat /\
    advance E 1 {| sc_burnin := 0; sc_every := 1; sc_verbose := false; sc_print_every := 1 |}
      (Some idle) (Some idle) c tr = Ret (c', Some EAttr) tr'.
Proof.
  exists (toy KDict true (Fin 0) (Fin 0)), (new_chain (toy KDict true (Fin 0) (Fin 0)) 0%nat),
    [DU (1/2); DU (1/2)]. eexists _, [].
  split; [intros s; split; reflexivity|]. split; [reflexivity|]. split; [reflexivity|].
  cbn [advance]; unfold bind at 1. rewrite (toy_round _ _ _ _ _ _ _ true) by (lra || reflexivity); unfold finish.
  cbn -[advance_one Reqb]; rewrite ?Reqb_1; cbn -[advance_one Reqb]. reflexivity.
Qed.
(** Without predictions they are saved under every key, and saving cannot fail. *)
Theorem C62_dict_states_partial {St V} (E : env St V) c d :
  s_kind (e_ops E) (c_cur c) = KDict -> e_savedpred E = false -> e_transd E = None ->
  c_saved c = SDict d ->
  exists d', save_state E c = (set_saved (SDict d') c, None) /\
    forall k, stored k d' = stored k d ++ values_of k (s_items (e_ops E) (c_cur c)).
Proof.
  intros Hk Hp Ht Hd.
  assert (HI : forall its d0, exists d1, save_items E its d0 = (d1, None)).
  { induction its as [|[k v] t IH]; intros d0; cbn [save_items]; [eauto|].
    unfold skip_key. rewrite Ht. destruct (contains _ k); apply IH. }
  destruct (HI (s_items (e_ops E) (c_cur c)) d) as [d1 Hd1].
  assert (Hs : save_state E c = (set_saved (SDict d1) c, None)).
  { unfold save_state. rewrite Hk, Hd, Hd1, Hp. reflexivity. }
  exists d1. split; auto. intros k.
  destruct (save_state_dict E c _ d Hs Hd) as (d' & Hd' & Hst). injection Hd' as <-.
  rewrite Hst. f_equal. unfold sample, sample_values, fixed_entry. rewrite Ht, Hp.
  rewrite andb_false_r. cbn. now rewrite app_nil_r.
Qed.
Example C62_case : let E := toy KDict false (Fin 0) (Fin 0) in
  exists c', save_state E (new_chain E 4%nat) = (c', None) /\
             c_saved c' = SDict [("m"%string, [4%nat])].
Proof. eexists. split; reflexivity. Qed.
