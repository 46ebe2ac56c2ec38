(** Proofs about the model of _markov_chain.py. *)
From Verif Require Import Base ModelChain SpecChain SpecUtils1D ProofUtils1D ProofUtils1DB.
Local Open Scope R_scope.

(** * The trace monad *)
Lemma bind_ret_inv {A B} (m : M A) (f : A -> M B) tr b tr' :
  bind m f tr = Ret b tr' -> exists a tr1, m tr = Ret a tr1 /\ f a tr1 = Ret b tr'.
Proof. unfold bind. destruct (m tr) eqn:E; try discriminate. eauto. Qed.
Lemma bind_err_inv {A B} (m : M A) (f : A -> M B) tr e tr' :
  bind m f tr = Err e tr' ->
  m tr = Err e tr' \/ exists a tr1, m tr = Ret a tr1 /\ f a tr1 = Err e tr'.
Proof.
  unfold bind. destruct (m tr) eqn:E; try discriminate; eauto.
  intros [= -> ->]. auto.
Qed.
Lemma bind_ret {A B} (m : M A) (f : A -> M B) tr a tr1 :
  m tr = Ret a tr1 -> bind m f tr = f a tr1.
Proof. unfold bind. now intros ->. Qed.
Lemma try_ret_inv {A} (m : M A) tr r tr' :
  try m tr = Ret r tr' ->
  match r with inl a => m tr = Ret a tr' | inr e => m tr = Err e tr' end.
Proof. unfold try. destruct (m tr) eqn:E; intros [= <- <-]; auto. Qed.
Lemma ret_inv {A} (a b : A) tr tr' : ret a tr = Ret b tr' -> a = b /\ tr = tr'.
Proof. unfold ret. intros [= -> ->]. auto. Qed.
Lemma drawU_inv tr u tr' : drawU tr = Ret u tr' -> tr = DU u :: tr' /\ 0 <= u < 1.
Proof.
  unfold drawU. destruct tr as [|[v| | | | |] tr]; try discriminate.
  destruct (Rleb 0 v && Rltb v 1)%bool eqn:E; try discriminate.
  apply andb_true_iff in E. destruct E as [E1 E2].
  apply Rleb_true in E1. apply Rltb_true in E2.
  intros [= -> ->]. auto.
Qed.
Lemma drawU_ok u tr : 0 <= u < 1 -> drawU (DU u :: tr) = Ret u tr.
Proof.
  intros H. unfold drawU.
  destruct (Rleb 0 u) eqn:E1; [|apply Rleb_false in E1; lra].
  destruct (Rltb u 1) eqn:E2; [|apply Rltb_false in E2; lra]. reflexivity.
Qed.
Lemma lift_ret_inv {A} (r : res A) tr a tr' :
  lift r tr = Ret a tr' -> r = Ok a /\ tr = tr'.
Proof. destruct r; cbn; unfold ret, err, ubeh; intros [= -> ->] || easy; auto. Qed.

Ltac minv :=
  repeat match goal with
  | H : bind _ _ _ = Ret _ _ |- _ =>
      let a := fresh "a" in let t := fresh "t" in let H1 := fresh "H" in
      let H2 := fresh "H" in
      apply bind_ret_inv in H; destruct H as (a & t & H1 & H2)
  | H : ret _ _ = Ret _ _ |- _ => apply ret_inv in H; destruct H as [? ?]
  | H : err _ _ = Ret _ _ |- _ => discriminate H
  | H : ubeh _ = Ret _ _ |- _ => discriminate H
  | H : lift _ _ = Ret _ _ |- _ => apply lift_ret_inv in H; destruct H as [? ?]
  | H : drawU _ = Ret _ _ |- _ => apply drawU_inv in H; destruct H as [? ?]
  | H : try _ _ = Ret _ _ |- _ => apply try_ret_inv in H
  | H : (_, _) = (_, _) |- _ => injection H; clear H; intros; subst
  end.

(** * Acceptance *)
Lemma accept_rule (a : ext) (u : R) :
  0 < u < 1 -> egtb a (Fin (ln u)) = true <-> mhg_accepts a u.
Proof.
  intros Hu. destruct a as [x| | |]; cbn; try tauto; try (split; easy).
  rewrite Rltb_true. split; intros H.
  - apply Rmin_glb_lt; [lra|].
    rewrite <- (exp_ln u) by lra. now apply exp_increasing.
  - assert (H2 : u < exp x) by (eapply Rlt_le_trans; [exact H|apply Rmin_r]).
    apply ln_increasing in H2; [|lra]. now rewrite ln_exp in H2.
Qed.

Lemma py_log_cases u : 0 <= u < 1 ->
  (u = 0 /\ py_log u = Raise EValue) \/ (0 < u < 1 /\ py_log u = Ok (ln u)).
Proof.
  intros H. unfold py_log. rbool.
  - right. split; [lra|auto].
  - left. split; [lra|auto].
Qed.

(** * choices *)
Lemma accumulate_length acc ws : length (accumulate acc ws) = length ws.
Proof. revert acc. induction ws; intros; cbn; auto. Qed.
Lemma accumulate_nth acc ws i :
  (i < length ws)%nat ->
  nth_error (accumulate acc ws) i = Some (acc + rsum (firstn (S i) ws)).
Proof.
  revert acc i. induction ws as [|w ws IH]; intros acc i Hi; [cbn in Hi; lia|].
  destruct i as [|i]; cbn [accumulate nth_error].
  - f_equal. cbn. lra.
  - rewrite IH by (cbn in Hi; lia). f_equal.
    cbn [firstn rsum fold_right]. unfold rsum. lra.
Qed.
Lemma accumulate_sorted ws :
  Forall (fun w => 0 <= w) ws -> sortedR (accumulate 0 ws).
Proof.
  intros HF i j a b Hij Ha Hb.
  pose proof (nth_error_some_lt _ _ _ Hb) as Hj. rewrite accumulate_length in Hj.
  rewrite accumulate_nth in Ha, Hb by lia.
  injection Ha as <-. injection Hb as <-.
  pose proof (rsum_firstn_mono ws (S i) (S j) HF ltac:(lia)).
  apply Rplus_le_compat_l. assumption.
Qed.

Lemma bisect_spec a x : sortedR a -> forall fuel lo hi,
  (lo <= hi)%nat -> (hi - lo <= fuel)%nat -> (hi <= length a)%nat ->
  exists k, bisect_right fuel a x lo hi = Ok k /\ (lo <= k <= hi)%nat /\
    (forall j v, (lo <= j < k)%nat -> nth_error a j = Some v -> v <= x) /\
    (forall j v, (k <= j < hi)%nat -> nth_error a j = Some v -> x < v).
Proof.
  intros Hs. induction fuel as [|fuel IH]; intros lo hi H1 H2 H3; cbn [bisect_right].
  - rewrite (proj2 (Nat.ltb_ge lo hi)) by lia. exists lo. repeat split; auto; lia.
  - destruct (lo <? hi)%nat eqn:E.
    + apply Nat.ltb_lt in E.
      set (mid := ((lo + hi) / 2)%nat).
      assert (Hmid : (lo <= mid < hi)%nat).
      { unfold mid. split; [apply Nat.div_le_lower_bound|apply Nat.div_lt_upper_bound]; lia. }
      destruct (nth_error_lt a mid) as [am Ham]; [lia|].
      unfold idx. rewrite Ham. cbn [rbind].
      destruct (Rltb x am) eqn:E2; [apply Rltb_true in E2|apply Rltb_false in E2].
      * destruct (IH lo mid) as (k & Hk & Hb & Hlo & Hup); try lia.
        exists k. split; auto. split; [lia|]. split; auto.
        intros j v Hj Hv. destruct (Nat.lt_ge_cases j mid); [apply (Hup j); auto; lia|].
        assert (am <= v) by (eapply (Hs mid j); eauto). lra.
      * destruct (IH (S mid) hi) as (k & Hk & Hb & Hlo & Hup); try lia.
        exists k. split; auto. split; [lia|]. split; auto.
        intros j v Hj Hv. destruct (Nat.lt_ge_cases mid j); [apply (Hlo j); auto; lia|].
        assert (v <= am) by (eapply (Hs j mid); eauto). lra.
    + apply Nat.ltb_ge in E. exists lo. repeat split; auto; lia.
Qed.

Lemma weight_before_mono ws i j :
  Forall (fun w => 0 <= w) ws -> (i <= j)%nat -> weight_before ws i <= weight_before ws j.
Proof. apply rsum_firstn_mono. Qed.

Lemma rev_accumulate ws :
  ws <> [] -> exists t, rev (accumulate 0 ws) = rsum ws :: t.
Proof.
  intros H. assert (Hl : (0 < length ws)%nat) by (destruct ws; cbn; try easy; lia).
  pose proof (accumulate_nth 0 ws (length ws - 1) ltac:(lia)) as Hn.
  replace (S (length ws - 1)) with (length ws) in Hn by lia.
  rewrite firstn_all, Rplus_0_l in Hn.
  destruct (rev (accumulate 0 ws)) as [|a t] eqn:E.
  - apply (f_equal (@length R)) in E. rewrite rev_length, accumulate_length in E.
    cbn in E. lia.
  - exists t. f_equal.
    apply (f_equal (@rev R)) in E. rewrite rev_involutive in E. cbn in E.
    rewrite E in Hn. apply (f_equal (@length R)) in E.
    rewrite accumulate_length, app_length, rev_length in E. cbn in E.
    rewrite nth_error_app2 in Hn by (rewrite rev_length; lia).
    rewrite rev_length in Hn. replace (length ws - 1 - length t)%nat with 0%nat in Hn by lia.
    cbn in Hn. congruence.
Qed.

Lemma choices_spec ws u tr i :
  Forall (fun w => 0 <= w) ws -> 0 < rsum ws -> 0 <= u < 1 ->
  choices (length ws) ws (DU u :: tr) = Ret i tr <->
  (i < length ws)%nat /\
  weight_before ws i <= u * rsum ws < weight_before ws (S i).
Proof.
  intros HF Htot Hu.
  assert (Hne : ws <> []) by (intros ->; cbn in Htot; lra).
  assert (Hl : (0 < length ws)%nat) by (destruct ws; cbn; try easy; lia).
  unfold choices. rewrite accumulate_length, Nat.eqb_refl. cbn [negb].
  destruct (rev_accumulate ws Hne) as (t & ->).
  destruct (Rleb (rsum ws) 0) eqn:E; [apply Rleb_true in E; lra|]. clear E.
  unfold bind at 1. rewrite drawU_ok by auto.
  set (x := u * rsum ws).
  assert (Hx : 0 <= x < rsum ws) by (unfold x; nra).
  destruct (bisect_spec (accumulate 0 ws) x (accumulate_sorted ws HF)
              (length ws) 0 (length ws - 1)) as (k & Hk & Hb & Hlo & Hup); try lia.
  { rewrite accumulate_length. lia. }
  assert (HA : (k < length ws)%nat /\ weight_before ws k <= x < weight_before ws (S k)).
  { split; [lia|]. split.
    - destruct k as [|k]; [unfold weight_before; cbn; lra|].
      assert (H := Hlo k _ ltac:(lia) (accumulate_nth 0 ws k ltac:(lia))).
      unfold weight_before. rewrite Rplus_0_l in H. exact H.
    - destruct (Nat.eq_dec k (length ws - 1)) as [->|].
      + unfold weight_before. replace (S (length ws - 1)) with (length ws) by lia.
        rewrite firstn_all. lra.
      + assert (H := Hup k _ ltac:(lia) (accumulate_nth 0 ws k ltac:(lia))).
        unfold weight_before. rewrite Rplus_0_l in H. exact H. }
  rewrite Hk. cbn [lift]. unfold ret.
  split.
  - intros [= ->]. exact HA.
  - intros (Hi & Hi2). f_equal. destruct HA as (_ & HA).
    destruct (Nat.lt_trichotomy k i) as [H|[H|H]]; auto.
    + pose proof (weight_before_mono ws (S k) i HF H). lra.
    + pose proof (weight_before_mono ws (S i) k HF H). lra.
Qed.

Lemma choices_total ws u tr :
  Forall (fun w => 0 <= w) ws -> 0 < rsum ws -> 0 <= u < 1 ->
  exists i, choices (length ws) ws (DU u :: tr) = Ret i tr.
Proof.
  intros HF Htot Hu.
  assert (Hne : ws <> []) by (intros ->; cbn in Htot; lra).
  assert (Hl : (0 < length ws)%nat) by (destruct ws; cbn; try easy; lia).
  unfold choices. rewrite accumulate_length, Nat.eqb_refl. cbn [negb].
  destruct (rev_accumulate ws Hne) as (t & ->).
  destruct (Rleb (rsum ws) 0) eqn:E; [apply Rleb_true in E; lra|].
  unfold bind at 1. rewrite drawU_ok by auto.
  destruct (bisect_spec (accumulate 0 ws) (u * rsum ws) (accumulate_sorted ws HF)
              (length ws) 0 (length ws - 1)) as (k & Hk & _); try lia.
  { rewrite accumulate_length. lia. }
  rewrite Hk. exists k. reflexivity.
Qed.

(** * One iteration *)
Section One.
Context {St V : Type}.
Variable E : env St V.

(** The perturbation proposes [new] with log ratio [lpr]. *)
Definition proposes (c : chain St V) (tr : trace) (ty : string) (new : St) (lpr : ext)
    (tr' : trace) : Prop :=
  exists i f tr1,
    choices (length (e_funcs E)) (e_weights E) tr = Ret i tr1 /\
    nth_error (e_funcs E) i = Some (ty, f) /\ f (c_cur c) tr1 = Ret (new, lpr) tr'.

(** The likelihood ratio entering the decision, with the states after its evaluation. *)
Inductive evaluates (c : chain St V) (new : St) (lpr : ext) :
    trace -> St -> St -> ext -> trace -> Prop :=
| ev_inf tr : eisinf lpr = true -> evaluates c new lpr tr (c_cur c) new (Fin 0) tr
| ev_like tr old' new' llr tr' :
    eisinf lpr = false ->
    e_like E (c_cur c) new (c_temp c) tr = Ret (old', new', inl llr) tr' ->
    evaluates c new lpr tr old' new' llr tr'.

(** A failure that must be retried. *)
Inductive user_failure (c : chain St V) (tr : trace) : exn -> St -> trace -> Prop :=
| uf_perturb i f ty tr1 tr' :
    choices (length (e_funcs E)) (e_weights E) tr = Ret i tr1 ->
    nth_error (e_funcs E) i = Some (ty, f) ->
    f (c_cur c) tr1 = Err EUser tr' ->
    user_failure c tr EUser (c_cur c) tr'
| uf_like ty new lpr tr1 old' new' e tr' :
    proposes c tr ty new lpr tr1 -> eisinf lpr = false ->
    e_like E (c_cur c) new (c_temp c) tr1 = Ret (old', new', inr e) tr' ->
    (e = EUser \/ e = EForward) ->
    user_failure c tr e old' tr'.

Lemma finish_not_retry ty acc new c c' :
  finish E ty acc new c = (c', Retry) -> False.
Proof.
  unfold finish. destruct (save_statistics E ty acc new _) as [c2|e]; [|discriminate].
  destruct (c_flag c2) as [b|]; [|discriminate].
  destruct (b && Reqb (c_temp c2) 1)%bool; [|discriminate].
  destruct (save_state E c2) as [c3 [e|]]; discriminate.
Qed.

Lemma decide_ret ty new lpr llr c tr c' v tr' :
  decide E ty new lpr llr c tr = Ret (c', v) tr' ->
  exists u, tr = DU u :: tr' /\ 0 <= u < 1 /\
   ((u = 0 /\ c' = c /\ v = Stop EValue) \/
    (0 < u /\ exists acc, (acc = true <-> mhg_accepts (eadd lpr llr) u) /\
       finish E ty acc new c = (c', v))).
Proof.
  unfold decide. intros H. minv. exists a. 
  destruct (py_log_cases a ltac:(auto)) as [[Ha Hl]|[Ha Hl]]; rewrite Hl in *; minv;
    (split; [subst; auto|]); (split; [auto|]).
  - left. auto.
  - right. split; [lra|]. eexists. split; [|eassumption].
    apply accept_rule. lra.
Qed.

Lemma attempt_cases c tr c' v tr' :
  attempt E c tr = Ret (c', v) tr' ->
  (exists e s, v = Retry /\ user_failure c tr e s tr' /\ c' = count_exc e (set_cur s c)) \/
  (exists e, v = Stop e /\ c' = c) \/
  (exists e ty new lpr tr1 old' new',
      v = Stop e /\ proposes c tr ty new lpr tr1 /\
      e_like E (c_cur c) new (c_temp c) tr1 = Ret (old', new', inr e) tr' /\
      e <> EUser /\ e <> EForward /\ c' = set_cur old' c) \/
  (exists ty new lpr tr1 old' new' llr u,
      proposes c tr ty new lpr tr1 /\
      evaluates c new lpr tr1 old' new' llr (DU u :: tr') /\ 0 <= u < 1 /\
      ((u = 0 /\ v = Stop EValue /\ c' = set_cur old' c) \/
       (0 < u /\ exists acc, (acc = true <-> mhg_accepts (eadd lpr llr) u) /\
         finish E ty acc new' (set_cur old' c) = (c', v)))).
Proof.
  assert (Hcc : set_cur (c_cur c) c = c) by now destruct c.
  unfold attempt. intros H. minv. destruct a as [i|e]; minv.
  2:{ right. left. exists e. auto. }
  destruct (nth_error (e_funcs E) i) as [[ty f]|] eqn:Hi; minv.
  2:{ right. left. eexists. auto. }
  destruct a as [[new lpr]|e].
  - assert (Hp : proposes c tr ty new lpr t0) by (exists i, f, t; auto).
    destruct (eisinf lpr) eqn:Hinf.
    + right. right. right.
      match goal with H : decide _ _ _ _ _ _ _ = _ |- _ =>
        apply decide_ret in H; destruct H as (u & -> & Hu & Hc) end.
      exists ty, new, lpr, (DU u :: tr'), (c_cur c), new, (Fin 0), u.
      split; auto. split; [now constructor|]. split; auto.
      rewrite Hcc. destruct Hc as [(? & ? & ?)|(? & ?)]; [left|right]; auto.
    + minv. destruct a as [[old' new'] l]. destruct l as [llr|e].
      * right. right. right.
        match goal with H : decide _ _ _ _ _ _ _ = _ |- _ =>
          apply decide_ret in H; destruct H as (u & -> & Hu & Hc) end.
        exists ty, new, lpr, t0, old', new', llr, u.
        split; auto. split; [now apply ev_like|]. split; auto.
        destruct Hc as [(? & ? & ?)|(? & ?)]; [left|right]; auto.
      * destruct (exn_eq_dec e EUser) as [->|Hu1]; [|destruct (exn_eq_dec e EForward) as [->|Hu2]].
        -- minv. left. exists EUser, old'. split; auto. split; auto.
           eapply uf_like; eauto.
        -- minv. left. exists EForward, old'. split; auto. split; auto.
           eapply uf_like; eauto.
        -- right. right. left. exists e, ty, new, lpr, t0, old', new'.
           destruct e; try congruence; minv; repeat split; auto; congruence.
  - destruct (exn_eq_dec e EUser) as [->|Hu].
    + minv. left. exists EUser, (c_cur c). split; auto. rewrite Hcc. split; auto.
      eapply uf_perturb; eauto.
    + right. left. exists e. destruct e; try congruence; minv; auto.
Qed.

Lemma attempt_retry c tr c' tr' :
  attempt E c tr = Ret (c', Retry) tr' ->
  exists e s, user_failure c tr e s tr' /\ c' = count_exc e (set_cur s c).
Proof.
  intros H. apply attempt_cases in H.
  destruct H as [(e & s & _ & H)|[(e & ? & _)|[(e & ? & ? & ? & ? & ? & ? & ? & _)|
    (ty & new & lpr & tr1 & old' & new' & llr & u & _ & _ & _ & [(_ & ? & _)|(_ & acc & _ & Hf)])]]];
    try discriminate; eauto.
  exfalso. eapply finish_not_retry; eauto.
Qed.

Lemma user_failure_retry c tr e s tr' :
  user_failure c tr e s tr' ->
  attempt E c tr = Ret (count_exc e (set_cur s c), Retry) tr'.
Proof.
  assert (Hcc : set_cur (c_cur c) c = c) by now destruct c.
  unfold attempt, bind, try.
  intros [i f ty tr1 tr2 H1 H2 H3|ty new lpr tr1 old' new' e' tr2 (i & f & tr0 & H1 & H2 & H3) Hinf Hl He].
  - rewrite H1, H2, H3, Hcc. reflexivity.
  - rewrite H1, H2, H3, Hinf, Hl. destruct He as [-> | ->]; reflexivity.
Qed.

Lemma attempt_done c tr c' tr' :
  attempt E c tr = Ret (c', Done) tr' ->
  exists ty new lpr tr1 old' new' llr u acc,
    proposes c tr ty new lpr tr1 /\
    evaluates c new lpr tr1 old' new' llr (DU u :: tr') /\ 0 < u < 1 /\
    (acc = true <-> mhg_accepts (eadd lpr llr) u) /\
    finish E ty acc new' (set_cur old' c) = (c', Done).
Proof.
  intros H. apply attempt_cases in H.
  destruct H as [(e & s & H & _)|[(e & ? & _)|[(e & ? & ? & ? & ? & ? & ? & ? & _)|
    (ty & new & lpr & tr1 & old' & new' & llr & u & Hp & Hev & Hu & [(_ & ? & _)|(Hu0 & acc & Ha & Hf)])]]];
    try discriminate.
  exists ty, new, lpr, tr1, old', new', llr, u, acc. repeat split; auto; try lra; apply Ha.
Qed.

(** The failures [es] in a row. *)
Inductive retries : list exn -> chain St V -> trace -> chain St V -> trace -> Prop :=
| retries_O c tr : retries [] c tr c tr
| retries_S es c tr e s tr1 c2 tr2 :
    user_failure c tr e s tr1 ->
    retries es (count_exc e (set_cur s c)) tr1 c2 tr2 ->
    retries (e :: es) c tr c2 tr2.

Lemma tries_cases k : forall c tr c' o tr',
  tries E k c tr = Ret (c', o) tr' ->
  (exists es, length es = k /\ o = Some ERuntime /\ retries es c tr c' tr') \/
  (exists es c0 tr0, (length es < k)%nat /\ retries es c tr c0 tr0 /\
     attempt E c0 tr0 = Ret (c', match o with None => Done | Some e => Stop e end) tr').
Proof.
  induction k as [|k IH]; intros c tr c' o tr' H; cbn [tries] in H.
  - minv. left. exists []. split; auto. split; auto. subst. constructor.
  - minv. destruct a as [c1 v]. destruct v.
    + destruct (IH _ _ _ _ _ H1) as [(es & Hl & -> & Hr)|(es & c0 & tr0 & Hn & Hr & Ha)];
      apply attempt_retry in H0; destruct H0 as (e & s & Hf & ->).
      * left. exists (e :: es). split; [cbn; lia|]. split; auto. econstructor; eauto.
      * right. exists (e :: es), c0, tr0. split; [cbn; lia|]. split; auto. econstructor; eauto.
    + minv. right. exists [], c, tr. subst. split; [cbn; lia|]. split; [constructor|auto].
    + minv. right. exists [], c, tr. subst. split; [cbn; lia|]. split; [constructor|auto].
Qed.

Lemma retries_tries es : forall k c tr c0 tr0,
  retries es c tr c0 tr0 -> tries E (length es + k) c tr = tries E k c0 tr0.
Proof.
  induction es as [|e es IH]; intros k c tr c0 tr0 H; inversion H; subst.
  - reflexivity.
  - cbn [Nat.add tries length].
    match goal with H : user_failure _ _ _ _ _ |- _ =>
      rewrite (bind_ret _ _ _ _ _ (user_failure_retry _ _ _ _ _ H)) end.
    now apply IH.
Qed.

(** What a failed attempt may change. *)
Lemma retries_frame es c tr c0 tr0 :
  retries es c tr c0 tr0 ->
  c_temp c0 = c_temp c /\ c_nprop c0 = c_nprop c /\ c_nacc c0 = c_nacc c /\
  c_nprop_tot c0 = c_nprop_tot c /\ c_nacc_tot c0 = c_nacc_tot c /\
  c_saved c0 = c_saved c /\ c_flag c0 = c_flag c /\ c_log c0 = c_log c.
Proof.
  induction 1 as [|n c tr e s tr1 c2 tr2 Hf Hr IH]; [auto 10|].
  destruct c. cbn in *. tauto.
Qed.

(** The state is only changed through the likelihood function's cache updates. *)
Lemma retries_cur (same : St -> St -> Prop) es c tr c0 tr0 :
  (forall s, same s s) -> (forall a b d, same a b -> same b d -> same a d) ->
  (forall old new t tr old' new' r tr',
     e_like E old new t tr = Ret (old', new', r) tr' -> same old old') ->
  retries es c tr c0 tr0 -> same (c_cur c) (c_cur c0).
Proof.
  intros Hrefl Htr Hlike. induction 1 as [|n c tr e s tr1 c2 tr2 Hf Hr IH]; auto.
  eapply Htr; [|exact IH]. cbn.
  destruct Hf; auto. eapply Hlike; eauto.
Qed.

Lemma user_failure_class c tr e s tr' :
  user_failure c tr e s tr' -> e = EUser \/ e = EForward.
Proof. intros H. destruct H; auto. Qed.

Lemma exn_name_inj e e' :
  (e = EUser \/ e = EForward) -> (e' = EUser \/ e' = EForward) ->
  exn_name e = exn_name e' -> e = e'.
Proof. intros [-> | ->] [-> | ->]; cbn; congruence. Qed.

End One.

(** * Dictionaries *)
Lemma dget_dset_same {A} k (v : A) d : dget k (dset k v d) = Some v.
Proof.
  induction d as [|[k' v'] d IH]; cbn.
  - now rewrite String.eqb_refl.
  - destruct (String.eqb k k') eqn:E; cbn; [now rewrite String.eqb_refl|].
    now rewrite E.
Qed.
Lemma dget_dset_other {A} k k' (v : A) d : k <> k' -> dget k (dset k' v d) = dget k d.
Proof.
  intros H. induction d as [|[k2 v2] d IH]; cbn.
  - apply String.eqb_neq in H. now rewrite H.
  - destruct (String.eqb k' k2) eqn:E; cbn.
    + apply String.eqb_eq in E. subst k2.
      apply String.eqb_neq in H. now rewrite H.
    + destruct (String.eqb k k2); auto.
Qed.
Lemma stored_append {V} k k' (v : V) d :
  stored k (append_saved k' v d) =
  stored k d ++ (if String.eqb k' k then [v] else []).
Proof.
  unfold stored, append_saved. destruct (String.eqb k' k) eqn:E.
  - apply String.eqb_eq in E. subst. rewrite dget_dset_same. now destruct (dget k d).
  - apply String.eqb_neq in E. rewrite dget_dset_other by auto. now rewrite app_nil_r.
Qed.

(** Occurrences in the exception counter. *)
Definition count_of (k : string) (d : dict nat) : nat :=
  match dget k d with Some n => n | None => 0 end.
Fixpoint occurrences (e : exn) (es : list exn) : nat :=
  match es with
  | [] => 0
  | x :: t => ((if exn_eq_dec x e then 1 else 0) + occurrences e t)%nat
  end.
Lemma retries_counts {St V} (E : env St V) es c tr c0 tr0 e :
  (e = EUser \/ e = EForward) ->
  retries E es c tr c0 tr0 ->
  count_of (exn_name e) (c_exc c0) =
  (count_of (exn_name e) (c_exc c) + occurrences e es)%nat.
Proof.
  intros He. induction 1 as [|es c tr x s tr1 c2 tr2 Hf Hr IH]; [cbn; lia|].
  rewrite IH. cbn [occurrences]. unfold count_exc. cbn [c_exc set_exc set_cur].
  unfold count_of at 1. apply user_failure_class in Hf.
  destruct (exn_eq_dec x e) as [->|Hne].
  - rewrite dget_dset_same. unfold count_of. lia.
  - rewrite dget_dset_other; [unfold count_of; lia|].
    intros HH. apply exn_name_inj in HH; auto.
Qed.
Lemma retries_other {St V} (E : env St V) es c tr c0 tr0 k :
  k <> exn_name EUser -> k <> exn_name EForward ->
  retries E es c tr c0 tr0 -> dget k (c_exc c0) = dget k (c_exc c).
Proof.
  intros H1 H2. induction 1 as [|es c tr x s tr1 c2 tr2 Hf Hr IH]; auto.
  rewrite IH. unfold count_exc. cbn [c_exc set_exc set_cur].
  apply dget_dset_other. apply user_failure_class in Hf. destruct Hf as [-> | ->]; auto.
Qed.
