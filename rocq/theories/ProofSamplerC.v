(** Lemmas about annealing, callbacks and interleaving. *)
From Coq Require Import Permutation.
From Verif Require Import Base ModelChain ModelSampler SpecChain SpecSampler
  ProofUtils1D ProofChain ProofChainB ProofChainC ProofSampler ProofSamplerB.
Local Open Scope R_scope.

Section Anneal.
Context {St V : Type}.
Variable E : env St V.
Let chain := chain St V.

Lemma cool_formula T0 B i : 0 < T0 -> (i < B)%nat ->
  T0 * exp (- (ln T0 / INR B) * INR i) = cool T0 B i.
Proof.
  intros HT Hi. unfold cool. rewrite (proj2 (Nat.ltb_lt _ _) Hi).
  unfold Rpower. rewrite <- (exp_ln T0) at 1 by auto. rewrite <- exp_plus. f_equal.
  assert (0 < INR B) by (apply lt_0_INR; lia). field. lra.
Qed.
Lemma cool_after T0 B i : (B <= i)%nat -> cool T0 B i = 1.
Proof. intros H. unfold cool. now rewrite (proj2 (Nat.ltb_ge _ _) H). Qed.
Lemma exp_mono a b : a <= b -> exp a <= exp b.
Proof. intros [H| ->]; [left; now apply exp_increasing|lra]. Qed.
Lemma cool_bounds T0 B i : 1 < T0 -> 1 <= cool T0 B i <= T0.
Proof.
  intros HT. unfold cool. destruct (i <? B)%nat eqn:H; [|lra]. apply Nat.ltb_lt in H.
  assert (HB : 0 < INR B) by (apply lt_0_INR; lia).
  assert (Hi : INR i < INR B) by now apply lt_INR.
  assert (Hi0 : 0 <= INR i) by apply pos_INR.
  assert (Hln : 0 < ln T0) by (rewrite <- ln_1; apply ln_increasing; lra).
  assert (Hq : 0 <= INR i / INR B <= 1).
  { split; [apply Rmult_le_pos; auto; left; now apply Rinv_0_lt_compat|].
    apply (Rmult_le_reg_r (INR B)); auto. unfold Rdiv. rewrite Rmult_assoc, Rinv_l; lra. }
  unfold Rpower. split.
  - apply Rle_trans with (exp 0); [rewrite exp_0; lra|]. apply exp_mono. nra.
  - apply Rle_trans with (exp (ln T0)); [apply exp_mono; nra|]. rewrite exp_ln; lra.
Qed.
Lemma cool_decreasing T0 B i : 1 < T0 -> cool T0 B (S i) <= cool T0 B i.
Proof.
  intros HT. unfold cool at 1. destruct (S i <? B)%nat eqn:H; [|apply cool_bounds; auto].
  apply Nat.ltb_lt in H. unfold cool. rewrite (proj2 (Nat.ltb_lt i B)) by lia.
  assert (HB : 0 < INR B) by (apply lt_0_INR; lia).
  assert (Hln : 0 < ln T0) by (rewrite <- ln_1; apply ln_increasing; lra).
  unfold Rpower. left. apply exp_increasing. apply Rmult_lt_compat_r; auto.
  rewrite S_INR. assert (0 < / INR B) by now apply Rinv_0_lt_compat. unfold Rdiv. nra.
Qed.

Section Run.
Variables (T0 : R) (B : nat) (rate : R) (xi : list (lhook St V)) (xb xe : list (hook St V)) (xa : list (lhook St V)).
Hypothesis HT0 : 0 < T0.
Hypothesis Hrate : (0 < B)%nat -> rate = ln T0 / INR B.
Hypothesis Hxb : Forall (fun h => leaves_records (Some h) /\ leaves_temp (Some h)) xb.
Hypothesis Hxe : Forall (fun h => leaves_records (Some h) /\ leaves_temp (Some h)) xe.
Let s := simulated_annealing E T0 B rate xi xb xe xa.

Lemma sa_begin_records : leaves_records (Some (begin_iteration s)).
Proof.
  apply leaves_records_all. constructor.
  - intros c tr c' o tr' H. cbn in H. unfold sa_on_begin in H.
    destruct (_ <? B)%nat; [|destruct (_ =? B)%nat]; minv; subst; cbn; auto 10.
  - eapply Forall_impl; [|exact Hxb]. intros ? []; assumption.
Qed.
Lemma sa_end_records : leaves_records (Some (end_iteration s)).
Proof.
  apply leaves_records_all. constructor; [apply nothing_records|].
  eapply Forall_impl; [|exact Hxe]. intros ? []; assumption.
Qed.
Lemma sa_end_temp : leaves_temp (Some (end_iteration s)).
Proof.
  apply leaves_temp_all. constructor; [apply nothing_temp|].
  eapply Forall_impl; [|exact Hxe]. intros ? []; assumption.
Qed.
Lemma sa_begin_temp c tr c' tr' :
  begin_iteration s c tr = Ret (c', None) tr' ->
  c_nprop_tot c' = c_nprop_tot c /\
  (c_temp c' = if (B <? c_nprop_tot c)%nat then c_temp c else cool T0 B (c_nprop_tot c)).
Proof.
  intros H. split.
  { pose proof (sa_begin_records c tr c' None tr' H). tauto. }
  unfold begin_iteration in H. apply call_all_ok in H. destruct H as (c1 & tr1 & H1 & H2).
  assert (Ht : c_temp c' = c_temp c1).
  { eapply (leaves_temp_all xb); [|exact H2].
    eapply Forall_impl; [|exact Hxb]. intros ? []; assumption. }
  rewrite Ht. clear Ht H2. cbn [s simulated_annealing sm_on_begin] in H1. unfold sa_on_begin in H1.
  destruct (c_nprop_tot c <? B)%nat eqn:Hlt; minv; subst.
  - apply Nat.ltb_lt in Hlt. destruct (Nat.ltb_spec B (c_nprop_tot c)); [lia|].
    cbn [set_temperature c_temp]. rewrite Hrate by lia. now apply cool_formula.
  - apply Nat.ltb_ge in Hlt. destruct (Nat.eqb_spec (c_nprop_tot c) B) as [Heq|Hne]; minv; subst.
    + rewrite Nat.ltb_irrefl. cbn [set_temperature c_temp]. symmetry. apply cool_after. lia.
    + destruct (Nat.ltb_spec B (c_nprop_tot c1)); [auto|lia].
Qed.

Lemma sa_round sc c tr ce c' tr' :
  round E sc (Some (begin_iteration s)) (Some (end_iteration s)) c tr ce c' tr' ->
  c_nprop_tot c' = S (c_nprop_tot c) /\ c_temp c' = c_temp ce /\
  c_temp ce = if (B <? c_nprop_tot c)%nat then c_temp c else cool T0 B (c_nprop_tot c).
Proof.
  intros H. pose proof (round_facts E _ _ _ _ _ _ _ _ sa_begin_records sa_end_records H) as (_ & Hn & _).
  split; auto. destruct H as (flag & cb & tr1 & tr2 & _ & H1 & H2 & H3).
  apply sa_end_temp in H3. split; auto.
  apply tries_frame in H2. destruct H2 as [-> _].
  cbn [call_hook] in H1. apply sa_begin_temp in H1. destruct H1 as [_ ->]. reflexivity.
Qed.

Lemma sa_rounds sc c tr ces c' tr' :
  rounds E sc (Some (begin_iteration s)) (Some (end_iteration s)) c tr ces c' tr' ->
  ((B < c_nprop_tot c)%nat -> c_temp c = 1) ->
  forall j ce, nth_error ces j = Some ce -> c_temp ce = cool T0 B (c_nprop_tot c + j).
Proof.
  intros H. induction H as [|c tr ce c1 tr1 ces c' tr' Hr Hrs IH]; intros Hc [|j] x Hx; cbn in Hx; try discriminate.
  - injection Hx as <-. apply sa_round in Hr. destruct Hr as (_ & _ & ->). rewrite Nat.add_0_r.
    destruct (Nat.ltb_spec B (c_nprop_tot c)); auto. rewrite cool_after by lia. auto.
  - apply sa_round in Hr. destruct Hr as (Hn & Ht & Hce).
    rewrite (IH) with (j := j) (ce := x); auto.
    + f_equal. lia.
    + intros Hlt. rewrite Ht, Hce. destruct (Nat.ltb_spec B (c_nprop_tot c)); auto.
      apply cool_after. lia.
Qed.
Lemma sa_rounds_late sc c tr ces c' tr' :
  rounds E sc (Some (begin_iteration s)) (Some (end_iteration s)) c tr ces c' tr' ->
  (B < c_nprop_tot c)%nat ->
  c_temp c' = c_temp c /\ forall ce, In ce ces -> c_temp ce = c_temp c.
Proof.
  intros H. induction H as [|c tr ce c1 tr1 ces c' tr' Hr Hrs IH]; intros Hc; [split; [auto|intros ? []]|].
  apply sa_round in Hr. destruct Hr as (Hn & Ht & Hce).
  destruct (Nat.ltb_spec B (c_nprop_tot c)); [|lia].
  destruct IH as [I1 I2]; [lia|]. split; [congruence|].
  intros x [<-|Hx]; [auto|]. rewrite (I2 _ Hx). congruence.
Qed.
End Run.
End Anneal.

(** ** Callbacks that take notes *)
Section Notes.
Context {St V : Type}.
Variable E : env St V.
Let chain := chain St V.

(** The hook writes one entry, computed from the number of completed iterations. *)
Definition notes (f : nat -> nat) (h : hook St V) : Prop :=
  forall c tr c' o tr', h c tr = Ret (c', o) tr' ->
    o = None /\ c_log c' = c_log c ++ [f (c_nprop_tot c)] /\ c_nprop_tot c' = c_nprop_tot c.
(** The hook writes nothing. *)
Definition silent (h : hook St V) : Prop :=
  forall c tr c' o tr', h c tr = Ret (c', o) tr' ->
    c_log c' = c_log c /\ c_nprop_tot c' = c_nprop_tot c.

Lemma call_all_notes fs hs : Forall2 notes fs hs ->
  forall c tr c' o tr', call_all hs c tr = Ret (c', o) tr' ->
  o = None /\ c_log c' = c_log c ++ map (fun f => f (c_nprop_tot c)) fs /\
  c_nprop_tot c' = c_nprop_tot c.
Proof.
  induction 1 as [|f h fs hs Hf HF IH]; intros c tr c' o tr' H; cbn [call_all] in H; minv; subst.
  - cbn. rewrite app_nil_r. auto.
  - destruct a as [c1 o1]. apply Hf in H0. destruct H0 as (-> & Hl & Hn).
    apply IH in H1. destruct H1 as (-> & Hl' & Hn').
    split; auto. rewrite Hl', Hl, Hn'. rewrite Hn. cbn [map].
    split; auto. now rewrite <- app_assoc.
Qed.
Lemma begin_notes own fs hs c tr c' tr' : silent own -> Forall2 notes fs hs ->
  call_all (own :: hs) c tr = Ret (c', None) tr' ->
  c_log c' = c_log c ++ map (fun f => f (c_nprop_tot c)) fs /\ c_nprop_tot c' = c_nprop_tot c.
Proof.
  intros Ho HF H. apply call_all_ok in H. destruct H as (c1 & tr1 & H1 & H2).
  apply Ho in H1. destruct H1 as [H1 H1']. apply (call_all_notes _ _ HF) in H2.
  destruct H2 as (_ & H2 & H2'). rewrite H2, H2', H1, H1'. auto.
Qed.

Lemma next_count c tr c' tr' : next_iteration E c tr = Ret (c', None) tr' ->
  c_nprop_tot c' = S (c_nprop_tot c).
Proof.
  intros H. apply next_frame in H. destruct H as (_ & _ & _ & H & _). exact H.
Qed.

Lemma rounds_notes sc ob oe fs gs hb he : silent ob -> silent oe ->
  Forall2 notes fs hb -> Forall2 notes gs he ->
  forall c tr ces c' tr',
  rounds E sc (Some (call_all (ob :: hb))) (Some (call_all (oe :: he))) c tr ces c' tr' ->
  c_log c' = c_log c ++
    concat (map (fun i => map (fun f => f i) fs ++ map (fun g => g (S i)) gs)
              (seq (c_nprop_tot c) (length ces))).
Proof.
  intros Hob Hoe HF HG c tr ces c' tr' H.
  induction H as [|c tr ce c1 tr1 ces c' tr' Hr Hrs IH]; [cbn; now rewrite app_nil_r|].
  destruct Hr as (flag & cb & t1 & t2 & _ & H1 & H2 & H3). cbn [call_hook] in H1, H3.
  apply (begin_notes _ _ _ _ _ _ _ Hob HF) in H1. cbn [set_flag c_log c_nprop_tot] in H1.
  destruct H1 as [L1 N1].
  pose proof (next_count _ _ _ _ H2) as N2. apply tries_frame in H2. destruct H2 as [_ L2].
  apply (begin_notes _ _ _ _ _ _ _ Hoe HG) in H3. destruct H3 as [L3 N3].
  rewrite IH. cbn [length seq map concat].
  rewrite L3, L2, L1, N3, N2, N1. rewrite !app_assoc. reflexivity.
Qed.
End Notes.

(** ** Interleaving *)
Section Interleave.
Context {St V : Type}.
Variable E : env St V.
Variables (sc : sched) (b e : option (hook St V)).

(** Workers with their chains and their own streams of random numbers; a step of worker
    [i] is one iteration of its chain. *)
Definition work_step (i : nat) (cfg : list (chain St V * trace)) : option (list (chain St V * trace)) :=
  match nth_error cfg i with
  | None => None
  | Some (c, tr) =>
      match advance_one E sc b e c tr with
      | Ret (c', None) tr' => Some (set_nth cfg i (c', tr'))
      | _ => None
      end
  end.
Fixpoint work (sch : list nat) (cfg : list (chain St V * trace)) : option (list (chain St V * trace)) :=
  match sch with
  | [] => Some cfg
  | i :: t => match work_step i cfg with Some cfg' => work t cfg' | None => None end
  end.

Lemma nth_error_ext {A} (l1 l2 : list A) :
  (forall i, nth_error l1 i = nth_error l2 i) -> l1 = l2.
Proof.
  revert l2. induction l1 as [|a l1 IH]; intros [|x l2] H; auto.
  - now specialize (H 0%nat).
  - now specialize (H 0%nat).
  - f_equal; [specialize (H 0%nat); cbn in H; congruence|]. apply IH. intros i. apply (H (S i)).
Qed.

Lemma work_advance sch : forall cfg cfg',
  length cfg' = length cfg ->
  (forall i, In i sch -> (i < length cfg)%nat) ->
  (forall i c tr, nth_error cfg i = Some (c, tr) -> exists c' tr',
     nth_error cfg' i = Some (c', tr') /\
     advance E (count_occ Nat.eq_dec sch i) sc b e c tr = Ret (c', None) tr') ->
  work sch cfg = Some cfg'.
Proof.
  induction sch as [|i sch IH]; intros cfg cfg' Hlen Hin Hadv; cbn [work].
  - f_equal. apply nth_error_ext. intros i. destruct (nth_error cfg i) as [[c tr]|] eqn:Hi.
    + destruct (Hadv i c tr Hi) as (c' & tr' & -> & Ha). cbn in Ha. unfold ret in Ha. congruence.
    + symmetry. apply nth_error_None. rewrite Hlen. now apply nth_error_None.
  - unfold work_step. assert (Hi : (i < length cfg)%nat) by (apply Hin; now left).
    destruct (nth_error cfg i) as [[c tr]|] eqn:Hc; [|apply nth_error_None in Hc; lia].
    destruct (Hadv i c tr Hc) as (c' & tr' & Hc' & Ha).
    cbn [count_occ] in Ha. destruct (Nat.eq_dec i i) as [_|]; [|easy].
    cbn [advance] in Ha. apply bind_ret_inv in Ha. destruct Ha as ([c1 o] & tr1 & H1 & H2).
    rewrite H1. destruct o as [x|]; [minv; discriminate|].
    apply IH.
    + rewrite (set_nth_length_eq _ _ _ _ Hc). auto.
    + intros k Hk. rewrite (set_nth_length_eq _ _ _ _ Hc). apply Hin. now right.
    + intros k ck trk Hk. rewrite (set_nth_nth _ _ _ _ _ Hc) in Hk.
      destruct (Nat.eqb_spec k i) as [->|Hne].
      * injection Hk as <- <-. eauto.
      * destruct (Hadv k ck trk Hk) as (c2 & tr2 & G1 & G2). cbn [count_occ] in G2.
        destruct (Nat.eq_dec i k) as [->|]; [easy|]. eauto.
Qed.
End Interleave.
