(** Lemmas about samplers: callbacks, runs over several chains. *)
From Coq Require Import Permutation.
From Verif Require Import Base ModelChain ModelSampler SpecChain SpecSampler
  ProofUtils1D ProofChain ProofChainB ProofChainC.
Local Open Scope R_scope.

Section Generic.
Context {St V : Type}.
Variable E : env St V.
Let chain := chain St V.

(** ** What a run does not change *)
(** A relation between the chain before and after that every step respects. *)
Record respected (R : chain -> chain -> Prop) (b e : option (hook St V)) : Prop := {
  rp_refl : forall c, R c c;
  rp_trans : forall a b c, R a b -> R b c -> R a c;
  rp_flag : forall f c, R c (set_flag f c);
  rp_attempt : forall c tr c' v tr', attempt E c tr = Ret (c', v) tr' -> R c c';
  rp_begin : forall c tr c' o tr', call_hook b c tr = Ret (c', o) tr' -> R c c';
  rp_end : forall c tr c' o tr', call_hook e c tr = Ret (c', o) tr' -> R c c'
}.

Lemma tries_respects R b e (HR : respected R b e) k : forall c tr c' o tr',
  tries E k c tr = Ret (c', o) tr' -> R c c'.
Proof.
  induction k as [|k IH]; intros c tr c' o tr' H; cbn [tries] in H; minv; subst.
  - apply (rp_refl _ _ _ HR).
  - destruct a as [c1 v]. apply (rp_attempt _ _ _ HR) in H0.
    destruct v; minv; subst; auto.
    eapply (rp_trans _ _ _ HR); [exact H0|]. eapply IH; eauto.
Qed.

Lemma advance_one_respects R sc b e (HR : respected R b e) c tr c' o tr' :
  advance_one E sc b e c tr = Ret (c', o) tr' -> R c c'.
Proof.
  unfold advance_one. destruct (save_flag sc _) as [flag|x|]; [| |discriminate].
  2:{ intros H. minv. subst. apply (rp_refl _ _ _ HR). }
  intros H. minv. destruct a as [c1 o1].
  assert (K1 : R c c1).
  { eapply (rp_trans _ _ _ HR); [apply (rp_flag _ _ _ HR)|]. eapply (rp_begin _ _ _ HR); eauto. }
  destruct o1 as [x|]; minv; subst; auto.
  destruct a as [c2 o2].
  assert (K2 : R c c2).
  { eapply (rp_trans _ _ _ HR); [exact K1|]. eapply tries_respects; eauto. }
  destruct o2 as [x|]; minv; subst; auto.
  destruct a as [c3 o3].
  assert (K3 : R c c3).
  { eapply (rp_trans _ _ _ HR); [exact K2|]. eapply (rp_end _ _ _ HR); eauto. }
  destruct o3 as [x|]; minv; subst; auto.
  destruct (sc_verbose sc); minv; subst; auto.
  destruct (sc_print_every sc =? 0)%nat; minv; subst; auto.
  destruct (_ mod _ =? 0)%nat; minv; subst; auto.
  destruct (print_statistics c3); minv; subst; auto.
Qed.

Lemma advance_respects R sc b e (HR : respected R b e) n : forall c tr c' o tr',
  advance E n sc b e c tr = Ret (c', o) tr' -> R c c'.
Proof.
  induction n as [|n IH]; intros c tr c' o tr' H; cbn [advance] in H; minv; subst.
  - apply (rp_refl _ _ _ HR).
  - destruct a as [c1 [x|]]; apply (advance_one_respects _ _ _ _ HR) in H0; minv; subst; auto.
    eapply (rp_trans _ _ _ HR); [exact H0|]. eapply IH; eauto.
Qed.

(** Temperature and notes are not touched by an attempt. *)
Lemma finish_frame ty acc new c c' v : finish E ty acc new c = (c', v) ->
  c_temp c' = c_temp c /\ c_log c' = c_log c.
Proof.
  unfold finish. set (c1 := if acc then set_cur new c else c).
  assert (H1 : c_temp c1 = c_temp c /\ c_log c1 = c_log c) by (unfold c1; destruct acc; auto).
  destruct (save_statistics E ty acc new c1) as [c2|e] eqn:Hs.
  2:{ now intros [= <- <-]. }
  assert (Hc2 : c_temp c2 = c_temp c /\ c_log c2 = c_log c).
  { revert Hs. unfold save_statistics.
    destruct (prefix _ _); [destruct (s_pstats _ _)|]; intros [= <-]; exact H1. }
  destruct (c_flag c2); [|now intros [= <- <-]].
  destruct (_ && _)%bool; [|now intros [= <- <-]].
  destruct (save_state E c2) as [c3 o] eqn:Hsv. intros [= <- <-].
  apply save_state_frame in Hsv. destruct Hsv as [sv ->]. exact Hc2.
Qed.
Lemma attempt_frame c tr c' v tr' : attempt E c tr = Ret (c', v) tr' ->
  c_temp c' = c_temp c /\ c_log c' = c_log c.
Proof.
  intros H. apply attempt_cases in H.
  destruct H as [(e & s & _ & Hu & ->)|[(e & _ & ->)|[(e & ty & new & lpr & tr1 & old' & new' & _ & _ & Hl & _ & _ & ->)|
    (ty & new & lpr & tr1 & old' & new' & llr & u & Hp & He & _ & Hc)]]]; auto.
  destruct Hc as [(_ & _ & ->)|(_ & acc & _ & Hf)]; [auto|].
  apply finish_frame in Hf. exact Hf.
Qed.
Lemma tries_frame k c tr c' o tr' : tries E k c tr = Ret (c', o) tr' ->
  c_temp c' = c_temp c /\ c_log c' = c_log c.
Proof.
  revert c tr. induction k as [|k IH]; intros c tr H; cbn [tries] in H; minv; subst; auto.
  destruct a as [c1 v]. apply attempt_frame in H0. destruct H0 as [H2 H3].
  destruct v; minv; subst; auto. apply IH in H1. destruct H1. split; congruence.
Qed.

Definition leaves_temp (h : option (hook St V)) : Prop :=
  forall c tr c' o tr', call_hook h c tr = Ret (c', o) tr' -> c_temp c' = c_temp c.

Lemma advance_keeps_temp sc b e n c tr c' o tr' :
  leaves_temp b -> leaves_temp e ->
  advance E n sc b e c tr = Ret (c', o) tr' -> c_temp c' = c_temp c.
Proof.
  intros Hb He. apply (advance_respects (fun c c' => c_temp c' = c_temp c)). constructor; auto.
  - intros; congruence.
  - intros ? ? ? ? ? H. apply attempt_frame in H. tauto.
Qed.

(** ** Callback lists *)
Lemma call_all_respects {X} (R : X -> X -> Prop) (fs : list (X -> M (X * option exn))) :
  (forall x, R x x) -> (forall a b c, R a b -> R b c -> R a c) ->
  Forall (fun f => forall x tr x' o tr', f x tr = Ret (x', o) tr' -> R x x') fs ->
  forall x tr x' o tr', call_all fs x tr = Ret (x', o) tr' -> R x x'.
Proof.
  intros Hr Ht HF. induction HF as [|f fs Hf HF IH]; intros x tr x' o tr' H; cbn [call_all] in H; minv; subst; auto.
  destruct a as [x1 [e|]]; minv; subst.
  - eapply Hf; eauto.
  - eapply Ht; [eapply Hf; eauto|]. eapply IH; eauto.
Qed.
Lemma call_all_ok {X} (f : X -> M (X * option exn)) fs x tr x' tr' :
  call_all (f :: fs) x tr = Ret (x', None) tr' <->
  exists x1 tr1, f x tr = Ret (x1, None) tr1 /\ call_all fs x1 tr1 = Ret (x', None) tr'.
Proof.
  cbn [call_all]. split.
  - intros H. minv. destruct a as [x1 [e|]]; minv; [discriminate|]. eauto.
  - intros (x1 & tr1 & H1 & H2). rewrite (bind_ret _ _ _ _ _ H1). exact H2.
Qed.

Lemma leaves_records_all (fs : list (hook St V)) :
  Forall (fun f => leaves_records (Some f)) fs -> leaves_records (Some (call_all fs)).
Proof.
  intros HF c tr c' o tr' H. cbn [call_hook] in H. revert H.
  apply (call_all_respects (fun c c' =>
    c_saved c' = c_saved c /\ c_flag c' = c_flag c /\
    c_nprop c' = c_nprop c /\ c_nacc c' = c_nacc c /\
    c_nprop_tot c' = c_nprop_tot c /\ c_nacc_tot c' = c_nacc_tot c)); auto 10.
  intros a b d (?&?&?&?&?&?) (?&?&?&?&?&?). repeat split; congruence.
Qed.
Lemma leaves_temp_all (fs : list (hook St V)) :
  Forall (fun f => leaves_temp (Some f)) fs -> leaves_temp (Some (call_all fs)).
Proof.
  intros HF c tr c' o tr' H. cbn [call_hook] in H. revert H.
  apply (call_all_respects (fun c c' => c_temp c' = c_temp c)); auto.
  intros; congruence.
Qed.
Lemma keeps_temp_all temp_of (fs : list (hook St V)) :
  Forall (fun f => keeps_temp temp_of (Some f)) fs -> keeps_temp temp_of (Some (call_all fs)).
Proof.
  intros HF c tr c' o tr' H. cbn [call_hook] in H. revert H.
  apply (call_all_respects (fun c c' => temp_agrees temp_of c -> temp_agrees temp_of c')); auto.
Qed.
Lemma nothing_records : leaves_records (Some (@nothing St V)).
Proof. intros c tr c' o tr' H. cbn in H. unfold nothing in H. minv. subst. auto 10. Qed.
Lemma nothing_temp : leaves_temp (Some (@nothing St V)).
Proof. intros c tr c' o tr' H. cbn in H. unfold nothing in H. minv. subst. auto 10. Qed.

(** ** Several chains *)
(** Every chain went through [f] without exception, one after the other. *)
Inductive all_chains (f : hook St V) : list chain -> trace -> list chain -> trace -> Prop :=
| ac_nil tr : all_chains f [] tr [] tr
| ac_cons c tr c' tr1 t t' tr' :
    f c tr = Ret (c', None) tr1 -> all_chains f t tr1 t' tr' ->
    all_chains f (c :: t) tr (c' :: t') tr'.

Lemma each_chain_ok f cs : forall tr cs' tr',
  each_chain f cs tr = Ret (cs', None) tr' <-> all_chains f cs tr cs' tr'.
Proof.
  induction cs as [|c cs IH]; intros tr cs' tr'; cbn [each_chain]; split.
  - intros H. minv. subst. constructor.
  - intros H. inversion H; subst. reflexivity.
  - intros H. minv. destruct a as [c1 [x|]]; minv; [discriminate|].
    destruct a as [t1 o]. minv. subst. econstructor; [eauto|]. now apply IH.
  - intros H. inversion H as [|? ? ? ? ? ? ? Hf Ha]; subst. unfold bind at 1. rewrite Hf.
    apply IH in Ha. unfold bind at 1. rewrite Ha. reflexivity.
Qed.

Lemma each_chain_fail f cs : forall tr cs' x tr',
  each_chain f cs tr = Ret (cs', Some x) tr' ->
  exists done c rest done' c' tr1,
    cs = done ++ c :: rest /\ cs' = done' ++ c' :: rest /\
    all_chains f done tr done' tr1 /\ f c tr1 = Ret (c', Some x) tr'.
Proof.
  induction cs as [|c cs IH]; intros tr cs' x tr'; cbn [each_chain].
  - intros H. minv. discriminate.
  - intros H. minv. destruct a as [c1 [y|]]; minv.
    + subst. exists [], c, cs, [], c1, tr. repeat split; auto. constructor.
    + destruct a as [t1 o]. minv. subst.
      destruct (IH _ _ _ _ H) as (dn & c0 & rest & dn' & c0' & tr1 & -> & -> & Ha & Hf).
      exists (c :: dn), c0, rest, (c1 :: dn'), c0', tr1. repeat split; auto.
      econstructor; eauto.
Qed.

Lemma each_chain_respects (R : chain -> chain -> Prop) f cs :
  (forall c, R c c) ->
  (forall c tr c' o tr', f c tr = Ret (c', o) tr' -> R c c') ->
  forall tr cs' o tr', each_chain f cs tr = Ret (cs', o) tr' -> Forall2 R cs cs'.
Proof.
  intros Hr Hf. induction cs as [|c cs IH]; intros tr cs' o tr'; cbn [each_chain]; intros H; minv.
  - subst. constructor.
  - destruct a as [c1 [y|]]; minv; subst.
    + constructor; [eauto|]. clear -Hr. induction cs; auto.
    + destruct a as [t1 o1]. minv. subst. constructor; eauto.
Qed.

Lemma all_chains_length f cs tr cs' tr' : all_chains f cs tr cs' tr' -> length cs' = length cs.
Proof. induction 1; cbn; auto. Qed.
Lemma all_chains_nth f cs tr cs' tr' : all_chains f cs tr cs' tr' ->
  forall k c, nth_error cs k = Some c ->
  exists c' t t', nth_error cs' k = Some c' /\ f c t = Ret (c', None) t'.
Proof.
  induction 1 as [|c tr c' tr1 t t' tr' Hf Ha IH]; intros [|k] c0 Hk; cbn in Hk; try discriminate.
  - injection Hk as <-. exists c', tr, tr1. split; auto.
  - apply IH in Hk. exact Hk.
Qed.

End Generic.
