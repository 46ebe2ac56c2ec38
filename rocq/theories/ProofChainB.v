(** Proofs about runs of the chain: saving schedule, splitting, statistics. *)
From Verif Require Import Base ModelChain SpecChain SpecUtils1D ProofUtils1D ProofUtils1DB ProofChain.
Local Open Scope R_scope.

Section Run.
Context {St V : Type}.
Variable E : env St V.
Notation chain := (chain St V).

(** Entries not saved: "<space>.n_dimensions" of spaces with fixed dimension. *)
Definition fixed_entry (k : string) : bool :=
  contains "n_dimensions" k &&
  match e_transd E with
  | Some look => match look (strip_ndim k) with Some false => true | _ => false end
  | None => false
  end.
Definition cache_of (s : St) : list (string * V) :=
  match s_cache (e_ops E) s with Some c => c | None => [] end.
Definition sample (k : string) (s : St) : list V :=
  sample_values fixed_entry (e_savedpred E) k (s_items (e_ops E) s) (cache_of s).

Lemma skip_key_ok k b : skip_key E k = Ok b -> b = fixed_entry k.
Proof.
  unfold skip_key, fixed_entry. destruct (contains "n_dimensions" k); cbn; [|congruence].
  destruct (e_transd E) as [look|]; [|congruence].
  destruct (look (strip_ndim k)) as [[]|]; cbn; congruence.
Qed.
Lemma skip_key_undef k : skip_key E k <> Undef.
Proof.
  unfold skip_key. destruct (contains _ k); [|easy]. destruct (e_transd E) as [look|]; [|easy].
  now destruct (look (strip_ndim k)).
Qed.

Lemma save_items_stored its : forall d d' k,
  save_items E its d = (d', None) ->
  stored k d' = stored k d ++ (if fixed_entry k then [] else values_of k its).
Proof.
  induction its as [|[k0 v] t IH]; intros d d' k H; cbn [save_items] in H.
  - injection H as <-. unfold values_of. cbn. destruct (fixed_entry k); now rewrite app_nil_r.
  - destruct (skip_key E k0) as [[]|e|] eqn:Hs.
    + apply skip_key_ok in Hs. rewrite (IH _ _ k H). f_equal.
      destruct (fixed_entry k) eqn:Hk; auto.
      unfold values_of. cbn [filter fst].
      destruct (String.eqb k0 k) eqn:Ek; auto.
      apply String.eqb_eq in Ek. congruence.
    + apply skip_key_ok in Hs. rewrite (IH _ _ k H), stored_append, <- app_assoc. f_equal.
      unfold values_of. cbn [filter fst].
      destruct (String.eqb k0 k) eqn:Ek; auto.
      apply String.eqb_eq in Ek. subst k0. rewrite <- Hs. reflexivity.
    + discriminate.
    + now apply skip_key_undef in Hs.
Qed.

Lemma save_preds_stored (cs : list (string * V)) : forall d k,
  stored k (save_preds cs d) =
  stored k d ++ (if contains "dpred" k then values_of k cs else []).
Proof.
  induction cs as [|[k0 v] t IH]; intros d k; cbn [save_preds].
  - unfold values_of. cbn. destruct (contains "dpred" k); now rewrite app_nil_r.
  - rewrite IH. unfold values_of. cbn [filter fst].
    destruct (contains "dpred" k0) eqn:H0.
    + rewrite stored_append, <- app_assoc. f_equal.
      destruct (String.eqb k0 k) eqn:Ek; auto.
      apply String.eqb_eq in Ek. subst k0. rewrite H0. reflexivity.
    + f_equal. destruct (contains "dpred" k) eqn:Hk; auto.
      destruct (String.eqb k0 k) eqn:Ek; auto.
      apply String.eqb_eq in Ek. congruence.
Qed.

(** Everything but the saved states is left alone by saving. *)
Lemma save_state_frame c c' o : save_state E c = (c', o) ->
  exists sv, c' = set_saved sv c.
Proof.
  assert (Hs : forall c : chain, set_saved (c_saved c) c = c) by now intros [].
  unfold save_state.
  destruct (s_kind _ _), (c_saved c) eqn:Hc;
    try (destruct (save_items E _ _) as [d1 [e|]]; [|destruct (e_savedpred E);
         [destruct (s_cache _ _)|]]);
    intros [= <- <-]; eauto; exists (c_saved c); now rewrite Hs.
Qed.

Lemma save_state_dict c c' d :
  save_state E c = (c', None) -> c_saved c = SDict d ->
  exists d', c_saved c' = SDict d' /\ forall k, stored k d' = stored k d ++ sample k (c_cur c).
Proof.
  unfold save_state. intros H Hd. rewrite Hd in H.
  unfold sample, sample_values, cache_of.
  destruct (s_kind (e_ops E) (c_cur c)); [| |discriminate];
    (destruct (save_items E (s_items (e_ops E) (c_cur c)) d) as [d1 [e|]] eqn:Hi; [discriminate|]);
    (destruct (e_savedpred E);
     [destruct (s_cache (e_ops E) (c_cur c)) as [cs|]; [|discriminate]|]);
    injection H as <-; eexists; (split; [reflexivity|]); intros k;
    rewrite ?save_preds_stored, (save_items_stored _ _ _ k Hi), <- ?app_assoc, ?app_nil_r;
    reflexivity.
Qed.

Lemma save_state_list c c' l :
  save_state E c = (c', None) -> c_saved c = SList l ->
  s_kind (e_ops E) (c_cur c) = KOther -> c_saved c' = SList (l ++ [c_cur c]).
Proof.
  unfold save_state. intros H Hd Hk. rewrite Hd, Hk in H. now injection H as <-.
Qed.

(** The condition for saving after an iteration. *)
Definition saving (c : chain) : Prop := c_flag c = Some true /\ c_temp c = 1.

Lemma finish_done ty acc new c c' :
  finish E ty acc new c = (c', Done) ->
  c_cur c' = (if acc then new else c_cur c) /\
  c_temp c' = c_temp c /\ c_exc c' = c_exc c /\ c_flag c' = c_flag c /\ c_log c' = c_log c /\
  c_nprop_tot c' = S (c_nprop_tot c) /\
  c_nacc_tot c' = (c_nacc_tot c + if acc then 1 else 0)%nat /\
  (saving c' -> exists c2, save_state E c2 = (c', None) /\ c_cur c2 = c_cur c' /\
                           c_saved c2 = c_saved c) /\
  (~ saving c' -> c_saved c' = c_saved c).
Proof.
  unfold finish, saving.
  destruct (save_statistics E ty acc new _) as [c2|e] eqn:Hs; [|discriminate].
  assert (H2 : exists st, c2 = put_stats st acc (if acc then set_cur new c else c)).
  { revert Hs. unfold save_statistics. destruct (prefix _ _); [destruct (s_pstats _ _)|];
      intros [= <-]; eauto. }
  clear Hs. destruct H2 as [[np na] ->].
  destruct (c_flag _) as [b|] eqn:Hfl; [|discriminate].
  set (c2 := put_stats _ _ _) in *.
  assert (H2 : c_cur c2 = (if acc then new else c_cur c) /\
    c_temp c2 = c_temp c /\ c_exc c2 = c_exc c /\ c_flag c2 = c_flag c /\ c_log c2 = c_log c /\
    c_nprop_tot c2 = S (c_nprop_tot c) /\
    c_nacc_tot c2 = (c_nacc_tot c + if acc then 1 else 0)%nat /\ c_saved c2 = c_saved c).
  { unfold c2. destruct acc; destruct c; cbn; auto 10. }
  destruct H2 as (Q1 & Q2 & Q3 & Q4 & Q5 & Q6 & Q7 & Q8). clearbody c2.
  destruct (b && Reqb (c_temp c2) 1)%bool eqn:Hb.
  - apply andb_true_iff in Hb. destruct Hb as [-> Hb].
    unfold Reqb in Hb. destruct (Req_EM_T (c_temp c2) 1) as [HT|]; [|discriminate].
    destruct (save_state E c2) as [c3 [e|]] eqn:Hsv; [discriminate|].
    intros [= <-]. destruct (save_state_frame _ _ _ Hsv) as [sv ->].
    cbn. repeat split; auto.
    + intros _. exists c2. auto.
    + intros H. exfalso. apply H. auto.
  - intros [= <-]. repeat split; auto.
    intros [Hf Ht]. exfalso. rewrite Hfl in Hf. injection Hf as ->.
    unfold Reqb in Hb. rewrite Ht in Hb. destruct (Req_EM_T 1 1); [discriminate|lra].
Qed.

(** ** A successful iteration *)
Lemma next_done c tr c' tr' :
  next_iteration E c tr = Ret (c', None) tr' ->
  exists es c0 tr0, (length es < 500)%nat /\ retries E es c tr c0 tr0 /\
    attempt E c0 tr0 = Ret (c', Done) tr'.
Proof.
  unfold next_iteration. intros H. apply tries_cases in H.
  destruct H as [(es & _ & H & _)|H]; [discriminate|exact H].
Qed.

Lemma next_frame c tr c' tr' :
  next_iteration E c tr = Ret (c', None) tr' ->
  c_temp c' = c_temp c /\ c_flag c' = c_flag c /\ c_log c' = c_log c /\
  c_nprop_tot c' = S (c_nprop_tot c) /\
  (c_nacc_tot c <= c_nacc_tot c' <= S (c_nacc_tot c))%nat /\
  (saving c' -> exists c2, save_state E c2 = (c', None) /\ c_cur c2 = c_cur c' /\
                           c_saved c2 = c_saved c) /\
  (~ saving c' -> c_saved c' = c_saved c).
Proof.
  intros H. destruct (next_done _ _ _ _ H) as (es & c0 & tr0 & _ & Hr & Ha).
  apply retries_frame in Hr. destruct Hr as (R1 & _ & _ & R4 & R5 & R6 & R7 & R8).
  apply attempt_done in Ha.
  destruct Ha as (ty & new & lpr & tr1 & old' & new' & llr & u & acc & _ & _ & _ & _ & Hf).
  apply finish_done in Hf. cbn [set_cur c_temp c_flag c_log c_nprop_tot c_nacc_tot c_saved] in Hf.
  destruct Hf as (F1 & F2 & F3 & F4 & F5 & F6 & F7 & F8 & F9).
  repeat split; try congruence; try (destruct acc; lia).
  - intros Hs. destruct (F8 Hs) as (c2 & ? & ? & ?). exists c2. repeat split; congruence.
  - intros Hs. rewrite (F9 Hs). auto.
Qed.

(** ** Runs *)
(** One round of advance_chain: [ce] is the chain right after _next_iteration. *)
Definition round (sc : sched) (b e : option (hook St V)) (c : chain) (tr : trace)
    (ce c' : chain) (tr' : trace) : Prop :=
  exists flag cb tr1 tr2,
    save_flag sc (S (c_nprop_tot c)) = Ok flag /\
    call_hook b (set_flag flag c) tr = Ret (cb, None) tr1 /\
    next_iteration E cb tr1 = Ret (ce, None) tr2 /\
    call_hook e ce tr2 = Ret (c', None) tr'.

Inductive rounds (sc : sched) (b e : option (hook St V)) :
    chain -> trace -> list chain -> chain -> trace -> Prop :=
| rounds_nil c tr : rounds sc b e c tr [] c tr
| rounds_cons c tr ce c1 tr1 ces c' tr' :
    round sc b e c tr ce c1 tr1 -> rounds sc b e c1 tr1 ces c' tr' ->
    rounds sc b e c tr (ce :: ces) c' tr'.

Lemma advance_one_round sc b e c tr c' tr' :
  advance_one E sc b e c tr = Ret (c', None) tr' ->
  exists ce, round sc b e c tr ce c' tr'.
Proof.
  unfold advance_one. destruct (save_flag sc _) as [flag|x|] eqn:Hf; try discriminate.
  intros H. minv. destruct a as [c1 [x|]]; minv; [discriminate|].
  destruct a as [c2 [x|]]; minv; [discriminate|].
  destruct a as [c3 [x|]]; minv; [discriminate|].
  assert (Hend : c3 = c' /\ t1 = tr').
  { destruct (sc_verbose sc); [|minv; auto].
    destruct (sc_print_every sc =? 0)%nat; minv; [discriminate|].
    destruct (_ mod _ =? 0)%nat; minv; auto.
    destruct (print_statistics c3); minv; auto; discriminate. }
  destruct Hend as [-> ->].
  exists c2, flag, c1, t, t0. auto.
Qed.

Lemma advance_rounds sc b e n : forall c tr c' tr',
  advance E n sc b e c tr = Ret (c', None) tr' ->
  exists ces, length ces = n /\ rounds sc b e c tr ces c' tr'.
Proof.
  induction n as [|n IH]; intros c tr c' tr' H; cbn [advance] in H.
  - minv. exists []. subst. split; auto. constructor.
  - minv. destruct a as [c1 [x|]]; minv; [discriminate|].
    apply advance_one_round in H0. destruct H0 as [ce Hr].
    destruct (IH _ _ _ _ H1) as (ces & Hl & Hrs).
    exists (ce :: ces). split; [cbn; lia|]. econstructor; eauto.
Qed.

Lemma advance_fail sc b e n : forall c tr c' x tr',
  advance E n sc b e c tr = Ret (c', Some x) tr' ->
  exists m ces cm trm, (m < n)%nat /\ length ces = m /\ rounds sc b e c tr ces cm trm /\
    advance E m sc b e c tr = Ret (cm, None) trm /\
    advance_one E sc b e cm trm = Ret (c', Some x) tr'.
Proof.
  induction n as [|n IH]; intros c tr c' x tr' H; cbn [advance] in H.
  - minv. discriminate.
  - minv. destruct a as [c1 [y|]]; minv.
    + exists 0%nat, [], c, tr. subst. repeat split; auto; try lia; try constructor.
    + destruct (IH _ _ _ _ _ H1) as (m & ces & cm & trm & Hm & Hl & Hr & Ha & Ho).
      pose proof (advance_one_round _ _ _ _ _ _ _ H0) as (ce & Hrd).
      exists (S m), (ce :: ces), cm, trm. split; [lia|]. split; [cbn; lia|].
      split; [econstructor; eauto|]. split; auto.
      cbn [advance]. rewrite (bind_ret _ _ _ _ _ H0). exact Ha.
Qed.

Lemma advance_add sc b e n1 n2 c tr :
  advance E (n1 + n2) sc b e c tr =
  match advance E n1 sc b e c tr with
  | Ret (c1, None) tr1 => advance E n2 sc b e c1 tr1
  | r => r
  end.
Proof.
  revert c tr. induction n1 as [|n1 IH]; intros c tr; [reflexivity|].
  cbn [Nat.add advance]. unfold bind.
  destruct (advance_one E sc b e c tr) as [[c1 [x|]] t|x t| |]; auto.
Qed.

(** A callback that does not tamper with the chain's records (it may change the
    temperature, the state or keep its own notes). *)
Definition leaves_records (h : option (hook St V)) : Prop :=
  forall c tr c' o tr', call_hook h c tr = Ret (c', o) tr' ->
    c_saved c' = c_saved c /\ c_flag c' = c_flag c /\
    c_nprop c' = c_nprop c /\ c_nacc c' = c_nacc c /\
    c_nprop_tot c' = c_nprop_tot c /\ c_nacc_tot c' = c_nacc_tot c.

Lemma save_flag_schedule sc i flag :
  save_flag sc i = Ok flag -> (flag = true <-> on_schedule (sc_burnin sc) (sc_every sc) i).
Proof.
  unfold save_flag, on_schedule.
  destruct (i <=? sc_burnin sc)%nat eqn:H1.
  - apply Nat.leb_le in H1. intros [= <-]. split; [easy|lia].
  - apply Nat.leb_gt in H1. destruct (sc_every sc =? 0)%nat eqn:H2; [easy|].
    apply Nat.eqb_neq in H2. intros [= <-]. rewrite Nat.eqb_eq.
    rewrite Nat.mod_divide by auto. split.
    + intros [q Hq]. split; auto. now exists q.
    + intros [_ [q Hq]]. now exists q.
Qed.

Definition sampled (sc : sched) (ce : chain) : Prop :=
  on_schedule (sc_burnin sc) (sc_every sc) (c_nprop_tot ce) /\ c_temp ce = 1.

Lemma round_facts sc b e c tr ce c' tr' :
  leaves_records b -> leaves_records e ->
  round sc b e c tr ce c' tr' ->
  c_nprop_tot ce = S (c_nprop_tot c) /\ c_nprop_tot c' = S (c_nprop_tot c) /\
  (c_nacc_tot c <= c_nacc_tot c' <= S (c_nacc_tot c))%nat /\
  c_saved c' = c_saved ce /\
  (saving ce <-> sampled sc ce) /\
  (saving ce -> exists c2, save_state E c2 = (ce, None) /\ c_cur c2 = c_cur ce /\
                           c_saved c2 = c_saved c) /\
  (~ saving ce -> c_saved ce = c_saved c).
Proof.
  intros Hb He (flag & cb & tr1 & tr2 & Hf & H1 & H2 & H3).
  apply Hb in H1. cbn [set_flag c_saved c_flag c_nprop c_nacc c_nprop_tot c_nacc_tot] in H1.
  destruct H1 as (B1 & B2 & B3 & B4 & B5 & B6).
  apply He in H3. destruct H3 as (G1 & G2 & G3 & G4 & G5 & G6).
  apply next_frame in H2. destruct H2 as (N1 & N2 & N3 & N4 & N5 & N6 & N7).
  split; [congruence|]. split; [congruence|]. split; [lia|]. split; auto.
  split.
  { unfold saving, sampled. rewrite N4, B5.
    rewrite <- (save_flag_schedule _ _ _ Hf).
    split; intros [A B]; split; auto; congruence. }
  split.
  - intros Hs. destruct (N6 Hs) as (c2 & ? & ? & ?). exists c2. repeat split; congruence.
  - intros Hs. rewrite (N7 Hs). auto.
Qed.

Lemma on_schedule_dec b e i : {on_schedule b e i} + {~ on_schedule b e i}.
Proof.
  unfold on_schedule. destruct (lt_dec b i) as [H|H]; [|right; tauto].
  destruct (Nat.eq_dec e 0) as [->|He].
  - right. intros [_ [q Hq]]. lia.
  - destruct (Nat.eq_dec ((i - b) mod e) 0) as [Hm|Hm].
    + left. split; auto. apply Nat.mod_divide in Hm; auto.
    + right. intros [_ Hq]. apply Hm. now apply Nat.mod_divide.
Qed.
Lemma sampled_dec sc ce : {sampled sc ce} + {~ sampled sc ce}.
Proof.
  unfold sampled. destruct (on_schedule_dec (sc_burnin sc) (sc_every sc) (c_nprop_tot ce)); [|right; tauto].
  destruct (Req_EM_T (c_temp ce) 1); [left|right]; tauto.
Qed.

Lemma rounds_dict sc b e : leaves_records b -> leaves_records e ->
  forall c tr ces c' tr', rounds sc b e c tr ces c' tr' -> forall d, c_saved c = SDict d ->
  exists sel d', selects (sampled sc) ces sel /\ c_saved c' = SDict d' /\
    forall k, stored k d' = stored k d ++ concat (map (fun ce => sample k (c_cur ce)) sel).
Proof.
  intros Hb He c tr ces c' tr' H. induction H as [|c tr ce c1 tr1 ces c' tr' Hr Hrs IH]; intros d Hd.
  - exists [], d. split; [constructor|]. split; auto. intros k. cbn. now rewrite app_nil_r.
  - destruct (round_facts _ _ _ _ _ _ _ _ Hb He Hr) as (F1 & F2 & F3 & F4 & F5 & F6 & F7).
    destruct (sampled_dec sc ce) as [Hs|Hs].
    + destruct (F6 (proj2 F5 Hs)) as (c2 & Hsv & Hc2 & Hs2).
      destruct (save_state_dict c2 ce d Hsv ltac:(congruence)) as (d1 & Hd1 & Hst).
      destruct (IH d1) as (sel & d' & Hsel & Hd' & Hst'); [congruence|].
      exists (ce :: sel), d'. split; [now constructor|]. split; auto.
      intros k. rewrite Hst', Hst, Hc2. cbn [map concat]. now rewrite app_assoc.
    + rewrite <- F5 in Hs.
      destruct (IH d) as (sel & d' & Hsel & Hd' & Hst'); [rewrite F4, (F7 Hs); auto|].
      exists sel, d'. split; [constructor; tauto|]. auto.
Qed.

Lemma rounds_list sc b e : leaves_records b -> leaves_records e ->
  (forall s, s_kind (e_ops E) s = KOther) ->
  forall c tr ces c' tr', rounds sc b e c tr ces c' tr' -> forall l, c_saved c = SList l ->
  exists sel, selects (sampled sc) ces sel /\ c_saved c' = SList (l ++ map c_cur sel).
Proof.
  intros Hb He Hk c tr ces c' tr' H. induction H as [|c tr ce c1 tr1 ces c' tr' Hr Hrs IH]; intros l Hd.
  - exists []. split; [constructor|]. cbn. now rewrite app_nil_r.
  - destruct (round_facts _ _ _ _ _ _ _ _ Hb He Hr) as (F1 & F2 & F3 & F4 & F5 & F6 & F7).
    destruct (sampled_dec sc ce) as [Hs|Hs].
    + destruct (F6 (proj2 F5 Hs)) as (c2 & Hsv & Hc2 & Hs2).
      pose proof (save_state_list c2 ce l Hsv ltac:(congruence) (Hk _)) as Hl.
      destruct (IH (l ++ [c_cur ce])) as (sel & Hsel & Hd'); [congruence|].
      exists (ce :: sel). split; [now constructor|]. rewrite Hd'. cbn [map].
      now rewrite <- app_assoc.
    + rewrite <- F5 in Hs.
      destruct (IH l) as (sel & Hsel & Hd'); [rewrite F4, (F7 Hs); auto|].
      exists sel. split; [constructor; tauto|]. auto.
Qed.

Lemma rounds_counts sc b e : leaves_records b -> leaves_records e ->
  forall c tr ces c' tr', rounds sc b e c tr ces c' tr' ->
  c_nprop_tot c' = (c_nprop_tot c + length ces)%nat /\
  (c_nacc_tot c <= c_nacc_tot c' <= c_nacc_tot c + length ces)%nat /\
  forall j ce, nth_error ces j = Some ce -> c_nprop_tot ce = (c_nprop_tot c + S j)%nat.
Proof.
  intros Hb He c tr ces c' tr' H. induction H as [|c tr ce c1 tr1 ces c' tr' Hr Hrs IH].
  - cbn. repeat split; try lia. intros [] ? [=].
  - destruct (round_facts _ _ _ _ _ _ _ _ Hb He Hr) as (F1 & F2 & F3 & _).
    destruct IH as (I1 & I2 & I3). cbn [length]. repeat split; try lia.
    intros [|j] x Hx; cbn in Hx.
    + injection Hx as <-. lia.
    + rewrite (I3 _ _ Hx). lia.
Qed.

Lemma schedule_step b e m :
  ((S m - b) / e = (m - b) / e + if on_schedule_dec b e (S m) then 1 else 0)%nat.
Proof.
  destruct (Nat.eq_dec e 0) as [->|He].
  { destruct (on_schedule_dec b 0 (S m)) as [[Hlt [q Hq]]|]; [exfalso; lia|reflexivity]. }
  destruct (lt_dec b (S m)) as [H|H].
  2:{ replace (S m - b)%nat with 0%nat by lia. replace (m - b)%nat with 0%nat by lia.
      destruct (on_schedule_dec b e (S m)) as [[? _]|]; [lia|]. rewrite Nat.div_0_l; auto. }
  replace (S m - b)%nat with (S (m - b)) by lia.
  set (k := (m - b)%nat).
  pose proof (Nat.div_mod k e He) as H1.
  pose proof (Nat.mod_upper_bound k e He) as H2.
  destruct (on_schedule_dec b e (S m)) as [[_ [q Hq]]|Hno].
  - replace (S m - b)%nat with (S k) in Hq by (unfold k; lia).
    assert (Hmod : (k mod e = e - 1)%nat).
    { destruct (Nat.eq_dec (k mod e) (e - 1)) as [|Hne]; auto. exfalso.
      assert ((S k) mod e = S (k mod e))%nat.
      { symmetry. apply (Nat.mod_unique _ _ (k / e)); lia. }
      assert (Hz : (S k mod e = 0)%nat) by (rewrite Hq; apply Nat.mod_mul; auto). lia. }
    symmetry. apply (Nat.div_unique _ _ _ 0); lia.
  - rewrite Nat.add_0_r. symmetry.
    apply (Nat.div_unique _ _ _ (S (k mod e))); [|lia].
    destruct (Nat.eq_dec (S (k mod e)) e) as [Heq|]; [|lia]. exfalso. apply Hno.
    split; auto. exists (S (k / e)). unfold k in *. nia.
Qed.

Lemma selects_count sc ces : forall n0 sel,
  selects (sampled sc) ces sel ->
  (forall j ce, nth_error ces j = Some ce -> c_nprop_tot ce = (n0 + S j)%nat) ->
  (forall ce, In ce ces -> c_temp ce = 1) ->
  (length sel + (n0 - sc_burnin sc) / sc_every sc =
   (n0 + length ces - sc_burnin sc) / sc_every sc)%nat.
Proof.
  induction ces as [|ce ces IH]; intros n0 sel Hsel Hn Ht; inversion Hsel; subst.
  - cbn. now rewrite Nat.add_0_r.
  - pose proof (schedule_step (sc_burnin sc) (sc_every sc) n0) as Hst.
    assert (H0 : c_nprop_tot ce = S n0) by (rewrite (Hn 0%nat ce); [lia|auto]).
    destruct (on_schedule_dec _ _ (S n0)) as [|Hno].
    2:{ destruct H1 as [H1 _]. rewrite H0 in H1. tauto. }
    assert (HI : (length sel0 + (S n0 - sc_burnin sc) / sc_every sc =
       (S n0 + length ces - sc_burnin sc) / sc_every sc)%nat).
    { apply IH; auto. - intros j x Hx. rewrite (Hn (S j) x); [lia|auto].
      - intros x Hx. apply Ht. now right. }
    cbn [length]. replace (n0 + S (length ces))%nat with (S n0 + length ces)%nat by lia. lia.
  - pose proof (schedule_step (sc_burnin sc) (sc_every sc) n0) as Hst.
    assert (H0 : c_nprop_tot ce = S n0) by (rewrite (Hn 0%nat ce); [lia|auto]).
    destruct (on_schedule_dec _ _ (S n0)) as [Hyes|Hno].
    { exfalso. apply H1. split; [now rewrite H0|]. apply Ht. now left. }
    assert (HI : (length sel + (S n0 - sc_burnin sc) / sc_every sc =
       (S n0 + length ces - sc_burnin sc) / sc_every sc)%nat).
    { apply IH; auto. - intros j x Hx. rewrite (Hn (S j) x); [lia|auto].
      - intros x Hx. apply Ht. now right. }
    cbn [length]. replace (n0 + S (length ces))%nat with (S n0 + length ces)%nat by lia. lia.
Qed.

End Run.
