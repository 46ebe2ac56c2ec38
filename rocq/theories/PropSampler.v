(** Properties of samplers: temperature ladder, swaps, batches, annealing, callbacks,
    scheduling of chains, failures. *)
From Coq Require Import Permutation.
From Verif Require Import Base ModelChain ModelSampler SpecChain SpecSampler
  ProofUtils1D ProofChain ProofChainB ProofChainC ProofSampler ProofSamplerB ProofSamplerC
  PropChain.
Local Open Scope R_scope.

(** * C27: temperature ladder *)
Theorem C27_ladder n f T k :
  (2 <= n)%nat -> 0 <= f <= 1 -> 1 < T -> is_floor (INR n * f) k ->
  exists ts, pt_temperatures n f T = Ok ts /\ ladder n (Nat.max 2 k) T ts.
Proof. exact (pt_ladder n f T k). Qed.
(** The chains get these temperatures, each its own, and nothing else of them changes. *)
Theorem C27_initialize {St V} (E : env St V) f T cs ts tr :
  pt_temperatures (length cs) f T = Ok ts -> length ts = length cs ->
  exists cs', pt_on_initialize E f T cs tr = Ret (cs', None) tr /\
    map c_temp cs' = ts /\ Forall2 (untouched (@anything St)) cs cs'.
Proof.
  intros H Hl. unfold pt_on_initialize. rewrite H.
  assert (Hset : exists cs', set_temperatures E ts cs = (cs', None) /\ map c_temp cs' = ts /\
            Forall2 (untouched (@anything St)) cs cs').
  { clear H. revert ts Hl. induction cs as [|c cs IH]; intros [|t ts] Hl; try discriminate.
    - exists []. repeat split; constructor.
    - injection Hl as Hl. destruct (IH ts Hl) as (cs' & H1 & H2 & H3).
      exists (set_temperature E t c :: cs'). cbn [set_temperatures]. rewrite H1.
      split; [reflexivity|]. split; [cbn; now rewrite H2|]. constructor; auto.
      apply (swap_step_anything E). apply ss_temp. }
  destruct Hset as (cs' & H1 & H2 & H3). exists cs'. rewrite H1. auto.
Qed.
Example C27_case : is_floor (INR 10 * (2/5)) 4.
Proof. unfold is_floor. cbn. lra. Qed.
(** A single chain, or a fraction above 1, raises UnboundLocalError. *)
Theorem C27_too_few_chains n f T :
  (n <= Nat.max 2 (int_part (INR n * f)) - 1)%nat -> pt_temperatures n f T = Raise EUnbound.
Proof.
  intros H. unfold pt_temperatures. rewrite repeat_length.
  now destruct (Nat.ltb_spec (Nat.max 2 (int_part (INR n * f)) - 1) n); [lia|].
Qed.
Example C27_one_chain f T : pt_temperatures 1 f T = Raise EUnbound.
Proof. apply C27_too_few_chains. lia. Qed.

(** * C28: swaps permute temperatures *)
Theorem C28_permutation {St V} (E : env St V) f T xi xb xe xa jobs swap n sc fuel cs tr cs' o tr' :
  Forall (fun h => leaves_temp (Some h)) xb -> Forall (fun h => leaves_temp (Some h)) xe ->
  pt_loop E fuel (parallel_tempering E f T xi xb xe xa) jobs swap n sc cs tr = Ret (cs', o) tr' ->
  Permutation (map c_temp cs) (map c_temp cs').
Proof.
  intros Hb He. apply pt_loop_temps; auto.
  - apply leaves_temp_all. constructor; auto. apply nothing_temp.
  - apply leaves_temp_all. constructor; auto. apply nothing_temp.
Qed.
(** Swaps leave samples, statistics and parameters alone: [same] is any equivalence of
    states that evaluating the likelihood and setting the temperature respect. *)
Theorem C28_untouched {St V} (E : env St V) (same : St -> St -> Prop) cs tr cs' o tr' :
  (forall s, same s s) -> (forall a b c, same a b -> same b c -> same a c) ->
  (forall old new t tr old' new' r tr', e_like E old new t tr = Ret (old', new', r) tr' ->
     same old old' /\ same new new') ->
  (forall t s, same s (s_settemp (e_ops E) t s)) ->
  pt_on_end_advance E cs tr = Ret (cs', o) tr' ->
  Forall2 (untouched same) cs cs' /\ Permutation (map c_temp cs) (map c_temp cs').
Proof.
  intros Hr Ht Hl Hs. apply pt_swaps_respects.
  - now apply untouched_refl.
  - now apply untouched_trans.
  - now apply swap_step_untouched.
Qed.
Definition same_value (a b : nat * R) : Prop := fst a = fst b.
Example C28_case :
  (forall old new t tr old' new' r tr', e_like warm old new t tr = Ret (old', new', r) tr' ->
     same_value old old' /\ same_value new new') /\
  (forall t s, same_value s (s_settemp (e_ops warm) t s)).
Proof.
  split; [|reflexivity]. intros old new t tr old' new' r tr' H. cbn in H. minv.
  split; reflexivity.
Qed.

(** * C29: exchange probability *)

(** What the code does: the difference of log likelihoods is divided by the temperature of
    the first chain a second time. *)
Theorem C29_decision {St V} (E : env St V) (L : St -> R) i j cs c1 c2 u tr :
  (forall s s' t, e_like E s s' t = ret (s, s', inl (Fin ((L s' - L s) / t)))) ->
  i <> j -> nth_error cs i = Some c1 -> nth_error cs j = Some c2 ->
  c_temp c1 <> 0 -> c_temp c2 <> 0 -> 0 < u < 1 ->
  exists cs', pt_swap_with E i j cs (DU u :: tr) = Ret (cs', None) tr /\
    let T1 := c_temp c1 in let T2 := c_temp c2 in
    let p := Rmin 1 (exp ((1 / T1 - 1 / T2) * ((L (c_cur c2) - L (c_cur c1)) / T1))) in
    (u < p -> cs' = set_nth (set_nth cs i (set_temperature E T2 c1)) j (set_temperature E T1 c2)) /\
    (~ u < p -> cs' = cs).
Proof.
  intros HL Hij H1 H2 Ht1 Ht2 Hu.
  assert (Hsame : forall c : chain St V, set_cur (c_cur c) c = c) by now intros [].
  assert (Hid : set_nth (set_nth cs i c1) j c2 = cs).
  { rewrite (set_nth_same cs i c1 H1). now apply set_nth_same. }
  unfold pt_swap_with. rewrite H1, H2, HL. unfold bind at 1, ret at 1.
  rewrite !Hsame, Hid. rewrite !Reqb_false by auto. cbn [orb].
  unfold bind. rewrite drawU_ok by lra.
  destruct (py_log_cases u ltac:(lra)) as [[? _]|[_ ->]]; [lra|].
  cbn [emul].
  destruct (egtb _ _) eqn:Ha; (eexists; split; [reflexivity|]); cbn zeta.
  - apply accept_rule in Ha; auto. cbn [mhg_accepts] in Ha. split; [auto|intros Hn; now destruct Hn].
  - assert (Hn : ~ mhg_accepts (Fin ((1 / c_temp c1 - 1 / c_temp c2) *
                 ((L (c_cur c2) - L (c_cur c1)) / c_temp c1))) u).
    { rewrite <- accept_rule by auto. congruence. }
    cbn [mhg_accepts] in Hn. split; [intros Hp; now destruct Hn|auto].
Qed.
(** Full claim: exchanged if and only if u < exchange_prob T1 T2 L1 L2.  It holds when the
    chain drawn first is at unit temperature; missing: T1 different from 1 (refuted below). *)
Theorem C29_unit_first_partial {St V} (E : env St V) (L : St -> R) i j cs c1 c2 u tr :
  (forall s s' t, e_like E s s' t = ret (s, s', inl (Fin ((L s' - L s) / t)))) ->
  i <> j -> nth_error cs i = Some c1 -> nth_error cs j = Some c2 ->
  c_temp c1 = 1 -> c_temp c2 <> 0 -> 0 < u < 1 ->
  exists cs', pt_swap_with E i j cs (DU u :: tr) = Ret (cs', None) tr /\
    let p := exchange_prob (c_temp c1) (c_temp c2) (L (c_cur c1)) (L (c_cur c2)) in
    (u < p -> cs' = set_nth (set_nth cs i (set_temperature E (c_temp c2) c1))
                      j (set_temperature E (c_temp c1) c2)) /\
    (~ u < p -> cs' = cs).
Proof.
  intros HL Hij H1 H2 Ht1 Ht2 Hu.
  destruct (C29_decision E L i j cs c1 c2 u tr HL Hij H1 H2 ltac:(lra) Ht2 Hu) as (cs' & H & Hp).
  exists cs'. split; auto. cbn zeta in *. unfold exchange_prob.
  replace ((L (c_cur c2) - L (c_cur c1)) / c_temp c1) with (L (c_cur c2) - L (c_cur c1)) in Hp; auto.
  rewrite Ht1. field.
Qed.
(** After every batch as many pairs are tried as there are chains, each pair of two
    different chains. *)
Inductive exchanges {St V} (E : env St V) : nat -> list (chain St V) -> trace -> list (chain St V) -> trace -> Prop :=
| exch_none cs tr : exchanges E 0 cs tr cs tr
| exch_more n i j cs tr cs1 tr1 cs2 tr2 : (i < length cs)%nat -> (j < length cs)%nat -> i <> j ->
    pt_swap_with E i j cs tr = Ret (cs1, None) tr1 -> exchanges E n cs1 tr1 cs2 tr2 ->
    exchanges E (S n) cs (DPair i j :: tr) cs2 tr2.
Theorem C29_attempts {St V} (E : env St V) cs tr cs' tr' :
  pt_on_end_advance E cs tr = Ret (cs', None) tr' -> exchanges E (length cs) cs tr cs' tr'.
Proof.
  unfold pt_on_end_advance. generalize (length cs) at 1 2. intros n. revert cs tr.
  induction n as [|n IH]; intros cs tr H; cbn [pt_swaps] in H.
  - unfold ret in H. injection H as <- <-. constructor.
  - apply bind_ret_inv in H. destruct H as ([cs1 o] & tr1 & H1 & H2).
    destruct o; [discriminate H2|]. apply IH in H2.
    unfold pt_swap_one in H1. apply bind_ret_inv in H1. destruct H1 as (p & tr2 & H1 & H3).
    destruct p as [[i j]|e]; [|discriminate H3].
    apply try_ret_inv in H1. unfold choose_two in H1. destruct (_ <? 2)%nat; [discriminate|].
    destruct tr as [|[| | | |i0 j0|] tr]; try discriminate H1.
    destruct ((i0 <? length cs)%nat && (j0 <? length cs)%nat && negb (i0 =? j0)%nat)%bool eqn:E0; [|discriminate H1].
    injection H1 as -> -> ->. apply andb_true_iff in E0. destruct E0 as [E0 E3].
    apply andb_true_iff in E0. destruct E0 as [E1 E2].
    apply Nat.ltb_lt in E1. apply Nat.ltb_lt in E2. apply negb_true_iff, Nat.eqb_neq in E3.
    econstructor; eauto.
Qed.
(** The rule itself leaves the product of tempered likelihoods in balance and does not
    depend on the order of the chains. *)
Theorem C29_rule_balanced T1 T2 L1 L2 : T1 <> 0 -> T2 <> 0 ->
  tempered T1 L1 * tempered T2 L2 * exchange_prob T1 T2 L1 L2 =
  tempered T1 L2 * tempered T2 L1 * exchange_prob T1 T2 L2 L1 /\
  exchange_prob T1 T2 L1 L2 = exchange_prob T2 T1 L2 L1.
Proof.
  intros H1 H2. split.
  - unfold tempered, exchange_prob. rewrite <- !exp_plus.
    set (x := (1 / T1 - 1 / T2) * (L2 - L1)).
    replace ((1 / T1 - 1 / T2) * (L1 - L2)) with (- x) by (unfold x; field; auto).
    set (a := L1 / T1 + L2 / T2).
    replace (L2 / T1 + L1 / T2) with (a + x) by (unfold a, x; field; auto).
    assert (Hmin : forall y, Rmin 1 (exp y) = exp (Rmin 0 y)).
    { intros y. unfold Rmin. destruct (Rle_dec 1 (exp y)) as [G|G], (Rle_dec 0 y) as [G'|G'];
        rewrite ?exp_0; auto.
      - exfalso. assert (exp y < exp 0) by (apply exp_increasing; lra). rewrite exp_0 in H. lra.
      - exfalso. assert (exp 0 <= exp y) by (apply exp_mono; lra). rewrite exp_0 in H. lra. }
    rewrite !Hmin, <- !exp_plus. f_equal.
    unfold Rmin. destruct (Rle_dec 0 x), (Rle_dec 0 (- x)); lra.
  - unfold exchange_prob. do 2 f_equal. field; auto.
Qed.

Definition lik : env R nat :=
  {| e_ops := {| s_kind := fun _ => KOther; s_items := fun _ => []; s_cache := fun _ => None;
                 s_pstats := fun _ => inr EKey; s_settemp := fun _ s => s |};
     e_funcs := []; e_weights := [];
     e_like := fun old new t => ret (old, new, inl (Fin ((new - old) / t)));
     e_savedpred := false; e_transd := None |}.
Lemma exp_4ln2 a : exp (a * ln 2) = Rpower 2 a.
Proof. reflexivity. Qed.
(** Two chains at temperatures 2 and 1 whose log likelihoods are such that the rule gives
    1/4: with the draw 1/3 they are exchanged if the hot chain is drawn first, and not if the
    other is. *)
Theorem C29_exchange_refuted :
  exists c1 c2 : chain R nat, exists u,
    0 < u < 1 /\ c_temp c1 = 2 /\ c_temp c2 = 1 /\
    ~ u < exchange_prob (c_temp c1) (c_temp c2) (c_cur c1) (c_cur c2) /\
    (exists cs', pt_swap_with lik 0 1 [c1; c2] [DU u] = Ret (cs', None) [] /\
                 map c_temp cs' = [1; 2]) /\
    (exists cs', pt_swap_with lik 1 0 [c1; c2] [DU u] = Ret (cs', None) [] /\
                 map c_temp cs' = [2; 1]).
Proof.
  set (c1 := set_temperature lik 2 (new_chain lik 0)).
  set (c2 := new_chain lik (4 * ln 2)).
  exists c1, c2, (1/3).
  assert (Hp : exchange_prob 2 1 0 (4 * ln 2) = 1 / 4).
  { unfold exchange_prob. replace ((1 / 2 - 1 / 1) * (4 * ln 2 - 0)) with (- (ln 2 + ln 2)) by field.
    rewrite exp_Ropp, exp_plus, exp_ln by lra. rewrite Rmin_right; lra. }
  split; [lra|]. split; [reflexivity|]. split; [reflexivity|].
  split; [unfold c1, c2; cbn [set_temperature new_chain c_temp c_cur lik e_ops s_kind]; rewrite Hp; lra|].
  split.
  - destruct (C29_decision lik (fun s => s) 0 1 [c1; c2] c1 c2 (1/3) []) as (cs' & H & Hy & _);
      try reflexivity; try lia; try (cbn; lra).
    exists cs'. split; auto. rewrite Hy; [reflexivity|].
    unfold c1, c2. cbn [set_temperature new_chain c_temp c_cur lik e_ops s_kind].
    replace ((1 / 2 - 1 / 1) * ((4 * ln 2 - 0) / 2)) with (- ln 2) by field.
    rewrite exp_Ropp, exp_ln by lra. rewrite Rmin_right; lra.
  - destruct (C29_decision lik (fun s => s) 1 0 [c1; c2] c2 c1 (1/3) []) as (cs' & H & _ & Hn);
      try reflexivity; try lia; try (cbn; lra).
    exists cs'. split; auto. rewrite Hn; [reflexivity|].
    unfold c1, c2. cbn [set_temperature new_chain c_temp c_cur lik e_ops s_kind].
    replace ((1 / 1 - 1 / 2) * ((0 - 4 * ln 2) / 1)) with (- (ln 2 + ln 2)) by field.
    rewrite exp_Ropp, exp_plus, exp_ln by lra. rewrite Rmin_right; lra.
Qed.
Example C29_attempts_case : exists cs', length cs' = 2%nat /\
  pt_on_end_advance lik [new_chain lik 0; new_chain lik 0]
    [DPair 0 1; DU (1/2); DPair 1 0; DU (1/2)] = Ret (cs', None) [].
Proof.
  assert (HL : forall s s' t, e_like lik s s' t = ret (s, s', inl (Fin ((s' - s) / t)))) by reflexivity.
  assert (Hc : forall i j tr, (i < 2)%nat -> (j < 2)%nat -> i <> j ->
    pt_swap_with lik i j [new_chain lik 0; new_chain lik 0] (DU (1/2) :: tr) =
    Ret ([new_chain lik 0; new_chain lik 0], None) tr).
  { intros i j tr Hi Hj Hij.
    destruct (C29_decision lik (fun x => x) i j [new_chain lik 0; new_chain lik 0] (new_chain lik 0) (new_chain lik 0)
      (1/2) tr HL Hij) as (cs' & H & Hp & _); try (cbn; lra).
    1,2: destruct i as [|[|i]], j as [|[|j]]; try lia; reflexivity.
    rewrite H. cbn [c_temp c_cur new_chain] in Hp. rewrite Hp.
    - destruct i as [|[|i]], j as [|[|j]]; try lia; reflexivity.
    - match goal with |- _ < Rmin 1 (exp ?x) => replace x with 0 by (field; lra) end.
      rewrite exp_0. unfold Rmin. destruct (Rle_dec 1 1); lra. }
  exists [new_chain lik 0; new_chain lik 0]. split; [reflexivity|].
  unfold pt_on_end_advance. cbn [length pt_swaps]. unfold bind at 1, pt_swap_one at 1.
  unfold bind at 1, try at 1. cbn [choose_two length Nat.ltb Nat.leb andb negb Nat.eqb].
  rewrite Hc by lia. unfold bind at 1, pt_swap_one, bind at 1, try.
  cbn [choose_two length Nat.ltb Nat.leb andb negb Nat.eqb].
  rewrite Hc by lia. reflexivity.
Qed.

(** * C30: number of iterations *)

Section PT.
Context {St V : Type}.
Variable E : env St V.
Variables (f T : R) (xi : list (lhook St V)) (xb xe : list (hook St V)) (xa : list (lhook St V)).
Hypothesis Hxb : Forall (fun h => leaves_records (Some h)) xb.
Hypothesis Hxe : Forall (fun h => leaves_records (Some h)) xe.
Let s := parallel_tempering E f T xi xb xe xa.
Lemma pt_begin_records : leaves_records (Some (begin_iteration s)).
Proof. apply leaves_records_all. constructor; auto. apply nothing_records. Qed.
Lemma pt_end_records : leaves_records (Some (end_iteration s)).
Proof. apply leaves_records_all. constructor; auto. apply nothing_records. Qed.

(** A completed run on fresh chains: batches of the documented sizes, each followed by a
    swap round (that is advance_chain), a further swap round at the end, and every chain has
    completed exactly [n] iterations. *)
Theorem C30_iterations jobs swap n sc fuel cs tr cs' tr' :
  (0 < swap)%nat -> (forall c, In c cs -> c_nprop_tot c = 0%nat) ->
  pt_loop E fuel s jobs swap n sc cs tr = Ret (cs', None) tr' ->
  (forall c, In c cs' -> c_nprop_tot c = n) /\
  exists plan, map fst plan = batch_sizes swap n ++ [0%nat] /\ batches E s jobs sc plan cs tr cs' tr'.
Proof.
  intros Hs H0 H.
  destruct (pt_loop_batches E s jobs pt_begin_records pt_end_records eq_refl swap n sc fuel Hs
    cs tr cs' tr' 0%nat (Nat.le_0_l n) H0 H) as (plan & Hp & Hb & Hn).
  rewrite Nat.sub_0_r in Hp. eauto.
Qed.
(** The loop terminates: with more than [n] rounds allowed, the bound is never reached. *)
Theorem C30_terminates jobs swap n sc fuel cs tr :
  (0 < swap)%nat -> (forall c, In c cs -> c_nprop_tot c = 0%nat) -> (n < fuel)%nat ->
  pt_loop E fuel s jobs swap n sc cs tr = pt_loop E (S n) s jobs swap n sc cs tr.
Proof.
  intros Hs H0 Hf.
  apply (pt_loop_fuel E s jobs pt_begin_records pt_end_records eq_refl swap n sc Hs fuel (S n) cs tr 0%nat); auto; lia.
Qed.
(** With swap_every = 0 the loop never ends. *)
Theorem C30_swap_every_zero jobs n sc fuel cs tr cs' tr' it :
  (it < n)%nat -> (forall c, In c cs -> c_nprop_tot c = it) ->
  pt_loop E fuel s jobs 0 n sc cs tr <> Ret (cs', None) tr'.
Proof.
  intros Hn. revert cs tr. induction fuel as [|fuel IH]; intros cs tr H0 H; cbn [pt_loop] in H; [discriminate|].
  destruct cs as [|c0 t]; [minv; discriminate|].
  rewrite (H0 c0 (or_introl eq_refl)) in H.
  apply bind_ret_inv in H. destruct H as ([cs1 o] & tr1 & Hb1 & H).
  destruct o as [x|]; [minv; discriminate|].
  pose proof (batch_count E s jobs pt_begin_records pt_end_records eq_refl _ _ _ _ _ _ it Hb1 H0) as Hc1.
  destruct (Nat.leb_spec n it); [lia|].
  apply (IH cs1 tr1); auto. intros c Hc. rewrite (Hc1 c Hc). cbn. lia.
Qed.
(** Running again with the same number performs no iteration (other samplers add [n]). *)
Theorem C30_second_run jobs swap n sc fuel cs tr cs' tr' it :
  (n <= it)%nat -> (forall c, In c cs -> c_nprop_tot c = it) ->
  pt_loop E fuel s jobs swap n sc cs tr = Ret (cs', None) tr' ->
  (forall c, In c cs' -> c_nprop_tot c = it).
Proof.
  intros Hn H0 H. destruct fuel as [|fuel]; cbn [pt_loop] in H; [discriminate|].
  destruct cs as [|c0 t]; [minv; discriminate|].
  rewrite (H0 c0 (or_introl eq_refl)) in H.
  apply bind_ret_inv in H. destruct H as ([cs1 o] & tr1 & Hb1 & H).
  destruct o as [x|]; [minv; discriminate|].
  pose proof (batch_count E s jobs pt_begin_records pt_end_records eq_refl _ _ _ _ _ _ it Hb1 H0) as Hc1.
  destruct (Nat.leb_spec n it); [|lia]. minv. subst.
  intros; rewrite Hc1 by assumption. lia.
Qed.

(** * C31: burn-in *)

(** What is saved: iteration [i] if it is on the schedule of its batch, with the part of the
    burn-in that falls into the batch compared to [i] itself. *)
Theorem C31_actual jobs swap n sc fuel cs tr cs' tr' :
  (0 < swap)%nat -> (forall c, In c cs -> c_nprop_tot c = 0%nat) ->
  pt_loop E fuel s jobs swap n sc cs tr = Ret (cs', None) tr' ->
  forall p c, nth_error cs p = Some c -> fitting E c ->
  exists c' ces sel, nth_error cs' p = Some c' /\ length ces = n /\
    (forall j ce, nth_error ces j = Some ce -> c_nprop_tot ce = S j) /\
    selects (fun ce => batch_schedule swap (sc_burnin sc) (sc_every sc) (c_nprop_tot ce) /\
                       c_temp ce = 1) ces sel /\
    appended E sel (c_saved c) (c_saved c').
Proof.
  intros Hs H0 H p c Hp Hfit.
  destruct (pt_loop_saved E s jobs pt_begin_records pt_end_records eq_refl swap n sc fuel Hs
    cs tr cs' tr' 0%nat (Nat.le_0_l n) (or_introl (ex_intro _ 0%nat eq_refl)) H0 H) as [_ Hx].
  destruct (Hx p c Hp Hfit) as (c' & ces & sel & G1 & G2 & G3 & G4 & G5).
  rewrite Nat.sub_0_r in G2. exists c', ces, sel. auto 10.
Qed.
(** Full claim: never an iteration [i <= burnin], and exactly the schedule of C22.  Proved
    when the burn-in is not longer than swap_every (exact schedule: and a multiple of
    save_every); missing: longer burn-ins, refuted below. *)
Theorem C31_short_burnin_partial jobs swap n sc fuel cs tr cs' tr' :
  (sc_burnin sc <= swap)%nat -> (0 < swap)%nat -> (forall c, In c cs -> c_nprop_tot c = 0%nat) ->
  pt_loop E fuel s jobs swap n sc cs tr = Ret (cs', None) tr' ->
  forall p c, nth_error cs p = Some c -> fitting E c ->
  exists c' ces sel, nth_error cs' p = Some c' /\ length ces = n /\
    (forall j ce, nth_error ces j = Some ce -> c_nprop_tot ce = S j) /\
    appended E sel (c_saved c) (c_saved c') /\
    (forall ce, In ce sel -> In ce ces /\ (sc_burnin sc < c_nprop_tot ce)%nat /\ c_temp ce = 1) /\
    (Nat.divide (sc_every sc) (sc_burnin sc) ->
     selects (fun ce => on_schedule (sc_burnin sc) (sc_every sc) (c_nprop_tot ce) /\ c_temp ce = 1)
       ces sel).
Proof.
  intros HB Hs H0 H p c Hp Hfit.
  destruct (C31_actual _ _ _ _ _ _ _ _ _ Hs H0 H p c Hp Hfit) as (c' & ces & sel & G1 & G2 & G3 & G4 & G5).
  exists c', ces, sel. split; auto. split; auto. split; auto. split; auto.
  assert (Hcase : forall i, (0 < i)%nat ->
    (i <= swap /\ Nat.min swap (sc_burnin sc - (i - 1) / swap * swap) = sc_burnin sc \/
     swap < i /\ Nat.min swap (sc_burnin sc - (i - 1) / swap * swap) = 0)%nat).
  { intros i Hi. destruct (le_lt_dec i swap) as [G|G].
    - left. split; auto. rewrite Nat.div_small by lia. lia.
    - right. split; auto. assert (1 <= (i - 1) / swap)%nat by (apply Nat.div_le_lower_bound; lia). nia. }
  split.
  - assert (Hin : forall ce, In ce sel -> In ce ces /\
      batch_schedule swap (sc_burnin sc) (sc_every sc) (c_nprop_tot ce) /\ c_temp ce = 1).
    { clear -G4. induction G4; intros x Hx; [destruct Hx| |].
      - destruct Hx as [<-|Hx]; [split; [now left|auto]|]. apply IHG4 in Hx. split; [right|]; tauto.
      - apply IHG4 in Hx. split; [right|]; tauto. }
    intros ce Hce. apply Hin in Hce. destruct Hce as (Hc1 & Hc2 & Hc3). split; auto. split; auto.
    unfold batch_schedule, on_schedule in Hc2. destruct Hc2 as [Hc2 _].
    destruct (Hcase (c_nprop_tot ce)) as [[A B]|[A B]]; rewrite ?B in *; lia.
  - intros [d Hd]. eapply selects_ext; [|exact G4]. intros ce Hce.
    apply In_nth_error in Hce. destruct Hce as [j Hce]. rewrite (G3 _ _ Hce).
    unfold batch_schedule. destruct (Hcase (S j)) as [[A ->]|[A ->]]; [lia|tauto|].
    unfold on_schedule. split; intros [[H1 [q Hq]] Ht]; split; auto; split; try lia.
    + exists (q - d)%nat. nia.
    + exists (q + d)%nat. nia.
Qed.
End PT.

(** ** A concrete run
    Two chains at temperatures 1 and 2 whose proposals are always accepted and whose
    exchanges are proposed hot chain first and refused. *)
Definition hot := toy KState true (Fin 0) (Fin 100).
Definition pt_toy := parallel_tempering hot (1/2) 2 [] [] [] [].
Definition pair0 := [new_chain hot 0%nat; set_temperature hot 2 (new_chain hot 10%nat)].
Definition refused := [DPair 1 0; DU (1/2); DPair 1 0; DU (1/2)].
Definition batch1 := [DU (1/2); DU (1/2); DU (1/2); DU (1/2)] ++ refused.

Lemma hot_next c u v tr : 0 <= u < 1 -> 0 < v < 1 ->
  next_iteration hot c (DU u :: DU v :: tr) =
  Ret (let '(c', x) := finish hot "move" true (S (c_cur c)) c in
       (c', match x with Done => None | Stop e => Some e | Retry => Some ERuntime end)) tr.
Proof.
  intros Hu Hv. unfold next_iteration. change 500%nat with (S 499). generalize 499%nat. intros n.
  cbn [tries]. unfold bind at 1, attempt.
  cbn [e_funcs hot toy length e_weights].
  unfold bind at 1, try at 1. rewrite choices_one by auto.
  cbn [nth_error]. unfold bind at 1, try at 1, ret at 1. cbn [eisinf].
  unfold bind at 1. cbn [e_like hot toy]. unfold ret at 1.
  unfold decide, bind at 1. rewrite drawU_ok by lra.
  destruct (py_log_cases v ltac:(lra)) as [[? _]|[_ ->]]; [lra|].
  assert (Ha : egtb (eadd (Fin 0) (Fin 100)) (Fin (ln v)) = true).
  { apply accept_rule; auto. cbn. rewrite Rplus_0_l. apply Rmin_glb_lt; [lra|].
    apply Rlt_trans with (exp 0); [rewrite exp_0; lra|]. apply exp_increasing. lra. }
  rewrite Ha. unfold ret at 1.
  replace (set_cur (c_cur c) c) with c by now destruct c.
  fold hot.
  destruct (finish _ _ _ _ c) as [c' x] eqn:Hf. destruct x; try reflexivity.
  exfalso. eapply finish_not_retry; eauto.
Qed.
Lemma hot_round sc (b e : hook nat nat) c u v tr flag :
  (forall c tr, b c tr = Ret (c, None) tr) -> (forall c tr, e c tr = Ret (c, None) tr) ->
  0 <= u < 1 -> 0 < v < 1 -> sc_verbose sc = false ->
  save_flag sc (S (c_nprop_tot c)) = Ok flag ->
  advance_one hot sc (Some b) (Some e) c (DU u :: DU v :: tr) =
  Ret (let '(c', x) := finish hot "move" true (S (c_cur c)) (set_flag flag c) in
       (c', match x with Done => None | Stop e => Some e | Retry => Some ERuntime end)) tr.
Proof.
  intros Hb He Hu Hv Hvb Hf. unfold advance_one. rewrite Hf. unfold bind at 1.
  cbn [call_hook]. rewrite Hb. unfold bind at 1.
  rewrite hot_next by auto. cbn [c_cur set_flag].
  destruct (finish _ _ _ _ _) as [c' [|x|]] eqn:Hfin; try reflexivity.
  unfold bind. rewrite He. unfold ret. now rewrite Hvb.
Qed.
(** The refused exchanges. *)
Lemma hot_refuse c0 c1 tr : c_temp c0 = 1 -> c_temp c1 = 2 ->
  pt_on_end_advance hot [c0; c1] (refused ++ tr) = Ret ([c0; c1], None) tr.
Proof.
  intros H0 H1.
  assert (Hone : forall tr, pt_swap_one hot [c0; c1] (DPair 1 0 :: DU (1/2) :: tr) = Ret ([c0; c1], None) tr).
  { intros t. unfold pt_swap_one, bind at 1, try. cbn [length choose_two Nat.ltb Nat.leb Nat.eqb andb negb].
    unfold pt_swap_with. cbn [nth_error]. rewrite H0, H1.
    unfold bind at 1. cbn [e_like hot toy]. unfold ret at 1.
    rewrite !Reqb_false by lra. cbn [orb]. unfold bind. rewrite drawU_ok by lra.
    destruct (py_log_cases (1/2) ltac:(lra)) as [[? _]|[_ ->]]; [lra|].
    assert (Hn : egtb (emul (1 / 2 - 1 / 1) (Fin 100)) (Fin (ln (1 / 2))) = false).
    { destruct (egtb _ _) eqn:Ha; auto. exfalso. apply accept_rule in Ha; [|lra].
      cbn [emul mhg_accepts] in Ha.
      replace ((1 / 2 - 1 / 1) * 100) with (Ropp 50) in Ha by lra.
      assert (exp (Ropp 50) <= 1/2).
      { rewrite exp_Ropp. assert (Hge : 1 + 50 <= exp 50) by (left; apply exp_ineq1; lra).
        apply Rle_trans with (/ 2); [|lra]. apply Rinv_le_contravar; lra. }
      assert (Rmin 1 (exp (Ropp 50)) <= exp (Ropp 50)) by apply Rmin_r. lra. }
    rewrite Hn. unfold ret, set_nth. cbn [firstn skipn app].
    replace (set_cur (c_cur c0) c0) with c0 by now destruct c0.
    replace (set_cur (c_cur c1) c1) with c1 by now destruct c1. reflexivity. }
  unfold pt_on_end_advance, refused. cbn [length pt_swaps app]. unfold bind.
  rewrite Hone, Hone. reflexivity.
Qed.

Definition sched_pt := {| sc_burnin := 2; sc_every := 1; sc_verbose := false; sc_print_every := 0 |}.
Lemma idle_begin c tr : begin_iteration pt_toy c tr = Ret (c, None) tr.
Proof. reflexivity. Qed.
Lemma idle_end c tr : end_iteration pt_toy c tr = Ret (c, None) tr.
Proof. reflexivity. Qed.
(** One batch of one iteration. *)
Lemma hot_batch sc c0 c1 c0' c1' f0 f1 tr :
  sc_verbose sc = false ->
  save_flag sc (S (c_nprop_tot c0)) = Ok f0 -> save_flag sc (S (c_nprop_tot c1)) = Ok f1 ->
  finish hot "move" true (S (c_cur c0)) (set_flag f0 c0) = (c0', Done) ->
  finish hot "move" true (S (c_cur c1)) (set_flag f1 c1) = (c1', Done) ->
  c_temp c0 = 1 -> c_temp c1 = 2 ->
  advance_chain hot pt_toy (Some 1%Z) 1 sc [c0; c1] (batch1 ++ tr) = Ret ([c0'; c1'], None) tr.
Proof.
  intros Hv Hf0 Hf1 H0 H1 T0 T1. unfold advance_chain, batch1. cbn [app each_chain advance].
  unfold bind at 1 2 3 4.
  rewrite (hot_round _ _ _ _ _ _ _ f0 idle_begin idle_end) by (auto; lra). rewrite H0.
  unfold ret at 1. unfold bind.
  rewrite (hot_round _ _ _ _ _ _ _ f1 idle_begin idle_end) by (auto; lra). rewrite H1.
  unfold ret, bind. cbn [sm_on_end_advance pt_toy parallel_tempering].
  apply (hot_refuse c0' c1' tr).
  - apply finish_frame in H0. destruct H0 as [-> _]. exact T0.
  - apply finish_frame in H1. destruct H1 as [-> _]. exact T1.
Qed.
Lemma hot_empty sc c0 c1 tr : c_temp c0 = 1 -> c_temp c1 = 2 ->
  advance_chain hot pt_toy (Some 1%Z) 0 sc [c0; c1] (refused ++ tr) = Ret ([c0; c1], None) tr.
Proof. intros H0 H1. exact (hot_refuse c0 c1 tr H0 H1). Qed.

Lemma Reqb_21 : Reqb 2 1 = false.
Proof. apply Reqb_false. lra. Qed.
(** Rounds of the loop of run. *)
Lemma pt_loop_S {St V} (E : env St V) fuel s jobs swap n sc cs tr cs1 tr1 r it :
  advance_chain E s jobs (Nat.min swap (n - it)) (with_burnin (Nat.min swap (sc_burnin sc - it)) sc) cs tr
    = Ret (cs1, None) tr1 ->
  option_map c_nprop_tot (nth_error cs 0) = Some it -> (it < n)%nat ->
  pt_loop E fuel s jobs swap n sc cs1 tr1 = r ->
  pt_loop E (S fuel) s jobs swap n sc cs tr = r.
Proof.
  intros H Hit Hn <-. destruct cs as [|c0 t]; [discriminate|]. injection Hit as <-.
  cbn [pt_loop]. rewrite (bind_ret _ _ _ _ _ H).
  now destruct (Nat.leb_spec n (c_nprop_tot c0)); [lia|].
Qed.
Lemma pt_loop_last {St V} (E : env St V) fuel s jobs swap n sc cs tr cs1 tr1 it :
  advance_chain E s jobs (Nat.min swap (n - it)) (with_burnin (Nat.min swap (sc_burnin sc - it)) sc) cs tr
    = Ret (cs1, None) tr1 ->
  option_map c_nprop_tot (nth_error cs 0) = Some it -> (n <= it)%nat ->
  pt_loop E (S fuel) s jobs swap n sc cs tr = Ret (cs1, None) tr1.
Proof.
  intros H Hit Hn. destruct cs as [|c0 t]; [discriminate|]. injection Hit as <-.
  cbn [pt_loop]. rewrite (bind_ret _ _ _ _ _ H).
  now destruct (Nat.leb_spec n (c_nprop_tot c0)); [|lia].
Qed.
Definition pair1 := [moved 1 (set_flag false (new_chain hot 0%nat));
                     moved 11 (set_flag false (set_temperature hot 2 (new_chain hot 10%nat)))].
Definition pair2 := [moved_saved 2 [] (set_flag true (moved 1 (set_flag false (new_chain hot 0%nat))));
  moved 12 (set_flag true (moved 11 (set_flag false (set_temperature hot 2 (new_chain hot 10%nat)))))].
(** The burn-in of two iterations is not respected: with swap_every = 1 the sample of
    iteration 2 is saved (the state is 2 after two accepted moves from 0). *)
Theorem C31_burnin_refuted :
  exists cs', pt_loop hot 3 pt_toy (Some 1%Z) 1 2 sched_pt pair0 (batch1 ++ batch1 ++ refused)
      = Ret (cs', None) [] /\
    (forall c, In c pair0 -> c_nprop_tot c = 0%nat) /\ sc_burnin sched_pt = 2%nat /\
    exists c d, nth_error cs' 0 = Some c /\ c_nprop_tot c = 2%nat /\ c_saved c = SDict d /\
                stored "m" d = [2%nat].
Proof.
  assert (H1 : advance_chain hot pt_toy (Some 1%Z) 1 (with_burnin 1 sched_pt) pair0 (batch1 ++ batch1 ++ refused)
     = Ret (pair1, None) (batch1 ++ refused)).
  { apply (hot_batch _ _ _ _ _ false false); try reflexivity; apply toy_unsaved; left; reflexivity. }
  assert (H2 : advance_chain hot pt_toy (Some 1%Z) 1 (with_burnin 1 sched_pt) pair1 (batch1 ++ refused)
     = Ret (pair2, None) refused).
  { rewrite <- (app_nil_r refused) at 1. rewrite app_assoc, <- (app_nil_r refused).
    rewrite <- app_assoc. rewrite app_nil_r.
    apply (hot_batch _ _ _ _ _ true true); try reflexivity.
    - apply toy_saved; reflexivity.
    - apply toy_unsaved. right. split; [discriminate|]. cbn. lra. }
  assert (H3 : advance_chain hot pt_toy (Some 1%Z) 0 (with_burnin 0 sched_pt) pair2 refused = Ret (pair2, None) []).
  { rewrite <- (app_nil_r refused). apply hot_empty; reflexivity. }
  exists pair2. split; [|split; [intros c [<-|[<-|[]]]; reflexivity|]].
  - apply (pt_loop_S hot 2 pt_toy (Some 1%Z) 1 2 sched_pt _ _ _ _ _ 0 H1 eq_refl ltac:(lia)).
    apply (pt_loop_S hot 1 pt_toy (Some 1%Z) 1 2 sched_pt _ _ _ _ _ 1 H2 eq_refl ltac:(lia)).
    apply (pt_loop_last hot 0 pt_toy (Some 1%Z) 1 2 sched_pt _ _ _ _ 2 H3 eq_refl ltac:(lia)).
  - split; [reflexivity|]. eexists _, _. split; [reflexivity|]. split; [reflexivity|]. split; reflexivity.
Qed.
(** The same run meets the hypotheses of C28, C30 and C31. *)
Example C30_case : exists cs' tr',
  pt_loop hot 3 pt_toy (Some 1%Z) 1 2 sched_pt pair0 (batch1 ++ batch1 ++ refused) = Ret (cs', None) tr' /\
  (forall c, In c pair0 -> c_nprop_tot c = 0%nat) /\ batch_sizes 1 2 ++ [0%nat] = [1; 1; 0]%nat.
Proof.
  destruct C31_burnin_refuted as (cs' & H & H0 & _). exists cs', []. auto.
Qed.
Example C30_sizes : batch_sizes 500 1200 = [500; 500; 200]%nat.
Proof. reflexivity. Qed.

(** * C32: annealing *)

(** On fresh chains, whatever the callbacks do besides: iteration [j] runs at the documented
    temperature, exactly the iterations on the schedule are saved, all at temperature 1. *)
Theorem C32_cooling {St V} (E : env St V) T0 xi xb xe xa jobs n sc cs tr cs' tr' :
  1 < T0 ->
  Forall (fun h => leaves_records (Some h) /\ leaves_temp (Some h)) xb ->
  Forall (fun h => leaves_records (Some h) /\ leaves_temp (Some h)) xe ->
  sa_run E T0 xi xb xe xa jobs n sc cs tr = Ret (cs', None) tr' ->
  length cs' = length cs /\
  forall p c, nth_error cs p = Some c -> c_nprop_tot c = 0%nat -> fitting E c ->
  exists c' ces sel, nth_error cs' p = Some c' /\ length ces = n /\
    (forall j ce, nth_error ces j = Some ce ->
       c_nprop_tot ce = S j /\ c_temp ce = cool T0 (sc_burnin sc) j) /\
    selects (fun ce => on_schedule (sc_burnin sc) (sc_every sc) (c_nprop_tot ce)) ces sel /\
    (forall ce, In ce sel -> c_temp ce = 1) /\
    appended E sel (c_saved c) (c_saved c').
Proof.
  intros HT Hxb Hxe H.
  assert (Hrun : exists rate, ((0 < sc_burnin sc)%nat -> rate = ln T0 / INR (sc_burnin sc)) /\
    advance_chain E (simulated_annealing E T0 (sc_burnin sc) rate xi xb xe xa) jobs n sc cs tr = Ret (cs', None) tr').
  { revert H. unfold sa_run. destruct (Nat.eqb_spec (sc_burnin sc) 0) as [H0|H0].
    - intros H. exists 0. split; [lia|]. now rewrite H0.
    - unfold py_log. destruct (Rltb 0 T0) eqn:Hl.
      + intros H. exists (ln T0 / INR (sc_burnin sc)). auto.
      + unfold Rltb in Hl. destruct (Rlt_dec 0 T0); [discriminate|lra]. }
  clear H. destruct Hrun as (rate & Hrate & H).
  apply advance_chain_inv in H. destruct H as (csm & trm & Ha & Hs).
  cbn in Hs. unfold nothing_l in Hs. minv. subst.
  split; [apply (all_chains_length _ _ _ _ _ Ha)|].
  intros p c Hp H0 Hfit.
  destruct (all_chains_nth _ _ _ _ _ Ha p c Hp) as (c' & t & t' & Hc' & Hadv).
  apply advance_rounds in Hadv. destruct Hadv as (ces & Hl & Hr).
  pose proof (sa_begin_records E T0 (sc_burnin sc) rate xi xb xe xa Hxb) as Rb.
  pose proof (sa_end_records E T0 (sc_burnin sc) rate xi xb xe xa Hxe) as Re.
  destruct (rounds_appended E _ _ _ _ _ _ _ _ Rb Re Hfit Hr) as (sel & Hsel & Happ).
  destruct (rounds_counts E _ _ _ Rb Re _ _ _ _ _ Hr) as (_ & _ & Hj).
  assert (Hcool : forall j ce, nth_error ces j = Some ce ->
       c_nprop_tot ce = S j /\ c_temp ce = cool T0 (sc_burnin sc) j).
  { intros j ce Hce. split; [rewrite (Hj _ _ Hce), H0; reflexivity|].
    rewrite (sa_rounds E T0 _ rate xi xb xe xa ltac:(lra) Hrate Hxb Hxe _ _ _ _ _ _ Hr) with (j := j);
      [now rewrite H0|intros; lia|auto]. }
  exists c', ces, sel. split; auto. split; auto. split; auto. split.
  - eapply selects_ext; [|exact Hsel]. intros ce Hce. unfold sampled. split; [tauto|].
    intros Hon. split; auto. apply In_nth_error in Hce. destruct Hce as [j Hce].
    destruct (Hcool _ _ Hce) as [Hn ->]. apply cool_after. destruct Hon as [Hon _]. lia.
  - split; auto. clear -Hsel. intros ce Hce.
    induction Hsel as [|x l sel [_ Hx] Hs IH|x l sel Hx Hs IH]; [destruct Hce| |auto].
    destruct Hce as [<-|Hce]; auto.
Qed.
(** The cooling schedule: starts at T0, never rises, stays between 1 and T0, is 1 after the
    burn-in. *)
Theorem C32_schedule T0 B : 1 < T0 -> (0 < B)%nat ->
  cool T0 B 0 = T0 /\ (forall i, cool T0 B (S i) <= cool T0 B i) /\
  (forall i, 1 <= cool T0 B i <= T0) /\ (forall i, (B <= i)%nat -> cool T0 B i = 1).
Proof.
  intros HT HB. split; [|split; [|split]].
  - unfold cool. rewrite (proj2 (Nat.ltb_lt 0 B) HB). cbn [INR].
    replace (1 - 0 / INR B) with 1 by (unfold Rdiv; ring). apply Rpower_1. lra.
  - intros i. now apply cool_decreasing.
  - intros i. now apply cool_bounds.
  - intros i. apply cool_after.
Qed.
(** Initialization sets every chain to T0. *)
Theorem C32_initialize {St V} (E : env St V) T0 cs tr :
  exists cs', sa_on_initialize E T0 cs tr = Ret (cs', None) tr /\
    Forall2 (untouched (@anything St)) cs cs' /\ Forall (fun c => c_temp c = T0) cs'.
Proof.
  exists (map (set_temperature E T0) cs). split; [reflexivity|]. split.
  - induction cs; constructor; auto. apply (swap_step_anything E). apply ss_temp.
  - induction cs; constructor; auto.
Qed.

(** A concrete annealed run: burn-in 1, three iterations from temperature 4. *)
Definition sched_sa := {| sc_burnin := 1; sc_every := 1; sc_verbose := false; sc_print_every := 0 |}.
Definition sa_toy (B : nat) (rate : R) := simulated_annealing hot 4 B rate [] [] [] [].
Lemma advance_S {St V} (E : env St V) n sc b e c tr c1 tr1 r :
  advance_one E sc b e c tr = Ret (c1, None) tr1 -> advance E n sc b e c1 tr1 = r ->
  advance E (S n) sc b e c tr = r.
Proof. intros H <-. cbn [advance]. now rewrite (bind_ret _ _ _ _ _ H). Qed.
Lemma sa_round_toy c u v tr flag B rate c1 c' :
  0 <= u < 1 -> 0 < v < 1 ->
  save_flag sched_sa (S (c_nprop_tot c)) = Ok flag ->
  (forall tr, sa_on_begin hot 4 B rate (set_flag flag c) tr = Ret (c1, None) tr) ->
  finish hot "move" true (S (c_cur c1)) c1 = (c', Done) ->
  advance_one hot sched_sa (Some (begin_iteration (sa_toy B rate)))
     (Some (end_iteration (sa_toy B rate))) c (DU u :: DU v :: tr) = Ret (c', None) tr.
Proof.
  intros Hu Hv Hf Hb Hfin. unfold advance_one. rewrite Hf.
  cbn [call_hook]. unfold begin_iteration, end_iteration.
  cbn [sa_toy simulated_annealing sm_on_begin sm_x_begin sm_on_end sm_x_end call_all].
  unfold bind. rewrite Hb. cbn [ret]. unfold ret.
  rewrite hot_next by auto. rewrite Hfin. reflexivity.
Qed.
(** Running one chain. *)
Lemma sa_run_toy n c tr c' tr' :
  advance hot n sched_sa (Some (begin_iteration (sa_toy 1 (ln 4 / INR 1))))
     (Some (end_iteration (sa_toy 1 (ln 4 / INR 1)))) c tr = Ret (c', None) tr' ->
  sa_run hot 4 [] [] [] [] (Some 1%Z) n sched_sa [c] tr = Ret ([c'], None) tr'.
Proof.
  intros H. unfold sa_run. cbn [sc_burnin sched_sa Nat.eqb]. unfold py_log.
  destruct (Rltb 0 4) eqn:H4; [|unfold Rltb in H4; destruct (Rlt_dec 0 4); [discriminate|lra]].
  fold (sa_toy 1 (ln 4 / INR 1)). unfold advance_chain.
  set (f := advance _ _ _ _ _) in *.
  assert (He : each_chain f [c] tr = Ret ([c'], None) tr').
  { apply each_chain_ok. econstructor; [exact H|constructor]. }
  rewrite (bind_ret _ _ _ _ _ He). reflexivity.
Qed.
Example C32_case : exists c',
  sa_run hot 4 [] [] [] [] (Some 1%Z) 2 sched_sa [set_temperature hot 4 (new_chain hot 0%nat)]
    (repeat (DU (1/2)) 4) = Ret ([c'], None) [] /\
  c_saved c' = SDict [("m"%string, [2%nat]); ("t.dpred"%string, [20%nat])].
Proof.
  eexists. split.
  - apply sa_run_toy. cbn [repeat].
    eapply advance_S.
    { eapply (sa_round_toy _ _ _ _ false); [lra|lra|reflexivity|reflexivity|].
      apply toy_unsaved. left. reflexivity. }
    eapply advance_S; [|reflexivity].
    eapply (sa_round_toy _ _ _ _ true); [lra|lra|reflexivity|reflexivity|].
    apply toy_saved; reflexivity.
  - reflexivity.
Qed.

(** * C33: continuing an annealed inversion *)

(** Once the burn-in has passed, another run (which starts by setting the temperature to T0)
    stays at T0 and saves nothing, whatever its length. *)
Theorem C33_second_run {St V} (E : env St V) T0 jobs n sc cs tr cs' tr' xi xa :
  0 < T0 -> T0 <> 1 ->
  sa_run E T0 xi [] [] xa jobs n sc (map (set_temperature E T0) cs) tr = Ret (cs', None) tr' ->
  forall p c, nth_error cs p = Some c -> (sc_burnin sc < c_nprop_tot c)%nat -> fitting E c ->
  exists c', nth_error cs' p = Some c' /\ c_temp c' = T0 /\
    c_nprop_tot c' = (c_nprop_tot c + n)%nat /\ appended E [] (c_saved c) (c_saved c').
Proof.
  intros HT HT1 H p c Hp Hlate Hfit.
  assert (Hrun : exists rate, ((0 < sc_burnin sc)%nat -> rate = ln T0 / INR (sc_burnin sc)) /\
    advance_chain E (simulated_annealing E T0 (sc_burnin sc) rate xi [] [] xa) jobs n sc
      (map (set_temperature E T0) cs) tr = Ret (cs', None) tr').
  { revert H. unfold sa_run. destruct (Nat.eqb_spec (sc_burnin sc) 0) as [H0|H0].
    - intros H. exists 0. split; [lia|]. now rewrite H0.
    - unfold py_log. destruct (Rltb 0 T0) eqn:Hl.
      + intros H. exists (ln T0 / INR (sc_burnin sc)). auto.
      + unfold Rltb in Hl. destruct (Rlt_dec 0 T0); [discriminate|lra]. }
  clear H. destruct Hrun as (rate & Hrate & H).
  apply advance_chain_inv in H. destruct H as (csm & trm & Ha & Hs).
  cbn in Hs. unfold nothing_l in Hs. minv. subst.
  set (c0 := set_temperature E T0 c).
  assert (Hp0 : nth_error (map (set_temperature E T0) cs) p = Some c0).
  { rewrite nth_error_map, Hp. reflexivity. }
  destruct (all_chains_nth _ _ _ _ _ Ha p c0 Hp0) as (c' & t & t' & Hc' & Hadv).
  apply advance_rounds in Hadv. destruct Hadv as (ces & Hl & Hr).
  pose proof (sa_begin_records E T0 (sc_burnin sc) rate xi [] [] xa ltac:(constructor)) as Rb.
  pose proof (sa_end_records E T0 (sc_burnin sc) rate xi [] [] xa ltac:(constructor)) as Re.
  assert (Hfit0 : fitting E c0) by exact Hfit.
  destruct (rounds_appended E _ _ _ _ _ _ _ _ Rb Re Hfit0 Hr) as (sel & Hsel & Happ).
  destruct (rounds_counts E _ _ _ Rb Re _ _ _ _ _ Hr) as (Hn & _ & _).
  destruct (sa_rounds_late E T0 (sc_burnin sc) rate xi [] [] xa HT Hrate ltac:(constructor) ltac:(constructor)
    _ _ _ _ _ _ Hr Hlate) as [Htc Hce].
  exists c'. split; auto. split; [exact Htc|]. split; [rewrite Hn, Hl; reflexivity|].
  assert (sel = []).
  { clear -Hsel Hce HT1. induction Hsel as [|x l sel [_ Hx] Hs IH|x l sel Hx Hs IH]; auto.
    - exfalso. rewrite (Hce x (or_introl eq_refl)) in Hx. cbn in Hx. auto.
    - apply IH. intros y Hy. apply Hce. now right. }
  subst sel. exact Happ.
Qed.
Definition annealed : chain nat nat :=
  mkChain 5%nat 1 [] [] 2 0 [] (SDict []) None [].
(** A chain that has passed the burn-in: one more iteration, on the schedule, saves nothing. *)
Theorem C33_continuation_refuted :
  exists c', sa_run hot 4 [] [] [] [] (Some 1%Z) 1 sched_sa [set_temperature hot 4 annealed]
      [DU (1/2); DU (1/2)] = Ret ([c'], None) [] /\
    on_schedule (sc_burnin sched_sa) (sc_every sched_sa) (c_nprop_tot c') /\
    c_temp c' = 4 /\ c_saved c' = SDict [].
Proof.
  eexists. split.
  - apply sa_run_toy.
    eapply advance_S; [|reflexivity].
    eapply (sa_round_toy _ _ _ _ true); [lra|lra|reflexivity|reflexivity|].
    apply toy_unsaved. right. split; [discriminate|]. cbn. lra.
  - split; [|split; reflexivity]. cbn. split; [lia|]. exists 2%nat. reflexivity.
Qed.

(** * C34: callbacks *)

(** Each registered function writes an entry computed from the number of completed
    iterations; after a run of [n] iterations the entries are those of all functions, in
    order of registration, those for the beginning before and those for the end after each
    iteration. *)
Theorem C34_iterations {St V} (E : env St V) (s : sampler St V) fs gs n sc c tr c' tr' :
  silent (sm_on_begin s) -> silent (sm_on_end s) ->
  Forall2 notes fs (sm_x_begin s) -> Forall2 notes gs (sm_x_end s) ->
  advance E n sc (Some (begin_iteration s)) (Some (end_iteration s)) c tr = Ret (c', None) tr' ->
  c_log c' = c_log c ++
    concat (map (fun i => map (fun f => f i) fs ++ map (fun g => g (S i)) gs)
              (seq (c_nprop_tot c) n)).
Proof.
  intros Hb He HF HG H. apply advance_rounds in H. destruct H as (ces & <- & Hr).
  exact (rounds_notes E sc _ _ fs gs _ _ Hb He HF HG _ _ _ _ _ Hr).
Qed.
(** The samplers' own callbacks run before the registered ones. *)
Theorem C34_own_first {St V} (s : sampler St V) c tr c' tr' :
  begin_iteration s c tr = Ret (c', None) tr' ->
  exists c1 tr1, sm_on_begin s c tr = Ret (c1, None) tr1 /\
    call_all (sm_x_begin s) c1 tr1 = Ret (c', None) tr'.
Proof. apply call_all_ok. Qed.
(** Initialization: the own callback, then the registered ones in order, once each. *)
Theorem C34_initialize {St V} (s : sampler St V) cs tr cs' tr' :
  initialize s cs tr = Ret (cs', None) tr' <->
  exists cs1 tr1, sm_on_initialize s cs tr = Ret (cs1, None) tr1 /\
    call_all (sm_x_initialize s) cs1 tr1 = Ret (cs', None) tr'.
Proof. apply call_all_ok. Qed.
Definition writer (f : nat -> nat) : hook nat nat := fun c => ret (add_log (f (c_nprop_tot c)) c, None).
Example C34_case : Forall2 notes [(fun i => 2 * i)%nat; (fun i => 7)%nat]
    [writer (fun i => 2 * i)%nat; writer (fun i => 7)%nat] /\ silent (@nothing nat nat).
Proof.
  split.
  - repeat constructor; try (unfold writer in *; minv; subst; auto).
    all: unfold writer in H; minv; now subst.
  - intros c tr c' o tr' H. unfold nothing in H. minv. now subst.
Qed.
(** Functions registered with add_on_end_advance_chain are never called: the run does not
    depend on them. *)
Definition with_end_advance {St V} (s : sampler St V) (xa : list (lhook St V)) : sampler St V :=
  {| sm_on_initialize := sm_on_initialize s; sm_on_begin := sm_on_begin s; sm_on_end := sm_on_end s;
     sm_on_end_advance := sm_on_end_advance s; sm_x_initialize := sm_x_initialize s;
     sm_x_begin := sm_x_begin s; sm_x_end := sm_x_end s; sm_x_end_advance := xa |}.
Theorem C34_end_advance_ignored {St V} (E : env St V) s xa jobs n sc cs tr :
  advance_chain E (with_end_advance s xa) jobs n sc cs tr = advance_chain E s jobs n sc cs tr.
Proof. reflexivity. Qed.
Theorem C34_end_advance_refuted :
  exists (s : sampler nat nat) f, In f (sm_x_end_advance s) /\
    (forall cs tr, f cs tr = Ret (cs, Some EAssert) tr) /\
    forall sc cs tr, advance_chain hot s (Some 1%Z) 0 sc cs tr = Ret (cs, None) tr.
Proof.
  exists (vanilla [] [] [] [fun cs => ret (cs, Some EAssert)]), (fun cs => ret (cs, Some EAssert)).
  split; [now left|]. split; [reflexivity|].
  intros sc cs tr. unfold advance_chain, bind.
  assert (Hz : forall cs tr, each_chain (advance hot 0 sc
    (Some (begin_iteration (vanilla [] [] [] [fun cs => ret (cs, Some EAssert)])))
    (Some (end_iteration (vanilla [] [] [] [fun cs => ret (cs, Some EAssert)])))) cs tr = Ret (cs, None) tr).
  { clear. induction cs as [|c cs IH]; intros tr; [reflexivity|].
    cbn [each_chain]. unfold bind at 1. cbn [advance]. unfold ret at 1, bind. now rewrite IH. }
  rewrite Hz. reflexivity.
Qed.

(** * C57: scheduling *)

(** Workers own a chain and a stream of random numbers each; whatever the order of their
    iterations, the chains are those of running each one alone, in the original order. *)
Theorem C57_interleaving {St V} (E : env St V) sc b e n sch cfg cfg' :
  fair (length cfg) n sch -> length cfg' = length cfg ->
  (forall i c tr, nth_error cfg i = Some (c, tr) -> exists c' tr',
     nth_error cfg' i = Some (c', tr') /\ advance E n sc b e c tr = Ret (c', None) tr') ->
  work E sc b e sch cfg = Some cfg'.
Proof.
  intros [Hin Hcnt] Hl H. apply work_advance; auto.
  intros i c tr Hi. rewrite Hcnt; [auto|]. apply nth_error_Some. congruence.
Qed.
Example C57_case : fair 2 2 [0; 1; 1; 0]%nat /\ fair 2 2 [1; 0; 1; 0]%nat.
Proof.
  split; (split; [intros i [<-|[<-|[<-|[<-|[]]]]]; lia|]);
    intros [|[|i]] Hi; try lia; reflexivity.
Qed.
(** Sequential and parallel mode give the same chains as long as nothing raises; each chain
    of the result is the one of its own position, advanced. *)
Theorem C57_modes {St V} (E : env St V) s jobs jobs' n sc cs tr cs' tr' :
  advance_chain E s (Some jobs) n sc cs tr = Ret (cs', None) tr' ->
  advance_chain E s (Some jobs') n sc cs tr = Ret (cs', None) tr'.
Proof.
  unfold advance_chain. intros H. minv. destruct a as [csm [x|]]; minv; [discriminate|].
  rewrite (bind_ret _ _ _ _ _ H0). exact H1.
Qed.
Theorem C57_positions {St V} (E : env St V) xi xb xe xa jobs n sc cs tr cs' tr' :
  let s := vanilla xi xb xe xa in
  advance_chain E s jobs n sc cs tr = Ret (cs', None) tr' ->
  length cs' = length cs /\
  forall p c, nth_error cs p = Some c -> exists c' t t', nth_error cs' p = Some c' /\
    advance E n sc (Some (begin_iteration s)) (Some (end_iteration s)) c t = Ret (c', None) t'.
Proof.
  intros s H. apply advance_chain_inv in H. destruct H as (csm & trm & Ha & Hs).
  cbn in Hs. unfold nothing_l in Hs. minv. subst. split.
  - exact (all_chains_length _ _ _ _ _ Ha).
  - exact (all_chains_nth _ _ _ _ _ Ha).
Qed.

(** * C58: a failing chain *)

(** Parallel mode: nothing happens to the chains if a worker raises. *)
Theorem C58_parallel {St V} (E : env St V) s jobs n sc cs tr cs1 x tr1 :
  (1 < jobs)%Z ->
  each_chain (advance E n sc (Some (begin_iteration s)) (Some (end_iteration s))) cs tr = Ret (cs1, Some x) tr1 ->
  advance_chain E s (Some jobs) n sc cs tr = Ret (cs, Some x) tr1.
Proof.
  intros Hj H. unfold advance_chain. rewrite (bind_ret _ _ _ _ _ H).
  destruct (Z.ltb_spec 1 jobs); [reflexivity|lia].
Qed.
(** Sequential mode: the chains before the failing one are complete, those after it are
    untouched, and the failing one has completed [m] iterations and stopped in the next. *)
Theorem C58_sequential {St V} (E : env St V) s n sc cs tr cs1 x tr1 :
  each_chain (advance E n sc (Some (begin_iteration s)) (Some (end_iteration s))) cs tr = Ret (cs1, Some x) tr1 ->
  advance_chain E s (Some 1%Z) n sc cs tr = Ret (cs1, Some x) tr1 /\
  exists done c rest done' c' tr2 m cm trm,
    cs = done ++ c :: rest /\ cs1 = done' ++ c' :: rest /\ length done' = length done /\
    (forall p c, nth_error done p = Some c -> exists c' t t', nth_error done' p = Some c' /\
       advance E n sc (Some (begin_iteration s)) (Some (end_iteration s)) c t = Ret (c', None) t') /\
    (m < n)%nat /\
    advance E m sc (Some (begin_iteration s)) (Some (end_iteration s)) c tr2 = Ret (cm, None) trm /\
    advance_one E sc (Some (begin_iteration s)) (Some (end_iteration s)) cm trm = Ret (c', Some x) tr1.
Proof.
  intros H. split.
  - unfold advance_chain. rewrite (bind_ret _ _ _ _ _ H). reflexivity.
  - destruct (each_chain_fail _ _ _ _ _ _ H) as (dn & c & rest & dn' & c' & tr2 & -> & -> & Ha & Hf).
    destruct (C58_exception E n sc _ _ c tr2 c' x tr1 Hf) as (m & cm & trm & Hm & H1 & H2).
    exists dn, c, rest, dn', c', tr2, m, cm, trm. repeat (split; auto).
    + exact (all_chains_length _ _ _ _ _ Ha).
    + exact (all_chains_nth _ _ _ _ _ Ha).
Qed.
(** The whole inversion in parallel mode, any run that raises: only the temperatures set by
    the initialization have changed. *)
Theorem C58_inversion {St V} (s : sampler St V) run cs tr cs0 tr0 cs' x tr' :
  initialize s cs tr = Ret (cs0, None) tr0 -> Forall2 (untouched (V:=V) (@anything St)) cs cs0 ->
  inversion_run s run true cs tr = Ret (cs', Some x) tr' -> Forall2 (untouched (V:=V) (@anything St)) cs cs'.
Proof.
  intros H0 HF H. unfold inversion_run in H. rewrite (bind_ret _ _ _ _ _ H0) in H.
  apply bind_ret_inv in H. destruct H as ([cs1 [y|]] & t1 & _ & H); minv; subst; auto. discriminate.
Qed.
(** An exception of the initialization ends the run; the chains are as the initialization
    left them, in both modes, and nothing is advanced. *)
Theorem C58_initialization {St V} (s : sampler St V) run par cs tr cs0 x tr0 :
  initialize s cs tr = Ret (cs0, Some x) tr0 -> inversion_run s run par cs tr = Ret (cs0, Some x) tr0.
Proof. intros H. unfold inversion_run. now rewrite (bind_ret _ _ _ _ _ H). Qed.
Example C58_initialization_case : let cs := [new_chain hot 0%nat; new_chain hot 7%nat] in
  let fails : lhook nat nat := fun cs => ret (map (set_flag true) cs, Some EAssert) in
  initialize (vanilla [fails] [] [] []) cs [] = Ret (map (set_flag true) cs, Some EAssert) [].
Proof. reflexivity. Qed.
(** A hook that raises in the second of three chains. *)
Definition bomb : hook nat nat := fun c =>
  if (c_cur c =? 7)%nat then ret (c, Some EAssert) else ret (c, None).
Definition bomber : sampler nat nat := vanilla [] [bomb] [] [].
Example C58_case : let cs := [new_chain hot 0%nat; new_chain hot 7%nat; new_chain hot 3%nat] in
  exists cs1 tr1,
  each_chain (advance hot 1 sched_sa (Some (begin_iteration bomber)) (Some (end_iteration bomber))) cs
    [DU (1/2); DU (1/2); DU (1/2); DU (1/2)] = Ret (cs1, Some EAssert) tr1 /\
  map c_nprop_tot cs1 = [1; 0; 0]%nat.
Proof.
  cbn zeta. cbn [each_chain advance]. unfold bind at 1 2.
  assert (Hr : forall tr, advance_one hot sched_sa (Some (begin_iteration bomber)) (Some (end_iteration bomber))
    (new_chain hot 0%nat) (DU (1/2) :: DU (1/2) :: tr) =
    Ret (fst (finish hot "move" true 1%nat (set_flag false (new_chain hot 0%nat))), None) tr).
  { intros tr. unfold advance_one. cbn [save_flag sched_sa sc_burnin c_nprop_tot new_chain Nat.leb].
    cbn [call_hook]. unfold bind at 1. unfold begin_iteration at 1.
    cbn [bomber vanilla sm_on_begin sm_x_begin call_all]. unfold nothing, bomb, bind, ret.
    cbn [set_flag c_cur new_chain Nat.eqb]. rewrite hot_next by lra. reflexivity. }
  rewrite Hr. unfold ret at 1. cbv beta iota. unfold bind at 1 2.
  eexists _, _. split; [reflexivity|]. reflexivity.
Qed.

(** * C61: temperature of state and chain under samplers *)
Theorem C61_swaps {St V} (E : env St V) (temp_of : St -> R) cs tr cs' o tr' :
  (forall t s, temp_of (s_settemp (e_ops E) t s) = t) ->
  (forall s, s_kind (e_ops E) s = KState) ->
  (forall old new t tr old' new' r tr', e_like E old new t tr = Ret (old', new', r) tr' ->
     temp_of old' = temp_of old /\ temp_of new' = temp_of new) ->
  Forall (fun c => temp_of (c_cur c) = c_temp c) cs ->
  pt_on_end_advance E cs tr = Ret (cs', o) tr' ->
  Forall (fun c => temp_of (c_cur c) = c_temp c) cs'.
Proof.
  intros Hst Hk Hl H0 H.
  apply (pt_swaps_respects E (fun c c' => temp_of (c_cur c) = c_temp c -> temp_of (c_cur c') = c_temp c')) in H; auto.
  - destruct H as [H _]. clear -H H0. induction H; inversion H0; subst; auto.
  - intros c c' Hs. destruct Hs as [? ? ? ? ? ? ? ? Hx|? ? ? ? ? ? ? ? Hx|c Tn]; cbn [set_cur c_cur c_temp].
    + apply Hl in Hx. destruct Hx as [-> _]. auto.
    + apply Hl in Hx. destruct Hx as [_ ->]. auto.
    + intros _. now apply set_temperature_agrees.
Qed.
Theorem C61_annealing {St V} (E : env St V) (temp_of : St -> R) T0 B rate :
  (forall t s, temp_of (s_settemp (e_ops E) t s) = t) ->
  (forall s, s_kind (e_ops E) s = KState) ->
  keeps_temp temp_of (Some (sa_on_begin E T0 B rate)).
Proof.
  intros Hst Hk c tr c' o tr' H. cbn [call_hook] in H. unfold sa_on_begin in H.
  destruct (_ <? B)%nat; [|destruct (_ =? B)%nat]; minv; subst; auto;
    now apply set_temperature_agrees.
Qed.
(** Whole batches, for a sampler with any callbacks that keep them in agreement. *)
Theorem C61_batch {St V} (E : env St V) (temp_of : St -> R) (s : sampler St V) jobs n sc cs tr cs' o tr' :
  (forall ty f s new lpr tr tr',
     In (ty, f) (e_funcs E) -> f s tr = Ret (new, lpr) tr' -> temp_of new = temp_of s) ->
  (forall old new t tr old' new' r tr', e_like E old new t tr = Ret (old', new', r) tr' ->
     temp_of old' = temp_of old /\ temp_of new' = temp_of new) ->
  Forall (fun h => keeps_temp temp_of (Some h)) (sm_on_begin s :: sm_x_begin s) ->
  Forall (fun h => keeps_temp temp_of (Some h)) (sm_on_end s :: sm_x_end s) ->
  (forall cs tr cs' o tr', sm_on_end_advance s cs tr = Ret (cs', o) tr' ->
     Forall (fun c => temp_of (c_cur c) = c_temp c) cs -> Forall (fun c => temp_of (c_cur c) = c_temp c) cs') ->
  Forall (fun c => temp_of (c_cur c) = c_temp c) cs ->
  advance_chain E s jobs n sc cs tr = Ret (cs', o) tr' ->
  Forall (fun c => temp_of (c_cur c) = c_temp c) cs'.
Proof.
  intros Hf Hl Hb He Hend H0. unfold advance_chain.
  destruct jobs as [j|]; [|intros H; minv; now subst]. intros H. minv. destruct a as [csm om].
  assert (Hm : Forall (fun c => temp_of (c_cur c) = c_temp c) csm).
  { apply (each_chain_respects (fun c c' => temp_of (c_cur c) = c_temp c -> temp_of (c_cur c') = c_temp c')) in H1; auto.
    - clear -H1 H0. induction H1; inversion H0; subst; auto.
    - intros c tr2 c' o2 tr3 Hadv Hc.
      apply (C61_temperature E temp_of n sc _ _ c tr2 c' o2 tr3 Hf Hl) in Hadv; auto.
      + now apply keeps_temp_all.
      + now apply keeps_temp_all. }
  destruct om as [x|]; minv; subst; auto.
  - now destruct (1 <? j)%Z.
  - eapply Hend; eauto.
Qed.
(** Such a state: a value together with its temperature. *)
Definition warm_state_ops : state_ops (nat * R) nat := {|
  s_kind := fun _ => KState;
  s_items := fun s => [("m"%string, fst s)];
  s_cache := fun _ => Some [];
  s_pstats := fun _ => inr EUser;
  s_settemp := fun t s => (fst s, t) |}.
Example C61_sampler_case : exists E : env (nat * R) nat,
  (forall t s, snd (s_settemp (e_ops E) t s) = t) /\ (forall s, s_kind (e_ops E) s = KState) /\
  keeps_temp snd (Some (sa_on_begin E 4 10 1)).
Proof.
  exists {| e_ops := warm_state_ops; e_funcs := []; e_weights := [];
            e_like := fun a b _ => ret (a, b, inl (Fin 0));
            e_savedpred := true; e_transd := None |}.
  split; [reflexivity|split; [reflexivity|]].
  apply C61_annealing; reflexivity.
Qed.
