(** Property C15: detailed balance and stationarity of the decision rule. *)
From Verif Require Import Base ModelChain SpecChain ProofChain SpecBalance.
Local Open Scope R_scope.

(** [p] is the probability with which the model's decision accepts a proposal with these
    ratios: exactly the draws below [p] accept. *)
Definition accept_prob {St V} (E : env St V) (lpr llr : ext) (p : R) : Prop :=
  0 <= p <= 1 /\
  forall ty new c u tr, 0 < u < 1 ->
    decide E ty new lpr llr c (DU u :: tr) =
    Ret (finish E ty (if Rlt_dec u p then true else false) new c) tr.

Lemma decide_as {St V} (E : env St V) ty new lpr llr c u tr : 0 < u < 1 ->
  decide E ty new lpr llr c (DU u :: tr) =
  Ret (finish E ty (egtb (eadd lpr llr) (Fin (ln u))) new c) tr.
Proof.
  intros Hu. unfold decide, bind. rewrite drawU_ok by lra.
  destruct (py_log_cases u ltac:(lra)) as [[? _]|[_ ->]]; [lra|]. reflexivity.
Qed.
Lemma accept_flag_unique {St V} (E : env St V) ty new c0 a b :
  finish E ty a new (set_flag false c0) = finish E ty b new (set_flag false c0) ->
  String.prefix psp_prefix ty = false -> a = b.
Proof.
  intros H Hp. unfold finish, save_statistics in H. rewrite Hp in H. cbn in H.
  destruct a, b; auto; cbn in H; injection H; intros; lia.
Qed.
Lemma accept_prob_rule {St V} (E : env St V) (s : St) lpr llr p : accept_prob E lpr llr p ->
  forall u, 0 < u < 1 -> (u < p <-> mhg_accepts (eadd lpr llr) u).
Proof.
  intros [_ H] u Hu.
  specialize (H "m"%string s (set_flag false (new_chain E s)) u [] Hu).
  rewrite decide_as in H by auto. injection H as H. apply accept_flag_unique in H; [|reflexivity].
  rewrite <- accept_rule by auto. rewrite H. destruct (Rlt_dec u p); split; auto; discriminate.
Qed.

(** The acceptance probability exists and is unique: min(1, exp a) for finite ratios, 0 for
    minus infinity and NaN, 1 for plus infinity. *)
Definition mhg_prob (a : ext) : R :=
  match a with Fin x => Rmin 1 (exp x) | PInf => 1 | MInf => 0 | NaN => 0 end.
Lemma mhg_prob_rule a u : 0 < u < 1 -> (u < mhg_prob a <-> mhg_accepts a u).
Proof. intros Hu. destruct a; cbn; try tauto; split; intros; try lra; try tauto. Qed.
Lemma mhg_prob_range a : 0 <= mhg_prob a <= 1.
Proof.
  destruct a; cbn; try lra. pose proof (exp_pos r).
  unfold Rmin. destruct (Rle_dec 1 (exp r)); lra.
Qed.
Theorem C15_acceptance_probability {St V} (E : env St V) (s : St) lpr llr p :
  accept_prob E lpr llr p <-> p = mhg_prob (eadd lpr llr).
Proof.
  split.
  - intros H. pose proof (accept_prob_rule E s _ _ _ H) as Hr. destruct H as [Hp _].
    set (q := mhg_prob (eadd lpr llr)). pose proof (mhg_prob_range (eadd lpr llr)) as Hq. fold q in Hq.
    assert (Hpq : forall u, 0 < u < 1 -> (u < p <-> u < q)).
    { intros u Hu. unfold q. rewrite Hr, mhg_prob_rule by auto. tauto. }
    destruct (Rtotal_order p q) as [H|[H|H]]; auto; exfalso.
    + assert (Hu : 0 < (p + q) / 2 < 1) by lra. destruct (Hpq _ Hu) as [_ Hx].
      assert ((p + q) / 2 < p) by (apply Hx; lra). lra.
    + assert (Hu : 0 < (p + q) / 2 < 1) by lra. destruct (Hpq _ Hu) as [Hx _].
      assert ((p + q) / 2 < q) by (apply Hx; lra). lra.
  - intros ->. split; [apply mhg_prob_range|]. intros ty new c u tr Hu.
    rewrite decide_as by auto. f_equal. f_equal.
    destruct (Rlt_dec u _) as [H|H].
    + apply accept_rule; auto. now apply mhg_prob_rule.
    + destruct (egtb _ _) eqn:Ee; auto. exfalso. apply H. apply mhg_prob_rule; auto.
      now apply accept_rule.
Qed.

(** Detailed balance of one move, for densities: with the reported prior/proposal ratio and
    the tempered likelihood ratio, flow from x to y equals flow from y to x. *)
Theorem C15_detailed_balance {St V S} (E : env St V) (st : St) (m : move S) prior loglike T x y pxy pyx :
  T <> 0 -> (forall z, 0 <= prior z) -> (forall a b, 0 <= mv_q m a b) ->
  reports_ratio prior m ->
  accept_prob E (mv_ratio m x y) (Fin ((loglike y - loglike x) / T)) pxy ->
  accept_prob E (mv_ratio m y x) (Fin ((loglike x - loglike y) / T)) pyx ->
  posterior prior loglike T x * (mv_q m x y * pxy) = posterior prior loglike T y * (mv_q m y x * pyx).
Proof.
  intros HT Hpr Hq Hrep H1 H2.
  apply (C15_acceptance_probability E st) in H1. apply (C15_acceptance_probability E st) in H2. subst.
  unfold posterior.
  set (A := prior x * mv_q m x y). set (B := prior y * mv_q m y x).
  assert (HA : 0 <= A) by (apply Rmult_le_pos; auto).
  assert (HB : 0 <= B) by (apply Rmult_le_pos; auto).
  set (lx := loglike x / T). set (ly := loglike y / T).
  replace ((loglike y - loglike x) / T) with (ly - lx) by (unfold lx, ly; field; auto).
  replace ((loglike x - loglike y) / T) with (lx - ly) by (unfold lx, ly; field; auto).
  transitivity (A * exp lx * mhg_prob (eadd (mv_ratio m x y) (Fin (ly - lx)))); [unfold A; ring|].
  transitivity (B * exp ly * mhg_prob (eadd (mv_ratio m y x) (Fin (lx - ly)))); [|unfold B; ring].
  destruct (Req_dec A 0) as [EA|EA]; destruct (Req_dec B 0) as [EB|EB].
  - rewrite EA, EB. ring.
  - destruct (Hrep y x) as [_ Hz]; [change (0 < B); lra|]. rewrite (Hz EA). cbn. rewrite EA. ring.
  - destruct (Hrep x y) as [_ Hz]; [change (0 < A); lra|]. rewrite (Hz EB). cbn. rewrite EB. ring.
  - assert (A0 : 0 < A) by lra. assert (B0 : 0 < B) by lra.
    destruct (Hrep x y A0) as [Hx _]. rewrite (Hx B0).
    destruct (Hrep y x B0) as [Hy _]. rewrite (Hy A0).
    fold A B. cbn [eadd mhg_prob].
    rewrite !exp_plus, !exp_ln by (apply Rdiv_lt_0_compat; auto).
    unfold Rminus. rewrite !exp_plus, !exp_Ropp.
    pose proof (exp_pos lx) as P1. pose proof (exp_pos ly) as P2.
    set (ex := exp lx) in *. set (ey := exp ly) in *.
    assert (Hab : 0 < A * ex) by (apply Rmult_lt_0_compat; auto).
    assert (Hba : 0 < B * ey) by (apply Rmult_lt_0_compat; auto).
    replace (B / A * (ey * / ex)) with (B * ey / (A * ex)) by (field; lra).
    replace (A / B * (ex * / ey)) with (A * ex / (B * ey)) by (field; lra).
    set (a := A * ex) in *. set (b := B * ey) in *.
    assert (Hm : forall a b, 0 < a -> 0 < b -> a * Rmin 1 (b / a) = Rmin a b).
    { intros a' b' Ha' Hb'. unfold Rmin.
      assert (E1 : b' / a' * a' = b') by (field; lra).
      destruct (Rle_dec 1 (b' / a')) as [L|L], (Rle_dec a' b') as [L'|L'].
      - ring.
      - exfalso. apply L'. apply (Rmult_le_compat_r a') in L; lra.
      - exfalso. apply L. apply (Rmult_le_reg_r a'); lra.
      - field; lra. }
    rewrite !Hm by auto. apply Rmin_comm.
Qed.

(** ** Finite state spaces *)
Lemma sum_nil {S} (f : S -> R) : sum_over [] f = 0. Proof. reflexivity. Qed.
Lemma sum_cons {S} (a : S) l f : sum_over (a :: l) f = f a + sum_over l f. Proof. reflexivity. Qed.
Lemma sum_ext {S} (l : list S) f g : (forall x, In x l -> f x = g x) -> sum_over l f = sum_over l g.
Proof. intros H. unfold sum_over. f_equal. now apply map_ext_in. Qed.
Lemma sum_scale {S} (l : list S) c f : sum_over l (fun x => c * f x) = c * sum_over l f.
Proof. induction l; rewrite ?sum_nil, ?sum_cons; [ring|]. rewrite IHl. ring. Qed.
Lemma sum_plus {S} (l : list S) f g : sum_over l (fun x => f x + g x) = sum_over l f + sum_over l g.
Proof. induction l; rewrite ?sum_nil, ?sum_cons; [ring|]. rewrite IHl. ring. Qed.
Lemma sum_le {S} (l : list S) f g : (forall x, In x l -> f x <= g x) -> sum_over l f <= sum_over l g.
Proof.
  induction l; rewrite ?sum_nil, ?sum_cons; intros H; [lra|].
  apply Rplus_le_compat; [apply H; now left|]. apply IHl. intros. apply H. now right.
Qed.
Lemma sum_zero {S} (l : list S) : sum_over l (fun _ => 0) = 0.
Proof. induction l; rewrite ?sum_nil, ?sum_cons; auto. rewrite IHl. ring. Qed.
Lemma sum_nonneg {S} (l : list S) f : (forall x, In x l -> 0 <= f x) -> 0 <= sum_over l f.
Proof. intros H. rewrite <- (sum_zero l). now apply sum_le. Qed.
Lemma sum_swap {A B} (l : list A) (k : list B) f :
  sum_over l (fun x => sum_over k (f x)) = sum_over k (fun y => sum_over l (fun x => f x y)).
Proof.
  induction l as [|a l IH].
  - rewrite sum_nil. symmetry. apply sum_zero.
  - rewrite sum_cons, IH, <- sum_plus. reflexivity.
Qed.
(** A sum with one state singled out. *)
Lemma sum_split {S} (eqb : S -> S -> bool) (Heq : forall x y, eqb x y = true <-> x = y) l y f :
  NoDup l -> In y l ->
  sum_over l f = f y + sum_over l (fun x => if eqb x y then 0 else f x).
Proof.
  intros Hn Hy. induction l as [|a l IH]; [destruct Hy|]. inversion Hn; subst.
  rewrite !sum_cons. destruct (eqb a y) eqn:Ea.
  - apply Heq in Ea. subst. rewrite (sum_ext l f (fun x => if eqb x y then 0 else f x)); [ring|].
    intros x Hx. destruct (eqb x y) eqn:E; auto. apply Heq in E. now subst.
  - destruct Hy as [->|Hy]; [exfalso; rewrite (proj2 (Heq y y) eq_refl) in Ea; discriminate|].
    rewrite (IH H2 Hy). ring.
Qed.

(** Stationarity from detailed balance, for any mixture of moves. *)
Theorem C15_stationary {St V S} (E : env St V) (st : St) (eqb : S -> S -> bool)
    (states : list S) (ms : list (move S)) (acc : move S -> S -> S -> R) prior loglike T :
  (forall x y, eqb x y = true <-> x = y) -> NoDup states ->
  T <> 0 -> (forall z, 0 <= prior z) ->
  (forall m, In m ms -> (forall a b, 0 <= mv_q m a b) /\ reports_ratio prior m) ->
  (forall m x y, In m ms ->
     accept_prob E (mv_ratio m x y) (Fin ((loglike y - loglike x) / T)) (acc m x y)) ->
  forall y, In y states ->
    sum_over states (fun x => posterior prior loglike T x * kernel eqb states (jump ms acc) x y)
    = posterior prior loglike T y.
Proof.
  intros Heq Hn HT Hpr Hm Hacc y Hy. set (pi := posterior prior loglike T).
  assert (DB : forall x y, pi x * jump ms acc x y = pi y * jump ms acc y x).
  { intros a b. unfold jump. rewrite <- !sum_scale. apply sum_ext. intros m Hin.
    destruct (Hm m Hin) as [Hq Hr].
    pose proof (C15_detailed_balance E st m prior loglike T a b _ _ HT Hpr Hq Hr
                 (Hacc m a b Hin) (Hacc m b a Hin)) as D. fold pi in D.
    transitivity (mv_weight m / sum_over ms mv_weight * (pi a * (mv_q m a b * acc m a b))); [ring|].
    rewrite D. ring. }
  rewrite (sum_split eqb Heq states y) by auto.
  unfold kernel at 1. replace (eqb y y) with true by (symmetry; now apply Heq).
  assert (E1 : sum_over states (fun x => if eqb x y then 0 else pi x * kernel eqb states (jump ms acc) x y)
               = pi y * sum_over states (fun z => if eqb y z then 0 else jump ms acc y z)).
  { rewrite <- sum_scale. apply sum_ext. intros x _. unfold kernel.
    destruct (eqb x y) eqn:Ex; destruct (eqb y x) eqn:Ey; auto; try ring.
    - apply Heq in Ex. subst. assert (eqb y y = true) by now apply Heq. congruence.
    - apply Heq in Ey. subst. assert (eqb x x = true) by now apply Heq. congruence. }
  rewrite E1. ring.
Qed.
(** The kernel is a transition matrix. *)
Theorem C15_kernel {St V S} (E : env St V) (st : St) (eqb : S -> S -> bool)
    (states : list S) (ms : list (move S)) (acc : move S -> S -> S -> R) loglike T :
  (forall x y, eqb x y = true <-> x = y) -> NoDup states ->
  (forall m, In m ms -> 0 <= mv_weight m /\ (forall a b, 0 <= mv_q m a b) /\
     forall x, In x states -> sum_over states (mv_q m x) <= 1) ->
  0 < sum_over ms mv_weight ->
  (forall m x y, In m ms ->
     accept_prob E (mv_ratio m x y) (Fin ((loglike y - loglike x) / T)) (acc m x y)) ->
  forall x, In x states ->
    sum_over states (kernel eqb states (jump ms acc) x) = 1 /\
    forall y, In y states -> 0 <= kernel eqb states (jump ms acc) x y.
Proof.
  intros Heq Hn Hm HW Hacc x Hx. set (W := sum_over ms mv_weight) in *.
  assert (Hr : forall m a b, In m ms -> 0 <= acc m a b <= 1).
  { intros m a b Hin. destruct (Hacc m a b Hin) as [H _]. auto. }
  assert (Hj : forall a b, 0 <= jump ms acc a b).
  { intros a b. apply sum_nonneg. intros m Hin. destruct (Hm m Hin) as (H1 & H2 & _).
    fold W. apply Rmult_le_pos; [|apply Rmult_le_pos; auto; apply (Hr m a b Hin)].
    apply Rmult_le_pos; auto. left. now apply Rinv_0_lt_compat. }
  assert (Htot : sum_over states (fun z => if eqb x z then 0 else jump ms acc x z) <= 1).
  { apply Rle_trans with (sum_over states (jump ms acc x)).
    { apply sum_le. intros z _. destruct (eqb x z); [apply Hj|lra]. }
    unfold jump. rewrite sum_swap. fold W.
    apply Rle_trans with (sum_over ms (fun m => / W * mv_weight m)).
    - apply sum_le. intros m Hin. rewrite sum_scale. destruct (Hm m Hin) as (H1 & H2 & H3).
      unfold Rdiv. rewrite (Rmult_comm (mv_weight m)).
      rewrite <- (Rmult_1_r (/ W * mv_weight m)) at 2. apply Rmult_le_compat_l.
      + apply Rmult_le_pos; auto. left. now apply Rinv_0_lt_compat.
      + apply Rle_trans with (sum_over states (mv_q m x)); auto. apply sum_le. intros z _.
        rewrite <- (Rmult_1_r (mv_q m x z)) at 2. apply Rmult_le_compat_l; auto. apply (Hr m x z Hin).
    - rewrite sum_scale. fold W. rewrite Rinv_l; lra. }
  split.
  - rewrite (sum_split eqb Heq states x) by auto. unfold kernel at 1.
    replace (eqb x x) with true by (symmetry; now apply Heq).
    assert (E1 : sum_over states (fun z => if eqb z x then 0 else kernel eqb states (jump ms acc) x z)
                 = sum_over states (fun z => if eqb x z then 0 else jump ms acc x z)).
    { apply sum_ext. intros z _. unfold kernel.
      destruct (eqb z x) eqn:E1; destruct (eqb x z) eqn:E2; auto.
      - apply Heq in E1. subst. assert (eqb x x = true) by now apply Heq. congruence.
      - apply Heq in E2. subst. assert (eqb z z = true) by now apply Heq. congruence. }
    rewrite E1. ring.
  - intros y Hy. unfold kernel. destruct (eqb x y); [lra|apply Hj].
Qed.

(** A case: two states, one move that always proposes the other state, prior 1/4 and 3/4. *)
Definition flip : move bool := {| mv_weight := 2; mv_q := fun x y => if Bool.eqb x y then 0 else 1;
  mv_ratio := fun x y => if x then Fin (ln ((1/4) * 1 / ((3/4) * 1))) else Fin (ln ((3/4) * 1 / ((1/4) * 1))) |}.
Example C15_case : let prior := fun b : bool => if b then 3/4 else 1/4 in
  reports_ratio prior flip /\ (forall a b, 0 <= mv_q flip a b) /\
  (forall x, In x [true; false] -> sum_over [true; false] (mv_q flip x) <= 1) /\
  NoDup [true; false] /\ mhg_prob (mv_ratio flip true false) = 1/3.
Proof.
  cbn zeta. split; [|split; [|split; [|split]]].
  - intros [|] [|] H; cbn in *; split; intros; try lra; auto.
  - intros [|] [|]; cbn; lra.
  - intros x [<-|[<-|[]]]; unfold sum_over; cbn; lra.
  - repeat constructor; cbn; intuition discriminate.
  - cbn. rewrite exp_ln by lra. unfold Rmin. destruct (Rle_dec _ _); lra.
Qed.

(** ** Retries change the proposal

    A proposal whose forward calculation fails is drawn again (C25), up to 500 times, so that
    from x the state y is proposed with probability (1 + f + ... + f^499) q(x,y), f being
    the probability of failure from x; the reported ratio knows nothing of this.  Detailed
    balance with the prior restricted to the states without failures is lost. *)
Definition geometric (f : R) (n : nat) : R := rsum (map (fun k => f ^ k) (seq 0 n)).
Lemma geometric_half n : geometric (1/2) n = 2 - 2 * (1/2) ^ n.
Proof.
  unfold geometric. induction n as [|n IH]; [cbn; lra|].
  rewrite seq_S, map_app. cbn [map Nat.add].
  assert (H : forall l a, rsum (l ++ [a]) = rsum l + a).
  { induction l; intros; cbn; [ring|]. rewrite IHl. unfold rsum. ring. }
  rewrite H, IH. cbn [pow]. lra.
Qed.
Theorem C15_retries_refuted :
  exists (m : move nat) (prior : nat -> R) (fails : nat -> bool),
    (forall z, 0 <= prior z) /\ (forall a b, 0 <= mv_q m a b) /\
    (forall x, (x < 3)%nat -> sum_over [0; 1; 2]%nat (mv_q m x) = 1) /\
    reports_ratio prior m /\
    (let f x := sum_over [0; 1; 2]%nat (fun y => if fails y then mv_q m x y else 0) in
     let flow x y := prior x * (geometric (f x) 500 * mv_q m x y * mhg_prob (mv_ratio m x y)) in
     fails 0%nat = false /\ fails 1%nat = false /\ flow 0%nat 1%nat <> flow 1%nat 0%nat).
Proof.
  exists {| mv_weight := 1;
            mv_q := fun x y => match x, y with
                    | O, 1%nat | O, 2%nat => 1/2 | 1%nat, O | 2%nat, O => 1 | _, _ => 0 end;
            mv_ratio := fun x y => match x, y with
                    | O, _ => Fin (ln (1 * 1 / (1 * (1/2)))) | _, _ => Fin (ln (1 * (1/2) / (1 * 1))) end |},
    (fun _ => 1), (fun x => (x =? 2)%nat).
  split; [intros; lra|]. split.
  { intros [|[|[|a]]] [|[|[|b]]]; cbn; lra. }
  split. { intros [|[|[|x]]] H; unfold sum_over; cbn; try lra. lia. }
  split.
  { intros [|[|[|a]]] [|[|[|b]]] H; cbn in *; try lra; (split; intros H'; [reflexivity|lra]). }
  cbn zeta. split; [reflexivity|]. split; [reflexivity|].
  unfold sum_over. cbn [map rsum fold_right Nat.eqb mv_q mv_ratio mhg_prob].
  replace (0 + (0 + (1 / 2 + 0))) with (1/2) by ring.
  replace (0 + (0 + (0 + 0))) with 0 by ring.
  rewrite geometric_half.
  assert (G : geometric 0 500 = 1).
  { unfold geometric. change 500%nat with (S 499). generalize 499%nat. intros n. cbn [seq map rsum fold_right].
    replace (fold_right Rplus 0 (map (fun k => 0 ^ k) (seq 1 n))) with 0; [cbn; ring|].
    generalize 0%nat. induction n as [|n IH]; intros s; cbn [seq map fold_right]; auto.
    rewrite <- (IH (S s)). rewrite pow_ne_zero by lia. ring. }
  rewrite G. rewrite !exp_ln by lra.
  assert (Hp : 0 < (1/2) ^ 500 < 1/4).
  { split; [apply pow_lt; lra|]. change 500%nat with (3 + 497)%nat. rewrite pow_add.
    assert ((1/2) ^ 497 <= 1). { rewrite <- (pow1 497). apply pow_incr. lra. }
    assert (0 < (1/2) ^ 497) by (apply pow_lt; lra).
    replace ((1/2)^3) with (1/8) by field. lra. }
  unfold Rmin. destruct (Rle_dec 1 _); destruct (Rle_dec 1 _); lra.
Qed.
