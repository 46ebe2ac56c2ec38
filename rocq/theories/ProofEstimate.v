(** Mean squares of sums along a chain whose means converge. *)
From Coq Require Import FunctionalExtensionality.
From Coquelicot Require Import Coquelicot.
From Verif Require Import Base SpecEstimate ProofConverge.
Local Open Scope R_scope.

Section Estimate.
Context {X : Type} (dom : X -> Prop) (ok : (X -> R) -> Prop) (P : (X -> R) -> X -> R).
Context (HP : averages dom ok P).
Context (ok_plus : forall f g, ok f -> ok g -> ok (fun x => f x + g x)).
Context (ok_mult : forall f g, ok f -> ok g -> ok (fun x => f x * g x)).
Context (P_plus : forall f g x, ok f -> ok g -> dom x -> P (fun x => f x + g x) x = P f x + P g x).
Context (f : X -> R) (Hf : ok f) (b : R) (Hb : forall x, dom x -> Rabs (f x) <= b).
(** The means of [f] after [k] iterations are small. *)
Context (r : nat -> R) (S : R) (Hr : forall k x, dom x -> Rabs (Nat.iter k P f x) <= r k).
Context (HS : forall m, rsum (map r (seq 1 m)) <= S).

Definition pick (c : bool) (x : R) : R := if c then x else 0.
Fixpoint count (w : list bool) : nat := match w with [] => O | true :: w' => Datatypes.S (count w') | false :: w' => count w' end.
Fixpoint lin (w : list bool) : X -> R :=
  match w with [] => fun _ => 0 | c :: w' => P (fun x => pick c (f x) + lin w' x) end.
Fixpoint qua (w : list bool) : X -> R :=
  match w with [] => fun _ => 0 | c :: w' => P (fun x => pick c (f x * f x + 2 * (f x * lin w' x)) + qua w' x) end.
(** The mean of the square of [t] plus the sum of [f] at the marked iterations. *)
Definition mean_square (w : list bool) (t : R) (x : X) : R := t * t + (2 * t * lin w x + qua w x).

Lemma ok_const c : ok (fun _ => c).
Proof. pose proof (av_aff_ok _ _ _ HP c 0 f Hf) as H. replace (fun _ : X => c) with (fun x => c + 0 * f x); auto. extensionality x. ring. Qed.
Lemma ok_scal c g : ok g -> ok (fun x => c * g x).
Proof. intros H. apply (ok_mult (fun _ => c)); auto. apply ok_const. Qed.
Lemma ok_pick c g : ok g -> ok (fun x => pick c (g x)).
Proof. intros H. destruct c; cbn; auto. apply ok_const. Qed.
Lemma lin_ok w : ok (lin w).
Proof. induction w as [|c w IH]; cbn; [apply ok_const|]. apply (av_ok _ _ _ HP). apply (ok_plus (fun x => pick c (f x))); auto. now apply (ok_pick c f). Qed.
Lemma qua_ok w : ok (qua w).
Proof.
  induction w as [|c w IH]; cbn; [apply ok_const|]. apply (av_ok _ _ _ HP). apply (ok_plus (fun x => pick c (f x * f x + 2 * (f x * lin w x)))); auto.
  apply (ok_pick c (fun x => f x * f x + 2 * (f x * lin w x))). apply (ok_plus (fun x => f x * f x)); auto. apply (ok_scal 2 (fun x => f x * lin w x)). apply ok_mult; auto using lin_ok.
Qed.
Lemma P_const c x : dom x -> P (fun _ => c) x = c.
Proof.
  intros Hx. pose proof (av_aff _ _ _ HP c 0 f x Hf Hx) as H. rewrite Rmult_0_l, Rplus_0_r in H. etransitivity; [|exact H].
  apply (av_ext _ _ _ HP); auto. intros. ring.
Qed.
Lemma P_scal c g x : ok g -> dom x -> P (fun x => c * g x) x = c * P g x.
Proof.
  intros Hg Hx. pose proof (av_aff _ _ _ HP 0 c g x Hg Hx) as H. rewrite Rplus_0_l in H. etransitivity; [|exact H].
  apply (av_ext _ _ _ HP); auto. intros. ring.
Qed.
(** One more iteration in front. *)
Lemma square_ok c w t : ok (fun y => mean_square w (t + pick c (f y)) y).
Proof.
  unfold mean_square. assert (H1 : ok (fun y => t + pick c (f y))) by (apply (ok_plus (fun _ => t)); [apply ok_const|now apply (ok_pick c f)]).
  apply (ok_plus (fun y => (t + pick c (f y)) * (t + pick c (f y)))); [now apply ok_mult|].
  apply (ok_plus (fun y => 2 * (t + pick c (f y)) * lin w y)); [|apply qua_ok].
  apply (ok_mult (fun y => 2 * (t + pick c (f y)))); [now apply ok_scal|apply lin_ok].
Qed.
Lemma square_step c w t x : dom x -> P (fun y => mean_square w (t + pick c (f y)) y) x = mean_square (c :: w) t x.
Proof.
  intros Hx. set (U := fun y => pick c (f y) + lin w y). set (V := fun y => pick c (f y * f y + 2 * (f y * lin w y)) + qua w y).
  assert (HU : ok U) by (apply (ok_plus (fun x => pick c (f x))); auto using lin_ok; now apply (ok_pick c f)).
  assert (HV : ok V).
  { apply (ok_plus (fun x => pick c (f x * f x + 2 * (f x * lin w x)))); auto using qua_ok.
    apply (ok_pick c (fun x => f x * f x + 2 * (f x * lin w x))). apply (ok_plus (fun x => f x * f x)); auto. apply (ok_scal 2 (fun x => f x * lin w x)). apply ok_mult; auto using lin_ok. }
  transitivity (P (fun y => t * t + (2 * t * U y + V y)) x).
  { apply (av_ext _ _ _ HP); auto. intros y _. unfold mean_square, U, V. destruct c; cbn [pick]; ring. }
  assert (HtU : ok (fun y => 2 * t * U y)) by now apply ok_scal.
  assert (HtV : ok (fun y => 2 * t * U y + V y)) by now apply (ok_plus (fun y => 2 * t * U y)).
  rewrite (P_plus (fun _ => t * t) (fun y => 2 * t * U y + V y)) by auto using ok_const.
  rewrite P_const by auto. unfold mean_square. f_equal. rewrite (P_plus (fun y => 2 * t * U y) V) by auto.
  rewrite (P_scal (2 * t) U) by auto. reflexivity.
Qed.
(** Bounds. *)
Lemma P_bound g a : ok g -> (forall x, dom x -> Rabs (g x) <= a) -> forall x, dom x -> Rabs (P g x) <= a.
Proof.
  intros Hg Ha x Hx. assert (H : forall y, dom y -> - a <= g y <= a). { intros y Hy. specialize (Ha y Hy). apply Rabs_le_between in Ha. lra. }
  pose proof (bounds dom ok P HP g (- a) a Hg H x Hx). apply Rabs_le. lra.
Qed.
Fixpoint linsum (j : nat) (w : list bool) (x : X) : R :=
  match w with [] => 0 | c :: w' => pick c (Nat.iter j P f x) + linsum (Datatypes.S j) w' x end.
Lemma iterf_ok k : ok (Nat.iter k P f).
Proof. induction k as [|k IH]; auto. cbn. now apply (av_ok _ _ _ HP). Qed.
Lemma linsum_ok w : forall j, ok (linsum j w).
Proof.
  induction w as [|c w IH]; intros j; cbn; [apply ok_const|]. apply (ok_plus (fun x => pick c (Nat.iter j P f x))); auto.
  apply (ok_pick c (Nat.iter j P f)). apply iterf_ok.
Qed.
Lemma linsum_step w : forall j x, dom x -> P (linsum j w) x = linsum (Datatypes.S j) w x.
Proof.
  induction w as [|c w IH]; intros j x Hx; cbn; [now apply P_const|].
  assert (Hp : ok (fun x => pick c (Nat.iter j P f x))) by (apply (ok_pick c (Nat.iter j P f)), iterf_ok).
  rewrite (P_plus (fun x => pick c (Nat.iter j P f x)) (linsum (Datatypes.S j) w)); auto using linsum_ok.
  rewrite IH by auto. f_equal. destruct c; cbn; auto. now apply P_const.
Qed.
Lemma lin_sum w : forall x, dom x -> lin w x = linsum 1 w x.
Proof.
  induction w as [|c w IH]; intros x Hx; [reflexivity|]. cbn [lin].
  rewrite (av_ext _ _ _ HP _ (linsum 0 (c :: w))); auto.
  - now rewrite linsum_step.
  - intros y Hy. cbn. now rewrite IH.
Qed.
Lemma r_pos k x : dom x -> 0 <= r k.
Proof. intros Hx. specialize (Hr k x Hx). pose proof (Rabs_pos (Nat.iter k P f x)). lra. Qed.
Lemma linsum_bound w : forall j x, dom x -> Rabs (linsum j w x) <= rsum (map r (seq j (length w))).
Proof.
  induction w as [|c w IH]; intros j x Hx; cbn [linsum length seq map]; [change (rsum []) with 0; rewrite Rabs_R0; lra|].
  change (rsum (?a :: ?l)) with (a + rsum l). eapply Rle_trans; [apply Rabs_triang|]. apply Rplus_le_compat; [|now apply IH].
  destruct c; cbn; [now apply Hr|]. rewrite Rabs_R0. now apply (r_pos j x).
Qed.
Lemma lin_bound w x : dom x -> Rabs (lin w x) <= S.
Proof. intros Hx. rewrite lin_sum by auto. eapply Rle_trans; [now apply linsum_bound|apply HS]. Qed.
Lemma qua_bound w x : dom x -> Rabs (qua w x) <= (b * b + 2 * (b * S)) * INR (count w).
Proof.
  revert x. induction w as [|c w IH]; intros x Hx; [cbn; rewrite Rabs_R0; lra|]. cbn [qua].
  assert (H0 : 0 <= b) by (eapply Rle_trans; [apply Rabs_pos|exact (Hb x Hx)]).
  assert (HS0 : 0 <= S) by (eapply Rle_trans; [apply Rabs_pos|apply (lin_bound [] x Hx)]).
  apply P_bound; auto.
  - apply (ok_plus (fun x => pick c (f x * f x + 2 * (f x * lin w x)))); auto using qua_ok.
    apply (ok_pick c (fun x => f x * f x + 2 * (f x * lin w x))). apply (ok_plus (fun x => f x * f x)); auto. apply (ok_scal 2 (fun x => f x * lin w x)). apply ok_mult; auto using lin_ok.
  - intros y Hy. eapply Rle_trans; [apply Rabs_triang|]. destruct c; cbn [pick count]; [|rewrite Rabs_R0, Rplus_0_l; now apply IH].
    rewrite S_INR. specialize (IH y Hy). pose proof (Hb y Hy) as B1. pose proof (lin_bound w y Hy) as B2.
    assert (A : Rabs (f y * f y + 2 * (f y * lin w y)) <= b * b + 2 * (b * S)).
    { eapply Rle_trans; [apply Rabs_triang|]. rewrite !Rabs_mult. rewrite (Rabs_right 2) by lra.
      pose proof (Rabs_pos (f y)). pose proof (Rabs_pos (lin w y)).
      assert (Rabs (f y) * Rabs (f y) <= b * b) by (apply Rmult_le_compat; auto).
      assert (Rabs (f y) * Rabs (lin w y) <= b * S) by (apply Rmult_le_compat; auto). lra. }
    lra.
Qed.
(** The path. *)
Context {D : Type} (next : X -> D -> X) (M : X -> (D -> R) -> R -> Prop) (D0 : X -> D -> Prop).
Context (HM : forall h x, ok h -> dom x -> M x (fun z => h (next x z)) (P h x)).
Context (Hnext : forall x z, dom x -> D0 x z -> dom (next x z)).
Fixpoint psum (w : list bool) (l : list R) : R := match w, l with c :: w', x :: l' => pick c x + psum w' l' | _, _ => 0 end.
Lemma path_mean w : forall t x, dom x ->
  mean_path next M D0 (length w) x (fun ds => (t + psum w (map f (visited next x ds))) * (t + psum w (map f (visited next x ds)))) (mean_square w t x).
Proof.
  induction w as [|c w IH]; intros t x Hx; [cbn; unfold mean_square; cbn; ring|].
  cbn [length mean_path]. exists (fun z => mean_square w (t + pick c (f (next x z))) (next x z)). split.
  - intros z Hz. cbn [visited map psum]. specialize (IH (t + pick c (f (next x z))) (next x z) (Hnext x z Hx Hz)).
    refine (eq_ind _ (fun h => mean_path next M D0 (length w) (next x z) h _) IH _ _). extensionality ds. rewrite !Rplus_assoc. reflexivity.
  - rewrite <- square_step by auto. apply (HM (fun y => mean_square w (t + pick c (f y)) y)); auto. apply square_ok.
Qed.
Lemma path_bound w x : dom x -> mean_square w 0 x <= (b * b + 2 * (b * S)) * INR (count w).
Proof.
  intros Hx. unfold mean_square. pose proof (qua_bound w x Hx). pose proof (Rle_abs (qua w x)). lra.
Qed.
End Estimate.

(** The marks of the schedule. *)
Fixpoint marks (burnin every i n : nat) : list bool :=
  match n with O => [] | S n' => ((burnin <? S i)%nat && ((S i - burnin) mod every =? 0)%nat) :: marks burnin every (S i) n' end.
Lemma marks_length burnin every n : forall i, length (marks burnin every i n) = n.
Proof. induction n as [|n IH]; intros i; cbn; auto. Qed.
Lemma psum_marks {X} (f : X -> R) burnin every (l : list X) : forall i, psum (marks burnin every i (length l)) (map f l) = rsum (map f (scheduled burnin every i l)).
Proof.
  induction l as [|x l IH]; intros i; [reflexivity|]. cbn [length marks map psum scheduled]. rewrite IH.
  destruct (_ && _); cbn [pick map]; [reflexivity|ring].
Qed.
Lemma count_marks {X} burnin every (l : list X) : forall i, count (marks burnin every i (length l)) = length (scheduled burnin every i l).
Proof.
  induction l as [|x l IH]; intros i; [reflexivity|]. cbn [length marks scheduled]. destruct (_ && _); cbn [count length]; now rewrite IH.
Qed.
Lemma next_div a e : (0 < e)%nat -> (S a / e = a / e + if S a mod e =? 0 then 1 else 0)%nat.
Proof.
  intros He. pose proof (Nat.div_mod (S a) e ltac:(lia)) as H1. pose proof (Nat.div_mod a e ltac:(lia)) as H2.
  pose proof (Nat.mod_upper_bound a e ltac:(lia)) as H3. pose proof (Nat.mod_upper_bound (S a) e ltac:(lia)) as H4.
  destruct (Nat.eqb_spec (S a mod e) 0) as [Hz|Hz].
  - rewrite Hz in H1. set (A := (a / e)%nat) in *. set (B := (S a / e)%nat) in *. set (ra := (a mod e)%nat) in *. clearbody A B ra.
    assert (e * B = S (e * A + ra))%nat by lia. assert (A < B)%nat by nia. assert (B < A + 2)%nat by nia. lia.
  - rewrite Nat.add_0_r. set (A := (a / e)%nat) in *. set (B := (S a / e)%nat) in *. set (ra := (a mod e)%nat) in *. set (rb := (S a mod e)%nat) in *. clearbody A B ra rb.
    assert (A < B + 1)%nat by nia. assert (B < A + 1)%nat by nia. lia.
Qed.
Lemma marks_count burnin every n : (0 < every)%nat -> forall i, (count (marks burnin every i n) + (i - burnin) / every = (i + n - burnin) / every)%nat.
Proof.
  intros He. induction n as [|n IH]; intros i; cbn [marks]; [cbn; now rewrite Nat.add_0_r|].
  specialize (IH (S i)). replace (i + S n)%nat with (S i + n)%nat by lia. rewrite <- IH. clear IH.
  destruct (Nat.ltb_spec burnin (S i)) as [Hb|Hb]; cbn [andb count].
  - replace (S i - burnin)%nat with (S (i - burnin)) by lia. rewrite next_div by auto. destruct (_ =? 0)%nat; cbn [count]; lia.
  - replace (S i - burnin)%nat with O by lia. replace (i - burnin)%nat with O by lia. reflexivity.
Qed.
Lemma mean_rounds_ext {D} (M : (D -> R) -> R -> Prop) D0 n : forall h h' m,
  (forall ds, length ds = n -> Forall D0 ds -> h ds = h' ds) -> mean_rounds M D0 n h m -> mean_rounds M D0 n h' m.
Proof.
  induction n as [|n IH]; intros h h' m H; cbn; [intros ->; now apply H|].
  intros (k & Hk & Hm). exists k. split; auto. intros z Hz. eapply IH; [|now apply Hk]. intros ds Hl Hd. apply H; cbn; auto.
Qed.
(** Draws that occur on the path. *)
Fixpoint path_draws {X D} (next : X -> D -> X) (D0 : X -> D -> Prop) (x : X) (ds : list D) : Prop :=
  match ds with [] => True | z :: ds' => D0 x z /\ path_draws next D0 (next x z) ds' end.
Lemma mean_path_ext {X D} (next : X -> D -> X) (M : X -> (D -> R) -> R -> Prop) D0 n : forall x h h' m,
  (forall ds, length ds = n -> path_draws next D0 x ds -> h ds = h' ds) -> mean_path next M D0 n x h m -> mean_path next M D0 n x h' m.
Proof.
  induction n as [|n IH]; intros x h h' m H; cbn; [intros ->; now apply H|].
  intros (k & Hk & Hm). exists k. split; auto. intros z Hz. eapply IH; [|now apply Hk]. intros ds Hl Hd. apply H; cbn; auto.
Qed.
Lemma mean_path_next {X D} (next next' : X -> D -> X) (M : X -> (D -> R) -> R -> Prop) (D0 : X -> D -> Prop) (dom : X -> Prop) (n : nat) :
  (forall x z, dom x -> D0 x z -> dom (next x z) /\ next x z = next' x z) ->
  forall x h m, dom x -> mean_path next M D0 n x h m -> mean_path next' M D0 n x h m.
Proof.
  intros E. induction n as [|n IH]; intros x h m Hx; cbn; auto. intros (k & Hk & Hm). exists k. split; auto. intros z Hz.
  destruct (E x z Hx Hz) as [Hd He]. rewrite <- He. apply IH; auto.
Qed.
Lemma visited_next {X D} (next next' : X -> D -> X) (D0 : X -> D -> Prop) (dom : X -> Prop) :
  (forall x z, dom x -> D0 x z -> dom (next x z) /\ next x z = next' x z) ->
  forall ds x, dom x -> path_draws next D0 x ds -> visited next x ds = visited next' x ds.
Proof.
  intros E. induction ds as [|z ds IH]; intros x Hx; cbn; auto. intros [Hz Hd]. destruct (E x z Hx Hz) as [Hy He]. rewrite IH by auto. now rewrite He.
Qed.
Lemma path_rounds {X D} (next : X -> D -> X) (M : (D -> R) -> R -> Prop) D0 n : forall x h m,
  mean_path next (fun _ => M) (fun _ => D0) n x h m -> mean_rounds M D0 n h m.
Proof.
  induction n as [|n IH]; intros x h m; cbn; auto. intros (k & Hk & Hm). exists k. split; auto. intros z Hz. eapply IH. now apply Hk.
Qed.
Lemma visited_length {X D} (next : X -> D -> X) ds : forall x, length (visited next x ds) = length ds.
Proof. induction ds as [|z ds IH]; intros x; cbn; auto. Qed.
Lemma rsum_shift {A} (f : A -> R) c s l : rsum (map (fun x => c + s * f x) l) = INR (length l) * c + s * rsum (map f l).
Proof.
  induction l as [|x l IH]; [cbn; ring|]. cbn [map length]. change (rsum (?a :: ?r)) with (a + rsum r). rewrite IH, S_INR. ring.
Qed.

(** The averages of the samples. *)
Section Average.
Context {X : Type} (dom : X -> Prop) (ok : (X -> R) -> Prop) (P : (X -> R) -> X -> R).
Context (HP : averages dom ok P).
Context (ok_plus : forall f g, ok f -> ok g -> ok (fun x => f x + g x)).
Context (ok_mult : forall f g, ok f -> ok g -> ok (fun x => f x * g x)).
Context (P_plus : forall f g x, ok f -> ok g -> dom x -> P (fun x => f x + g x) x = P f x + P g x).
Context {D : Type} (next : X -> D -> X) (M : X -> (D -> R) -> R -> Prop) (D0 : X -> D -> Prop).
Context (HM : forall h x, ok h -> dom x -> M x (fun z => h (next x z)) (P h x)).
Context (Hnext : forall x z, dom x -> D0 x z -> dom (next x z)).
Context (q : nat -> R) (Q : R) (Hq : forall m, rsum (map q (seq 1 m)) <= Q).
Lemma iter_affine a s g k : ok g -> forall x, dom x -> Nat.iter k P (fun x => a + s * g x) x = a + s * Nat.iter k P g x.
Proof.
  intros Hg. assert (Hk : forall k, ok (Nat.iter k P g)) by (induction k0 as [|j IH]; cbn; auto; now apply (av_ok _ _ _ HP)).
  induction k as [|k IH]; intros x Hx; [reflexivity|].
  change (P (Nat.iter k P (fun x => a + s * g x)) x = a + s * P (Nat.iter k P g) x). rewrite <- (av_aff _ _ _ HP a s (Nat.iter k P g) x) by auto.
  apply (av_ext _ _ _ HP); auto.
Qed.
Lemma estimate_all g B mu burnin every n : ok g -> 0 <= 2 * B ->
  (forall k y, dom y -> Rabs (Nat.iter k P g y - mu) <= 2 * B * q k) -> (forall y, dom y -> Rabs (g y - mu) <= 2 * B) ->
  (0 < every)%nat -> (0 < (n - burnin) / every)%nat ->
  exists m, ok m /\ forall x, dom x ->
    mean_path next M D0 n x (fun ds => (average (map g (scheduled burnin every 0 (visited next x ds))) - mu) ^ 2) (m x) /\
    m x <= 4 * (1 + 2 * Q) * (B * B) / INR ((n - burnin) / every).
Proof.
  intros Hg HB Hr Hb He HN0. set (N := ((n - burnin) / every)%nat) in *.
  assert (HN : 0 < INR N) by (apply (lt_INR 0); exact HN0). assert (Hi : 0 < / INR N) by now apply Rinv_0_lt_compat.
  set (f := fun x => - (mu / INR N) + / INR N * g x). set (w := marks burnin every 0 n).
  assert (Hf : ok f) by now apply (av_aff_ok _ _ _ HP).
  assert (Hw : count w = N).
  { pose proof (marks_count burnin every n He 0) as C. cbn [Nat.sub Nat.add] in C. rewrite Nat.div_0_l, Nat.add_0_r in C by lia. exact C. }
  set (b := 2 * B * / INR N).
  assert (Hb' : forall y, dom y -> Rabs (f y) <= b).
  { intros y Hy. unfold f, b. replace (- (mu / INR N) + / INR N * g y) with ((g y - mu) * / INR N) by (field; lra).
    rewrite Rabs_mult, (Rabs_pos_eq (/ INR N)) by lra. apply Rmult_le_compat_r; [lra|auto]. }
  set (r := fun k => b * q k).
  assert (Hr' : forall k y, dom y -> Rabs (Nat.iter k P f y) <= r k).
  { intros k y Hy. unfold f. rewrite iter_affine by auto. unfold r, b.
    replace (- (mu / INR N) + / INR N * Nat.iter k P g y) with ((Nat.iter k P g y - mu) * / INR N) by (field; lra).
    rewrite Rabs_mult, (Rabs_pos_eq (/ INR N)) by lra. replace (2 * B * / INR N * q k) with (2 * B * q k * / INR N) by ring.
    apply Rmult_le_compat_r; [lra|auto]. }
  assert (Hb0 : 0 <= b) by (unfold b; apply Rmult_le_pos; lra).
  assert (HS : forall m, rsum (map r (seq 1 m)) <= b * Q).
  { intros m. replace (rsum (map r (seq 1 m))) with (b * rsum (map q (seq 1 m))); [apply Rmult_le_compat_l; auto|].
    unfold r. generalize (seq 1 m). induction l as [|j l IH]; [cbn; ring|]. cbn [map]. change (rsum (?a :: ?r)) with (a + rsum r). rewrite <- IH. ring. }
  exists (mean_square P f w 0). split.
  { unfold mean_square. apply (ok_plus (fun _ => 0 * 0)); [exact (ok_const dom ok P HP f Hf (0 * 0))|].
    apply (ok_plus (fun x => 2 * 0 * lin P f w x)); [|exact (qua_ok dom ok P HP ok_plus ok_mult f Hf w)].
    exact (ok_scal dom ok P HP ok_mult f Hf (2 * 0) _ (lin_ok dom ok P HP ok_plus f Hf w)). }
  intros x Hx. split.
  - pose proof (path_mean dom ok P HP ok_plus ok_mult P_plus f Hf next M D0 HM Hnext w 0 x Hx) as H.
    unfold w in H. rewrite marks_length in H. fold w in H.
    eapply mean_path_ext; [|exact H]. intros ds Hl _. cbn beta.
    assert (E : psum w (map f (visited next x ds)) = average (map g (scheduled burnin every 0 (visited next x ds))) - mu).
    { unfold w. rewrite <- Hl. rewrite <- (visited_length next ds x). rewrite psum_marks. unfold f, average. rewrite rsum_shift, map_length.
      rewrite <- count_marks. rewrite visited_length, Hl. fold w. rewrite Hw. field. lra. }
    rewrite E. ring.
  - eapply Rle_trans; [exact (path_bound dom ok P HP ok_plus ok_mult P_plus f Hf b Hb' r (b * Q) Hr' HS w x Hx)|].
    rewrite Hw. unfold b. right. field. lra.
Qed.
Lemma estimate g B mu burnin every n x : ok g -> dom x ->
  (forall k y, dom y -> Rabs (Nat.iter k P g y - mu) <= 2 * B * q k) -> (forall y, dom y -> Rabs (g y - mu) <= 2 * B) ->
  (0 < every)%nat -> (0 < (n - burnin) / every)%nat ->
  exists m, mean_path next M D0 n x (fun ds => (average (map g (scheduled burnin every 0 (visited next x ds))) - mu) ^ 2) m /\
    m <= 4 * (1 + 2 * Q) * (B * B) / INR ((n - burnin) / every).
Proof.
  intros Hg Hx Hr Hb He HN. assert (HB : 0 <= 2 * B) by (eapply Rle_trans; [apply Rabs_pos|exact (Hb x Hx)]).
  destruct (estimate_all g B mu burnin every n Hg HB Hr Hb He HN) as (m & _ & H). exists (m x). now apply H.
Qed.
End Average.


(** Sums of the rates. *)
Lemma geometric_sum rho m : 0 <= rho < 1 -> rsum (map (fun k => rho ^ k) (seq 1 m)) <= 1 / (1 - rho).
Proof.
  intros Hr. 
  assert (H : forall m j, rsum (map (fun k => rho ^ k) (seq j m)) * (1 - rho) = rho ^ j - rho ^ (j + m)).
  { clear m. induction m as [|m IH]; intros j; cbn [seq map]; [change (rsum []) with 0; rewrite Nat.add_0_r; lra|].
    change (rsum (?a :: ?l)) with (a + rsum l). rewrite Rmult_plus_distr_r, IH. replace (j + S m)%nat with (S j + m)%nat by lia. cbn [pow]. ring. }
  apply Rmult_le_reg_r with (1 - rho); [lra|]. rewrite H. unfold Rdiv. rewrite Rmult_1_l, Rinv_l by lra.
  assert (0 <= rho ^ (1 + m)) by (apply pow_le; lra). cbn [pow] in *. lra.
Qed.
(** Rates that go down every [n] iterations. *)
Lemma slow_sum rho n m : (0 < n)%nat -> 0 <= rho < 1 -> rsum (map (fun k => rho ^ (k / n)) (seq 1 m)) <= INR n / (1 - rho).
Proof.
  intros Hn Hr. assert (HN : 0 < INR n) by (apply lt_0_INR; lia). assert (Hi : 1 <= / (1 - rho)) by (rewrite <- Rinv_1; apply Rinv_le_contravar; lra).
  set (V := fun k : nat => rho ^ (k / n) * (INR n / (1 - rho) - INR (k mod n))).
  assert (Hmod : forall k, 0 <= INR (k mod n) <= INR n).
  { intros k. split; [apply pos_INR|]. apply le_INR. pose proof (Nat.mod_upper_bound k n ltac:(lia)). lia. }
  assert (Hbig : INR n <= INR n / (1 - rho)) by (unfold Rdiv; nra).
  assert (HV : forall k, 0 <= V k). { intros k. apply Rmult_le_pos; [apply pow_le; lra|]. pose proof (Hmod k). lra. }
  assert (Hstep : forall k, V k - V (S k) = rho ^ (k / n)).
  { intros k. unfold V. rewrite next_div by auto. pose proof (Nat.div_mod k n ltac:(lia)) as D1. pose proof (Nat.div_mod (S k) n ltac:(lia)) as D2.
    rewrite next_div in D2 by auto. destruct (Nat.eqb_spec (S k mod n) 0) as [Hz|Hz].
    - rewrite Hz in *. assert (Em : (k mod n = n - 1)%nat) by nia. rewrite Em, minus_INR by lia. rewrite Nat.add_1_r. cbn [pow INR]. field. lra.
    - assert (Em : (S k mod n = S (k mod n))%nat) by lia. rewrite Em, S_INR, Nat.add_0_r. ring. }
  assert (Hsum : forall m j, rsum (map (fun k => rho ^ (k / n)) (seq j m)) = V j - V (j + m)%nat).
  { clear m. induction m as [|m IH]; intros j; cbn [seq map]; [rewrite Nat.add_0_r; change (rsum []) with 0; ring|].
    change (rsum (?a :: ?l)) with (a + rsum l). rewrite IH, <- (Hstep j). replace (S j + m)%nat with (j + S m)%nat by lia. ring. }
  rewrite Hsum. pose proof (HV (1 + m)%nat). enough (V 1%nat <= INR n / (1 - rho)) by lra. unfold V.
  assert (0 <= rho ^ (1 / n) <= 1). { split; [apply pow_le; lra|]. rewrite <- (pow1 (1 / n)). apply pow_incr. lra. }
  pose proof (Hmod 1%nat). nra.
Qed.
