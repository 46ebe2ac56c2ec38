(** The standard normal distribution function exists: the hypotheses of PropWalk.v can be
    met. *)
From Coq Require Import Reals Lra.
From Coquelicot Require Import Coquelicot.
From Verif Require Import Base SpecWalk.
Local Open Scope R_scope.

Lemma bell_continuous u : continuous bell u.
Proof.
  apply (ex_derive_continuous bell u). unfold bell. auto_derive. exact I.
Qed.
Definition area (u : R) : R := RInt bell 0 u.
Lemma bell_area_ex a b : ex_RInt bell a b.
Proof. apply (ex_RInt_continuous bell). intros z _. apply bell_continuous. Qed.
Lemma area_derive u : derivable_pt_lim area u (bell u).
Proof.
  apply is_derive_Reals. apply (is_derive_RInt bell area 0 u); [|apply bell_continuous].
  exists posreal_one. intros y _. unfold area. apply (RInt_correct bell 0 y). apply bell_area_ex.
Qed.
Lemma area_0 : area 0 = 0.
Proof. apply (RInt_point 0 bell). Qed.
Lemma bell_even u : bell (- u) = bell u.
Proof. unfold bell. now replace (- u * - u) with (u * u) by ring. Qed.
Lemma area_odd u : area (- u) = - area u.
Proof.
  assert (HD : forall x, derivable_pt_lim (fun x => area (- x) + area x) x 0).
  { intros x. replace 0 with (bell (- x) * -1 + bell x) by (rewrite bell_even; ring).
    apply (derivable_pt_lim_plus (fun x => area (- x)) area); [|apply area_derive].
    apply (derivable_pt_lim_comp (fun x => - x) area x (-1)); [|apply area_derive].
    apply (derivable_pt_lim_opp id x 1). apply derivable_pt_lim_id. }
  assert (E : area (- 0) + area 0 = 0) by (rewrite Ropp_0, area_0; ring).
  destruct (Rtotal_order u 0) as [H|[->|H]]; [| lra |].
  - destruct (MVT_cor2 (fun x => area (- x) + area x) (fun _ => 0) u 0 H) as (c & Hc & _); [auto|]. lra.
  - destruct (MVT_cor2 (fun x => area (- x) + area x) (fun _ => 0) 0 u H) as (c & Hc & _); [auto|]. lra.
Qed.
Lemma area_increasing u v : u < v -> area u < area v.
Proof.
  intros H. destruct (MVT_cor2 area bell u v H) as (c & Hc & _); [intros; apply area_derive|].
  assert (0 < bell c) by apply exp_pos. nra.
Qed.
Lemma area_bounded u : area u <= exp (1 / 2).
Proof.
  destruct (Rle_lt_dec u 0) as [H|H].
  { pose proof (exp_pos (1 / 2)). destruct H as [H| ->]; [|rewrite area_0; lra].
    apply area_increasing in H. rewrite area_0 in H. lra. }
  set (K := fun x => - exp (1 / 2 - x) - area x).
  assert (HD : forall x, derivable_pt_lim K x (exp (1 / 2 - x) - bell x)).
  { intros x. unfold K. apply (derivable_pt_lim_minus (fun x => - exp (1 / 2 - x)) area); [|apply area_derive].
    replace (exp (1 / 2 - x)) with (- (exp (1 / 2 - x) * (0 - 1))) at 1 by ring.
    apply (derivable_pt_lim_opp (fun x => exp (1 / 2 - x))).
    apply (derivable_pt_lim_comp (fun x => 1 / 2 - x) exp x (0 - 1)).
    - apply (derivable_pt_lim_minus (fun _ => 1 / 2) id); [apply derivable_pt_lim_const|apply derivable_pt_lim_id].
    - apply derivable_pt_lim_exp. }
  destruct (MVT_cor2 K (fun x => exp (1 / 2 - x) - bell x) 0 u H) as (c & Hc & _); [auto|].
  assert (L : bell c <= exp (1 / 2 - c)).
  { unfold bell. destruct (Rle_lt_or_eq_dec (- (c * c) / 2) (1 / 2 - c)) as [L|L]; [pose proof (Rle_0_sqr (c - 1)) as Q; unfold Rsqr in Q; lra| |].
    - left. now apply exp_increasing.
    - right. now rewrite L. }
  assert (0 <= (exp (1 / 2 - c) - bell c) * (u - 0)) by (apply Rmult_le_pos; lra).
  assert (HK : K u - K 0 >= 0) by (rewrite Hc; apply Rle_ge; assumption).
  unfold K in HK. rewrite area_0 in HK. replace (1 / 2 - 0) with (1 / 2) in HK by ring. pose proof (exp_pos (1 / 2 - u)). lra.
Qed.
Lemma normal_cdf_exists : exists F, normal_cdf F.
Proof.
  destruct (completeness (fun a => exists u, a = area u)) as [I [I1 I2]].
  { exists (exp (1 / 2)). intros a (u & ->). apply area_bounded. }
  { exists 0. exists 0. now rewrite area_0. }
  assert (HI : forall u, area u < I).
  { intros u. apply Rlt_le_trans with (area (u + 1)); [apply area_increasing; lra|]. apply I1. eauto. }
  assert (Ip : 0 < I) by (rewrite <- area_0; apply HI).
  assert (HL : forall u, - I < area u).
  { intros u. pose proof (HI (- u)). rewrite area_odd in H. lra. }
  assert (HS : forall eps, 0 < eps -> exists u, I - eps < area u).
  { intros eps He. destruct (Classical_Prop.classic (exists u, I - eps < area u)) as [H|H]; auto. exfalso.
    assert (I <= I - eps); [|lra]. apply I2. intros a (u & ->).
    destruct (Rle_lt_dec (area u) (I - eps)); auto. exfalso. eauto. }
  assert (Hinv : 0 < / (2 * I)) by (apply Rinv_0_lt_compat; lra).
  assert (HX : I * / (2 * I) = 1 / 2) by (field; lra).
  exists (fun u => 1 / 2 + area u * / (2 * I)). split.
  - exists (/ (2 * I)). split; [exact Hinv|]. intros u.
    replace (/ (2 * I) * bell u) with (0 + (bell u * / (2 * I) + area u * 0)) by ring.
    apply (derivable_pt_lim_plus (fun _ => 1 / 2) (fun u => area u * / (2 * I))); [apply derivable_pt_lim_const|].
    apply (derivable_pt_lim_mult area (fun _ => / (2 * I))); [apply area_derive|apply derivable_pt_lim_const].
  - intros u. specialize (HI u). specialize (HL u). split; nra.
  - intros eps He. destruct (HS (eps * (2 * I))) as [u Hu]; [nra|]. exists (- u). rewrite area_odd.
    assert (I * / (2 * I) - eps < area u * / (2 * I)); [|lra].
    replace (I * / (2 * I) - eps) with ((I - eps * (2 * I)) * / (2 * I)) by (field; lra).
    now apply Rmult_lt_compat_r.
  - intros eps He. destruct (HS (eps * (2 * I))) as [u Hu]; [nra|]. exists u.
    assert (I * / (2 * I) - eps < area u * / (2 * I)); [|lra].
    replace (I * / (2 * I) - eps) with ((I - eps * (2 * I)) * / (2 * I)) by (field; lra).
    now apply Rmult_lt_compat_r.
Qed.
