(** Integrals over boxes: uniform continuity, and the order of integration. *)
From Coquelicot Require Import Coquelicot.
From Verif Require Import Base SpecInvariance.
Local Open Scope R_scope.

Section Box.
Context (lo hi : R) (Hlo : lo < hi).
Notation box := (in_box lo hi).
Notation ucont := (cont_on lo hi).

Definition clamp (x : R) : R := Rmax lo (Rmin hi x).
Lemma clamp_in x : lo <= clamp x <= hi.
Proof. unfold clamp, Rmax, Rmin. destruct (Rle_dec hi x), (Rle_dec lo _); lra. Qed.
Lemma clamp_id x : lo <= x <= hi -> clamp x = x.
Proof. unfold clamp, Rmax, Rmin. destruct (Rle_dec hi x), (Rle_dec lo _); lra. Qed.
Lemma clamp_lip x y : Rabs (clamp x - clamp y) <= Rabs (x - y).
Proof.
  unfold clamp, Rmax, Rmin.
  destruct (Rle_dec hi x), (Rle_dec hi y); repeat destruct (Rle_dec lo _); unfold Rabs; repeat destruct (Rcase_abs _); lra.
Qed.

(** Functions of one number. *)
Definition uc1 (h : R -> R) : Prop := forall eps, 0 < eps -> exists d, 0 < d /\
  forall x y, lo <= x <= hi -> lo <= y <= hi -> Rabs (x - y) < d -> Rabs (h x - h y) < eps.
Lemma uc1_continuous h : uc1 h -> forall x, continuous (fun t => h (clamp t)) x.
Proof.
  intros H x. apply continuity_pt_filterlim. intros eps Heps. destruct (H eps Heps) as (d & Hd & Hh).
  exists d. split; [exact Hd|]. intros y [_ Hy]. unfold dist, R_met, R_dist in *. cbn in *. unfold R_dist in *.
  apply Hh; try apply clamp_in. eapply Rle_lt_trans; [apply clamp_lip|exact Hy].
Qed.
Lemma uc1_int h : uc1 h -> ex_RInt h lo hi.
Proof.
  intros H. apply (ex_RInt_ext (fun t => h (clamp t))).
  - intros x Hx. rewrite Rmin_left, Rmax_right in Hx by lra. f_equal. apply clamp_id. lra.
  - apply @ex_RInt_continuous. intros z _. now apply uc1_continuous.
Qed.
Lemma int_close f g e : uc1 f -> uc1 g -> (forall x, lo <= x <= hi -> Rabs (f x - g x) <= e) ->
  Rabs (RInt f lo hi - RInt g lo hi) <= e * (hi - lo).
Proof.
  intros Hf Hg H. apply uc1_int in Hf. apply uc1_int in Hg.
  assert (E : RInt f lo hi - RInt g lo hi = RInt (fun x => f x - g x) lo hi).
  { symmetry. apply (RInt_minus (V := R_CompleteNormedModule) f g); auto. }
  rewrite E. rewrite (Rmult_comm e).
  apply (abs_RInt_le_const (fun x => f x - g x) lo hi e); auto; [lra|].
  apply (ex_RInt_minus (V := R_NormedModule)); auto.
Qed.

(** Two numbers: the order of integration. *)
Definition uc2 (F : R -> R -> R) : Prop := forall eps, 0 < eps -> exists d, 0 < d /\
  forall x y x' y', lo <= x <= hi -> lo <= y <= hi -> lo <= x' <= hi -> lo <= y' <= hi ->
    Rabs (x - x') < d -> Rabs (y - y') < d -> Rabs (F x y - F x' y') < eps.
Lemma uc2_row F x : uc2 F -> lo <= x <= hi -> uc1 (F x).
Proof.
  intros H Hx eps He. destruct (H eps He) as (d & Hd & HF). exists d. split; auto. intros. apply HF; auto.
  replace (x - x) with 0 by lra. now rewrite Rabs_R0.
Qed.
Lemma uc2_swap F : uc2 F -> uc2 (fun x y => F y x).
Proof. intros H eps He. destruct (H eps He) as (d & Hd & HF). exists d. split; auto. Qed.
Lemma uc2_col F y : uc2 F -> lo <= y <= hi -> uc1 (fun x => F x y).
Proof. intros H. exact (uc2_row _ y (uc2_swap F H)). Qed.
Lemma uc2_int F : uc2 F -> uc1 (fun x => RInt (F x) lo hi).
Proof.
  intros H eps He. assert (He' : 0 < eps / (2 * (hi - lo))) by (apply Rdiv_lt_0_compat; lra).
  destruct (H _ He') as (d & Hd & HF). exists d. split; auto. intros x y Hx Hy Hxy.
  eapply Rle_lt_trans.
  - apply (int_close _ _ (eps / (2 * (hi - lo)))); try now apply uc2_row.
    intros z Hz. apply Rlt_le. apply HF; auto. replace (z - z) with 0 by lra. now rewrite Rabs_R0.
  - replace (eps / (2 * (hi - lo)) * (hi - lo)) with (eps / 2) by (field; lra). lra.
Qed.

Section Fubini.
Context (F : R -> R -> R) (HF : uc2 F).
Let G (x y : R) := F (clamp x) (clamp y).
Lemma G_cont2 x y : continuity_2d_pt G x y.
Proof.
  intros eps. destruct (HF eps (cond_pos eps)) as (d & Hd & H). exists (mkposreal d Hd). cbn. intros u v Hu Hv.
  apply H; try apply clamp_in; (eapply Rle_lt_trans; [apply clamp_lip|assumption]).
Qed.
Lemma G_col y x : continuous (fun x => G x y) x.
Proof. unfold G. apply (uc1_continuous (fun x => F x (clamp y))). apply uc2_col; auto. apply clamp_in. Qed.
Lemma G_row x y : continuous (G x) y.
Proof. unfold G. apply (uc1_continuous (F (clamp x))). apply uc2_row; auto. apply clamp_in. Qed.
Lemma G_ex_row x a b : ex_RInt (G x) a b.
Proof. apply @ex_RInt_continuous. intros. apply G_row. Qed.
Lemma G_ex_col y a b : ex_RInt (fun x => G x y) a b.
Proof. apply @ex_RInt_continuous. intros. apply G_col. Qed.
Lemma G_inner_cont x : continuous (fun x => RInt (G x) lo hi) x.
Proof.
  apply (continuous_ext (fun t => (fun x => RInt (F x) lo hi) (clamp t))).
  - intros t. change (RInt (F (clamp t)) lo hi = RInt (G t) lo hi). apply RInt_ext. intros y Hy. rewrite Rmin_left, Rmax_right in Hy by lra. unfold G. now rewrite (clamp_id y) by lra.
  - apply (uc1_continuous (fun x => RInt (F x) lo hi)). now apply uc2_int.
Qed.
Lemma deriv_left t : is_derive (fun t => RInt (fun x => RInt (G x) lo hi) lo t) t (RInt (G t) lo hi).
Proof.
  apply (is_derive_RInt (fun x => RInt (G x) lo hi) _ lo).
  - exists (mkposreal 1 Rlt_0_1). intros y _. apply @RInt_correct. apply @ex_RInt_continuous. intros. apply G_inner_cont.
  - apply G_inner_cont.
Qed.
Lemma deriv_right t : is_derive (fun t => RInt (fun y => RInt (fun x => G x y) lo t) lo hi) t (RInt (G t) lo hi).
Proof.
  assert (D : forall t y, is_derive (fun t => RInt (fun x => G x y) lo t) t (G t y)).
  { intros s y. apply (is_derive_RInt (fun x => G x y) _ lo).
    - exists (mkposreal 1 Rlt_0_1). intros z _. apply @RInt_correct. apply G_ex_col.
    - apply G_col. }
  assert (E : RInt (G t) lo hi = RInt (fun y => Derive (fun t => RInt (fun x => G x y) lo t) t) lo hi).
  { apply RInt_ext. intros y _. symmetry. apply is_derive_unique. apply D. }
  rewrite E. apply is_derive_RInt_param.
  - exists (mkposreal 1 Rlt_0_1). intros s _ y _. exists (G s y). apply D.
  - intros y _. apply (continuity_2d_pt_ext G); [|apply G_cont2].
    intros u v. symmetry. apply is_derive_unique. apply D.
  - exists (mkposreal 1 Rlt_0_1). intros s _. apply @ex_RInt_continuous. intros y _.
    apply continuity_pt_filterlim. intros eps Heps.
    assert (He : 0 < eps / (2 * (Rabs (s - lo) + 1))).
    { apply Rdiv_lt_0_compat; [exact Heps|]. pose proof (Rabs_pos (s - lo)). lra. }
    destruct (HF _ He) as (d & Hd & H). exists d. split; [exact Hd|]. intros z [_ Hz]. cbn in *. unfold R_dist in *.
    assert (Em : RInt (fun x => G x z) lo s - RInt (fun x => G x y) lo s = RInt (fun x => G x z - G x y) lo s).
    { symmetry. apply (RInt_minus (V := R_CompleteNormedModule)); apply G_ex_col. }
    change (Rabs (RInt (fun x => G x z) lo s - RInt (fun x => G x y) lo s) < eps). rewrite Em.
    assert (B : Rabs (RInt (fun x => G x z - G x y) lo s) <= Rabs (s - lo) * (eps / (2 * (Rabs (s - lo) + 1)))).
    { assert (Hc : forall x, Rabs (G x z - G x y) <= eps / (2 * (Rabs (s - lo) + 1))).
      { intros x. apply Rlt_le. apply H; try apply clamp_in; (eapply Rle_lt_trans; [apply clamp_lip|]); auto.
        replace (x - x) with 0 by lra. now rewrite Rabs_R0. }
      assert (Hx : forall a b, ex_RInt (fun x => G x z - G x y) a b).
      { intros. apply (ex_RInt_minus (V := R_NormedModule)); apply G_ex_col. }
      destruct (Rle_dec lo s) as [Hs|Hs].
      - rewrite (Rabs_pos_eq (s - lo)) by lra. apply abs_RInt_le_const; auto. intros. specialize (Hc t0). rewrite (Rabs_pos_eq (s - lo)) in Hc by lra. exact Hc.
      - rewrite <- (opp_RInt_swap (V := R_CompleteNormedModule)) by apply Hx. 
        change (Rabs (- RInt (fun x => G x z - G x y) s lo) <= Rabs (s - lo) * (eps / (2 * (Rabs (s - lo) + 1)))).
        rewrite Rabs_Ropp. replace (Rabs (s - lo)) with (lo - s) by (rewrite Rabs_left; lra).
        apply abs_RInt_le_const; auto; [lra|]. intros. specialize (Hc t0).
        replace (Rabs (s - lo)) with (lo - s) in Hc by (rewrite Rabs_left; lra). exact Hc. }
    eapply Rle_lt_trans; [exact B|]. pose proof (Rabs_pos (s - lo)) as Ha.
    apply Rlt_le_trans with (eps / 2 * 2); [|lra].
    replace (Rabs (s - lo) * (eps / (2 * (Rabs (s - lo) + 1)))) with (eps / 2 * (Rabs (s - lo) / (Rabs (s - lo) + 1))) by (field; lra).
    apply Rmult_lt_compat_l; [lra|]. apply Rmult_lt_reg_r with (Rabs (s - lo) + 1); [lra|].
    unfold Rdiv. rewrite Rmult_assoc, Rinv_l by lra. lra.
Qed.
Lemma fubini : RInt (fun x => RInt (F x) lo hi) lo hi = RInt (fun y => RInt (fun x => F x y) lo hi) lo hi.
Proof.
  assert (E1 : RInt (fun x => RInt (F x) lo hi) lo hi = RInt (fun x => RInt (G x) lo hi) lo hi).
  { apply RInt_ext. intros x Hx. rewrite Rmin_left, Rmax_right in Hx by lra. apply RInt_ext. intros y Hy.
    rewrite Rmin_left, Rmax_right in Hy by lra. unfold G. now rewrite (clamp_id x), (clamp_id y) by lra. }
  assert (E2 : RInt (fun y => RInt (fun x => F x y) lo hi) lo hi = RInt (fun y => RInt (fun x => G x y) lo hi) lo hi).
  { apply RInt_ext. intros x Hx. rewrite Rmin_left, Rmax_right in Hx by lra. apply RInt_ext. intros y Hy.
    rewrite Rmin_left, Rmax_right in Hy by lra. unfold G. now rewrite (clamp_id x), (clamp_id y) by lra. }
  rewrite E1, E2.
  set (A := fun t => RInt (fun x => RInt (G x) lo hi) lo t). set (B := fun t => RInt (fun y => RInt (fun x => G x y) lo t) lo hi).
  change (A hi = B hi).
  assert (HD : forall t, is_derive (fun t => A t - B t) t 0).
  { intros t. replace 0 with (RInt (G t) lo hi - RInt (G t) lo hi) by lra.
    apply (is_derive_minus (V := R_NormedModule) A B); [apply deriv_left|apply deriv_right]. }
  assert (HA : A lo = 0). { unfold A. now rewrite RInt_point. }
  assert (HB : B lo = 0).
  { unfold B. rewrite (RInt_ext _ (fun _ => 0)).
    - rewrite RInt_const. unfold scal. cbn. unfold mult. cbn. lra.
    - intros. now rewrite RInt_point. }
  destruct (MVT_gen (fun t => A t - B t) lo hi (fun _ => 0)) as (c & _ & Hc).
  - intros. apply HD.
  - intros. apply derivable_continuous_pt. exists 0. apply is_derive_Reals. apply HD.
  - lra.
Qed.
End Fubini.
End Box.
