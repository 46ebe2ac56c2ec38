(** Numbers with ranges of their own, from numbers in the unit interval. *)
From Coquelicot Require Import Coquelicot.
From Verif Require Import Base SpecWalk SpecInvariance SpecMany ProofFubini ProofBox ProofInvariance ProofConverge ProofMany.
Local Open Scope R_scope.

Definition width (r : R * R) : R := snd r - fst r.
Fixpoint scale (rs : list (R * R)) (us : list R) : list R :=
  match rs, us with r :: rs', u :: us' => (fst r + width r * u) :: scale rs' us' | _, _ => [] end.
Fixpoint unscale (rs : list (R * R)) (xs : list R) : list R :=
  match rs, xs with r :: rs', x :: xs' => (x - fst r) / width r :: unscale rs' xs' | _, _ => [] end.
Fixpoint vol (rs : list (R * R)) : R := match rs with [] => 1 | r :: t => width r * vol t end.
Definition proper (rs : list (R * R)) : Prop := Forall (fun r => fst r < snd r) rs.
Notation unit_box n := (in_box 0 1 n).

Lemma vol_pos rs : proper rs -> 0 < vol rs.
Proof. induction 1 as [|r rs Hr H IH]; cbn; [lra|]. apply Rmult_lt_0_compat; auto. unfold width. lra. Qed.
Lemma scale_in rs : proper rs -> forall us, unit_box (length rs) us -> in_ranges rs (scale rs us).
Proof.
  induction 1 as [|r rs Hr H IH]; intros [|u us] Hu; cbn; try constructor; try (now destruct Hu); apply box_cons in Hu; destruct Hu as [Hu Hus].
  - unfold width. cbv beta. nra.
  - now apply IH.
Qed.
Lemma unscale_in rs : proper rs -> forall xs, in_ranges rs xs -> unit_box (length rs) (unscale rs xs).
Proof.
  induction 1 as [|r rs Hr H IH]; intros xs Hx; inversion Hx; subst; cbn; [split; auto|]. apply box_cons. split; [|now apply IH].
  unfold width. assert (0 < snd r - fst r) by lra. assert (0 < / (snd r - fst r)) by now apply Rinv_0_lt_compat. split.
  - apply Rmult_le_pos; lra.
  - apply Rmult_le_reg_r with (snd r - fst r); auto. unfold Rdiv. rewrite Rmult_assoc, Rinv_l by lra. lra.
Qed.
Lemma unscale_scale rs : proper rs -> forall us, length us = length rs -> unscale rs (scale rs us) = us.
Proof.
  induction 1 as [|r rs Hr H IH]; intros [|u us] Hu; cbn in *; try discriminate; auto. rewrite IH by lia. f_equal. unfold width. field. lra.
Qed.
Lemma scale_unscale rs : proper rs -> forall xs, length xs = length rs -> scale rs (unscale rs xs) = xs.
Proof.
  induction 1 as [|r rs Hr H IH]; intros [|u us] Hu; cbn in *; try discriminate; auto. rewrite IH by lia. f_equal. unfold width. field. lra.
Qed.
Lemma ranges_length rs xs : in_ranges rs xs -> length xs = length rs.
Proof. intros H. induction H; cbn; auto. Qed.
Lemma scale_near rs : proper rs -> exists W, 0 < W /\ forall d us vs, 0 < d -> near d us vs -> near (W * d) (scale rs us) (scale rs vs).
Proof.
  induction 1 as [|r rs Hr H (W & HW & IH)]; [exists 1; split; [lra|]; intros; destruct us, vs; constructor|].
  assert (Hw : 0 < width r) by (unfold width; lra).
  exists (W + width r). split; [lra|]. intros d us vs Hd Hn. destruct Hn as [|u v us vs Hu Hn]; cbn; constructor.
  - replace (fst r + width r * u - (fst r + width r * v)) with (width r * (u - v)) by ring. rewrite Rabs_mult, (Rabs_pos_eq (width r)) by lra. pose proof (Rabs_pos (u - v)). nra.
  - eapply near_mono; [|apply IH; eauto]. nra.
Qed.
Lemma unscale_near rs : proper rs -> exists w, 0 < w /\ forall d xs ys, 0 < d -> near (w * d) xs ys -> near d (unscale rs xs) (unscale rs ys).
Proof.
  induction 1 as [|r rs Hr H (W & HW & IH)]; [exists 1; split; [lra|]; intros; destruct xs, ys; constructor|].
  assert (Hw : 0 < width r) by (unfold width; lra).
  exists (Rmin W (width r)). split; [now apply Rmin_pos|]. intros d xs ys Hd Hn. pose proof (Rmin_l W (width r)). pose proof (Rmin_r W (width r)). pose proof (Rmin_pos W (width r) HW Hw).
  destruct Hn as [|u v us vs Hu Hn]; cbn; constructor.
  - replace ((u - fst r) / width r - (v - fst r) / width r) with ((u - v) / width r) by (field; lra). unfold Rdiv. rewrite Rabs_mult, (Rabs_pos_eq (/ width r)) by (apply Rlt_le; now apply Rinv_0_lt_compat).
    apply Rmult_lt_reg_r with (width r); auto. rewrite Rmult_assoc, Rinv_l by lra. rewrite Rmult_1_r. nra.
  - apply IH; auto. eapply near_mono; [|exact Hn]. nra.
Qed.
Lemma cont_scale rs f : proper rs -> cont_ranges rs f -> cont_on 0 1 (length rs) (fun us => f (scale rs us)).
Proof.
  intros Hp Hf eps He. destruct (Hf eps He) as (d & Hd & H). destruct (scale_near rs Hp) as (W & HW & Hn).
  assert (Hd' : 0 < d / W) by now apply Rdiv_lt_0_compat.
  exists (d / W). split; auto. intros us vs Hu Hv Huv. apply H; auto using scale_in.
  replace d with (W * (d / W)) by (field; lra). now apply Hn.
Qed.
Lemma cont_unscale rs h : proper rs -> cont_on 0 1 (length rs) h -> cont_ranges rs (fun xs => h (unscale rs xs)).
Proof.
  intros Hp Hf eps He. destruct (Hf eps He) as (d & Hd & H). destruct (unscale_near rs Hp) as (w & Hw & Hn).
  exists (w * d). split; [now apply Rmult_lt_0_compat|]. intros xs ys Hx Hy Hxy. apply H; auto using unscale_in.
Qed.
Lemma ranges_integral_ext rs : forall f g v, (forall xs, in_ranges rs xs -> f xs = g xs) -> ranges_integral rs f v -> ranges_integral rs g v.
Proof.
  induction rs as [|r rs IH]; intros f g v H; cbn.
  - intros ->. apply H. constructor.
  - intros (h & Hh & I). exists h. split; auto. intros x Hx. eapply IH; [|now apply Hh]. intros xs Hxs. apply H. now constructor.
Qed.
Lemma ranges_of rs : proper rs -> forall h, cont_on 0 1 (length rs) h ->
  ranges_integral rs (fun xs => h (unscale rs xs)) (vol rs * box_int 0 1 (length rs) h).
Proof.
  induction 1 as [|r rs Hr H IH]; intros h Hh; [cbn; lra|]. assert (Hw : 0 < width r) by (unfold width; lra).
  cbn [length] in Hh. set (u := fun x => (x - fst r) / width r). set (H1 := fun y => box_int 0 1 (length rs) (fun us => h (y :: us))).
  assert (Hu : forall x, fst r <= x <= snd r -> 0 <= u x <= 1).
  { intros x Hx. unfold u. split; [apply Rmult_le_pos; [lra|apply Rlt_le; now apply Rinv_0_lt_compat]|].
    apply Rmult_le_reg_r with (width r); auto. unfold Rdiv. rewrite Rmult_assoc, Rinv_l by lra. unfold width. lra. }
  cbn [ranges_integral unscale]. exists (fun x => vol rs * H1 (u x)). split.
  - intros x Hx. apply (IH (fun us => h (u x :: us))). apply (ucont_cons 0 1 (length rs) h); auto.
  - assert (I : is_RInt H1 0 1 (box_int 0 1 (S (length rs)) h)).
    { cbn [box_int]. apply @RInt_correct. apply uc1_int; [lra|]. apply (box_int_uc1 0 1); auto; lra. }
    assert (E0 : / width r * fst r + (- fst r / width r) = 0) by (field; lra).
    assert (E1 : / width r * snd r + (- fst r / width r) = 1) by (unfold width in *; field; lra).
    rewrite <- E0, <- E1 in I at 1. apply (is_RInt_comp_lin (V := R_NormedModule)) in I.
    apply (is_RInt_scal (V := R_NormedModule)) with (k := vol rs * width r) in I.
    refine (eq_ind _ (fun v => is_RInt _ (fst r) (snd r) v) (is_RInt_ext _ _ (fst r) (snd r) _ _ I) _ _).
    + intros x _. unfold scal. cbn. unfold mult. cbn. replace (/ width r * x + - fst r / width r) with (u x) by (unfold u; field; lra). field. lra.
    + unfold scal. cbn. unfold mult. cbn. ring.
Qed.

(** One iteration: standard deviations [sds], deviates [zs], uniform number [u]. *)
Fixpoint inr (rs : list (R * R)) (ys : list R) : bool :=
  match rs, ys with
  | r :: rs', y :: ys' => if Rle_dec (fst r) y then if Rle_dec y (snd r) then inr rs' ys' else false else false
  | _, _ => true
  end.
Definition roam (rs : list (R * R)) (sds : list R) (T : R) (L : list R -> R) (xs zs : list R) (u : R) : list R :=
  let ys := jump sds xs zs in
  if inr rs ys then if Rlt_dec (ln u) ((L ys - L xs) / T) then ys else xs else xs.
Fixpoint unit_sds (rs : list (R * R)) (sds : list R) : list R :=
  match rs, sds with r :: rs', s :: sds' => s / width r :: unit_sds rs' sds' | _, _ => [] end.
Lemma inr_in rs : forall ys, length ys = length rs -> inr rs ys = true -> in_ranges rs ys.
Proof.
  induction rs as [|r rs IH]; intros [|y ys] Hl H; cbn in *; try discriminate; constructor.
  - destruct (Rle_dec (fst r) y); [|discriminate]. destruct (Rle_dec y (snd r)); [|discriminate]. auto.
  - destruct (Rle_dec (fst r) y); [|discriminate]. destruct (Rle_dec y (snd r)); [|discriminate]. apply IH; auto.
Qed.
Lemma in_inr rs ys : in_ranges rs ys -> inr rs ys = true.
Proof.
  induction 1 as [|r y rs ys Hy H IH]; cbn; auto. destruct (Rle_dec (fst r) y); [|lra]. destruct (Rle_dec y (snd r)); [|lra]. auto.
Qed.
Lemma roam_inside rs sds T L xs zs u : length sds = length rs -> length zs = length rs -> in_ranges rs xs -> in_ranges rs (roam rs sds T L xs zs u).
Proof.
  intros Hs Hz Hx. unfold roam. cbv zeta. destruct (inr rs (jump sds xs zs)) eqn:E; auto. destruct (Rlt_dec _ _); auto.
  apply inr_in in E; auto. rewrite jump_length; auto; [|congruence]. rewrite (ranges_length rs xs Hx). congruence.
Qed.
Section Ranges.
Context (rs : list (R * R)) (Hrs : proper rs) (sds : list R) (Hlen : length sds = length rs) (Hsds : Forall (fun s => 0 < s) sds).
Context (T : R) (HT : 0 < T).
Context (F phi : R -> R) (HF : normal_cdf F) (Hphi : forall z, derivable_pt_lim F z (phi z)).
Context (L : list R -> R) (HL : cont_ranges rs L).
Notation d := (length rs).
Notation ss := (unit_sds rs sds).
Notation L1 := (fun us => L (scale rs us)).
Lemma unit_length : length ss = d.
Proof. revert sds Hlen Hsds. clear -Hrs. induction Hrs as [|r rs' Hr H IH]; intros [|s sds] Hl Hs; cbn in *; try discriminate; auto. f_equal. apply IH; auto. now inversion Hs. Qed.
Lemma unit_pos : Forall (fun s => 0 < s) ss.
Proof.
  revert sds Hlen Hsds. clear -Hrs. induction Hrs as [|r rs' Hr H IH]; intros [|s sds] Hl Hs; cbn in *; try discriminate; constructor; inversion Hs; subst.
  - apply Rdiv_lt_0_compat; auto. unfold width. lra.
  - apply IH; auto.
Qed.
Lemma jump_scale us zs : length us = d -> length zs = d -> jump sds (scale rs us) zs = scale rs (jump ss us zs).
Proof.
  clear Hsds. revert sds Hlen us zs. clear -Hrs. induction Hrs as [|r rs' Hr H IH]; intros [|s sds] Hl [|u us] [|z zs] H1 H2; cbn in *; try discriminate; auto.
  rewrite <- (IH H sds) by (auto; congruence). f_equal. unfold width. field. lra.
Qed.
Lemma inr_scale ys : length ys = d -> inr rs (scale rs ys) = inb 0 1 ys.
Proof.
  revert ys. clear -Hrs. induction Hrs as [|r rs' Hr H IH]; intros [|y ys] Hl; cbn in *; try discriminate; auto.
  rewrite (IH H) by congruence. unfold width. destruct (Rle_dec (fst r) _), (Rle_dec 0 y); try nra; auto. destruct (Rle_dec _ (snd r)), (Rle_dec y 1); try nra; auto.
Qed.
Lemma roam_scale us zs u : length us = d -> length zs = d ->
  roam rs sds T L (scale rs us) zs u = scale rs (leap 0 1 T ss L1 us zs u).
Proof.
  intros Hu Hz. unfold roam, leap. cbv zeta. rewrite jump_scale by auto. rewrite inr_scale by (rewrite jump_length; rewrite ?unit_length; auto).
  destruct (inb 0 1 _); auto. destruct (Rlt_dec _ _); auto.
Qed.
Notation P := (together 0 1 T phi ss L1).
Definition later (g : list R -> R) (k : nat) (xs : list R) : R := Nat.iter k P (fun us => g (scale rs us)) (unscale rs xs).
Lemma L1_cont : cont_on 0 1 (length ss) L1.
Proof. rewrite unit_length. now apply cont_scale. Qed.
Lemma later_O g xs : in_ranges rs xs -> later g 0 xs = g xs.
Proof. intros Hx. unfold later. cbn. rewrite scale_unscale; auto. now apply ranges_length. Qed.
Lemma iter_cont g k : cont_ranges rs g -> cont_on 0 1 d (Nat.iter k P (fun us => g (scale rs us))).
Proof.
  intros Hg. induction k as [|k IH]; [now apply cont_scale|]. change (cont_on 0 1 d (P (Nat.iter k P (fun us => g (scale rs us))))).
  rewrite <- unit_length in *. apply (ucont_together 0 1 ltac:(lra) T F phi HF Hphi ss unit_pos L1 L1_cont). exact IH.
Qed.
Lemma later_cont g k : cont_ranges rs g -> cont_ranges rs (later g k).
Proof. intros Hg. apply cont_unscale; auto. now apply iter_cont. Qed.
Lemma mean_many_ext f d' h h' m : (forall zs u, length zs = d' -> 0 < u < 1 -> h zs u = h' zs u) -> mean_many f d' h m -> mean_many f d' h' m.
Proof.
  intros E (hz & H1 & H2). exists hz. split; auto. intros zs Hz. unfold mean_unit. apply (is_RInt_ext (h zs)); [|now apply H1].
  intros u Hu. rewrite Rmin_left, Rmax_right in Hu by lra. now apply E.
Qed.
Lemma later_step g k xs : cont_ranges rs g -> in_ranges rs xs -> mean_many phi d (fun zs u => later g k (roam rs sds T L xs zs u)) (later g (S k) xs).
Proof.
  intros Hg Hx. pose proof (unscale_in rs Hrs xs Hx) as Hu. pose proof (ranges_length rs xs Hx) as Hl. set (us := unscale rs xs) in *.
  unfold later. fold us. change (Nat.iter (S k) P (fun us => g (scale rs us)) us) with (P (Nat.iter k P (fun us => g (scale rs us))) us).
  pose proof (iter_cont g k Hg) as Hc. set (gk := Nat.iter k P (fun us => g (scale rs us))) in *.
  pose proof (mean_many_leap 0 1 ltac:(lra) T F phi HF Hphi ss unit_pos L1 L1_cont gk us) as M. rewrite unit_length in M. specialize (M Hc Hu).
  eapply mean_many_ext; [|exact M]. intros zs u Hz _. cbn beta. f_equal.
  replace xs with (scale rs us) by (apply scale_unscale; auto). rewrite roam_scale by (auto; apply Hu).
  rewrite unscale_scale; auto. unfold leap. cbv zeta. destruct (inb 0 1 _); [destruct (Rlt_dec _ _)|]; try apply Hu.
  rewrite jump_length; rewrite ?unit_length; auto; apply Hu.
Qed.
Definition norm : R := vol rs * box_int 0 1 d (fun us => exp (L (scale rs us) / T)).
Definition level (g : list R -> R) : R := vol rs * box_int 0 1 d (fun us => exp (L (scale rs us) / T) * g (scale rs us)).
Lemma dens1_cont : cont_on 0 1 d (dens T L1).
Proof. pose proof (ucont_dens 0 1 ltac:(lra) (length ss) T L1 L1_cont) as H. now rewrite unit_length in H. Qed.
Lemma norm_pos : 0 < norm.
Proof. unfold norm. apply Rmult_lt_0_compat; [now apply vol_pos|]. apply (box_int_pos 0 1); [lra|exact dens1_cont|]. intros. apply exp_pos. Qed.
Lemma norm_is : ranges_integral rs (fun xs => exp (L xs / T)) norm.
Proof.
  eapply ranges_integral_ext; [|exact (ranges_of rs Hrs _ dens1_cont)]. intros xs Hx. cbn beta. unfold dens. rewrite scale_unscale; auto. now apply ranges_length.
Qed.
Lemma level_is g : cont_ranges rs g -> ranges_integral rs (fun xs => exp (L xs / T) * g xs) (level g).
Proof.
  intros Hg. assert (Hc : cont_on 0 1 d (fun us => dens T L1 us * g (scale rs us))) by (apply (ucont_mult 0 1); [lra|exact dens1_cont|now apply cont_scale]).
  eapply ranges_integral_ext; [|exact (ranges_of rs Hrs _ Hc)]. intros xs Hx. cbn beta. unfold dens. rewrite scale_unscale; auto. now apply ranges_length.
Qed.
Lemma level_later g k : cont_ranges rs g -> level (later g k) = level g.
Proof.
  intros Hg. unfold level. f_equal.
  transitivity (box_int 0 1 d (fun us => dens T L1 us * Nat.iter k P (fun us => g (scale rs us)) us)).
  { apply box_int_ext; [lra|]. intros us Hu. unfold later. rewrite unscale_scale; auto. apply Hu. }
  induction k as [|k IH]; [reflexivity|]. rewrite <- IH.
  pose proof (iter_cont g k Hg) as Hc. pose proof (balance_together 0 1 ltac:(lra) T HT F phi HF Hphi ss unit_pos L1 L1_cont (Nat.iter k P (fun us => g (scale rs us)))) as B.
  rewrite unit_length in B. exact (B Hc).
Qed.
Lemma later_converges : exists rho, 0 <= rho < 1 /\ forall g B, cont_ranges rs g -> (forall xs, in_ranges rs xs -> Rabs (g xs) <= B) ->
  forall k xs, in_ranges rs xs -> Rabs (later g k xs - level g / norm) <= 2 * B * rho ^ k.
Proof.
  destruct (together_converges 0 1 ltac:(lra) T HT F phi HF Hphi ss unit_pos L1 L1_cont) as (rho & Hrho & H). rewrite unit_length in H.
  exists rho. split; auto. intros g B Hg HB k xs Hx.
  replace (level g / norm) with (expect 0 1 d (dens T L1) (fun us => g (scale rs us))).
  - apply H; auto using unscale_in, cont_scale. intros us Hu. apply HB. now apply scale_in.
  - unfold expect, total, level, norm. pose proof (vol_pos rs Hrs).
    assert (0 < box_int 0 1 d (fun us => exp (L (scale rs us) / T))) by (apply (box_int_pos 0 1); [lra|exact dens1_cont|intros; apply exp_pos]).
    unfold dens. field. lra.
Qed.
End Ranges.
