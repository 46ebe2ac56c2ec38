(** Integrals over ranges: differences, order, and functions that vanish outside a strip. *)
From Coquelicot Require Import Coquelicot.
From Verif Require Import Base SpecInvariance SpecMany ProofBox ProofRanges.
Local Open Scope R_scope.

Lemma integral_minus rs : forall f g v w, ranges_integral rs f v -> ranges_integral rs g w -> ranges_integral rs (fun xs => f xs - g xs) (v - w).
Proof.
  induction rs as [|r rs IH]; intros f g v w; cbn [ranges_integral]; [now intros -> ->|]. intros (h & Hh & Iv) (k & Hk & Iw).
  exists (fun x => h x - k x). split; [intros x Hx; exact (IH _ _ _ _ (Hh x Hx) (Hk x Hx))|]. exact (is_RInt_minus _ _ _ _ _ _ Iv Iw).
Qed.
Lemma integral_le rs : Forall (fun r => fst r <= snd r) rs -> forall f g v w, (forall xs, in_ranges rs xs -> f xs <= g xs) ->
  ranges_integral rs f v -> ranges_integral rs g w -> v <= w.
Proof.
  induction 1 as [|r rs Hr _ IH]; intros f g v w H; cbn [ranges_integral]; [intros -> ->; apply H; constructor|]. intros (h & Hh & Iv) (k & Hk & Iw).
  apply (is_RInt_le h k (fst r) (snd r)); auto. intros x Hx. eapply IH; [|apply Hh; lra|apply Hk; lra]. intros xs Hxs. apply H. constructor; [lra|exact Hxs].
Qed.
(** At least the volume of the ranges, and of any of their projections. *)
Fixpoint room (rs : list (R * R)) : R := match rs with [] => 1 | r :: rs' => (snd r - fst r + 1) * room rs' end.
Lemma room_pos rs : Forall (fun r => fst r <= snd r) rs -> 1 <= room rs.
Proof. induction 1 as [|r rs Hr _ IH]; cbn [room]; [lra|nra]. Qed.
Lemma const_le a b c h v : a <= b -> (forall x, a < x < b -> h x <= c) -> is_RInt h a b v -> v <= (b - a) * c.
Proof. intros Hab H I. apply (is_RInt_le h (fun _ => c) a b); auto. exact (is_RInt_const a b c). Qed.
Lemma integral_bound rs : Forall (fun r => fst r <= snd r) rs -> forall f v K, 0 <= K -> (forall xs, in_ranges rs xs -> f xs <= K) ->
  ranges_integral rs f v -> v <= K * room rs.
Proof.
  induction 1 as [|r rs Hr Hrs IH]; intros f v K HK H; cbn [ranges_integral room]; [intros ->; specialize (H [] (Forall2_nil _)); lra|]. intros (h & Hh & Iv).
  assert (v <= (snd r - fst r) * (K * room rs)).
  { apply (const_le _ _ _ h v Hr); auto. intros x Hx. eapply IH; [exact HK| |apply Hh; lra]. intros xs Hxs. apply H. constructor; [lra|exact Hxs]. }
  pose proof (room_pos rs Hrs). nra.
Qed.
Lemma strip_line a b c e h v K : a <= b -> 0 < e -> 0 <= K -> (forall x, a < x < b -> h x <= K) -> (forall x, a < x < b -> (x < c - e \/ c + e < x) -> h x <= 0) ->
  is_RInt h a b v -> v <= 2 * e * K.
Proof.
  intros Hab He HK H1 H2 I. set (l := Rmax a (Rmin b (c - e))). set (u := Rmax a (Rmin b (c + e))).
  assert (Hl : a <= l <= u /\ u <= b /\ u - l <= 2 * e /\ (l <= a \/ l <= c - e) /\ (b <= u \/ c + e <= u)).
  { unfold l, u, Rmax, Rmin. repeat destruct (Rle_dec _ _); repeat split; try lra. }
  assert (E : ex_RInt h a b) by (exists v; exact I).
  assert (E1 : ex_RInt h a u) by (apply (ex_RInt_Chasles_1 (V := R_CompleteNormedModule)) with b; [lra|exact E]).
  assert (E2 : ex_RInt h u b) by (apply (ex_RInt_Chasles_2 (V := R_CompleteNormedModule)) with a; [lra|exact E]).
  assert (E3 : ex_RInt h a l) by (apply (ex_RInt_Chasles_1 (V := R_CompleteNormedModule)) with u; [lra|exact E1]).
  assert (E4 : ex_RInt h l u) by (apply (ex_RInt_Chasles_2 (V := R_CompleteNormedModule)) with a; [lra|exact E1]).
  assert (S : v = RInt h a l + RInt h l u + RInt h u b).
  { apply (is_RInt_unique (V := R_CompleteNormedModule)) in I. rewrite <- I. rewrite <- (RInt_Chasles h a u b E1 E2), <- (RInt_Chasles h a l u E3 E4). reflexivity. }
  apply (RInt_correct (V := R_CompleteNormedModule)) in E2. apply (RInt_correct (V := R_CompleteNormedModule)) in E3. apply (RInt_correct (V := R_CompleteNormedModule)) in E4.
  assert (B1 : RInt h a l <= (l - a) * 0) by (apply (const_le a l 0 h); [lra| |exact E3]; intros x Hx; apply H2; lra).
  assert (B2 : RInt h l u <= (u - l) * K) by (apply (const_le l u K h); [lra| |exact E4]; intros x Hx; apply H1; lra).
  assert (B3 : RInt h u b <= (b - u) * 0) by (apply (const_le u b 0 h); [lra| |exact E2]; intros x Hx; apply H2; lra).
  nra.
Qed.
(** [f] is at most [K], and at most 0 where the coordinate [i] is more than [e] away from [c]. *)
Lemma integral_strip rs : Forall (fun r => fst r <= snd r) rs -> forall i f v K c e, (i < length rs)%nat -> 0 <= K -> 0 < e ->
  (forall xs, in_ranges rs xs -> f xs <= K) -> (forall xs, in_ranges rs xs -> (nth i xs 0 < c - e \/ c + e < nth i xs 0) -> f xs <= 0) ->
  ranges_integral rs f v -> v <= 2 * e * (K * room rs).
Proof.
  induction 1 as [|r rs Hr Hrs IH]; intros i f v K c e Hi HK He H1 H2; cbn [ranges_integral room length] in *; [lia|]. intros (h & Hh & Iv).
  pose proof (room_pos rs Hrs) as Hp. assert (HKr : 0 <= K * room rs) by nra. assert (Hek : 0 <= e * (K * room rs)) by nra. destruct i as [|i].
  - assert (B : v <= 2 * e * (K * room rs)).
    { apply (strip_line (fst r) (snd r) c e h v (K * room rs)); auto.
      - intros x Hx. eapply integral_bound; [exact Hrs|exact HK| |apply Hh; lra]. intros xs Hxs. apply H1. constructor; [lra|exact Hxs].
      - intros x Hx Ho. replace 0 with (0 * room rs) by ring. eapply integral_bound; [exact Hrs|lra| |apply Hh; lra]. intros xs Hxs. apply H2; [constructor; [lra|exact Hxs]|exact Ho]. }
    assert (K * room rs <= K * ((snd r - fst r + 1) * room rs)) by (apply Rmult_le_compat_l; [exact HK|nra]). nra.
  - assert (B : v <= (snd r - fst r) * (2 * e * (K * room rs))).
    { apply (const_le _ _ _ h v Hr); auto. intros x Hx. eapply (IH i _ _ K c e); [lia|exact HK|exact He| | |apply Hh; lra].
      - intros xs Hxs. apply H1. constructor; [lra|exact Hxs].
      - intros xs Hxs Ho. apply H2; [constructor; [lra|exact Hxs]|exact Ho]. }
    replace (2 * e * (K * ((snd r - fst r + 1) * room rs))) with ((snd r - fst r) * (2 * e * (K * room rs)) + 2 * (e * (K * room rs))) by ring. lra.
Qed.
Lemma cont_bounded rs f : proper rs -> cont_ranges rs f -> exists B, 0 < B /\ forall xs, in_ranges rs xs -> Rabs (f xs) <= B.
Proof.
  intros Hp Hf. destruct (ucont_bounded 0 1 Rlt_0_1 (length rs) _ (cont_scale rs f Hp Hf)) as (B & HB & H). exists B. split; [exact HB|].
  intros xs Hx. rewrite <- (scale_unscale rs Hp xs (ranges_length rs xs Hx)). apply H. now apply unscale_in.
Qed.
(** 1 up to [c], 0 from [c + e] on, a line in between. *)
Definition ramp (c e x : R) : R := Rmax 0 (Rmin 1 (1 + (c - x) / e)).
Lemma ramp_range c e x : 0 <= ramp c e x <= 1.
Proof. unfold ramp, Rmax, Rmin. repeat destruct (Rle_dec _ _); lra. Qed.
Lemma ramp_one c e x : 0 < e -> x <= c -> ramp c e x = 1.
Proof.
  intros He Hx. assert (0 <= (c - x) / e) by (apply Rmult_le_pos; [lra|apply Rlt_le, Rinv_0_lt_compat, He]). unfold ramp, Rmax, Rmin. repeat destruct (Rle_dec _ _); lra.
Qed.
Lemma ramp_zero c e x : 0 < e -> c + e <= x -> ramp c e x = 0.
Proof.
  intros He Hx. assert ((c - x) / e <= -1) by (apply (Rmult_le_reg_r e); [exact He|]; unfold Rdiv; rewrite Rmult_assoc, Rinv_l by lra; lra).
  unfold ramp, Rmax, Rmin. repeat destruct (Rle_dec _ _); lra.
Qed.
Lemma clamp_near p q : Rabs (Rmax 0 (Rmin 1 (1 + p)) - Rmax 0 (Rmin 1 (1 + q))) <= Rabs (q - p).
Proof. unfold Rabs, Rmax, Rmin. repeat destruct (Rle_dec _ _); repeat destruct (Rcase_abs _); lra. Qed.
Lemma ramp_near c e x y : 0 < e -> Rabs (ramp c e x - ramp c e y) <= Rabs (x - y) / e.
Proof.
  intros He. eapply Rle_trans; [apply clamp_near|]. replace ((c - y) / e - (c - x) / e) with ((x - y) / e) by (field; lra).
  unfold Rdiv. rewrite Rabs_mult, (Rabs_pos_eq (/ e)); [lra|]. apply Rlt_le, Rinv_0_lt_compat, He.
Qed.
