(** Estimates for numbers with one uniform prior, of a fixed or a varying number. *)
From Coq Require Import FunctionalExtensionality.
From Coquelicot Require Import Coquelicot.
From Verif Require Import Base SpecWalk SpecInvariance SpecTransd SpecEstimate SpecEvents ProofFubini ProofBox ProofInvariance ProofConverge ProofTransd ProofTransConverge ProofEstimate.
Local Open Scope R_scope.

Lemma rsum_add {A} (f g : A -> R) l : rsum (map (fun i => f i + g i) l) = rsum (map f l) + rsum (map g l).
Proof. induction l as [|x l IH]; [cbn; ring|]. cbn [map]. change (rsum (?a :: ?r)) with (a + rsum r). rewrite IH. ring. Qed.

Section Box.
Context (lo hi : R) (Hlo : lo < hi) (n : nat) (Hn : (0 < n)%nat) (sd T : R) (Hsd : 0 < sd) (HT : 0 < T).
Context (F phi : R -> R) (HF : normal_cdf F) (Hphi : forall z, derivable_pt_lim F z (phi z)).
Context (L : list R -> R) (HL : cont_on lo hi n L).
Lemma flux_ex g i xs : (i < n)%nat -> cont_on lo hi n g -> in_box lo hi n xs -> ex_RInt (flux sd T phi L g i xs) lo hi.
Proof.
  intros Hi Hg Hx. exact (uc1_ex lo hi Hlo n _ xs (ucont_flux lo hi Hlo n sd T F phi HF Hphi L HL g i Hi Hg) Hx).
Qed.
Lemma after_plus f g xs : cont_on lo hi n f -> cont_on lo hi n g -> in_box lo hi n xs ->
  after lo hi n sd T phi L (fun x => f x + g x) xs = after lo hi n sd T phi L f xs + after lo hi n sd T phi L g xs.
Proof.
  intros Hf Hg Hx. unfold after. unfold Rdiv. rewrite <- Rmult_plus_distr_r. f_equal. rewrite <- rsum_add. f_equal. apply map_ext_in.
  intros i Hi. apply in_seq in Hi. unfold after_i.
  assert (E : RInt (flux sd T phi L (fun x => f x + g x) i xs) lo hi = RInt (flux sd T phi L f i xs) lo hi + RInt (flux sd T phi L g i xs) lo hi).
  { transitivity (RInt (fun y => flux sd T phi L f i xs y + flux sd T phi L g i xs y) lo hi).
    - apply RInt_in; auto. intros y _. unfold flux. ring.
    - apply (RInt_plus (V := R_CompleteNormedModule)); apply flux_ex; auto; lia. }
  rewrite E. ring.
Qed.
Definition chosen (z : nat * R * R) : Prop := (fst (fst z) < n)%nat /\ 0 < snd z < 1.
Definition chosen_mean (k : nat * R * R -> R) (m : R) : Prop := mean_draws phi n (fun i z u => k (i, z, u)) m.
Lemma box_estimate : exists C, 0 <= C /\ forall g B, cont_on lo hi n g -> (forall xs, in_box lo hi n xs -> Rabs (g xs) <= B) ->
  forall burnin every m0 xs, in_box lo hi n xs -> (0 < every)%nat -> (0 < (m0 - burnin) / every)%nat ->
  exists m, mean_rounds chosen_mean chosen m0 (fun ds => (average (map g (scheduled burnin every 0
      (visited (fun x z => ProofInvariance.step lo hi sd T L x (fst (fst z)) (snd (fst z)) (snd z)) xs ds))) -
      box_int lo hi n (fun xs => exp (L xs / T) * g xs) / mass lo hi n T L) ^ 2) m /\
    m <= C * (B * B) / INR ((m0 - burnin) / every).
Proof.
  destruct (box_converges lo hi Hlo n Hn sd T Hsd HT F phi HF Hphi L HL) as (rho & Hrho & H).
  exists (4 * (1 + 2 * (INR n / (1 - rho)))). split.
  { assert (0 < INR n / (1 - rho)) by (apply Rdiv_lt_0_compat; [apply lt_0_INR; lia|lra]). lra. }
  intros g B Hg HB burnin every m0 xs Hx He HN.
  destruct (estimate (in_box lo hi n) (cont_on lo hi n) (after lo hi n sd T phi L)
    (after_averages lo hi Hlo n Hn sd T Hsd HT F phi HF Hphi L HL) (ucont_plus lo hi n) (ucont_mult lo hi Hlo n) after_plus
    (fun x z => ProofInvariance.step lo hi sd T L x (fst (fst z)) (snd (fst z)) (snd z)) (fun _ => chosen_mean) (fun _ => chosen))
    with (q := fun k => rho ^ (k / n)) (Q := INR n / (1 - rho)) (g := g) (B := B) (mu := box_int lo hi n (fun xs => exp (L xs / T) * g xs) / mass lo hi n T L)
      (burnin := burnin) (every := every) (n := m0) (x := xs) as (m & Hm & Hle); auto.
  - intros h x Hh Hxx. unfold chosen_mean. cbn [fst snd]. eapply mean_draws_step; eauto.
  - intros x [[i z] u] Hxx [Hi _]. cbn [fst snd] in *. unfold ProofInvariance.step. cbv zeta. destruct (Rle_dec lo _); auto. destruct (Rle_dec _ hi); auto. destruct (Rlt_dec _ _); auto.
    now apply box_set.
  - intros m. now apply slow_sum.
  - intros k y Hy. exact (H g B Hg HB k y Hy).
  - intros y Hy. pose proof (H g B Hg HB O y Hy) as H0. rewrite Nat.div_0_l in H0 by lia. cbn [pow] in H0. rewrite Rmult_1_r in H0. exact H0.
  - exists m. split; auto. eapply path_rounds; exact Hm.
Qed.
End Box.

Section Trans.
Context (lo hi : R) (Hlo : lo < hi) (kmin kmax : nat) (Hk : (1 <= kmin <= kmax)%nat) (sd T : R) (Hsd : 0 < sd) (HT : 0 < T).
Context (F phi : R -> R) (HF : normal_cdf F) (Hphi : forall z, derivable_pt_lim F z (phi z)).
Context (L : list R -> R) (HL : forall k, (kmin <= k <= kmax)%nat -> cont_on lo hi k L).
Notation good := (good lo hi kmin kmax).
Notation dom := (dom lo hi kmin kmax).
Notation P := (next_mean lo hi kmin kmax sd T phi L).
Lemma next_plus f g xs : good f -> good g -> dom xs -> P (fun x => f x + g x) xs = P f xs + P g xs.
Proof.
  intros Hf Hg (k & Hkk & Hx). rewrite !(next_parts lo hi kmin kmax sd T phi L _ k xs Hx).
  rewrite (after_plus lo hi Hlo k ltac:(lia) sd T F phi HF Hphi L (HL k Hkk) f g xs (Hf k Hkk) (Hg k Hkk) Hx).
  assert (G : forall ys, ProofTransd.gain T L (fun x => f x + g x) xs ys = ProofTransd.gain T L f xs ys + ProofTransd.gain T L g xs ys) by (intros; unfold ProofTransd.gain; ring).
  assert (B : births lo hi kmax T L (fun x => f x + g x) xs = births lo hi kmax T L f xs + births lo hi kmax T L g xs).
  { unfold births. rewrite (box_length lo hi k xs Hx). destruct (Nat.ltb_spec k kmax) as [Hlt|]; [|ring]. unfold Rdiv. rewrite <- Rmult_plus_distr_r. f_equal.
    rewrite <- rsum_add. f_equal. apply map_ext_in. intros i Hi. apply in_seq in Hi. unfold birth_i. rewrite <- Rmult_plus_distr_l. f_equal.
    transitivity (RInt (fun y => ProofTransd.gain T L f xs (ins i y xs) + ProofTransd.gain T L g xs (ins i y xs)) lo hi); [apply RInt_in; auto|].
    apply (RInt_plus (V := R_CompleteNormedModule)); apply (ProofTransConverge.gain_ex lo hi Hlo kmin kmax Hk T L HL _ k); auto; lia. }
  assert (D : deaths kmin T L (fun x => f x + g x) xs = deaths kmin T L f xs + deaths kmin T L g xs).
  { unfold deaths. destruct (kmin <? length xs)%nat; [|ring]. unfold Rdiv. rewrite <- Rmult_plus_distr_r. f_equal.
    rewrite <- rsum_add. f_equal. apply map_ext_in. intros i Hi. unfold death_i. apply G. }
  rewrite B, D. field.
Qed.
Definition happens (xs : list R) (z : event) : list R :=
  match z with
  | Born i a u => step_birth lo hi T L xs i a u
  | Died i u => step_death T L xs i u
  | Moved i z u => ProofInvariance.step lo hi sd T L xs i z u
  | Refused => xs
  end.
Lemma happens_inside xs z : dom xs -> events kmin kmax xs z -> dom (happens xs z).
Proof.
  intros (k & Hkk & Hx) Hz. pose proof (box_length lo hi k xs Hx) as El. destruct z as [i a u|i u|i z u|]; cbn [events happens] in *.
  - unfold step_birth, decide_at. destruct (Rlt_dec _ _); [|now exists k]. exists (S k). split; [lia|]. apply box_ins; auto; [nra|lia].
  - unfold step_death, decide_at. destruct (Rlt_dec _ _); [|now exists k]. destruct k as [|k]; [lia|]. exists k. split; [lia|]. apply box_del; auto. lia.
  - exists k. split; auto. unfold ProofInvariance.step. cbv zeta. destruct (Rle_dec lo _); auto. destruct (Rle_dec _ hi); auto. destruct (Rlt_dec _ _); auto.
    apply box_set; auto. lia.
  - now exists k.
Qed.
Lemma trans_estimate : exists C, 0 <= C /\ forall g B, good g -> (forall xs, dom xs -> Rabs (g xs) <= B) ->
  forall burnin every n xs, dom xs -> (0 < every)%nat -> (0 < (n - burnin) / every)%nat ->
  exists m, mean_path happens (event_mean phi kmin kmax) (events kmin kmax) n xs (fun ds => (average (map g (scheduled burnin every 0 (visited happens xs ds))) -
      trans_mean lo hi kmin kmax T L g) ^ 2) m /\
    m <= C * (B * B) / INR ((n - burnin) / every).
Proof.
  destruct (trans_converges lo hi Hlo kmin kmax Hk sd T Hsd HT F phi HF Hphi L HL) as (rho & Hrho & H).
  exists (4 * (1 + 2 * (INR kmax / (1 - rho)))). split.
  { assert (0 < INR kmax / (1 - rho)) by (apply Rdiv_lt_0_compat; [apply lt_0_INR; lia|lra]). lra. }
  intros g B Hg HB burnin every n xs Hx He HN.
  destruct (estimate dom good P (next_averages lo hi Hlo kmin kmax Hk sd T Hsd HT F phi HF Hphi L HL)
    (fun f g Hf Hg k H => ucont_plus lo hi k f g (Hf k H) (Hg k H)) (fun f g Hf Hg k H => ucont_mult lo hi Hlo k f g (Hf k H) (Hg k H)) next_plus
    happens (event_mean phi kmin kmax) (events kmin kmax))
    with (q := fun k => rho ^ (k / kmax)) (Q := INR kmax / (1 - rho)) (g := g) (B := B) (mu := trans_mean lo hi kmin kmax T L g)
      (burnin := burnin) (every := every) (n := n) (x := xs) as (m & Hm & Hle); auto.
  - intros h x Hh (k & Hkk & Hxx). unfold event_mean. cbn [happens]. rewrite (box_length lo hi k x Hxx).
    exact (mean_next lo hi Hlo kmin kmax Hk sd T Hsd F phi HF Hphi L HL h k x Hh Hkk Hxx).
  - exact happens_inside.
  - intros m. apply slow_sum; auto. lia.
  - intros y Hy. pose proof (H g B Hg HB O y Hy) as H0. rewrite Nat.div_0_l in H0 by lia. cbn [pow] in H0. rewrite Rmult_1_r in H0. exact H0.
  - exists m. split; auto.
Qed.
End Trans.
