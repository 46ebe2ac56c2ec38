(** Averages over the samples of a run whose rule changes during the burn-in only. *)
From Coq Require Import FunctionalExtensionality.
From Coquelicot Require Import Coquelicot.
From Verif Require Import Base SpecWalk SpecInvariance SpecMany SpecEstimate SpecAnneal ProofFubini ProofBox ProofInvariance ProofConverge ProofMany ProofRanges ProofEstimate ProofEstimateMany.
Local Open Scope R_scope.

Lemma visited_from {X D} (next : nat -> X -> D -> X) b : (forall i, (b <= i)%nat -> next i = next b) ->
  forall ds i x, (b <= i)%nat -> visited_at next i x ds = visited (next b) x ds.
Proof. intros H. induction ds as [|z ds IH]; intros i x Hi; [reflexivity|]. cbn. rewrite (H i Hi). f_equal. apply IH. lia. Qed.
Lemma scheduled_from {X} b e (l : list X) : forall i, scheduled b e (b + i) l = scheduled 0 e i l.
Proof.
  induction l as [|x l IH]; intros i; [reflexivity|]. cbn [scheduled]. replace (S (b + i)) with (b + S i)%nat by lia. rewrite IH.
  replace (b + S i - b)%nat with (S i - 0)%nat by lia. replace (b <? b + S i)%nat with (0 <? S i)%nat; auto.
  destruct (Nat.ltb_spec 0 (S i)), (Nat.ltb_spec b (b + S i)); auto; lia.
Qed.

Lemma upper {X} (dom : X -> Prop) ok P (HP : averages dom ok P) g C : ok g -> (forall x, dom x -> g x <= C) -> forall x, dom x -> P g x <= C.
Proof.
  intros Hg H x Hx. assert (A : 0 <= P (fun x => C + -1 * g x) x).
  { apply (av_pos _ _ _ HP); auto; [now apply (av_aff_ok _ _ _ HP)|]. intros y Hy. specialize (H y Hy). lra. }
  rewrite (av_aff _ _ _ HP) in A by auto. lra.
Qed.

Section Burn.
Context {X D : Type} (dom : X -> Prop) (ok : (X -> R) -> Prop) (P : nat -> (X -> R) -> X -> R) (HP : forall i, averages dom ok (P i)).
Context (next : nat -> X -> D -> X) (M : (D -> R) -> R -> Prop) (D0 : D -> Prop) (b e n : nat).
Context (HM : forall i h x, ok h -> dom x -> M (fun z => h (next i x z)) (P i h x)).
Context (Hnext : forall i x z, dom x -> D0 z -> dom (next i x z)).
Context (Hlate : forall i, (b <= i)%nat -> next i = next b).
Context (h : list X -> R) (C : R) (m : X -> R) (Hm : ok m).
Context (Hmean : forall x, dom x -> mean_rounds M D0 n (fun ds => h (scheduled 0 e 0 (visited (next b) x ds))) (m x) /\ m x <= C).
Lemma burn j : forall i, (i + j = b)%nat -> exists k, ok k /\ forall x, dom x ->
  mean_rounds M D0 (j + n) (fun ds => h (scheduled b e i (visited_at next i x ds))) (k x) /\ k x <= C.
Proof.
  induction j as [|j IH]; intros i Hi.
  - assert (i = b) by lia. subst i. exists m. split; auto. intros x Hx. destruct (Hmean x Hx) as [H1 H2]. split; auto.
    eapply mean_rounds_ext; [|exact H1]. intros ds _ _. cbn beta. rewrite (visited_from next b Hlate) by lia.
    pose proof (scheduled_from b e (visited (next b) x ds) 0) as E. rewrite Nat.add_0_r in E. now rewrite E.
  - destruct (IH (S i) ltac:(lia)) as (k & Hk & H). exists (P i k). split; [now apply (av_ok _ _ _ (HP i))|].
    intros x Hx. split; [|apply (upper dom ok (P i) (HP i) k C Hk); auto; intros y Hy; apply (H y Hy)].
    cbn [Nat.add mean_rounds]. exists (fun z => k (next i x z)). split; [|now apply HM].
    intros z Hz. destruct (H (next i x z) (Hnext i x z Hx Hz)) as [H1 _]. eapply mean_rounds_ext; [|exact H1].
    intros ds _ _. cbn [visited_at scheduled]. destruct (Nat.ltb_spec b (S i)); [lia|]. reflexivity.
Qed.
End Burn.

Section Ranges.
Context (rs : list (R * R)) (Hrs : proper rs) (sds : list R) (Hlen : length sds = length rs) (Hsds : Forall (fun s => 0 < s) sds).
Context (F phi : R -> R) (HF : normal_cdf F) (Hphi : forall z, derivable_pt_lim F z (phi z)).
Context (L : list R -> R) (HL : cont_ranges rs L).
Lemma anneal_estimate : exists C, 0 <= C /\ forall g B, cont_ranges rs g -> (forall xs, in_ranges rs xs -> Rabs (g xs) <= B) ->
  forall b (T : nat -> R) every n xs, (forall i, 0 < T i) -> (forall i, (b <= i)%nat -> T i = 1) ->
  in_ranges rs xs -> (0 < every)%nat -> (0 < (n - b) / every)%nat ->
  exists m, mean_rounds (one rs phi) (draws rs) n (fun ds => (average (map g (scheduled b every 0
      (visited_at (fun i x z => roam rs sds (T i) L x (fst z) (snd z)) 0 xs ds))) - level rs 1 L g / norm rs 1 L) ^ 2) m /\
    m <= C * (B * B) / INR ((n - b) / every).
Proof.
  destruct (later_converges rs Hrs sds Hlen Hsds 1 Rlt_0_1 F phi HF Hphi L HL) as (rho & Hrho & H).
  exists (4 * (1 + 2 * (1 / (1 - rho)))). split.
  { assert (0 < 1 / (1 - rho)) by (apply Rdiv_lt_0_compat; lra). lra. }
  intros g B Hg HB b T every n xs HT Hb Hx He HN.
  assert (Hp : forall t, 0 < t -> averages (in_ranges rs) (cont_ranges rs) (roams rs sds t phi L)) by (intros t Ht; now apply (roams_averages rs Hrs sds Hlen Hsds t Ht F)).
  assert (HB0 : 0 <= 2 * B) by (pose proof (Rabs_pos (g xs)); specialize (HB xs Hx); lra).
  set (mu := level rs 1 L g / norm rs 1 L).
  assert (Hpl : forall u v y, cont_ranges rs u -> cont_ranges rs v -> in_ranges rs y -> roams rs sds 1 phi L (fun x => u x + v x) y = roams rs sds 1 phi L u y + roams rs sds 1 phi L v y)
    by (intros u v y Hu Hv Hy; now apply (roams_plus rs Hrs sds Hlen Hsds 1 F)).
  destruct (estimate_all (in_ranges rs) (cont_ranges rs) (roams rs sds 1 phi L) (Hp 1 Rlt_0_1) (cont_ranges_plus rs Hrs) (cont_ranges_mult rs Hrs) Hpl
    (fun x z => roam rs sds 1 L x (fst z) (snd z)) (fun _ => one rs phi) (fun _ => draws rs)) with (q := fun k => rho ^ k) (Q := 1 / (1 - rho)) (g := g) (B := B)
    (mu := mu) (burnin := 0%nat) (every := every) (n := (n - b)%nat) as (m & Hmo & Hm); auto.
  - intros h x Hh Hxx. unfold one. cbn [fst snd]. now apply (roams_step rs Hrs sds Hlen Hsds 1 F).
  - intros x z Hxx [Hz _]. now apply roam_inside.
  - intros k. now apply geometric_sum.
  - intros k y Hy. rewrite (roams_later rs Hrs sds Hlen Hsds 1 Rlt_0_1 F phi HF Hphi L HL) by auto. now apply H.
  - intros y Hy. pose proof (H g B Hg HB O y Hy) as H0. rewrite later_O in H0 by auto. cbn [pow] in H0. now rewrite Rmult_1_r in H0.
  - now rewrite Nat.sub_0_r.
  - assert (Hbn : (b <= n)%nat). { destruct (Nat.le_gt_cases b n); auto. replace (n - b)%nat with O in HN by lia. rewrite Nat.div_0_l in HN by lia. lia. }
    destruct (burn (in_ranges rs) (cont_ranges rs) (fun i => roams rs sds (T i) phi L) (fun i => Hp (T i) (HT i))
      (fun i x z => roam rs sds (T i) L x (fst z) (snd z)) (one rs phi) (draws rs) b every (n - b)%nat) with
      (h := fun l => (average (map g l) - mu) ^ 2) (C := 4 * (1 + 2 * (1 / (1 - rho))) * (B * B) / INR ((n - b) / every)) (m := m) (j := b) (i := O) as (k & _ & Hk); auto.
    + intros i h x Hh Hxx. unfold one. cbn [fst snd]. now apply (roams_step rs Hrs sds Hlen Hsds (T i) F).
    + intros i x z Hxx [Hz _]. now apply roam_inside.
    + intros i Hi. now rewrite (Hb i Hi), (Hb b (Nat.le_refl b)).
    + intros x Hxx. destruct (Hm x Hxx) as [H1 H2]. rewrite Nat.sub_0_r in H2. split; auto. apply path_rounds in H1.
      cbn beta. rewrite (Hb b (Nat.le_refl b)). exact H1.
    + replace (b + (n - b))%nat with n in Hk by lia. exists (k xs). now apply Hk.
Qed.
End Ranges.
