(** Proofs about the log ratio of births from a neighbour. *)
From Verif Require Import Base SpecUtils1D ModelUtils1D ModelPrior ModelState ModelSpace SpecPrior SpecSpace SpecEnsemble SpecBirth
  ProofUtils1D ProofState ProofSpace ProofSpaceB ProofSpaceC ProofSpaceD PropPrior ProofEnsemble PropSpace PropNeighbour.
Local Open Scope R_scope.

Lemma log_mul f g a b : log_density f a -> log_density g b -> log_density (f * g) (eadd a b).
Proof.
  intros [[-> ->]|[Hf ->]] [[-> ->]|[Hg ->]]; cbn.
  - left. split; auto; lra.
  - left. split; auto; lra.
  - left. split; auto; lra.
  - right. split; [nra|]. now rewrite ln_mult.
Qed.
Lemma log_density_nonneg f a : log_density f a -> 0 <= f.
Proof. intros [[-> _]|[H _]]; lra. Qed.
Lemma log_one : log_density 1 (Fin 0).
Proof. right. split; [lra|]. now rewrite ln_1. Qed.
Lemma prior_density p v at_ l : proper p -> p_log_prior p v at_ = Ok l ->
  exists f, has_density (p_dist p) at_ v f /\ log_density f l.
Proof.
  intros (_ & Hok & Hp) H.
  assert (G : exists f, has_density (p_dist p) at_ v f).
  { unfold p_log_prior in H. destruct (p_dist p) as [a b|m s|m b|g1 g2 g3] eqn:E; [| | |contradiction]; destruct Hok as [Ha Hb].
    - apply rbind_ok in H. destruct H as (lo & E1 & H). apply rbind_ok in H. destruct H as (hi & E2 & H).
      apply (C12_hyper_parameters a at_ lo Ha) in E1. apply (C12_hyper_parameters b at_ hi Hb) in E2.
      destruct (Rle_dec lo v) as [L1|L1]; [destruct (Rle_dec v hi) as [L2|L2]|].
      + eexists. eapply HD_in; eauto. now split.
      + eexists. eapply HD_out; eauto. intros [? ?]; lra.
      + eexists. eapply HD_out; eauto. intros [? ?]; lra.
    - apply rbind_ok in H. destruct H as (mu & E1 & H). apply rbind_ok in H. destruct H as (sd & E2 & H).
      apply (C12_hyper_parameters m at_ mu Ha) in E1. apply (C12_hyper_parameters s at_ sd Hb) in E2. eexists. eapply HD_gauss; eauto.
    - apply rbind_ok in H. destruct H as (mu & E1 & H). apply rbind_ok in H. destruct H as (sc & E2 & H).
      apply rbind_ok in H. destruct H as (l2 & _ & H). apply rbind_ok in H. destruct H as (l3 & E3 & H).
      apply (C12_hyper_parameters m at_ mu Ha) in E1. apply (C12_hyper_parameters b at_ sc Hb) in E2. eexists. eapply HD_laplace; eauto.
      unfold py_log in E3. destruct (Rltb 0 sc) eqn:B; [now apply Rltb_true in B|discriminate]. }
  destruct G as [f Hf]. exists f. split; auto. destruct (C12_log_prior p v at_ f Hok Hf) as (l' & E & Hl). congruence.
Qed.
Lemma proposal_density sd v nb l : log_proposal sd v nb = Ok l -> 0 < sd /\ l = - ln (gauss_pdf nb sd v).
Proof.
  intros H. unfold log_proposal in H. apply rbind_ok in H. destruct H as (l0 & E & [= <-]). unfold py_log in E.
  assert (S0 : 0 < sqrt (2 * PI)) by (apply sqrt_lt_R0; pose proof PI_RGT_0; lra).
  destruct (Rltb 0 (sd * sqrt (2 * PI))) eqn:B; [|discriminate]. injection E as <-. apply Rltb_true in B.
  assert (P : 0 < sd) by nra. split; auto. unfold gauss_pdf.
  assert (E : forall e m, 0 < m -> ln (exp e / m) = e - ln m).
  { intros e m Hm. unfold Rdiv. rewrite ln_mult; [|apply exp_pos|now apply Rinv_0_lt_compat]. rewrite ln_exp, ln_Rinv by auto. lra. }
  rewrite E by exact B. change ((v - nb) * ((v - nb) * 1)) with ((v - nb) ^ 2). change (sd * (sd * 1)) with (sd ^ 2). lra.
Qed.
Lemma gauss_pos nb sd v : 0 < sd -> 0 < gauss_pdf nb sd v.
Proof.
  intros H. unfold gauss_pdf. apply Rdiv_lt_0_compat; [apply exp_pos|]. apply Rmult_lt_0_compat; auto.
  apply sqrt_lt_R0. pose proof PI_RGT_0. lra.
Qed.
(** One number. *)
Lemma value_step p x nb v lp sd lq : proper p -> p_log_prior p v (Some x) = Ok lp ->
  perturb_std_of p true (Some x) = Ok sd -> log_proposal sd v nb = Ok lq ->
  exists a, value_ratio p x nb v a /\ log_density a (eadd lp (Fin lq)).
Proof.
  intros Hp E1 E2 E3. destruct (prior_density _ _ _ _ Hp E1) as (f & Hf & Hl). apply proposal_density in E3. destruct E3 as [P ->].
  pose proof (gauss_pos nb sd v P) as G.
  exists (f / gauss_pdf nb sd v). split.
  - econstructor; eauto. apply C12_hyper_parameters; [apply Hp|exact E2].
  - unfold Rdiv. apply log_mul; auto. right. split; [now apply Rinv_0_lt_compat|]. now rewrite ln_Rinv.
Qed.
Lemma num_at_is v i x : num_at v i = Ok x -> number_is v i x.
Proof. unfold num_at. destruct v as [[l|l|l|l]|]; try discriminate. intros H. exists l. split; auto. now apply idx_ok. Qed.
Lemma state_at_is v i x : state_at v i = Ok x -> state_is v i x.
Proof. unfold state_at. destruct v as [[l|l|l|l]|]; try discriminate; intros H; exists l; split; auto; now apply idx_ok. Qed.
Lemma site_at_is v i x : site_at v i = Ok x -> site_is v i x.
Proof.
  unfold site_at, positions_of. destruct v as [[l|l|l|l]|]; try discriminate; cbn [rbind]; intros H; apply idx_ok in H;
    rewrite nth_error_map in H; destruct (nth_error l i) as [y|] eqn:E; try discriminate; injection H as <-; exists l; auto.
Qed.
(** The nearest neighbour is a closest one, in states with ordered sites. *)
Lemma nearest_closest s p x j : is_disc s = true -> sites_ok s p -> nearest_neighbour (ps_get disc_key p) x = Ok j ->
  closest (ps_get disc_key p) x j.
Proof.
  intros Hd Hs H. destruct x as [y|y].
  - unfold sites_ok, is_disc in *. destruct (sp_cls s) as [|lo hi sd fp|d lo hi sd poly kd fp]; try discriminate.
    + destruct Hs as (l & E & Hsort & _). rewrite E in *. cbn [nearest_neighbour closest] in *.
      destruct l as [|b l0]; [discriminate H|]. set (l := b :: l0) in *.
      destruct (nearest_neighbour_1d_spec l y) as (k & Ek & a & Ha & Hn); [discriminate|auto|].
      rewrite Ek in H. injection H as <-. exists l, a. split; auto. split; auto.
      intros c Hc. apply In_nth_error in Hc. destruct Hc as [m Hm]. destruct (Hn m c Hm) as [Hle _].
      rewrite (Rabs_minus_sym y a), (Rabs_minus_sym y c). exact Hle.
    + destruct Hs as (l & E & _). rewrite E in H. discriminate.
  - destruct (ps_get disc_key p) as [[l|l|l|l]|] eqn:E; try discriminate. cbn [nearest_neighbour closest] in *.
    destruct (argmin_spec (map (fun s => sqrt (dist2 s y)) l)) as (k & a & Ek & Ha & Hn); [destruct l; [discriminate H|discriminate]|].
    rewrite Ek in H. injection H as <-. rewrite nth_error_map in Ha. destruct (nth_error l k) as [c|] eqn:Ec; [|discriminate].
    injection Ha as <-. exists l, c. split; auto. split; auto. intros b Hb. apply In_nth_error in Hb. destruct Hb as [m Hm].
    specialize (Hn m (sqrt (dist2 b y))). rewrite nth_error_map, Hm in Hn. specialize (Hn eq_refl).
    rewrite <- !dist2_sqdist. apply sqrt_le_0; auto using dist2_pos.
Qed.

(** One dimension.  [g]: the nested tessellations. *)
Lemma each_ratio (g : space -> psstate -> psstate -> res ext) old new i x j params :
  (forall k s' o n l, In (k, PSpace s') params -> is_disc s' = true -> state_is (ps_get k old) j o -> g s' n o = Ok l ->
     exists f, cells_ratio s' o n 0 (sites_number (ps_get disc_key n)) f /\ log_density f (eneg l)) ->
  (forall k p, In (k, PPrior p) params -> proper p) ->
  forall A F l, log_density F A -> dp_each g new old i x j params (eneg A) = Ok l ->
  exists f B, cell_ratio old new x i j params f /\ l = eneg B /\ log_density (F * f) B.
Proof.
  induction params as [|[k [p|s']] t IH]; intros Hg Hp A F l HF H; cbn [dp_each] in H.
  - injection H as <-. exists 1, A. split; [constructor|]. split; auto. now rewrite Rmult_1_r.
  - apply rbind_ok in H. destruct H as (v & Ev & H). apply rbind_ok in H. destruct H as (nb & Enb & H).
    apply rbind_ok in H. destruct H as (sd & Esd & H). apply rbind_ok in H. destruct H as (lp & Elp & H).
    apply rbind_ok in H. destruct H as (lq & Elq & H).
    destruct (value_step p x nb v lp sd lq) as (a & Ha & Hla); auto; [eapply Hp; left; reflexivity|].
    assert (E : esub (esub (eneg A) lp) (Fin lq) = eneg (eadd A (eadd lp (Fin lq)))).
    { unfold esub. now rewrite !eneg_eadd, eadd_assoc. }
    rewrite E in H. destruct (IH) with (4 := H) (F := F * a) as (f & B & Hf & -> & HB).
    + intros k0 s0 o0 n0 l0 Hin0. apply (Hg k0 s0 o0 n0 l0). now right.
    + intros k0 p0 Hin0. apply (Hp k0 p0). now right.
    + now apply log_mul.
    + exists (a * f), B. split; [econstructor; eauto using num_at_is|]. split; auto. now rewrite <- Rmult_assoc.
  - destruct (is_disc s') eqn:Ed.
    + apply rbind_ok in H. destruct H as (n & En & H). apply rbind_ok in H. destruct H as (o & Eo & H).
      apply rbind_ok in H. destruct H as (l' & El & H).
      apply state_at_is in En. apply state_at_is in Eo.
      destruct (Hg k s' o n l') as (a & Ha & Hla); auto; [now left|].
      assert (E : eadd (esub (eneg A) log_init_disc) l' = eneg (eadd A (eneg l'))).
      { unfold log_init_disc. now rewrite esub_0_r, eneg_eadd, eneg_eneg. }
      rewrite E in H. destruct (IH) with (4 := H) (F := F * a) as (f & B & Hf & -> & HB).
      * intros k0 s0 o0 n0 l0 Hin0. apply (Hg k0 s0 o0 n0 l0). now right.
      * intros k0 p0 Hin0. apply (Hp k0 p0). now right.
      * now apply log_mul.
      * exists (a * f), B. split; [eapply CR_nested; eauto|]. split; auto. now rewrite <- Rmult_assoc.
    + destruct (IH) with (4 := H) (F := F) as (f & B & Hf & -> & HB); auto.
      * intros k0 s0 o0 n0 l0 Hin0. apply (Hg k0 s0 o0 n0 l0). now right.
      * intros k0 p0 Hin0. apply (Hp k0 p0). now right.
      * exists f, B. split; [now apply CR_plain|]. auto.
Qed.
Lemma positions_site v ps m x : positions_of v = Ok ps -> nth_error ps m = Some x -> site_is v m x.
Proof. intros H Hx. apply site_at_is. unfold site_at. rewrite H. cbn [rbind]. now apply idx_ok. Qed.
Lemma positions_number v ps : positions_of v = Ok ps -> length ps = sites_number v.
Proof. unfold positions_of. destruct v as [[l|l|l|l]|]; try discriminate; intros [= <-]; cbn; now rewrite map_length. Qed.
(** Nested tessellations. *)
Lemma nested_ratio s : valid s -> is_disc s = true -> all_proper s -> forall o n l, wf s o ->
  log_prob_death_ps_state s n o = Ok l ->
  exists f, cells_ratio s o n 0 (sites_number (ps_get disc_key n)) f /\ log_density f (eneg l).
Proof.
  induction s as [s IH] using space_ind'. intros Hv Hd Hp o n l Hwf H.
  assert (HE : log_prob_death_ps_state s n o =
    (positions <-? positions_of (ps_get disc_key n) ;;
     dp_points log_prob_death_ps_state (sp_params s) n o
       (combine (seq 0 (length positions)) positions) (Fin 0))) by (destruct s; reflexivity).
  rewrite HE in H. apply rbind_ok in H. destruct H as (ps & Eps & H).
  rewrite <- (positions_number _ _ Eps).
  assert (G : forall qs pre A F l, ps = pre ++ qs -> log_density F A ->
    dp_points log_prob_death_ps_state (sp_params s) n o (combine (seq (length pre) (length qs)) qs) (eneg A) = Ok l ->
    exists f B, cells_ratio s o n (length pre) (length qs) f /\ l = eneg B /\ log_density (F * f) B).
  { clear H l. induction qs as [|x qs IHq]; intros pre A F l Eq HF H; cbn [length seq combine dp_points] in H.
    - injection H as <-. exists 1, A. split; [constructor|]. split; auto. now rewrite Rmult_1_r.
    - apply rbind_ok in H. destruct H as (j & Ej & H). apply rbind_ok in H. destruct H as (a2 & Ea & H).
      destruct (each_ratio log_prob_death_ps_state o n (length pre) x j (sp_params s)) with (3 := HF) (4 := Ea)
        as (f & B & Hf & -> & HB).
      + intros k s' o' n' l' Hin Hd' (lo & Hlo & Hnth) E. eapply IH; eauto.
        * eapply valid_in; eauto.
        * intros s2 k2 p2 Hs2 Hin2. eapply Hp; [|exact Hin2]. econstructor; eauto.
        * intros s2 p2 Hpart. apply Hwf. destruct Hlo as [Hlo|Hlo]; (eapply part_in; [exact Hin|exact Hlo| |exact Hpart]; cbn; eapply nth_error_In; eauto).
      + intros k p Hin. eapply Hp; [constructor|exact Hin].
      + destruct (IHq (pre ++ [x]) B (F * f) l) as (f2 & B2 & Hf2 & -> & HB2); auto.
        * now rewrite <- app_assoc.
        * rewrite app_length. cbn [length]. rewrite Nat.add_1_r. exact H.
        * rewrite app_length in Hf2. cbn [length] in Hf2. rewrite Nat.add_1_r in Hf2.
          exists (f * f2), B2. split; [|split; [auto|now rewrite <- Rmult_assoc]].
          eapply CS_next; eauto.
          -- eapply positions_site; eauto. subst ps. rewrite nth_error_app2, Nat.sub_diag by lia. reflexivity.
          -- eapply nearest_closest; eauto. apply (wf_local _ _ Hwf). }
  destruct (G ps [] (Fin 0) 1 l) as (f & B & Hf & -> & HB); auto using log_one.
  - rewrite eneg_0. exact H.
  - exists f. split; auto. rewrite eneg_eneg. now rewrite Rmult_1_l in HB.
Qed.
Lemma loop_each new old x i j params : forall acc l, log_prob_death_loop params x i j new old acc = Ok l ->
  dp_each log_prob_death_ps_state new old i x j params acc = Ok l.
Proof.
  induction params as [|[k [p|s']] t IH]; intros acc l H; cbn [log_prob_death_loop dp_each] in *; auto.
  - repeat (apply rbind_ok in H; let e := fresh in let E := fresh in destruct H as (e & E & H); rewrite E; cbn [rbind]). auto.
  - apply rbind_ok in H. destruct H as (n & En & H). apply rbind_ok in H. destruct H as (o & Eo & H).
    destruct (is_disc s'); auto. rewrite En, Eo. cbn [rbind]. apply rbind_ok in H. destruct H as (l' & El & H). rewrite El. cbn [rbind]. auto.
Qed.
(** The newborn dimension [i] of [new], given that its death takes it back to [old]. *)
Lemma death_ratio s old new i l : valid s -> is_disc s = true -> from_neighbour s = true -> all_proper s -> wf s old ->
  log_prob_death_parameters s new old i = Ok l ->
  exists x j f, site_is (ps_get disc_key new) i x /\ closest (ps_get disc_key old) x j /\
    cell_ratio old new x i j (sp_params s) f /\ log_density f (eneg l).
Proof.
  intros Hv Hd Hf Hp Hwf H.
  assert (H' : (x <-? site_at (ps_get disc_key new) i ;; j <-? nearest_neighbour (ps_get disc_key old) x ;;
      log_prob_death_loop (sp_params s) x i j new old (Fin 0)) = Ok l).
  { unfold log_prob_death_parameters, from_neighbour in *. destruct (sp_cls s) as [|lo hi sd [|]|d lo hi sd poly kd [|]]; try discriminate; exact H. }
  clear H. apply rbind_ok in H'. destruct H' as (x & Ex & H). apply rbind_ok in H. destruct H as (j & Ej & H).
  apply loop_each in H. rewrite <- eneg_0 in H.
  destruct (each_ratio log_prob_death_ps_state old new i x j (sp_params s)) with (3 := log_one) (4 := H) as (f & B & Hc & -> & HB).
  - intros k s' o n l' Hin Hd' (lo & Hlo & Hnth) E. eapply nested_ratio; eauto.
    + eapply valid_in; eauto.
    + intros s2 k2 p2 Hs2 Hin2. eapply Hp; [|exact Hin2]. econstructor; eauto.
    + intros s2 p2 Hpart. apply Hwf. destruct Hlo as [Hlo|Hlo]; (eapply part_in; [exact Hin|exact Hlo| |exact Hpart]; cbn; eapply nth_error_In; eauto).
  - intros k p Hin. eapply Hp; [constructor|exact Hin].
  - exists x, j, f. split; [now apply site_at_is|]. split; [eapply nearest_closest; eauto; apply (wf_local _ _ Hwf)|].
    split; auto. rewrite eneg_eneg. now rewrite Rmult_1_l in HB.
Qed.
