(** The likelihood: C40, C41 (determinant), C42. *)
From Verif Require Import Base ModelUtils1D ModelPrior ModelState ModelSpace ModelPerturb ModelChain ModelLikelihood
  SpecUtils1D SpecLikelihood ProofUtils1D ProofChain ProofState ProofSpace ProofRun PropUtils1D.
Local Open Scope R_scope.

(** * Determinants *)
Lemma sum_ext f g n : (forall i, (i < n)%nat -> f i = g i) -> sum f n = sum g n.
Proof. induction n as [|n IH]; intros H; cbn; auto. rewrite IH, (H n); auto. Qed.
Lemma sum_shift f n : sum f (S n) = f O + sum (fun k => f (S k)) n.
Proof. induction n as [|n IH]; [cbn; lra|]. change (sum f (S (S n))) with (sum f (S n) + f (S n)). rewrite IH. cbn. lra. Qed.
Lemma sum_zero f n : (forall i, (i < n)%nat -> f i = 0) -> sum f n = 0.
Proof. induction n as [|n IH]; intros H; cbn; auto. rewrite IH, (H n); auto. lra. Qed.
Lemma sum_scal c f n : sum (fun i => c * f i) n = c * sum f n.
Proof. induction n as [|n IH]; cbn; [lra|]. rewrite IH. lra. Qed.
Lemma minor_lt n j i k : (j < S n)%nat -> (i < n)%nat -> (k < n)%nat -> 
  (S i < S n)%nat /\ ((if (k <? j)%nat then k else S k) < S n)%nat.
Proof. intros. destruct (Nat.ltb_spec k j); lia. Qed.
Lemma det_ext n : forall a b, (forall i j, (i < n)%nat -> (j < n)%nat -> a i j = b i j) -> det n a = det n b.
Proof.
  induction n as [|n IH]; intros a b H; auto. cbn [det]. apply sum_ext. intros j Hj.
  rewrite (H O j) by lia. rewrite (IH (minor a j) (minor b j)); auto.
  intros i k Hi Hk. unfold minor. destruct (minor_lt n j i k Hj Hi Hk). apply H; auto.
Qed.
(** A factor of the first column. *)
Lemma det_scale n : forall a b c, (1 <= n)%nat -> (forall i, (i < n)%nat -> b i O = c * a i O) ->
  (forall i j, (i < n)%nat -> (j < n)%nat -> (j <> 0)%nat -> b i j = a i j) -> det n b = c * det n a.
Proof.
  induction n as [|n IH]; intros a b c Hn H0 H1; [lia|]. cbn [det]. rewrite <- sum_scal. apply sum_ext.
  intros j Hj. destruct (Nat.eq_dec j 0) as [->|Hj0].
  - rewrite H0 by lia. rewrite (det_ext n (minor b 0) (minor a 0)); [ring|].
    intros i k Hi Hk. unfold minor. cbn. apply H1; lia.
  - rewrite H1 by lia. rewrite (IH (minor a j) (minor b j) c); [ring|lia|..].
    + intros i Hi. unfold minor. destruct (Nat.ltb_spec 0 j); [|lia]. apply H0. lia.
    + intros i k Hi Hk Hk0. unfold minor. destruct (Nat.ltb_spec k j); apply H1; lia.
Qed.
(** The first two columns proportional. *)
Lemma det_columns n : forall a c, (2 <= n)%nat -> (forall i, (i < n)%nat -> a i O = c * a i 1%nat) -> det n a = 0.
Proof.
  induction n as [|n IH]; intros a c Hn H; [lia|]. cbn [det]. destruct n as [|n]; [lia|].
  rewrite sum_shift, sum_shift.
  rewrite (sum_zero (fun k => (-1) ^ S (S k) * a O (S (S k)) * det (S n) (minor a (S (S k))))).
  - assert (E : det (S n) (minor a 1) = c * det (S n) (minor a 0)).
    { apply det_scale; [lia|..].
      - intros i Hi. unfold minor. cbn. rewrite H by lia. reflexivity.
      - intros i j Hi Hj Hj0. unfold minor. destruct j as [|j]; [lia|]. reflexivity. }
    rewrite E, H by lia. cbn [pow]. ring.
  - intros k Hk. rewrite (IH (minor a (S (S k))) c); [ring|lia|].
    intros i Hi. unfold minor. cbn. apply H. lia.
Qed.
Lemma det_S n a : det (S n) a = sum (fun j => (-1) ^ j * a O j * det n (minor a j)) (S n).
Proof. reflexivity. Qed.
Lemma det_ar1_step n s r : det (S (S n)) (ar1_cov s r) = s ^ 2 * (1 - r ^ 2) * det (S n) (ar1_cov s r).
Proof.
  rewrite (det_S (S n)). rewrite (sum_shift _ (S n)), (sum_shift _ n).
  rewrite (sum_zero _ n).
  - rewrite (det_ext (S n) (minor (ar1_cov s r) 0) (ar1_cov s r)) by reflexivity.
    rewrite (det_scale (S n) (ar1_cov s r) (minor (ar1_cov s r) 1) r); [|lia|..].
    + generalize (det (S n) (ar1_cov s r)). intros d. unfold ar1_cov, dist. cbn [Nat.sub Nat.add pow]. ring.
    + intros i Hi. unfold minor, ar1_cov, dist. cbn [Nat.ltb Nat.leb]. rewrite !Nat.sub_0_r, !Nat.sub_0_l, !Nat.add_0_r.
      cbn [pow]. ring.
    + intros i j Hi Hj Hj0. unfold minor. destruct j as [|j]; [lia|]. reflexivity.
  - intros k Hk. rewrite (det_columns (S n) (minor (ar1_cov s r) (S (S k))) r); [ring|lia|].
    intros i Hi. unfold minor. cbn [Nat.ltb Nat.leb]. unfold ar1_cov, dist.
    replace (S i - 0 + (0 - S i))%nat with (S (S i - 1 + (1 - S i))) by lia. cbn [pow]. ring.
Qed.
Lemma det_ar1 n s r : det (S n) (ar1_cov s r) = s ^ (2 * S n) * (1 - r ^ 2) ^ n.
Proof.
  induction n as [|n IH].
  - cbn. unfold ar1_cov. cbn. ring.
  - rewrite det_ar1_step, IH. replace (2 * S (S n))%nat with (2 + 2 * S n)%nat by lia. rewrite pow_add. cbn [pow]. ring.
Qed.
(** ** C41, the determinant *)
Lemma ln_pow x n : 0 < x -> ln (x ^ n) = INR n * ln x.
Proof.
  intros H. induction n as [|n IH]; [cbn; rewrite ln_1; lra|]. cbn [pow].
  rewrite ln_mult by (auto using pow_lt). rewrite IH, S_INR. lra.
Qed.
Lemma ln_det_ar1 n s r : (1 <= n)%nat -> 0 < s -> 0 < 1 - r ^ 2 ->
  ln (det n (ar1_cov s r)) = 2 * INR n * ln s + (INR n - 1) * ln (1 - r ^ 2).
Proof.
  intros Hn Hs Hr. destruct n as [|n]; [lia|]. rewrite det_ar1, ln_mult; [|now apply pow_lt..].
  rewrite !ln_pow by auto. rewrite mult_INR, (S_INR n). replace (INR 2) with 2 by (cbn; lra). lra.
Qed.
Lemma log_det_ok t s x : (1 <= length (t_dobs t))%nat -> log_det_cov t s = Ok x ->
  exists d, has_noise t s d /\ 0 < dn_std d /\ -1 < corr_of d < 1 /\ x = ln (det (length (t_dobs t)) (noise_cov d)).
Proof.
  intros Hn H. unfold log_det_cov, noise_of in H. apply rbind_ok in H. destruct H as (d & Ed & H).
  assert (Hd : has_noise t s d).
  { unfold has_noise. unfold st_get in Ed. destruct (dget (t_name t) (st_vals s)) as [[p|d']|]; try discriminate. congruence. }
  exists d. split; auto. fold (corr_of d) in H. apply rbind_ok in H. destruct H as (a & Ea & H).
  apply rbind_ok in H. destruct H as (b & Eb & H). injection H as <-. unfold py_log in *.
  destruct (Rltb 0 (dn_std d)) eqn:E1; [|discriminate]. destruct (Rltb 0 (1 - corr_of d ^ 2)) eqn:E2; [|discriminate].
  apply Rltb_true in E1. apply Rltb_true in E2. injection Ea as <-. injection Eb as <-.
  split; auto. split; [nra|]. unfold noise_cov. rewrite ln_det_ar1; auto.
Qed.
(** The log determinant used is that of the covariance with C_ij = std^2 r^|i-j|, whenever it
    is computed at all ... *)
Theorem C41_log_determinant t s x : (1 <= length (t_dobs t))%nat -> log_det_cov t s = Ok x ->
  exists d, has_noise t s d /\ x = ln (det (length (t_dobs t)) (noise_cov d)).
Proof. intros Hn H. destruct (log_det_ok t s x Hn H) as (d & H1 & _ & _ & H2). eauto. Qed.
(** ... which is for every positive standard deviation and correlation between -1 and 1. *)
Theorem C41_log_determinant_total t s d : (1 <= length (t_dobs t))%nat -> has_noise t s d ->
  0 < dn_std d -> -1 < corr_of d < 1 -> log_det_cov t s = Ok (ln (det (length (t_dobs t)) (noise_cov d))).
Proof.
  intros Hn Hd Hs Hr. unfold log_det_cov, noise_of, st_get. rewrite Hd. cbn [rbind]. fold (corr_of d).
  unfold py_log. assert (0 < 1 - corr_of d ^ 2) by nra.
  destruct (Rltb 0 (dn_std d)) eqn:E1; [|apply Rltb_false in E1; lra].
  destruct (Rltb 0 (1 - corr_of d ^ 2)) eqn:E2; [|apply Rltb_false in E2; lra]. cbn [rbind].
  unfold noise_cov. now rewrite ln_det_ar1.
Qed.
(** With correlation 1, which the limits of a target allow, and with standard deviation 0
    the logarithm raises a ValueError. *)
Theorem C41_singular_refuted t s d : has_noise t s d -> dn_std d = 0 \/ corr_of d = 1 -> log_det_cov t s = Raise EValue.
Proof.
  intros Hd H. unfold log_det_cov, noise_of, st_get. rewrite Hd. cbn [rbind]. fold (corr_of d). unfold py_log.
  destruct (Rltb 0 (dn_std d)) eqn:E1; cbn [rbind]; auto. apply Rltb_true in E1. destruct H as [H|H]; [lra|].
  rewrite H. destruct (Rltb 0 (1 - 1 ^ 2)) eqn:E2; auto. apply Rltb_true in E2. lra.
Qed.

(** * Misfits *)
Lemma combine_sum (a b : list R) : length a = length b ->
  rsum (map (fun xy => fst xy * snd xy) (combine a b)) = sum (fun i => nth i a 0 * nth i b 0) (length a).
Proof.
  revert b. induction a as [|x a IH]; intros [|y b] H; try discriminate; auto. cbn [length].
  rewrite sum_shift. cbn [combine map fst snd nth]. change (rsum (?z :: ?l)) with (z + rsum l). rewrite IH by (cbn in H; lia).
  reflexivity.
Qed.
Lemma dot_ok a b x : dot a b = Ok x -> length a = length b /\ x = sum (fun i => nth i a 0 * nth i b 0) (length a).
Proof.
  unfold dot. destruct (Nat.eqb_spec (length a) (length b)) as [E|]; [|discriminate]. intros [= <-].
  split; auto. now apply combine_sum.
Qed.
Lemma vop_ok f a b c : length a = length b -> vop f a b = Ok c ->
  length c = length a /\ forall i, (i < length a)%nat -> nth i c 0 = f (nth i a 0) (nth i b 0).
Proof.
  intros E H. unfold vop in H. rewrite (proj2 (Nat.eqb_eq _ _) E) in H. injection H as <-.
  rewrite map_length, combine_length, E, Nat.min_id. split; auto. intros i Hi.
  assert (Hf : nth i (map (fun xy => f (fst xy) (snd xy)) (combine a b)) (f 0 0) = f (nth i a 0) (nth i b 0)).
  { change (f 0 0) with ((fun xy => f (fst xy) (snd xy)) (0, 0)). rewrite map_nth, combine_nth by auto. reflexivity. }
  rewrite <- Hf. apply nth_indep. rewrite map_length, combine_length, E, Nat.min_id. exact Hi.
Qed.
Lemma matvec_ok m v w n : is_matrix n m -> matvec m v = Ok w ->
  length w = n /\ forall i, (i < n)%nat -> nth i w 0 = sum (fun j => entry m i j * nth j v 0) n.
Proof.
  intros [Hl Hrows] H. unfold matvec in H. apply rmap_ok in H.
  assert (Hlw : length w = n) by (rewrite <- Hl; clear - H; induction H; cbn; auto). split; auto. intros i Hi.
  assert (Hr : exists row, nth_error m i = Some row) by (apply nth_error_lt; lia). destruct Hr as (row & Er).
  assert (Hx : exists x, nth_error w i = Some x /\ dot row v = Ok x).
  { clear - H Er. revert i Er. induction H as [|a b m w Hab H IH]; intros [|i] Er; try discriminate.
    - injection Er as <-. exists b. auto.
    - cbn in Er. cbn. eauto. }
  destruct Hx as (x & Ex & Hx). apply dot_ok in Hx. destruct Hx as [_ ->].
  rewrite (nth_error_nth _ _ 0 Ex).
  assert (Hrl : length row = n) by (rewrite Forall_forall in Hrows; apply Hrows; eapply nth_error_In; eauto).
  rewrite Hrl. apply sum_ext. intros j Hj. unfold entry. now rewrite (nth_error_nth _ _ [] Er).
Qed.
Lemma sum_diag n c v i : (i < n)%nat -> sum (fun j => (if (i =? j)%nat then c else 0) * v j) n = c * v i.
Proof.
  induction n as [|n IH]; intros Hi; [lia|]. cbn [sum]. destruct (Nat.eqb_spec i n) as [->|Hne].
  - rewrite sum_zero; [lra|]. intros j Hj. destruct (Nat.eqb_spec n j); [lia|lra].
  - rewrite IH by lia. lra.
Qed.
Lemma sum_diag_r n c v i : (i < n)%nat -> sum (fun j => v j * (if (j =? i)%nat then c else 0)) n = v i * c.
Proof.
  intros Hi. rewrite (sum_ext _ (fun j => (if (i =? j)%nat then c else 0) * v j)); [rewrite sum_diag by auto; lra|].
  intros j Hj. rewrite Nat.eqb_sym. lra.
Qed.
Lemma noise_get t s d : has_noise t s d -> noise_of t s = Ok d.
Proof. intros H. unfold noise_of, st_get. now rewrite H. Qed.
Lemma white_inverse n sd : 0 < sd ->
  inverse n (ar1_cov sd 0) (fun i j => if (i =? j)%nat then 1 / sd ^ 2 else 0).
Proof.
  intros Hs i k Hi Hk.
  assert (E : forall a b, ar1_cov sd 0 a b = if (a =? b)%nat then sd ^ 2 else 0).
  { intros a b. unfold ar1_cov, dist. destruct (Nat.eqb_spec a b) as [->|Hne].
    - rewrite Nat.sub_diag. cbn. ring.
    - destruct (a - b + (b - a))%nat eqn:Ed; [lia|]. cbn. ring. }
  split.
  - rewrite (sum_diag_r n (1 / sd ^ 2) (ar1_cov sd 0 i) k Hk). rewrite E. destruct (i =? k)%nat; [field; lra|lra].
  - rewrite (sum_diag n (1 / sd ^ 2) (fun j => ar1_cov sd 0 j k) i Hi). rewrite E. destruct (i =? k)%nat; [field; lra|lra].
Qed.
(** One target: the misfit is the quadratic form of the inverse covariance, the other term
    its log determinant (0 for known noise). *)
Lemma misfit_ok K t s d m l : known_ok K t -> (1 <= length (t_dobs t))%nat -> length d = length (t_dobs t) ->
  target_misfit t s d = Ok (m, l) ->
  exists c p, covariance K t s c p /\
    m = quad (length (t_dobs t)) p (fun i => nth i d 0 - nth i (t_dobs t) 0) /\
    l = match t_cov t with Some _ => 0 | None => ln (det (length (t_dobs t)) c) end.
Proof.
  intros HK Hn Hd H. unfold target_misfit in H. apply rbind_ok in H. destruct H as (r & Er & H).
  destruct (vop_ok _ _ _ _ Hd Er) as [Hr Hri]. apply rbind_ok in H. destruct H as (w & Ew & H).
  apply rbind_ok in H. destruct H as (m' & Em & H). apply rbind_ok in H. destruct H as (l' & El & H). injection H as -> ->.
  apply dot_ok in Em. destruct Em as [Hlw ->]. rewrite Hd in *. set (n := length (t_dobs t)) in *.
  assert (Hmain : forall p, (forall i, (i < n)%nat -> nth i w 0 = sum (fun j => p i j * nth j r 0) n) ->
    sum (fun i => nth i r 0 * nth i w 0) (length r) = quad n p (fun i => nth i d 0 - nth i (t_dobs t) 0)).
  { intros p Hp. rewrite Hr. unfold quad. apply sum_ext. intros i Hi. rewrite Hp, Hri by auto. f_equal.
    apply sum_ext. intros j Hj. now rewrite Hri. }
  unfold inv_cov_times in Ew. unfold is_hier in El. unfold covariance, known_ok in *. fold n in HK. fold n.
  destruct (t_cov t) as [[x|v|mt]|] eqn:Ec.
  - injection Ew as <-. injection El as <-. destruct HK as (p & Hp & Hinv). exists (K t), p. repeat split; auto; try apply Hinv; auto.
    apply Hmain. intros i Hi. cbn in Hp. rewrite (sum_ext _ (fun j => (if (i =? j)%nat then x else 0) * nth j r 0)).
    + rewrite sum_diag by auto. rewrite (nth_indep _ 0 (x * 0)) by (rewrite map_length; lia). now rewrite map_nth.
    + intros j Hj. now rewrite Hp.
  - injection El as <-. destruct HK as (p & [Hp1 Hp2] & Hinv).
    assert (Evr : length v = length r) by lia. destruct (vop_ok _ _ _ _ Evr Ew) as [Hw Hwi].
    exists (K t), p. split; [split; [exact Hinv|split; [reflexivity|split; auto]]|]. split; auto.
    apply Hmain. intros i Hi. rewrite (sum_ext _ (fun j => (if (i =? j)%nat then nth i v 0 else 0) * nth j r 0)).
    + rewrite sum_diag by auto. apply Hwi. lia.
    + intros j Hj. now rewrite Hp2.
  - injection El as <-. destruct HK as (p & [Hp1 Hp2] & Hinv).
    destruct (matvec_ok _ _ _ _ Hp1 Ew) as [Hw Hwi].
    exists (K t), p. split; [split; [exact Hinv|split; [reflexivity|split; auto]]|]. split; auto.
    apply Hmain. intros i Hi. rewrite Hwi by auto. apply sum_ext. intros j Hj. now rewrite Hp2.
  - destruct (log_det_ok t s _ Hn El) as (dn & Hdn & Hs & Hr2 & ->). rewrite (noise_get _ _ _ Hdn) in Ew. cbn [rbind] in Ew.
    unfold noise_cov, corr_of in *. destruct (dn_corr dn) as [rr|] eqn:Edc.
    + apply rbind_ok in Ew. destruct Ew as (mt & Emt & Ew).
      destruct (Nat.le_gt_cases n 2) as [Hle|Hge].
      { fold n in Emt. rewrite C41_small_refuted in Emt by auto. discriminate. }
      destruct (C41_inverse_covariance (dn_std dn) rr n Hge Hs Hr2) as (mt' & Emt' & Hmat & Hinv).
      fold n in Emt. rewrite Emt in Emt'. injection Emt' as <-.
      destruct (matvec_ok _ _ _ _ Hmat Ew) as [Hw Hwi].
      exists (ar1_cov (dn_std dn) rr), (entry mt). split; [|split; [apply Hmain; exact Hwi|reflexivity]].
      split; [intros i k Hi Hk; destruct (Hinv i k Hi Hk); auto|]. exists dn. split; auto. unfold noise_cov, corr_of. now rewrite Edc.
    + destruct (Reqb (dn_std dn) 0) eqn:E0; [discriminate|]. injection Ew as <-.
      exists (ar1_cov (dn_std dn) 0), (fun i j => if (i =? j)%nat then 1 / dn_std dn ^ 2 else 0). split; [|split; [|reflexivity]].
      * split; [now apply white_inverse|]. exists dn. split; auto. unfold noise_cov, corr_of. now rewrite Edc.
      * apply Hmain. intros i Hi. rewrite sum_diag by auto.
        rewrite (nth_indep _ 0 (1 / dn_std dn ^ 2 * 0)) by (rewrite map_length; lia). now rewrite map_nth.
Qed.

(** * All targets *)
Lemma target_misfit_vals t s s' d : st_vals s' = st_vals s -> target_misfit t s' d = target_misfit t s d.
Proof.
  intros E. unfold target_misfit, inv_cov_times, log_det_cov, noise_of, st_get. now rewrite E.
Qed.
Lemma get_dpred_inv t f s tr s' d tr' : get_dpred t f s tr = Ret (s', inl d) tr' ->
  predicted t s' d /\ forall k v, dget k (st_cache s) = Some v -> dget k (st_cache s') = Some v.
Proof.
  unfold get_dpred, predicted. destruct (dget (dpred_key t) (st_cache s)) as [[d'|l|n]|] eqn:E; intros H; try discriminate.
  - mr H. inj H. auto.
  - mb H as a Ea. destruct a; mr H; inj H; try discriminate. cbn [st_cache st_save_cache]. rewrite dget_dset_same. split; auto.
    intros k v Hk. destruct (string_dec k (dpred_key t)) as [->|Hne]; [congruence|]. now rewrite dget_dset_other.
Qed.
Lemma misfit_loop_inv l : forall s m d tr s' m' d' tr', misfit_loop l s m d tr = Ret (s', inl (m', d')) tr' ->
  (forall k v, dget k (st_cache s) = Some v -> dget k (st_cache s') = Some v) /\
  exists parts, Forall2 (fun tf ml => exists dp, predicted (fst tf) s' dp /\ target_misfit (fst tf) s' dp = Ok ml) l parts /\
    m' = m + rsum (map fst parts) /\ d' = d + rsum (map snd parts).
Proof.
  induction l as [|[t f] l IH]; intros s m d tr s' m' d' tr' H; cbn [misfit_loop] in H.
  - mr H. inj H. split; auto. exists []. split; [constructor|]. cbn. split; lra.
  - mb H as [s1 od] E1. destruct od as [dp|e]; [|mr H; discriminate].
    destruct (get_dpred_inv _ _ _ _ _ _ _ E1) as [Hp Hc].
    destruct (target_misfit t s1 dp) as [[m1 l1]|e|] eqn:Em; [|mr H; discriminate|discriminate].
    pose proof (misfit_loop_values _ _ _ _ _ _ _ _ H) as (Hv & _).
    apply IH in H. destruct H as (Hc' & parts & HF & -> & ->). split; [auto|]. exists ((m1, l1) :: parts). split.
    + constructor; auto. exists dp. split; [apply Hc'; exact Hp|]. cbn [fst]. rewrite (target_misfit_vals t s1 s' dp Hv). exact Em.
    + cbn [map fst snd]. change (rsum (?z :: ?l)) with (z + rsum l). split; lra.
Qed.
(** The part of the log density that no state changes. *)
Definition density_const (K : target -> nat -> nat -> R) (t : target) : R :=
  - (INR (length (t_dobs t)) / 2) * ln (2 * PI) -
  match t_cov t with Some _ => / 2 * ln (det (length (t_dobs t)) (K t)) | None => 0 end.
Lemma log_density_parts K s ts parts :
  (forall t, In t ts -> known_ok K t /\ (1 <= length (t_dobs t))%nat) ->
  (forall t d, In t ts -> predicted t s d -> length d = length (t_dobs t)) ->
  Forall2 (fun t ml => exists dp, predicted t s dp /\ target_misfit t s dp = Ok ml) ts parts ->
  log_density K s ts (rsum (map (density_const K) ts) - (rsum (map fst parts) + rsum (map snd parts)) / 2).
Proof.
  intros HK HL HF. induction HF as [|t [m l] ts parts (dp & Hp & Hm) HF IH].
  - cbn. replace (0 - (0 + 0) / 2) with 0 by lra. constructor.
  - destruct (HK t (or_introl eq_refl)) as [HKt Hnt].
    destruct (misfit_ok K t s dp m l HKt Hnt (HL _ _ (or_introl eq_refl) Hp) Hm) as (c & p & Hcov & -> & ->).
    assert (IH' := IH (fun t H => HK t (or_intror H)) (fun t d H => HL t d (or_intror H))).
    assert (E : forall a b, a = b -> log_density K s (t :: ts) a -> log_density K s (t :: ts) b) by (intros a b ->; auto).
    eapply E; [|eapply ld_cons; [exact Hp|exact Hcov|exact IH']].
    unfold normal_logpdf, density_const. cbn [map fst snd]. change (rsum (?z :: ?l)) with (z + rsum l).
    destruct Hcov as [_ Hc]. destruct (t_cov t); [destruct Hc as [-> _]|]; lra.
Qed.
Lemma Forall2_combine_fst {A B C} (P : A -> C -> Prop) (l : list A) : forall (l' : list B) m, length l' = length l ->
  Forall2 (fun ab c => P (fst ab) c) (combine l l') m -> Forall2 P l m.
Proof.
  induction l as [|a l IH]; intros [|b l'] m Hl H; try discriminate; cbn in H; inversion H; subst; constructor; eauto.
Qed.
(** ** C40 *)
(** Whatever the forward functions return: whenever a ratio is computed, it is the difference
    of the log densities of the residuals in the two states, divided by the temperature;
    the predictions are those recorded in the states on return. *)
Theorem C40_gaussian K ll old new T tr old' new' x tr' :
  ll_mode ll = MTargets -> length (ll_fwds ll) = length (ll_targets ll) ->
  (forall t, In t (ll_targets ll) -> known_ok K t /\ (1 <= length (t_dobs t))%nat) ->
  log_likelihood_ratio ll old new T tr = Ret (old', new', inl x) tr' ->
  (forall t d, In t (ll_targets ll) -> predicted t old' d \/ predicted t new' d -> length d = length (t_dobs t)) ->
  exists a b, log_density K old' (ll_targets ll) a /\ log_density K new' (ll_targets ll) b /\
    x = Fin ((b - a) / T) /\
    st_vals old' = st_vals old /\ st_vals new' = st_vals new.
Proof.
  intros Hm Hl HK H HL. pose proof (like_values _ _ _ _ _ _ _ _ _ H) as [(V1 & _) (V2 & _)].
  unfold log_likelihood_ratio in H. destruct (Reqb T 0) eqn:ET; [discriminate|]. mb H as [[o n] r] E. mr H. inj H.
  destruct r as [y|e]; [|discriminate]. injection H as <-. unfold raw_ratio in E. rewrite Hm in E. unfold ratio_from_targets in E.
  mb E as [o1 r1] E1. destruct r1 as [[m1 d1]|e]; [|mr E; discriminate].
  mb E as [n1 r2] E2. destruct r2 as [[m2 d2]|e]; [|mr E; discriminate]. mr E. inj E.
  apply misfit_loop_inv in E1. destruct E1 as (_ & p1 & F1 & -> & ->).
  apply misfit_loop_inv in E2. destruct E2 as (_ & p2 & F2 & -> & ->).
  apply (Forall2_combine_fst (fun t ml => exists dp, predicted t old' dp /\ target_misfit t old' dp = Ok ml)) in F1; auto.
  apply (Forall2_combine_fst (fun t ml => exists dp, predicted t new' dp /\ target_misfit t new' dp = Ok ml)) in F2; auto.
  eexists _, _. split; [apply log_density_parts; eauto|]. split; [apply log_density_parts; eauto|]. split; auto.
  cbn [ediv]. f_equal. f_equal. lra.
Qed.

(** * Forward functions that only depend on the parameters *)
(** [g t s]: what the forward function of [t] returns, none if it raises. *)
Definition forward_is (ll : loglike) (g : target -> state -> option (list R)) : Prop :=
  (forall t f, In (t, f) (combine (ll_targets ll) (ll_fwds ll)) -> forall s tr,
     match g t s with Some d => call_fwd f s tr = Ret d tr | None => exists e, call_fwd f s tr = Err e tr end) /\
  (forall t s s', same_values s s' -> g t s' = g t s).
(** The predictions in the cache of a state are those of its own parameters. *)
Definition up_to_date (ll : loglike) (g : target -> state -> option (list R)) (s : state) : Prop :=
  forall t c, In t (ll_targets ll) -> dget (dpred_key t) (st_cache s) = Some c ->
    exists d, c = CPred d /\ g t s = Some d.
Lemma append_inj a b c : (a ++ c = b ++ c)%string -> a = b.
Proof.
  intros H. assert (L : String.length a = String.length b).
  { assert (E : String.length (a ++ c) = String.length (b ++ c)) by now rewrite H.
    assert (A : forall x y, String.length (x ++ y) = (String.length x + String.length y)%nat).
    { intros x y. induction x as [|ch x IH]; cbn; auto. }
    rewrite !A in E. lia. }
  revert b H L. induction a as [|x a IH]; intros [|y b] H L; try discriminate; auto.
  cbn in H, L. injection H as -> H. f_equal. apply IH; auto.
Qed.
Lemma dpred_key_inj t t' : dpred_key t = dpred_key t' -> t_name t = t_name t'.
Proof. apply append_inj. Qed.
Section Pure.
Variable g : target -> state -> option (list R).
(** The sums without cache. *)
Fixpoint scores (l : list (target * fwd)) (s : state) (m d : R) : res (R * R) :=
  match l with
  | [] => Ok (m, d)
  | (t, f) :: l' =>
      match g t s with
      | None => Raise EForward
      | Some dp => ml <-? target_misfit t s dp ;; scores l' s (m + fst ml) (d + snd ml)
      end
  end.
Definition synced (l : list (target * fwd)) (s : state) : Prop :=
  forall t f c, In (t, f) l -> dget (dpred_key t) (st_cache s) = Some c -> exists d, c = CPred d /\ g t s = Some d.
Lemma scores_values l s s' : (forall t, g t s' = g t s) -> st_vals s' = st_vals s -> forall m d,
  scores l s' m d = scores l s m d.
Proof.
  intros Hg Hv. induction l as [|[t f] l IH]; intros m d; cbn [scores]; auto. rewrite Hg. destruct (g t s); auto.
  rewrite (target_misfit_vals t s s' _ Hv). destruct (target_misfit t s l0) as [[a b]|e|]; cbn [rbind]; auto.
Qed.
Lemma scores_acc l s : forall m d, scores l s m d = (ml <-? scores l s 0 0 ;; Ok (m + fst ml, d + snd ml)).
Proof.
  induction l as [|[t f] l IH]; intros m d; cbn [scores].
  - cbn. f_equal. f_equal; lra.
  - destruct (g t s); auto. destruct (target_misfit t s l0) as [[a b]|e|]; cbn [rbind fst snd]; auto.
    rewrite IH, (IH (0 + a) (0 + b)). destruct (scores l s 0 0) as [[x y]|e|]; cbn; auto. f_equal. f_equal; lra.
Qed.
Hypothesis Hgv : forall t s s', same_values s s' -> g t s' = g t s.
Lemma loop_pure l : NoDup (map (fun tf => t_name (fst tf)) l) ->
  (forall t f, In (t, f) l -> forall s tr,
     match g t s with Some d => call_fwd f s tr = Ret d tr | None => exists e, call_fwd f s tr = Err e tr end) ->
  forall s m d tr, synced l s ->
  match scores l s m d with
  | Ok md => exists s', misfit_loop l s m d tr = Ret (s', inl md) tr /\ synced l s'
  | Raise e => exists s', misfit_loop l s m d tr = Ret (s', inr e) tr /\ synced l s'
  | Undef => misfit_loop l s m d tr = UBeh
  end.
Proof.
  induction l as [|[t f] l IH]; intros Hnd Hf s m d tr Hsy; cbn [scores misfit_loop].
  - exists s. split; auto.
  - inversion Hnd as [|? ? Ht Hnd']; subst.
    assert (Hf' : forall t f, In (t, f) l -> forall s tr,
      match g t s with Some d => call_fwd f s tr = Ret d tr | None => exists e, call_fwd f s tr = Err e tr end)
      by (intros; apply Hf; now right).
    pose proof (Hf t f (or_introl eq_refl) s tr) as Hcall.
    assert (Hget : exists s1, get_dpred t f s tr = Ret (s1, match g t s with Some dp => inl dp | None => inr EForward end) tr /\
       same_values s s1 /\ synced ((t, f) :: l) s1).
    { unfold get_dpred. destruct (dget (dpred_key t) (st_cache s)) as [c|] eqn:Ec.
      - destruct (Hsy t f c (or_introl eq_refl) Ec) as (dp & -> & ->). exists s. split; [reflexivity|].
        split; [apply same_values_refl|auto].
      - destruct (g t s) as [dp|] eqn:Eg.
        + exists (st_save_cache (dpred_key t) (CPred dp) s). unfold bind, try. rewrite Hcall.
          split; [reflexivity|]. split; [repeat split|]. intros t2 f2 c Hin Hc. cbn [st_cache st_save_cache] in Hc.
          assert (Hs2 : forall u, g u (st_save_cache (dpred_key t) (CPred dp) s) = g u s) by (intros u; apply Hgv; repeat split).
          rewrite Hs2. destruct (string_dec (dpred_key t2) (dpred_key t)) as [E|Hne].
          * rewrite E, dget_dset_same in Hc. injection Hc as <-. exists dp. split; auto. destruct Hin as [E2|Hin]; [congruence|].
            exfalso. apply Ht. apply dpred_key_inj in E. rewrite <- E. apply (in_map (fun tf => t_name (fst tf)) _ _ Hin).
          * rewrite dget_dset_other in Hc by auto. eapply Hsy; eauto.
        + destruct Hcall as (e & He). exists s. unfold bind, try. rewrite He. split; [reflexivity|].
          split; [apply same_values_refl|auto]. }
    destruct Hget as (s1 & Eg1 & Hv1 & Hs1). unfold bind.
    destruct (g t s) as [dp|] eqn:Eg.
    + assert (Em : target_misfit t s1 dp = target_misfit t s dp) by (apply target_misfit_vals; apply Hv1).
      destruct (target_misfit t s dp) as [[a b]|e|] eqn:Et; cbn [rbind fst snd].
      * assert (Hsl : synced l s1) by (intros t2 f2 c Hin; apply (Hs1 t2 f2 c); now right).
        pose proof (IH Hnd' Hf' s1 (m + a) (d + b) tr Hsl) as H.
        rewrite (scores_values l s s1 (fun u => Hgv u _ _ Hv1) (proj1 Hv1)) in H.
        assert (Hkeep : forall s' o, misfit_loop l s1 (m + a) (d + b) tr = Ret (s', o) tr -> synced l s' -> synced ((t, f) :: l) s').
        { intros s' o E Hl t2 f2 c [E2|Hin] Hc; [|eapply Hl; eauto]. injection E2 as <- <-.
          pose proof (misfit_loop_values _ _ _ _ _ _ _ _ E) as Hv2. rewrite (Hgv t _ _ Hv2), (Hgv t _ _ Hv1).
          exists dp. split; auto.
          assert (Hp : predicted t s1 dp) by exact (proj1 (get_dpred_inv t f s tr s1 dp tr Eg1)).
          assert (Hmono : forall l s m d tr s' o tr', misfit_loop l s m d tr = Ret (s', o) tr' ->
             forall k v, dget k (st_cache s) = Some v -> dget k (st_cache s') = Some v).
          { clear. induction l as [|[t f] l IH]; intros s m d tr s' o tr' H; cbn [misfit_loop] in H.
            - mr H. inj H. auto.
            - mb H as [s1 od] E1. destruct od as [dp|e].
              + destruct (get_dpred_inv _ _ _ _ _ _ _ E1) as [_ Hc].
                destruct (target_misfit t s1 dp) as [[a b]|e|]; [|mr H; inj H; auto|discriminate].
                intros k v Hk. eapply IH; eauto.
              + mr H. inj H. unfold get_dpred in E1. destruct (dget (dpred_key t) (st_cache s)) as [[?|?|?]|]; try discriminate.
                mb E1 as r Er. destruct r; mr E1; inj E1; auto. discriminate. }
          pose proof (Hmono _ _ _ _ _ _ _ _ E _ _ Hp) as Hp'. congruence. }
        destruct (scores l s (m + a) (d + b)) as [md|e|].
        -- destruct H as (s' & E & Hl). exists s'. rewrite Eg1, Em. split; eauto.
        -- destruct H as (s' & E & Hl). exists s'. rewrite Eg1, Em. split; eauto.
        -- rewrite Eg1, Em. exact H.
      * exists s1. rewrite Eg1, Em. split; auto.
      * rewrite Eg1, Em. reflexivity.
    + exists s1. rewrite Eg1. split; auto.
Qed.
End Pure.

(** * Ratios *)
Definition ratio_is (ll : loglike) (T : R) (a b : state) (x : ext) : Prop := forall tr, exists a' b',
  log_likelihood_ratio ll a b T tr = Ret (a', b', inl x) tr.
Lemma combine_fst {A B} (l : list A) : forall (l' : list B), length l' = length l -> map fst (combine l l') = l.
Proof. induction l as [|a l IH]; intros [|b l'] H; try discriminate; cbn; auto. f_equal. auto. Qed.
Lemma combine_in {A B} (l : list A) : forall (l' : list B) a, length l' = length l -> In a l -> exists b, In (a, b) (combine l l').
Proof.
  induction l as [|x l IH]; intros [|b l'] a H Hin; try discriminate; [destruct Hin..|]. destruct Hin as [->|Hin].
  - exists b. now left.
  - destruct (IH l' a) as (b' & H'); auto. exists b'. now right.
Qed.
Section Ratio.
Variable ll : loglike.
Variable g : target -> state -> option (list R).
Hypothesis Hm : ll_mode ll = MTargets.
Hypothesis Hlen : length (ll_fwds ll) = length (ll_targets ll).
Hypothesis Hnd : NoDup (map t_name (ll_targets ll)).
Hypothesis Hg : forward_is ll g.
Let L := combine (ll_targets ll) (ll_fwds ll).
Lemma synced_up s : up_to_date ll g s <-> synced g L s.
Proof.
  split.
  - intros H t f c Hin. apply H. eapply in_combine_l; exact Hin.
  - intros H t c Hin Hc. destruct (combine_in _ (ll_fwds ll) _ Hlen Hin) as (f & Hf). eapply H; eauto.
Qed.
Lemma L_names : NoDup (map (fun tf => t_name (fst tf)) L).
Proof. unfold L. rewrite <- (map_map fst t_name). rewrite combine_fst by auto. exact Hnd. Qed.
Lemma ratio_pure a b T tr : T <> 0 -> up_to_date ll g a -> up_to_date ll g b ->
  match scores g L a 0 0 with
  | Ok (m1, d1) =>
      match scores g L b 0 0 with
      | Ok (m2, d2) => exists a' b', up_to_date ll g a' /\ up_to_date ll g b' /\
          log_likelihood_ratio ll a b T tr = Ret (a', b', inl (Fin ((d1 - d2 + m1 - m2) / 2 / T))) tr
      | Raise e => exists a' b', up_to_date ll g a' /\ up_to_date ll g b' /\
          log_likelihood_ratio ll a b T tr = Ret (a', b', inr e) tr
      | Undef => log_likelihood_ratio ll a b T tr = UBeh
      end
  | Raise e => exists a' b', up_to_date ll g a' /\ up_to_date ll g b' /\
      log_likelihood_ratio ll a b T tr = Ret (a', b', inr e) tr
  | Undef => log_likelihood_ratio ll a b T tr = UBeh
  end.
Proof.
  intros HT Ha Hb. assert (ET : Reqb T 0 = false) by now apply Reqb_false.
  pose proof (loop_pure g (proj2 Hg) L L_names (proj1 Hg) a 0 0 tr (proj1 (synced_up a) Ha)) as HA.
  pose proof (loop_pure g (proj2 Hg) L L_names (proj1 Hg) b 0 0 tr (proj1 (synced_up b) Hb)) as HB.
  unfold log_likelihood_ratio. rewrite ET. unfold raw_ratio. rewrite Hm. unfold ratio_from_targets. fold L.
  destruct (scores g L a 0 0) as [[m1 d1]|e|].
  - destruct HA as (a' & EA & HA). apply synced_up in HA. unfold bind. rewrite EA.
    destruct (scores g L b 0 0) as [[m2 d2]|e|].
    + destruct HB as (b' & EB & HB). apply synced_up in HB. rewrite EB. exists a', b'. auto.
    + destruct HB as (b' & EB & HB). apply synced_up in HB. rewrite EB. exists a', b'. auto.
    + rewrite HB. reflexivity.
  - destruct HA as (a' & EA & HA). apply synced_up in HA. unfold bind. rewrite EA. exists a', b. auto.
  - unfold bind. rewrite HA. reflexivity.
Qed.
Lemma ratio_score a b T tr a' b' x tr' : T <> 0 -> up_to_date ll g a -> up_to_date ll g b ->
  log_likelihood_ratio ll a b T tr = Ret (a', b', inl x) tr' ->
  exists m1 d1 m2 d2, scores g L a 0 0 = Ok (m1, d1) /\ scores g L b 0 0 = Ok (m2, d2) /\
    x = Fin ((d1 - d2 + m1 - m2) / 2 / T).
Proof.
  intros HT Ha Hb H. pose proof (ratio_pure a b T tr HT Ha Hb) as P.
  destruct (scores g L a 0 0) as [[m1 d1]|e|].
  - destruct (scores g L b 0 0) as [[m2 d2]|e|].
    + destruct P as (a1 & b1 & _ & _ & E). rewrite E in H. injection H as <- <- <- <-. exists m1, d1, m2, d2. auto.
    + destruct P as (a1 & b1 & _ & _ & E). rewrite E in H. discriminate.
    + rewrite P in H. discriminate.
  - destruct P as (a1 & b1 & _ & _ & E). rewrite E in H. discriminate.
  - rewrite P in H. discriminate.
Qed.
Lemma ratio_back a b T m1 d1 m2 d2 : T <> 0 -> up_to_date ll g a -> up_to_date ll g b ->
  scores g L a 0 0 = Ok (m1, d1) -> scores g L b 0 0 = Ok (m2, d2) ->
  ratio_is ll T a b (Fin ((d1 - d2 + m1 - m2) / 2 / T)).
Proof.
  intros HT Ha Hb E1 E2 tr. pose proof (ratio_pure a b T tr HT Ha Hb) as P. rewrite E1, E2 in P.
  destruct P as (a' & b' & _ & _ & E). eauto.
Qed.
(** ** C42, targets *)
Theorem C42_targets a b c T tr a1 b1 x tr1 tr2 b2 c2 y tr3 : T <> 0 ->
  up_to_date ll g a -> up_to_date ll g b -> up_to_date ll g c ->
  log_likelihood_ratio ll a b T tr = Ret (a1, b1, inl x) tr1 ->
  log_likelihood_ratio ll b c T tr2 = Ret (b2, c2, inl y) tr3 ->
  exists u v, x = Fin u /\ y = Fin v /\
    ratio_is ll T a a (Fin 0) /\ ratio_is ll T b a (Fin (- u)) /\ ratio_is ll T a c (Fin (u + v)) /\
    forall T', T' <> 0 -> ratio_is ll T' a b (Fin (u * T / T')).
Proof.
  intros HT Ha Hb Hc H1 H2.
  destruct (ratio_score _ _ _ _ _ _ _ _ HT Ha Hb H1) as (m1 & d1 & m2 & d2 & E1 & E2 & ->).
  destruct (ratio_score _ _ _ _ _ _ _ _ HT Hb Hc H2) as (m2' & d2' & m3 & d3 & E2' & E3 & ->).
  rewrite E2 in E2'. injection E2' as <- <-. do 2 eexists. split; [reflexivity|]. split; [reflexivity|].
  assert (X : forall u v w, u = v -> ratio_is ll w a a (Fin u) -> ratio_is ll w a a (Fin v)) by (intros ? ? ? ->; auto).
  split; [|split; [|split]].
  - pose proof (ratio_back a a T _ _ _ _ HT Ha Ha E1 E1) as P. replace 0 with ((d1 - d1 + m1 - m1) / 2 / T) by (field; auto). exact P.
  - pose proof (ratio_back b a T _ _ _ _ HT Hb Ha E2 E1) as P.
    replace (- ((d1 - d2 + m1 - m2) / 2 / T)) with ((d2 - d1 + m2 - m1) / 2 / T) by (field; auto). exact P.
  - pose proof (ratio_back a c T _ _ _ _ HT Ha Hc E1 E3) as P.
    replace ((d1 - d2 + m1 - m2) / 2 / T + (d2 - d3 + m2 - m3) / 2 / T) with ((d1 - d3 + m1 - m3) / 2 / T) by (field; auto). exact P.
  - intros T' HT'. pose proof (ratio_back a b T' _ _ _ _ HT' Ha Hb E1 E2) as P.
    replace ((d1 - d2 + m1 - m2) / 2 / T * T / T') with ((d1 - d2 + m1 - m2) / 2 / T') by (field; auto). exact P.
Qed.
(** ** C19, ratios *)
(** With predictions in the caches that belong to the states, a ratio is what it is without
    any cache, and so is the exception; the caches stay right. *)
Theorem C19_ratio a b a0 b0 T tr : T <> 0 ->
  up_to_date ll g a -> up_to_date ll g b ->
  same_values a a0 -> same_values b b0 -> st_cache a0 = [] -> st_cache b0 = [] ->
  match log_likelihood_ratio ll a b T tr with
  | Ret (a', b', r) tr' => up_to_date ll g a' /\ up_to_date ll g b' /\
      exists a0' b0', log_likelihood_ratio ll a0 b0 T tr = Ret (a0', b0', r) tr'
  | UBeh => log_likelihood_ratio ll a0 b0 T tr = UBeh
  | _ => False
  end.
Proof.
  intros HT Ha Hb Sa Sb Ca Cb.
  assert (Ha0 : up_to_date ll g a0) by (intros t c _ Hc; rewrite Ca in Hc; discriminate).
  assert (Hb0 : up_to_date ll g b0) by (intros t c _ Hc; rewrite Cb in Hc; discriminate).
  pose proof (ratio_pure a b T tr HT Ha Hb) as P. pose proof (ratio_pure a0 b0 T tr HT Ha0 Hb0) as Q.
  rewrite (scores_values g L a a0 (fun t => proj2 Hg t _ _ Sa) (proj1 Sa)) in Q.
  rewrite (scores_values g L b b0 (fun t => proj2 Hg t _ _ Sb) (proj1 Sb)) in Q.
  destruct (scores g L a 0 0) as [[m1 d1]|e|].
  - destruct (scores g L b 0 0) as [[m2 d2]|e|].
    + destruct P as (a1 & b1 & H1 & H2 & E). destruct Q as (a2 & b2 & _ & _ & E'). rewrite E, E'. eauto 6.
    + destruct P as (a1 & b1 & H1 & H2 & E). destruct Q as (a2 & b2 & _ & _ & E'). rewrite E, E'. eauto 6.
    + now rewrite P.
  - destruct P as (a1 & b1 & H1 & H2 & E). destruct Q as (a2 & b2 & _ & _ & E'). rewrite E, E'. eauto 6.
  - now rewrite P.
Qed.
End Ratio.

(** ** C42, log_like_func *)
(** A function with finite values that only depends on the parameters. *)
Theorem C42_log_like ll f h a b c T : ll_mode ll = MLike -> ll_func ll = Some f ->
  (forall s tr, f s tr = Ret (Fin (h s)) tr) -> T <> 0 ->
  ratio_is ll T a b (Fin ((h b - h a) / T)) /\ ratio_is ll T a a (Fin 0) /\
  ratio_is ll T b a (Fin (- ((h b - h a) / T))) /\
  ratio_is ll T a c (Fin ((h b - h a) / T + (h c - h b) / T)).
Proof.
  intros Hm Hf Hh HT.
  assert (P : forall a b x, x = (h b - h a) / T -> ratio_is ll T a b (Fin x)).
  { intros a0 b0 x -> tr. exists a0, b0. unfold log_likelihood_ratio. rewrite (proj2 (Reqb_false T 0) HT).
    unfold raw_ratio. rewrite Hm, Hf. unfold ratio_from_like, wrapped, bind, try. rewrite !Hh. cbn. rewrite Hh. reflexivity. }
  repeat split; apply P; field; auto.
Qed.
(** An infinite log likelihood: the ratio of a state with itself is not a number. *)
Theorem C42_infinite_refuted ll f a T : ll_mode ll = MLike -> ll_func ll = Some f ->
  (forall tr, f a tr = Ret MInf tr) -> T <> 0 -> ratio_is ll T a a NaN.
Proof.
  intros Hm Hf Hh HT tr. exists a, a. unfold log_likelihood_ratio. rewrite (proj2 (Reqb_false T 0) HT).
  unfold raw_ratio. rewrite Hm, Hf. unfold ratio_from_like, wrapped, bind, try. rewrite !Hh. cbn. rewrite Hh. reflexivity.
Qed.
(** ** C42, the order of precedence *)
(** Which of the three inputs is used: the documented order. *)
Definition source (ts : option (list targ)) (fs : option (list farg))
    (ratio : option (state -> state -> M ext)) (func : option (state -> M ext)) : option mode :=
  match ts, fs, ratio, func with
  | Some (_ :: _), Some (_ :: _), _, _ => Some MTargets
  | _, _, Some _, _ => Some MRatio
  | _, _, None, Some _ => Some MLike
  | _, _, None, None => None
  end.
Lemma only_targets_nil l : only_targets l = Some [] -> l = [].
Proof. destruct l as [|[t|] l]; cbn; auto; [|discriminate]. destruct (only_targets l); discriminate. Qed.
Lemma only_fwds_nil l : only_fwds l = Some [] -> l = [].
Proof. destruct l as [|[t|] l]; cbn; auto; [|discriminate]. destruct (only_fwds l); discriminate. Qed.
Lemma dup_name_false l : dup_name l = false -> NoDup l.
Proof.
  induction l as [|x l IH]; cbn; intros H; [constructor|]. apply orb_false_iff in H as [H1 H2]. constructor; auto.
  intros Hin. assert (E : existsb (String.eqb x) l = true) by (apply existsb_exists; exists x; split; [auto|apply String.eqb_refl]).
  rewrite E in H1. discriminate.
Qed.
Theorem C42_precedence ts fs ratio func ll : loglike_init ts fs ratio func = Ok ll ->
  Some (ll_mode ll) = source ts fs ratio func /\ ll_ratio ll = ratio /\ ll_func ll = func /\
  (ll_mode ll = MTargets -> length (ll_fwds ll) = length (ll_targets ll)) /\ NoDup (map t_name (ll_targets ll)).
Proof.
  unfold loglike_init, extend_targets. cbn [ll_targets ll_fwds ll_ratio ll_func ll_mode ll_hier set_lists app].
  set (nt := match ts with None => Some [] | Some l => only_targets l end).
  destruct nt as [nt'|] eqn:Ent; [|discriminate].
  set (nf := match fs with None => Some [] | Some l => only_fwds l end).
  destruct nf as [nf'|] eqn:Enf; [|discriminate].
  cbn [set_lists ll_targets ll_fwds app ll_ratio ll_func ll_mode ll_hier set_hier].
  destruct (dup_name (map t_name nt')) eqn:Ed; [discriminate|].
  assert (Hnd : NoDup (map t_name nt')) by now apply dup_name_false.
  cbn [set_lists set_hier ll_targets ll_fwds ll_hier].
  destruct nt' as [|t0 nt'].
  - assert (Hs : source ts fs ratio func = match ratio, func with Some _, _ => Some MRatio | None, Some _ => Some MLike | None, None => None end).
    { destruct ts as [l|]; [|reflexivity]. apply only_targets_nil in Ent. now subst l. }
    rewrite Hs. destruct ratio, func; intros [= <-]; cbn; repeat split; auto; discriminate.
  - destruct nf' as [|f0 nf'].
    + assert (Hs : source ts fs ratio func = match ratio, func with Some _, _ => Some MRatio | None, Some _ => Some MLike | None, None => None end).
      { destruct ts as [[|]|]; try reflexivity. destruct fs as [lf|]; [|reflexivity]. apply only_fwds_nil in Enf. now subst lf. }
      rewrite Hs. destruct ratio, func; intros [= <-]; cbn; repeat split; auto; discriminate.
    + assert (Hs : source ts fs ratio func = Some MTargets).
      { destruct ts as [[|]|]; try discriminate Ent. destruct fs as [[|]|]; try discriminate Enf. reflexivity. }
      destruct (Nat.eqb_spec (length (f0 :: nf')) (length (t0 :: nt'))) as [El|]; [|discriminate].
      intros [= <-]. rewrite Hs. cbn [ll_mode ll_ratio ll_func ll_fwds ll_targets]. repeat split; auto.
      intros _. cbn. rewrite map_length. cbn in El. lia.
Qed.
Theorem C42_nothing_given ts fs : source ts fs None None = None ->
  exists e, loglike_init ts fs None None = Raise e.
Proof.
  unfold source, loglike_init, extend_targets. cbn [ll_targets ll_fwds ll_ratio ll_func ll_mode ll_hier set_lists app].
  intros Hs. set (nt := match ts with None => Some [] | Some l => only_targets l end).
  destruct nt as [nt'|] eqn:Ent; [|eauto].
  set (nf := match fs with None => Some [] | Some l => only_fwds l end).
  destruct nf as [nf'|] eqn:Enf; [|eauto].
  cbn [set_lists ll_targets ll_fwds app ll_ratio ll_func ll_mode ll_hier set_hier].
  destruct (dup_name (map t_name nt')) eqn:Ed; [eauto|].
  cbn [set_lists set_hier ll_targets ll_fwds ll_hier].
  destruct nt' as [|t0 nt']; [eauto|]. destruct nf' as [|f0 nf']; [eauto|].
  destruct ts as [[|]|]; try discriminate Ent. destruct fs as [[|]|]; try discriminate Enf. discriminate Hs.
Qed.

(** * Cases *)
Local Open Scope string_scope.
Local Open Scope R_scope.
(** One target with known precision 4, one with unknown, uncorrelated noise; the prediction of
    both depends on the state. *)
Definition cs_known : target := mkTarget "k" [1; 2] (Some (CScalar 4)) false 0 1 (1/10) 0 0 (1/10).
Definition cs_noisy : target := mkTarget "u" [3; 1] None false 1 4 (1/10) 0 0 (1/10).
Definition cs_pred (s : state) : option (list R) :=
  match st_get "u" s with Some (ENoise d) => Some [dn_std d; 1] | _ => None end.
Definition cs_fwd : fwd := mkFwd (fun s => match cs_pred s with Some d => ret d | None => err EUser end) false.
Definition cs_ll : loglike := mkLL [cs_known; cs_noisy] [cs_fwd; cs_fwd] None None MTargets [cs_noisy].
Definition cs_state (x : R) : state := mkState [("u", ENoise (mkNoise x None))] [] 1 [] [].
Definition cs_g (t : target) : state -> option (list R) := cs_pred.
Lemma cs_forward : forward_is cs_ll cs_g.
Proof.
  split.
  - intros t f H s tr. assert (f = cs_fwd) as -> by (cbn in H; destruct H as [H|[H|[]]]; congruence).
    unfold cs_g, call_fwd, cs_fwd. cbn [f_tuple f_fun]. destruct (cs_pred s); [reflexivity|]. eexists. reflexivity.
  - intros t s s' (H & _). unfold cs_g, cs_pred, st_get. now rewrite H.
Qed.
Lemma cs_names : NoDup (map t_name (ll_targets cs_ll)).
Proof. cbn. repeat constructor; cbn; intuition discriminate. Qed.
Lemma cs_fresh x : up_to_date cs_ll cs_g (cs_state x).
Proof. intros t c _ H. discriminate. Qed.
Lemma cs_scores x : 0 < x -> scores cs_g (combine (ll_targets cs_ll) (ll_fwds cs_ll)) (cs_state x) 0 0 =
  Ok (4 * ((x - 1) ^ 2 + 1) + (x - 3) ^ 2 / x ^ 2, 4 * ln x).
Proof.
  intros Hx. cbn [combine ll_targets ll_fwds cs_ll scores]. change (cs_g cs_known (cs_state x)) with (Some [x; 1]).
  change (cs_g cs_noisy (cs_state x)) with (Some [x; 1]). cbn iota.
  assert (E1 : target_misfit cs_known (cs_state x) [x; 1] = Ok (4 * ((x - 1) ^ 2 + 1), 0)).
  { unfold target_misfit. cbn [vop length Nat.eqb t_dobs cs_known combine map rbind inv_cov_times t_cov fst snd dot is_hier].
    f_equal. f_equal. cbn [rsum fold_right]. ring. }
  assert (E2 : target_misfit cs_noisy (cs_state x) [x; 1] = Ok ((x - 3) ^ 2 / x ^ 2, 4 * ln x)).
  { unfold target_misfit, log_det_cov, inv_cov_times. change (noise_of cs_noisy (cs_state x)) with (Ok (mkNoise x None)).
    cbn [vop length Nat.eqb t_dobs cs_noisy combine map rbind t_cov fst snd is_hier dn_corr dn_std].
    rewrite (proj2 (Reqb_false x 0)) by lra. cbn [rbind dot length Nat.eqb combine map fst snd].
    unfold py_log. rewrite !(fun x y => proj2 (Rltb_true x y)) by lra. cbn [rbind]. f_equal. f_equal.
    - cbn [rsum fold_right]. field. lra.
    - replace (1 - 0 ^ 2) with 1 by ring. rewrite ln_1. cbn [INR]. ring. }
  rewrite E1. cbn [rbind fst snd]. rewrite E2. cbn [rbind fst snd]. f_equal. f_equal; ring.
Qed.
Lemma cs_ratio x y T : 0 < x -> 0 < y -> T <> 0 -> ratio_is cs_ll T (cs_state x) (cs_state y)
  (Fin ((4 * ln x - 4 * ln y + (4 * ((x - 1) ^ 2 + 1) + (x - 3) ^ 2 / x ^ 2) - (4 * ((y - 1) ^ 2 + 1) + (y - 3) ^ 2 / y ^ 2)) / 2 / T)).
Proof.
  intros Hx Hy HT. apply (ratio_back cs_ll cs_g eq_refl eq_refl cs_names cs_forward); auto using cs_fresh, cs_scores.
Qed.
Example C42_case : ratio_is cs_ll 1 (cs_state 1) (cs_state 3) (Fin (- (6 + 2 * ln 3))) /\
  ratio_is cs_ll 2 (cs_state 3) (cs_state 1) (Fin ((6 + 2 * ln 3) / 2)).
Proof.
  split.
  - pose proof (cs_ratio 1 3 1 ltac:(lra) ltac:(lra) ltac:(lra)) as H. rewrite ln_1 in H.
    replace (- (6 + 2 * ln 3)) with ((4 * 0 - 4 * ln 3 + (4 * ((1 - 1) ^ 2 + 1) + (1 - 3) ^ 2 / 1 ^ 2) - (4 * ((3 - 1) ^ 2 + 1) + (3 - 3) ^ 2 / 3 ^ 2)) / 2 / 1) by field.
    exact H.
  - pose proof (cs_ratio 3 1 2 ltac:(lra) ltac:(lra) ltac:(lra)) as H. rewrite ln_1 in H.
    replace ((6 + 2 * ln 3) / 2) with ((4 * ln 3 - 4 * 0 + (4 * ((3 - 1) ^ 2 + 1) + (3 - 3) ^ 2 / 3 ^ 2) - (4 * ((1 - 1) ^ 2 + 1) + (1 - 3) ^ 2 / 1 ^ 2)) / 2 / 2) by field.
    exact H.
Qed.
(** The hypotheses of C40 for these targets: the covariance of the first is a quarter of
    the identity. *)
Definition cs_K (t : target) (i j : nat) : R := if (i =? j)%nat then / 4 else 0.
Example C40_case : (forall t, In t (ll_targets cs_ll) -> known_ok cs_K t /\ (1 <= length (t_dobs t))%nat) /\
  (forall t s d, predicted t s d -> cs_pred s = Some d -> length d = 2%nat) /\
  ratio_is cs_ll 1 (cs_state 1) (cs_state 3) (Fin (- (6 + 2 * ln 3))).
Proof.
  split; [|split; [|apply C42_case]].
  - intros t [<-|[<-|[]]]; split; cbn; auto. exists (fun i j => if (i =? j)%nat then 4 else 0). split; [auto|].
    intros i k Hi Hk. unfold cs_K. destruct i as [|[|i]]; [| |lia]; destruct k as [|[|k]]; try lia; cbn; split; field.
  - intros t s d _. unfold cs_pred. destruct (st_get "u" s) as [[p|d']|]; try discriminate. intros [= <-]. reflexivity.
Qed.
(** Correlated noise, three data: the determinant is 2^6 (3/4)^2. *)
Example C41_determinant_case :
  log_det_cov (mkTarget "u" [3; 1; 2] None true 1 4 (1/10) 0 (1/2) (1/10))
    (mkState [("u", ENoise (mkNoise 2 (Some (1/2))))] [] 1 [] []) = Ok (ln 36) /\
  det 3 (ar1_cov 2 (1/2)) = 36.
Proof.
  split.
  - unfold log_det_cov. cbn -[INR pow ln]. unfold py_log. rewrite !(fun x y => proj2 (Rltb_true x y)) by lra. cbn [rbind]. f_equal.
    replace 36 with (2 ^ 6 * (3 / 4) ^ 2) by field. rewrite ln_mult by lra. rewrite !ln_pow by lra.
    replace (1 - (1 / 2) ^ 2) with (3 / 4) by field. cbn [INR length]. ring.
  - rewrite det_ar1. cbn [Nat.mul Nat.add]. field.
Qed.
(** A user's function. *)
Example C42_like_case : ratio_is (mkLL [] [] None (Some (fun s => ret (Fin (st_temp s)))) MLike []) 2
  (mkState [] [] 1 [] []) (mkState [] [] 5 [] []) (Fin ((5 - 1) / 2)).
Proof.
  exact (proj1 (C42_log_like (mkLL [] [] None (Some (fun s => ret (Fin (st_temp s)))) MLike []) _ st_temp
    (mkState [] [] 1 [] []) (mkState [] [] 5 [] []) (mkState [] [] 1 [] []) 2 eq_refl eq_refl (fun _ _ => eq_refl) ltac:(lra))).
Qed.
Example C42_precedence_case : source (Some [ATarget cs_known]) (Some [AFwd cs_fwd]) (Some (fun _ _ => ret (Fin 0))) None = Some MTargets /\
  source (Some [ATarget cs_known]) None (Some (fun _ _ => ret (Fin 0))) (Some (fun _ => ret (Fin 0))) = Some MRatio.
Proof. split; reflexivity. Qed.
