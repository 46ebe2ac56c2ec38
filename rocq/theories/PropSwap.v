(** C89: exchanges of temperatures in parallel tempering and the distribution of the chains. *)
From Coq Require Import Permutation.
From Coquelicot Require Import Coquelicot.
From Verif Require Import Base ModelPrior ModelState ModelSpace ModelPerturb ModelChain ModelSampler ModelLikelihood SpecUtils1D SpecLikelihood SpecInvariance SpecSwap.
From Verif Require Import ProofChain ProofBox ProofInvariance ProofMany ProofSamplerB ProofSwap PropInvariance PropInvarianceLike.
From Verif Require PropSampler PropPredictions ProofEnsemble.
Local Open Scope string_scope.
Local Open Scope list_scope.
Local Open Scope R_scope.

(** * The ensemble *)
(** Comparisons of two states, at any temperature, give the difference of [L]; the caches stay as [kept] says. *)
Record compares (n : nat) (lo hi : R) (ll : loglike) (L : list R -> R) (kept : state -> Prop) : Prop := {
  cp_temp : forall s T, kept s -> kept (st_settemp T s);
  cp_ratio : forall s1 s2 xs ys T tr, 0 < T -> holds n s1 xs -> in_box lo hi n xs -> kept s1 ->
    holds n s2 ys -> in_box lo hi n ys -> kept s2 ->
    exists s1' s2', log_likelihood_ratio ll s1 s2 T tr = Ret (s1', s2', inl (Fin ((L ys - L xs) / T))) tr /\
      holds n s1' xs /\ kept s1' /\ holds n s2' ys /\ kept s2'
}.
(** The chains stand at the temperatures and values of [tps]. *)
Definition ensemble (n : nat) (kept : state -> Prop) (cs : list (chain state ovalue)) (tps : list (R * list R)) : Prop :=
  Forall2 (fun c p => stands_at n (fst p) kept c (snd p)) cs tps.
Definition inside (n : nat) (lo hi : R) (p : R * list R) : Prop := 0 < fst p /\ in_box lo hi n (snd p).
(** [after tps i j u]: where the attempt to exchange chains [i] and [j] with the uniform number [u] ends. *)
Definition swaps (E : env state ovalue) (n : nat) (lo hi : R) (kept : state -> Prop)
    (after : list (R * list R) -> nat -> nat -> R -> list (R * list R)) : Prop :=
  forall cs tps i j u tr, ensemble n kept cs tps -> Forall (inside n lo hi) tps ->
    (i < length tps)%nat -> (j < length tps)%nat -> i <> j -> 0 < u < 1 ->
    exists cs', pt_swap_one E cs (DPair i j :: DU u :: tr) = Ret (cs', None) tr /\ ensemble n kept cs' (after tps i j u).
(** Two members of the ensemble, the others unchanged. *)
Definition with_pair (tps : list (R * list R)) (i j : nat) (a b : R * list R) : list (R * list R) := set_nth (set_nth tps i a) j b.

Section Swap.
Context (n : nat) (lo hi : R) (ll : loglike) (L : list R -> R) (kept : state -> Prop) (E : env state ovalue).
Context (Hcp : compares n lo hi ll L kept).
Context (HE : e_like E = log_likelihood_ratio ll) (HK : forall s, s_kind (e_ops E) s = KState) (HS : s_settemp (e_ops E) = st_settemp).

Definition attempted (tps : list (R * list R)) (i j : nat) (u : R) : list (R * list R) :=
  let a := nth i tps (1, []) in let b := nth j tps (1, []) in
  if Rlt_dec (ln u) ((1 / fst a - 1 / fst b) * ((L (snd b) - L (snd a)) / fst a))
  then with_pair tps i j (fst b, snd a) (fst a, snd b) else tps.
Lemma warmed T c xs t : stands_at n t kept c xs -> stands_at n T kept (set_temperature E T c) xs.
Proof.
  intros ((Hh & Hk) & Ht & Hf & Hd). unfold set_temperature. rewrite HK, HS. split; [|repeat (split; auto)].
  split; [exact Hh|]. now apply (cp_temp _ _ _ _ _ _ Hcp).
Qed.
Lemma ensemble_set cs tps i c p : ensemble n kept cs tps -> stands_at n (fst p) kept c (snd p) -> ensemble n kept (set_nth cs i c) (set_nth tps i p).
Proof.
  intros H Hc. unfold set_nth. apply Forall2_app.
  - clear Hc. revert i. induction H; intros [|i]; cbn; constructor; auto; now apply IHForall2.
  - constructor; auto. clear Hc. revert i. induction H; intros [|i]; cbn; auto; now apply IHForall2.
Qed.
Lemma swap_attempted : swaps E n lo hi kept attempted.
Proof.
  intros cs tps i j u tr Hen Hin Hi Hj Hij Hu.
  assert (Hl : length cs = length tps) by (clear -Hen; induction Hen; cbn; auto).
  set (a := nth i tps (1, [])). set (b := nth j tps (1, [])).
  assert (Ha : nth_error tps i = Some a) by now apply nth_error_nth'. assert (Hb : nth_error tps j = Some b) by now apply nth_error_nth'.
  destruct (ProofEnsemble.Forall2_nth_r _ _ _ i a Hen Ha) as (c1 & E1 & S1). destruct (ProofEnsemble.Forall2_nth_r _ _ _ j b Hen Hb) as (c2 & E2 & S2).
  pose proof Hin as Hin'. rewrite List.Forall_forall in Hin'. destruct (Hin' a (nth_error_In _ _ Ha)) as [Ta Ba]. destruct (Hin' b (nth_error_In _ _ Hb)) as [Tb Bb].
  unfold pt_swap_one, bind at 1, try. unfold choose_two. rewrite Hl.
  destruct (Nat.ltb_spec (length tps) 2) as [Z|_]; [lia|]. destruct (Nat.ltb_spec i (length tps)) as [_|Z]; [|lia]. destruct (Nat.ltb_spec j (length tps)) as [_|Z]; [|lia].
  destruct (Nat.eqb_spec i j); [lia|]. cbn [andb negb].
  unfold pt_swap_with. rewrite E1, E2. unfold bind at 1. rewrite HE.
  pose proof S1 as ((H1 & K1) & T1 & F1 & D1). pose proof S2 as ((H2 & K2) & T2 & F2 & D2). rewrite T1, T2.
  destruct (cp_ratio _ _ _ _ _ _ Hcp (c_cur c1) (c_cur c2) (snd a) (snd b) (fst a) (DU u :: tr)) as (s1 & s2 & El & Q1 & Q2 & Q3 & Q4); auto.
  rewrite El, !not_zero by auto. cbn [orb emul]. unfold bind. rewrite drawU_ok by lra.
  assert (Hln : py_log u = Ok (ln u)).
  { destruct (py_log_cases u ltac:(lra)) as [[? _]|[_ Z]]; [lra|exact Z]. }
  rewrite Hln. cbn [egtb].
  assert (B1 : stands_at n (fst a) kept (set_cur s1 c1) (snd a)) by (repeat (split; auto)).
  assert (B2 : stands_at n (fst b) kept (set_cur s2 c2) (snd b)) by (repeat (split; auto)).
  assert (Hen1 : ensemble n kept (set_nth (set_nth cs i (set_cur s1 c1)) j (set_cur s2 c2)) tps).
  { rewrite <- (set_nth_same tps i a Ha). rewrite <- (set_nth_same (set_nth tps i a) j b) by now rewrite (set_nth_same tps i a Ha).
    apply ensemble_set; auto. apply ensemble_set; auto. }
  unfold attempted. cbv zeta. fold a. fold b. unfold Rltb. destruct (Rlt_dec _ _) as [Hlt|Hge].
  - eexists. split; [reflexivity|]. apply ensemble_set; [apply ensemble_set; auto|]; cbn [fst snd]; eapply warmed; eauto.
  - eexists. split; [reflexivity|exact Hen1].
Qed.
(** Any description is [attempted]. *)
Lemma ensemble_inj cs : forall tps tps', ensemble n kept cs tps -> ensemble n kept cs tps' -> tps = tps'.
Proof.
  induction cs as [|c cs IH]; intros tps tps' H H'; inversion H; inversion H'; subst; auto. f_equal; [|now apply IH].
  destruct y as [t x], y0 as [t' x']. destruct H2 as ((A & _) & B & _), H7 as ((A' & _) & B' & _). cbn [fst snd] in *.
  f_equal; [congruence|eapply holds_inj; eauto].
Qed.
Context (Hempty : forall s xs, holds n s xs -> st_cache s = [] -> kept s).
Lemma ensemble_exists tps : Forall (inside n lo hi) tps -> exists cs, ensemble n kept cs tps.
Proof.
  induction 1 as [|[t x] tps [Ht Hx] H (cs & IH)]; [exists []; constructor|].
  set (s := mkState [("m", EPS (PS n [("v", Arr x)] [] []))] [] 1 [] []).
  exists ((mkChain s t [] [] 0 0 [] (SDict []) (Some false) [] : chain state ovalue) :: cs). constructor; auto.
  assert (Hs : holds n s x) by (split; [eexists _, _; reflexivity|reflexivity]).
  split; [split; [exact Hs|eapply Hempty; [exact Hs|reflexivity]]|]. split; [reflexivity|]. split; eexists; reflexivity.
Qed.
Lemma swaps_attempted after : swaps E n lo hi kept after -> forall tps i j u, Forall (inside n lo hi) tps ->
  (i < length tps)%nat -> (j < length tps)%nat -> i <> j -> 0 < u < 1 -> after tps i j u = attempted tps i j u.
Proof.
  intros Ha tps i j u Hin Hi Hj Hij Hu. destruct (ensemble_exists tps Hin) as (cs & Hen).
  destruct (Ha cs tps i j u [] Hen Hin Hi Hj Hij Hu) as (c1 & E1 & H1). destruct (swap_attempted cs tps i j u [] Hen Hin Hi Hj Hij Hu) as (c2 & E2 & H2).
  rewrite E1 in E2. injection E2 as <-. eapply ensemble_inj; eauto.
Qed.
End Swap.

(** * Lists with two members replaced *)
Lemma nth_error_eq {A} (l : list A) : forall l', (forall k, nth_error l k = nth_error l' k) -> l = l'.
Proof.
  induction l as [|a l IH]; intros [|b l'] H; auto; try (now specialize (H O)).
  pose proof (H O) as H0. injection H0 as ->. f_equal. apply IH. intros k. exact (H (S k)).
Qed.
Lemma has_nth {A} (l : list A) i : (i < length l)%nat -> exists a, nth_error l i = Some a.
Proof. intros H. apply nth_error_Some in H. destruct (nth_error l i); [eauto|congruence]. Qed.
Section Pairs.
Context (tps : list (R * list R)) (i j : nat) (Hi : (i < length tps)%nat) (Hj : (j < length tps)%nat) (Hij : i <> j).
Lemma nth_pair a b k : nth_error (with_pair tps i j a b) k = if (k =? j)%nat then Some b else if (k =? i)%nat then Some a else nth_error tps k.
Proof.
  destruct (has_nth tps i Hi) as (ti & Ei). destruct (has_nth tps j Hj) as (tj & Ej). unfold with_pair.
  assert (Ej' : nth_error (set_nth tps i a) j = Some tj).
  { rewrite (ProofSamplerB.set_nth_nth tps i ti a j Ei). destruct (Nat.eqb_spec j i); [lia|auto]. }
  rewrite (ProofSamplerB.set_nth_nth _ j tj b k Ej'). destruct (Nat.eqb_spec k j); auto. apply (ProofSamplerB.set_nth_nth tps i ti a k Ei).
Qed.
Lemma length_pair a b : length (with_pair tps i j a b) = length tps.
Proof.
  destruct (has_nth tps i Hi) as (ti & Ei). destruct (has_nth tps j Hj) as (tj & Ej). unfold with_pair.
  assert (Ej' : nth_error (set_nth tps i a) j = Some tj).
  { rewrite (ProofSamplerB.set_nth_nth tps i ti a j Ei). destruct (Nat.eqb_spec j i); [lia|auto]. }
  rewrite (set_nth_length_eq _ j tj b Ej'). apply (set_nth_length_eq _ i ti a Ei).
Qed.
Lemma nth_pair_first a b d : nth i (with_pair tps i j a b) d = a.
Proof. apply nth_error_nth. rewrite nth_pair. destruct (Nat.eqb_spec i j); [lia|]. now rewrite Nat.eqb_refl. Qed.
Lemma nth_pair_second a b d : nth j (with_pair tps i j a b) d = b.
Proof. apply nth_error_nth. rewrite nth_pair. now rewrite Nat.eqb_refl. Qed.
Lemma pair_order a b c : order_free c -> c (with_pair tps i j a b) = (c (with_pair tps i j b a) : R).
Proof.
  intros Hc. apply Hc.
  destruct (has_nth tps i Hi) as (ti & Ei). destruct (has_nth tps j Hj) as (tj & Ej).
  assert (P : forall a b, Permutation (b :: a :: tps) (ti :: tj :: with_pair tps i j a b)).
  { intros a' b'. assert (Ej' : nth_error (set_nth tps i a') j = Some tj).
    { rewrite (ProofSamplerB.set_nth_nth tps i ti a' j Ei). destruct (Nat.eqb_spec j i); [lia|auto]. }
    etransitivity; [apply perm_skip, (set_nth_perm tps i ti a' Ei)|]. etransitivity; [apply perm_swap|]. apply perm_skip.
    exact (set_nth_perm _ j tj b' Ej'). }
  apply (Permutation_cons_inv (a := tj)), (Permutation_cons_inv (a := ti)).
  etransitivity; [symmetry; exact (P a b)|]. etransitivity; [apply perm_swap|]. exact (P b a).
Qed.
Lemma pair_inside n lo hi a b : Forall (inside n lo hi) tps -> inside n lo hi a -> inside n lo hi b -> Forall (inside n lo hi) (with_pair tps i j a b).
Proof.
  intros H Ha Hb. apply List.Forall_forall. intros p Hp. apply In_nth_error in Hp. destruct Hp as (k & Hk). rewrite nth_pair in Hk.
  destruct (k =? j)%nat; [now injection Hk as <-|]. destruct (k =? i)%nat; [now injection Hk as <-|].
  rewrite List.Forall_forall in H. apply H. eapply nth_error_In; eauto.
Qed.
End Pairs.
Lemma pair_pair tps i j a b c d : (i < length tps)%nat -> (j < length tps)%nat -> i <> j ->
  with_pair (with_pair tps i j a b) i j c d = with_pair tps i j c d.
Proof.
  intros Hi Hj Hij. apply nth_error_eq. intros k. rewrite !nth_pair by (rewrite ?length_pair; auto).
  destruct (k =? j)%nat; auto. destruct (k =? i)%nat; auto.
Qed.
Lemma pair_flip tps i j a b : (i < length tps)%nat -> (j < length tps)%nat -> i <> j -> with_pair tps i j a b = with_pair tps j i b a.
Proof.
  intros Hi Hj Hij. apply nth_error_eq. intros k. rewrite !nth_pair by auto.
  destruct (Nat.eqb_spec k j), (Nat.eqb_spec k i); auto; lia.
Qed.

(** * C89 *)
(** Attempts to exchange two chains are described by a function of the pair and the uniform number.  No values
    change, and the temperatures are those of before in another order. *)
Theorem C89_attempt n lo hi sd ll L kept save : compares n lo hi ll L kept ->
  exists after, swaps (inversion_env [number_space n lo hi sd] ll save) n lo hi kept after /\
    forall tps i j u, (i < length tps)%nat -> (j < length tps)%nat -> i <> j ->
      map snd (after tps i j u) = map snd tps /\ Permutation (map fst (after tps i j u)) (map fst tps).
Proof.
  intros Hcp. exists (attempted L). split; [eapply swap_attempted; eauto; reflexivity|].
  intros tps i j u Hi Hj Hij. unfold attempted. cbv zeta. destruct (Rlt_dec _ _); [|auto].
  set (a := nth i tps (1, [])). set (b := nth j tps (1, [])).
  assert (Ha : nth_error tps i = Some a) by now apply nth_error_nth'. assert (Hb : nth_error tps j = Some b) by now apply nth_error_nth'.
  split.
  - apply nth_error_eq. intros k. rewrite !nth_error_map, nth_pair by auto. destruct (Nat.eqb_spec k j) as [->|]; [now rewrite Hb|].
    destruct (Nat.eqb_spec k i) as [->|]; [now rewrite Ha|reflexivity].
  - unfold with_pair. rewrite !set_nth_map. cbn [fst]. symmetry. apply set_nth_swap_perm; auto; rewrite nth_error_map, ?Ha, ?Hb; reflexivity.
Qed.
(** The mean over the uniform number. *)
Lemma attempt_mean n lo hi sd ll L kept save after G tps i j T1 T2 xs ys :
  lo < hi -> compares n lo hi ll L kept -> (forall s xs, holds n s xs -> st_cache s = [] -> kept s) ->
  swaps (inversion_env [number_space n lo hi sd] ll save) n lo hi kept after ->
  Forall (inside n lo hi) tps -> (i < length tps)%nat -> (j < length tps)%nat -> i <> j ->
  0 < T1 -> 0 < T2 -> order_free G -> in_box lo hi n xs -> in_box lo hi n ys ->
  mean_unit (fun u => G (after (with_pair tps i j (T1, xs) (T2, ys)) i j u))
    (after_mean L T1 T2 (fun xs ys => G (with_pair tps i j (T1, xs) (T2, ys))) xs ys).
Proof.
  intros Hlo Hcp Hem Haf Hin Hi Hj Hij H1 H2 HG Hx Hy.
  set (G2 := fun xs ys => G (with_pair tps i j (T1, xs) (T2, ys))).
  unfold after_mean.
  refine (is_RInt_ext _ _ 0 1 _ _ (mean_unit_swap L T1 T2 xs ys (G2 ys xs) (G2 xs ys))).
  intros u Hu. rewrite Rmin_left, Rmax_right in Hu by lra. cbv beta.
  set (l := with_pair tps i j (T1, xs) (T2, ys)).
  assert (Hlen : length l = length tps) by now apply length_pair.
  assert (Hl : Forall (inside n lo hi) l) by (apply pair_inside; auto; split; auto).
  rewrite (swaps_attempted n lo hi ll L kept (inversion_env [number_space n lo hi sd] ll save) Hcp eq_refl (fun _ => eq_refl) eq_refl Hem after Haf l i j u Hl) by (rewrite ?Hlen; auto).
  unfold attempted, l. cbv zeta. rewrite nth_pair_first, nth_pair_second by auto. cbn [fst snd].
  destruct (Rlt_dec _ _); [|reflexivity]. rewrite pair_pair by auto. unfold G2. now apply pair_order.
Qed.
(** The attempt keeps the joint distribution of the two chains, exp(L/T1) exp(L/T2), if the first of the pair
    has temperature 1 or both have the same: whatever quantity [G] of temperatures and values that does not
    depend on the order of the chains, its mean after the attempt is its mean before.  The other chains may stand
    anywhere. *)
Theorem C89_partial n lo hi sd ll L kept save after G tps i j T1 T2 :
  lo < hi -> compares n lo hi ll L kept -> (forall s xs, holds n s xs -> st_cache s = [] -> kept s) ->
  cont_on lo hi n L -> swaps (inversion_env [number_space n lo hi sd] ll save) n lo hi kept after ->
  Forall (inside n lo hi) tps -> (i < length tps)%nat -> (j < length tps)%nat -> i <> j ->
  0 < T1 -> 0 < T2 -> T1 = 1 \/ T1 = T2 ->
  order_free G -> cont_pair lo hi n (fun xs ys => G (with_pair tps i j (T1, xs) (T2, ys))) ->
  exists m v,
    (forall xs ys, in_box lo hi n xs -> in_box lo hi n ys ->
       mean_unit (fun u => G (after (with_pair tps i j (T1, xs) (T2, ys)) i j u)) (m xs ys)) /\
    pair_integral lo hi n (fun xs ys => exp (L xs / T1) * exp (L ys / T2) * m xs ys) v /\
    pair_integral lo hi n (fun xs ys => exp (L xs / T1) * exp (L ys / T2) * G (with_pair tps i j (T1, xs) (T2, ys))) v.
Proof.
  intros Hlo Hcp Hem HL Haf Hin Hi Hj Hij H1 H2 HT HG HC.
  set (G2 := fun xs ys => G (with_pair tps i j (T1, xs) (T2, ys))). apply pair2 in HC; auto. fold G2 in HC.
  exists (after_mean L T1 T2 G2), (pint lo hi n (fun xs ys => weight L T1 T2 xs ys * G2 xs ys)). split; [|split].
  - intros xs ys Hx Hy. exact (attempt_mean n lo hi sd ll L kept save after G tps i j T1 T2 xs ys Hlo Hcp Hem Haf Hin Hi Hj Hij H1 H2 HG Hx Hy).
  - pose proof (after_flow lo hi Hlo n L HL T1 T2 G2 HC) as Ef. rewrite (balanced_swap lo hi Hlo n L HL T1 T2 G2 H1 H2 HT HC), Rplus_0_r in Ef.
    rewrite <- Ef. apply (pint_is lo hi Hlo n (fun xs ys => weight L T1 T2 xs ys * after_mean L T1 T2 G2 xs ys)).
    apply mult2; auto; [now apply weight2|now apply after2].
  - apply (pint_is lo hi Hlo n (fun xs ys => weight L T1 T2 xs ys * G2 xs ys)). apply mult2; auto. now apply weight2.
Qed.

(** * Likelihoods *)
Theorem C89_function n lo hi f L ll : computes n lo hi f L -> loglike_init None None None (Some f) = Ok ll ->
  compares n lo hi ll L (fun _ => True).
Proof.
  intros Hf H. injection H as <-. constructor; auto.
  intros s1 s2 xs ys T tr HT Ho Hx _ Hn Hy _. exists s1, s2. repeat split; auto; try apply Ho; try apply Hn.
  unfold log_likelihood_ratio. rewrite (not_zero T HT). cbn [raw_ratio ll_mode ll_func].
  unfold bind, ratio_from_like, wrapped, bind, try. rewrite (Hf s1 xs tr Ho Hx). cbn [ret]. rewrite (Hf s2 ys tr Hn Hy). reflexivity.
Qed.
Theorem C89_gaussian_data n lo hi ts fs K P G ll : gaussian_data n lo hi ts fs K P G ->
  loglike_init (Some (map ATarget ts)) (Some (map AFwd fs)) None None = Ok ll ->
  compares n lo hi ll (data_logpdf K P G ts) (own_predictions n lo hi ts G).
Proof.
  intros Hgd H.
  assert (Et : only_targets (map ATarget ts) = Some ts) by (clear; induction ts as [|t l IH]; cbn; auto; now rewrite IH).
  assert (Ef : only_fwds (map AFwd fs) = Some fs) by (clear; induction fs as [|t l IH]; cbn; auto; now rewrite IH).
  unfold loglike_init, extend_targets in H. rewrite Et, Ef in H. cbn [set_lists set_hier ll_targets ll_fwds ll_hier app] in H.
  destruct (dup_name (map t_name ts)); [discriminate|]. cbn [set_lists set_hier ll_targets ll_fwds ll_hier app] in H.
  assert (Hh : filter is_hier ts = []).
  { pose proof (gd_noise _ _ _ _ _ _ _ _ Hgd) as N. clear - N. induction ts as [|t l IH]; auto. cbn.
    destruct (N t (or_introl eq_refl)) as (_ & _ & v & Ev & _). unfold is_hier at 1. rewrite Ev. apply IH. intros. apply N. now right. }
  rewrite Hh in H.
  assert (Hll : ll = mkLL ts (map preprocess_fwd fs) None None MTargets [] /\ length fs = length ts).
  { destruct ts; [discriminate|]. destruct fs; [discriminate|]. destruct (Nat.eqb_spec (length (f :: fs)) (length (t :: ts))); [|discriminate].
    now injection H as <-. }
  destruct Hll as [-> Hl]. clear H. constructor.
  - intros s T Hs xs t c Hh' Hb Ht Hc. apply (Hs xs t c); auto.
  - intros s1 s2 xs ys T tr HT Ho Hx Ko Hn Hy Kn.
    destruct (loop_data n lo hi K P G ts fs Hgd Hl s1 xs 0 0 tr Ho Hx Ko) as (s1' & E1 & V1 & K1 & _).
    destruct (loop_data n lo hi K P G ts fs Hgd Hl s2 ys 0 0 tr Hn Hy Kn) as (s2' & E2 & V2 & K2 & _).
    exists s1', s2'. split; [|split; [eapply holds_same; eauto|split; [auto|split; [eapply holds_same; eauto|auto]]]].
    unfold log_likelihood_ratio. rewrite (not_zero T HT). cbn [raw_ratio ll_mode]. unfold ratio_from_targets. cbn [ll_targets ll_fwds].
    unfold bind. rewrite E1, E2. unfold ret. cbn [ediv]. do 4 f_equal. unfold data_logpdf.
    assert (Hs : forall zs, rsum (map (fun t => normal_logpdf (length (t_dobs t)) (K t) (P t) (fun i => nth i (G t zs) 0 - nth i (t_dobs t) 0)) ts) =
      rsum (map (fun t => - (INR (length (t_dobs t)) / 2) * ln (2 * PI) - / 2 * ln (det (length (t_dobs t)) (K t))) ts) -
      / 2 * rsum (map (fun t => quad (length (t_dobs t)) (P t) (fun i => nth i (G t zs) 0 - nth i (t_dobs t) 0)) ts)).
    { intros zs. clear. induction ts as [|t l IH]; cbn [map]; [cbn; lra|]. change (rsum (?a :: ?l)) with (a + rsum l). rewrite IH.
      unfold normal_logpdf at 1. lra. }
    rewrite !Hs. unfold Rdiv. f_equal. lra.
Qed.

(** * Warm chains drawn first *)
(** The sum of the values of the chains at temperature 1. *)
Definition cold_sum (tps : list (R * list R)) : R := rsum (map (fun p => if Req_EM_T (fst p) 1 then nth 0 (snd p) 0 else 0) tps).
Lemma cold_free : order_free cold_sum.
Proof. intros l l' H. unfold cold_sum. induction H; cbn [map]; auto; try change (rsum (?a :: ?l)) with (a + rsum l) in *; repeat change (rsum (?a :: ?l)) with (a + rsum l); lra. Qed.
Lemma cold_pair tps i j : (i < length tps)%nat -> (j < length tps)%nat -> i <> j ->
  exists s, forall xs ys, cold_sum (with_pair tps i j (1, xs) (2, ys)) = s + nth 0 xs 0.
Proof.
  intros Hi Hj Hij. destruct (has_nth tps i Hi) as (ti & Ei). destruct (has_nth tps j Hj) as (tj & Ej).
  exists (cold_sum tps - cold_sum [ti] - cold_sum [tj]). intros xs ys.
  assert (Ej' : nth_error (set_nth tps i (1, xs)) j = Some tj).
  { rewrite (ProofSamplerB.set_nth_nth tps i ti _ j Ei). destruct (Nat.eqb_spec j i); [lia|auto]. }
  pose proof (cold_free _ _ (set_nth_perm tps i ti (1, xs) Ei)) as P1. pose proof (cold_free _ _ (set_nth_perm _ j tj (2, ys) Ej')) as P2.
  assert (Hc : forall a l, cold_sum (a :: l) = cold_sum [a] + cold_sum l).
  { intros a l. unfold cold_sum. cbn [map]. change (rsum (?a :: ?l)) with (a + rsum l). change (rsum []) with 0. lra. }
  rewrite (Hc (1, xs)), (Hc ti) in P1. rewrite (Hc (2, ys)), (Hc tj) in P2. fold (with_pair tps i j (1, xs) (2, ys)) in P2.
  assert (A : cold_sum [(1, xs)] = nth 0 xs 0). { unfold cold_sum. cbn [map fst snd]. destruct (Req_EM_T 1 1); [|lra]. change (rsum [?a]) with (a + 0). lra. }
  assert (B : cold_sum [(2, ys)] = 0). { unfold cold_sum. cbn [map fst snd]. destruct (Req_EM_T 2 1); [lra|]. change (rsum [?a]) with (a + 0). lra. }
  lra.
Qed.
(** Pairs are drawn in either order with the same probability.  There is a likelihood function such that an
    attempt between any chain at temperature 1 and any chain at temperature 2 increases the mean of the values
    at temperature 1, although the chains had the tempered posterior distributions. *)
Theorem C89_refuted : exists f ll L, loglike_init None None None (Some f) = Ok ll /\ computes 1 0 1 f L /\ cont_on 0 1 1 L /\
  forall sd save after tps i j, swaps (inversion_env [number_space 1 0 1 sd] ll save) 1 0 1 (fun _ => True) after ->
  Forall (inside 1 0 1) tps -> (i < length tps)%nat -> (j < length tps)%nat -> i <> j ->
  exists m m' v v',
    (forall xs ys, in_box 0 1 1 xs -> in_box 0 1 1 ys ->
       mean_unit (fun u => cold_sum (after (with_pair tps i j (1, xs) (2, ys)) i j u)) (m xs ys) /\
       mean_unit (fun u => cold_sum (after (with_pair tps i j (1, xs) (2, ys)) j i u)) (m' xs ys)) /\
    pair_integral 0 1 1 (fun xs ys => exp (L xs / 1) * exp (L ys / 2) * ((m xs ys + m' xs ys) / 2)) v /\
    pair_integral 0 1 1 (fun xs ys => exp (L xs / 1) * exp (L ys / 2) * cold_sum (with_pair tps i j (1, xs) (2, ys))) v' /\
    v' < v.
Proof.
  set (f := fun s : state => ret (Fin (- nth 0 (cv_values s) 0)) : M ext).
  assert (Hf : computes 1 0 1 f slope) by (intros s xs tr Hs _; unfold f; now rewrite (cv_values_holds _ _ _ Hs)).
  eexists f, _, slope. split; [reflexivity|]. split; [exact Hf|]. split; [exact slope_cont|].
  intros sd save after tps i j Haf Hin Hi Hj Hij. pose proof (C89_function 1 0 1 f slope _ Hf eq_refl) as Hcp.
  assert (H01 : 0 < 1) by lra. assert (H02 : 0 < 2) by lra. pose proof slope_cont as HL.
  destruct (cold_pair tps i j Hi Hj Hij) as (s & Hs).
  set (G2 := fun xs ys : list R => cold_sum (with_pair tps i j (1, xs) (2, ys))).
  set (W2 := fun ys xs : list R => cold_sum (with_pair tps j i (2, ys) (1, xs))).
  assert (EG : forall xs ys, W2 ys xs = G2 xs ys) by (intros; unfold W2, G2; now rewrite (pair_flip tps j i) by auto).
  assert (CW : ucont2 0 1 1 1 (fun _ ys => s + nth 0 ys 0)).
  { apply (snd2 0 1 1 (fun ys => s + nth 0 ys 0)). apply ucont_plus; [apply ucont_const|apply ucont_nth]. }
  assert (CW2 : ucont2 0 1 1 1 W2) by (eapply ucont_ext; [|exact CW]; intros; cbv beta; rewrite EG; symmetry; apply Hs).
  assert (CG2 : ucont2 0 1 1 1 G2) by (eapply ucont_ext; [|exact (both2 0 1 1 W2 CW2)]; intros; cbv beta; apply EG).
  set (m := after_mean slope 1 2 G2). set (w := after_mean slope 2 1 W2).
  pose proof (weight2 0 1 H01 1 slope HL 1 2) as C12. pose proof (weight2 0 1 H01 1 slope HL 2 1) as C21.
  pose proof (after2 0 1 H01 1 slope HL 1 2 G2 CG2) as Cm. pose proof (after2 0 1 H01 1 slope HL 2 1 W2 CW2) as Cw. fold m in Cm. fold w in Cw.
  exists m, (fun xs ys => w ys xs), (pint 0 1 1 (fun xs ys => weight slope 1 2 xs ys * ((m xs ys + w ys xs) / 2))), (pint 0 1 1 (fun xs ys => weight slope 1 2 xs ys * G2 xs ys)).
  assert (Cmw : ucont2 0 1 1 1 (fun xs ys => (m xs ys + w ys xs) / 2)).
  { apply (ucont_ext 0 1 (1 + 1) (fun l => / 2 * (m (firstn 1 l) (skipn 1 l) + w (skipn 1 l) (firstn 1 l)))).
    - intros l _. unfold Rdiv. apply Rmult_comm.
    - apply (scal2 0 1 H01 1 (/ 2) (fun xs ys => m xs ys + w ys xs)), plus2; [exact Cm|exact (both2 0 1 1 w Cw)]. }
  split; [|split; [|split]].
  - intros xs ys Hx Hy. split.
    + exact (attempt_mean 1 0 1 sd _ slope _ save after cold_sum tps i j 1 2 xs ys H01 Hcp (fun _ _ _ _ => I) Haf Hin Hi Hj Hij H01 H02 cold_free Hx Hy).
    + rewrite (pair_flip tps i j) by auto.
      exact (attempt_mean 1 0 1 sd _ slope _ save after cold_sum tps j i 2 1 ys xs H01 Hcp (fun _ _ _ _ => I) Haf Hin Hj Hi (not_eq_sym Hij) H02 H01 cold_free Hy Hx).
  - apply (pint_is 0 1 H01 1 (fun xs ys => weight slope 1 2 xs ys * ((m xs ys + w ys xs) / 2))). apply mult2; auto.
  - apply (pint_is 0 1 H01 1 (fun xs ys => weight slope 1 2 xs ys * G2 xs ys)). apply mult2; auto.
  - assert (Cmw1 : ucont2 0 1 1 1 (fun xs ys => weight slope 1 2 xs ys * m xs ys)) by (apply mult2; auto).
    assert (Cmw2 : ucont2 0 1 1 1 (fun xs ys => weight slope 2 1 xs ys * w xs ys)) by (apply mult2; auto).
    assert (CWW : ucont2 0 1 1 1 (fun xs ys => weight slope 2 1 xs ys * W2 xs ys)) by (apply mult2; auto).
    assert (EW : forall xs ys, weight slope 1 2 xs ys = weight slope 2 1 ys xs) by (intros; unfold weight; ring).
    rewrite (pint_ext 0 1 H01 1 (fun xs ys => weight slope 1 2 xs ys * ((m xs ys + w ys xs) / 2)) (fun xs ys => / 2 * (weight slope 1 2 xs ys * m xs ys) + / 2 * (weight slope 2 1 ys xs * w ys xs))).
    2:{ intros. rewrite <- EW. unfold Rdiv. ring. }
    rewrite (pint_plus 0 1 H01 1 (fun xs ys => / 2 * (weight slope 1 2 xs ys * m xs ys)) (fun xs ys => / 2 * (weight slope 2 1 ys xs * w ys xs))).
    2:{ apply (scal2 0 1 H01 1 (/ 2) (fun xs ys => weight slope 1 2 xs ys * m xs ys)); auto. }
    2:{ apply (scal2 0 1 H01 1 (/ 2) (fun xs ys => weight slope 2 1 ys xs * w ys xs)). exact (both2 0 1 1 _ Cmw2). }
    rewrite (pint_scal 0 1 H01 1 (/ 2) (fun xs ys => weight slope 1 2 xs ys * m xs ys) Cmw1).
    rewrite (pint_scal 0 1 H01 1 (/ 2) (fun xs ys => weight slope 2 1 ys xs * w ys xs) (both2 0 1 1 _ Cmw2)).
    rewrite <- (pint_swap 0 1 H01 1 (fun xs ys => weight slope 2 1 xs ys * w xs ys) Cmw2).
    pose proof (after_flow 0 1 H01 1 slope HL 1 2 G2 CG2) as F1. rewrite (balanced_swap 0 1 H01 1 slope HL 1 2 G2 H01 H02 (or_introl eq_refl) CG2) in F1. fold m in F1.
    pose proof (after_flow 0 1 H01 1 slope HL 2 1 W2 CW2) as F2. fold w in F2.
    rewrite (pint_swap 0 1 H01 1 (fun xs ys => weight slope 2 1 xs ys * W2 xs ys) CWW) in F2.
    rewrite (pint_ext 0 1 H01 1 (fun xs ys => weight slope 2 1 ys xs * W2 ys xs) (fun xs ys => weight slope 1 2 xs ys * G2 xs ys)) in F2.
    2:{ intros. now rewrite EG, EW. }
    pose proof (warm_first s) as F3.
    rewrite (pint_ext 0 1 H01 1 (flow slope 2 1 (fun _ ys => s + nth 0 ys 0)) (flow slope 2 1 W2)) in F3.
    2:{ intros xs ys _ _. unfold flow. rewrite !EG. unfold G2. now rewrite !Hs. }
    lra.
Qed.

(** * A case *)
(** Three chains of ParallelTempering(temperature_max=2) start at the temperatures 1, 1 and 2: pairs with the
    temperatures of [C89_refuted] are among those drawn. *)
Example C89_ladder : exists ts, ModelSampler.pt_temperatures 3 (2 / 5) 2 = Ok ts /\ SpecSampler.ladder 3 2 2 ts.
Proof. apply (PropSampler.C27_ladder 3 (2 / 5) 2 1); try lra; try lia. unfold SpecSampler.is_floor. cbn. lra. Qed.
Example C89_case : exists ll, compares 2 0 1 ll (data_logpdf cv_K cv_P cv_G [cv_target]) (own_predictions 2 0 1 [cv_target] cv_G) /\
  cont_on 0 1 2 (data_logpdf cv_K cv_P cv_G [cv_target]) /\
  Forall (inside 2 0 1) [(1, [0; 1]); (1, [1; 1]); (2, [/ 2; 0])] /\ order_free cold_sum /\
  cont_pair 0 1 2 (fun xs ys => cold_sum (with_pair [(1, [0; 1]); (1, [1; 1]); (2, [/ 2; 0])] 1 2 (1, xs) (2, ys))).
Proof.
  destruct C73_posterior_case as (ll & F & phi & _ & _ & Hg & Hc & Hl). exists ll. assert (H01 : 0 < 1) by lra.
  split; [eapply C89_gaussian_data; eauto|]. split; [now apply C73_continuous|]. split; [|split; [exact cold_free|]].
  - repeat constructor; cbn; lra.
  - destruct (cold_pair [(1, [0; 1]); (1, [1; 1]); (2, [/ 2; 0])] 1 2 ltac:(cbn; lia) ltac:(cbn; lia) ltac:(lia)) as (s & Hs).
    apply pair2. eapply ucont_ext; [|apply (fst2 0 1 2 (fun xs => s + nth 0 xs 0)), ucont_plus; [apply ucont_const|apply ucont_nth]].
    intros. symmetry. apply Hs.
Qed.
