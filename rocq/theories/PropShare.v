(** C97: shares of the results of an inversion (the bars of a histogram, the masses of credible intervals) are consistent
    estimates of posterior probabilities. *)
From Coquelicot Require Import Coquelicot.
From Coq Require Import FunctionalExtensionality.
From Verif Require Import Base ModelPrior ModelState ModelSpace ModelPerturb ModelChain ModelSampler ModelLikelihood ModelInversion SpecWalk SpecInvariance SpecMany SpecEstimate SpecAnneal SpecPool SpecConsistent SpecUtils1D SpecLikelihood.
From Verif Require Import ProofBox ProofInvariance ProofMany ProofRanges ProofShare PropMany PropManyLike PropEstimate PropAnneal PropWhole PropPool PropConsistent PropSpread.
Local Open Scope string_scope.
Local Open Scope list_scope.
Local Open Scope R_scope.

(** The share of the entries that pass the test. *)
Definition share {X} (A : X -> bool) (l : list X) : R := INR (length (filter A l)) / INR (length l).
(** [p] is the posterior probability of the set [A]: continuous functions below and above its indicator have posterior
    means arbitrarily close to [p]. *)
Definition posterior_mass (rs : list (R * R)) (L : list R -> R) (Z : R) (A : list R -> bool) (p : R) : Prop :=
  forall e, 0 < e -> exists lo hi B v w, cont_ranges rs lo /\ cont_ranges rs hi /\
    (forall xs, in_ranges rs xs -> Rabs (lo xs) <= B /\ Rabs (hi xs) <= B) /\
    (forall xs, lo xs <= (if A xs then 1 else 0) <= hi xs) /\
    ranges_integral rs (fun xs => exp (L xs) * lo xs) v /\ ranges_integral rs (fun xs => exp (L xs) * hi xs) w /\
    (p - e) * Z <= v /\ w <= (p + e) * Z.

Lemma share_average {X} (A : X -> bool) l : share A l = average (map (fun x => if A x then 1 else 0) l).
Proof.
  unfold share, average. rewrite map_length. f_equal. induction l as [|x l IH]; [reflexivity|]. cbn [filter map]. change (rsum (?a :: ?r)) with (a + rsum r). rewrite <- IH.
  destruct (A x); [cbn [length]; rewrite S_INR; ring|ring].
Qed.
Lemma average_le {X} (f g : X -> R) l : (forall x, f x <= g x) -> average (map f l) <= average (map g l).
Proof.
  intros H. unfold average. rewrite !map_length. destruct l as [|x l]; [cbn; lra|].
  unfold Rdiv. apply Rmult_le_compat_r; [apply Rlt_le, Rinv_0_lt_compat, lt_0_INR; cbn; lia|].
  induction (x :: l) as [|y m IH]; [cbn; lra|]. cbn [map]. change (rsum (?a :: ?r)) with (a + rsum r). specialize (H y). lra.
Qed.

Theorem C97_consistent ns L F phi :
  ranged ns -> normal_cdf F -> (forall z, derivable_pt_lim F z (phi z)) -> cont_ranges (ranges ns) L ->
  exists Z, 0 < Z /\ ranges_integral (ranges ns) (fun xs => exp (L xs)) Z /\
    forall A p, posterior_mass (ranges ns) L Z A p ->
    forall eps delta, 0 < eps -> 0 < delta -> exists N, forall sc n starts, starts <> [] -> Forall (in_ranges (ranges ns)) starts ->
    (0 < sc_every sc)%nat -> (N <= (n - sc_burnin sc) / sc_every sc)%nat ->
    likely (one_mean phi ns) (one_draw ns) n (length starts) (fun dss => Rabs (share A (pooled (vanilla_samples ns L sc) starts dss) - p) < eps) (1 - delta) /\
    forall T0, likely (one_mean phi ns) (one_draw ns) n (length starts) (fun dss => Rabs (share A (pooled (annealing_samples ns L T0 sc) starts dss) - p) < eps) (1 - delta).
Proof.
  intros Hr HF Hphi HL. destruct (C95_consistent ns L F phi Hr HF Hphi HL) as (Z & HZ & HI & H).
  exists Z. split; [exact HZ|]. split; [exact HI|]. intros A p Hp eps delta He Hd.
  destruct (Hp (eps / 2) ltac:(lra)) as (lo & hi & B & v & w & Hlo & Hhi & HB & HA & Hv & Hw & Bv & Bw).
  destruct (H lo B Hlo (fun xs Hx => proj1 (HB xs Hx))) as (v' & Hv' & Hm). destruct (H hi B Hhi (fun xs Hx => proj2 (HB xs Hx))) as (w' & Hw' & Hm').
  pose proof (C93_integral_unique _ (ranged_ordered ns Hr) _ _ _ Hv' Hv) as Ev. pose proof (C93_integral_unique _ (ranged_ordered ns Hr) _ _ _ Hw' Hw) as Ew. subst v' w'.
  destruct (Hm (eps / 2) (delta / 2) ltac:(lra) ltac:(lra)) as (N1 & HN1). destruct (Hm' (eps / 2) (delta / 2) ltac:(lra) ltac:(lra)) as (N2 & HN2).
  assert (Iv : p - eps / 2 <= v / Z) by (apply (Rmult_le_reg_r Z); [exact HZ|]; unfold Rdiv at 2; rewrite Rmult_assoc, Rinv_l by lra; lra).
  assert (Iw : w / Z <= p + eps / 2) by (apply (Rmult_le_reg_r Z); [exact HZ|]; unfold Rdiv at 1; rewrite Rmult_assoc, Rinv_l by lra; lra).
  assert (K : forall l, Rabs (average (map lo l) - v / Z) < eps / 2 /\ Rabs (average (map hi l) - w / Z) < eps / 2 -> Rabs (share A l - p) < eps).
  { intros l [E1 E2]. rewrite share_average. apply Rabs_def2 in E1, E2. pose proof (average_le lo _ l (fun xs => proj1 (HA xs))) as H1.
    pose proof (average_le _ hi l (fun xs => proj2 (HA xs))) as H2. cbn beta in H1, H2. apply Rabs_def1; lra. }
  exists (N1 + N2)%nat. intros sc n starts Hne Hx Hev HN.
  destruct (HN1 sc n starts Hne Hx Hev ltac:(lia)) as [A1 A2]. destruct (HN2 sc n starts Hne Hx Hev ltac:(lia)) as [B1 B2].
  replace (1 - delta) with (1 - (delta / 2 + delta / 2)) by lra. split.
  - eapply likely_weaken; [|exact (likely_and F phi ns n _ _ _ _ _ HF Hphi A1 B1)]. intros dss _ E. now apply K.
  - intros T0. eapply likely_weaken; [|exact (likely_and F phi ns n _ _ _ _ _ HF Hphi (A2 T0) (B2 T0))]. intros dss _ E. now apply K.
Qed.

(** * Whole inversions *)
(** After the run on the draws, get_results returns for the number [a] a list of values with the property [Q]. *)
Definition returned elements hash_of ns ll save (run : list (chain state ovalue) -> M (list (chain state ovalue) * option exn)) sts (a : number) (Q : list R -> Prop) (dss : list (list (list R * R))) : Prop :=
  forall tss tr, map (map snd) tss = dss -> Forall (Forall (tape_ok ns)) tss ->
  exists cs cs' r ys, inversion_chains [many_space ns] ll save (length sts) (concat (map start_tape sts) ++ run_tape tss ++ tr) = Ret cs (run_tape tss ++ tr) /\
    run cs (run_tape tss ++ tr) = Ret (cs', None) tr /\
    get_results elements hash_of (AList (map (fun c => OChain (c_saved c)) cs')) None true = Ok (RConcat r) /\
    dget ("m." ++ nm_name a)%string r = Some (map (fun y => OArr (Arr [y])) ys) /\ Q ys.
Lemma whole_returned elements hash_of ns ll save run n N samples sts i a (Q : list R -> Prop) c phi :
  whole ns ll save run n N samples -> (0 < N)%nat -> sts <> [] -> Forall (start_ok ns) sts -> nth_error ns i = Some a -> contains "dpred" (nm_name a) = false ->
  likely (one_mean phi ns) (one_draw ns) n (length sts) (fun dss => Q (map (fun ys => nth i ys 0) (pooled samples (map (start_at ns) sts) dss))) c ->
  likely (one_mean phi ns) (one_draw ns) n (length sts) (returned elements hash_of ns ll save run sts a Q) c.
Proof.
  intros Hw HN Hne Hs Hi Hp. apply likely_weaken. intros dss [Hl Hd] HA tss tr <- Ht. rewrite map_length in Hl.
  assert (Hf : Forall (fun ts => length ts = n /\ Forall (tape_ok ns) ts) tss).
  { clear - Hd Ht. induction Ht as [|ts tss H1 H2 IH]; [constructor|]. cbn [map] in Hd.
    pose proof (Forall_inv Hd) as [Hn _]. pose proof (Forall_inv_tail Hd) as Hd'. constructor; [|now apply IH].
    split; [now rewrite map_length in Hn|exact H1]. }
  destruct (C94_results elements hash_of ns ll save run n N samples Hw HN sts tss tr Hne Hs Hl Hf) as (cs & cs' & r & Hc & Hrun & Hg & Hr).
  exists cs, cs', r, (map (fun ys => nth i ys 0) (pooled samples (map (start_at ns) sts) (map (map snd) tss))).
  split; [exact Hc|]. split; [exact Hrun|]. split; [exact Hg|]. split; [|exact HA]. rewrite map_map. exact (Hr i a Hi Hp).
Qed.
Lemma share_map {X Y} (f : X -> Y) (A : Y -> bool) l : share A (map f l) = share (fun x => A (f x)) l.
Proof. unfold share. rewrite map_length. do 2 f_equal. induction l as [|x l IH]; [reflexivity|]. cbn [map filter]. destruct (A (f x)); cbn [length]; now rewrite IH. Qed.
(** The share of the values of a number that pass a test (lie in an interval, for instance). *)
Theorem C97_inversion elements hash_of ns ts fs K P G ll save F phi i a :
  named ns -> ns <> [] -> ranged ns -> normal_cdf F -> (forall z, derivable_pt_lim F z (phi z)) ->
  gaussian_data ns ts fs K P G -> (forall t i, In t ts -> cont_ranges (ranges ns) (fun xs => nth i (G t xs) 0)) ->
  loglike_init (Some (map ATarget ts)) (Some (map AFwd fs)) None None = Ok ll ->
  nth_error ns i = Some a -> contains "dpred" (nm_name a) = false ->
  let L := data_logpdf K P G ts in
  let E := inversion_env [many_space ns] ll save in
  exists Z, 0 < Z /\ ranges_integral (ranges ns) (fun xs => exp (L xs)) Z /\
    forall (A : R -> bool) p, posterior_mass (ranges ns) L Z (fun xs => A (nth i xs 0)) p ->
    forall eps delta, 0 < eps -> 0 < delta -> exists N, forall jobs n sc sts, sc_verbose sc = false -> (0 < sc_every sc)%nat ->
    (N <= (n - sc_burnin sc) / sc_every sc)%nat -> sts <> [] -> Forall (start_ok ns) sts ->
    likely (one_mean phi ns) (one_draw ns) n (length sts)
      (returned elements hash_of ns ll save (inversion_run (vanilla [] [] [] []) (vanilla_run E (vanilla [] [] [] []) (Some jobs) n sc) (1 <? jobs)%Z) sts a
        (fun ys => Rabs (share A ys - p) < eps)) (1 - delta) /\
    forall T0 rate, 0 < T0 -> likely (one_mean phi ns) (one_draw ns) n (length sts)
      (returned elements hash_of ns ll save (inversion_run (simulated_annealing E T0 (sc_burnin sc) rate [] [] [] []) (sa_run E T0 [] [] [] [] (Some jobs) n sc) (1 <? jobs)%Z) sts a
        (fun ys => Rabs (share A ys - p) < eps)) (1 - delta).
Proof.
  intros Hn Hne Hr HF Hphi Hgd HG Hll Hi Hp L E. pose proof (C88_continuous ns K P G ts Hr HG) as HL. fold L in HL.
  destruct (C93_data ns ts fs K P G ll save F phi Hn Hne Hr HF Hphi Hgd HG Hll) as (_ & _ & _ & _ & _ & Hv & Ha & _). fold L E in Hv, Ha.
  destruct (C97_consistent ns L F phi Hr HF Hphi HL) as (Z & HZ & HI & H).
  exists Z. split; [exact HZ|]. split; [exact HI|]. intros A p Hm eps delta He Hd. destruct (H _ p Hm eps delta He Hd) as (N & HN).
  exists (S N). intros jobs n sc sts Hq Hev HNn Hs0 Hs.
  assert (Hx : Forall (in_ranges (ranges ns)) (map (start_at ns) sts)) by (apply Forall_map; eapply Forall_impl; [|exact Hs]; intros st Hst; now apply start_inside).
  assert (Hx0 : map (start_at ns) sts <> []) by (destruct sts; [congruence|discriminate]).
  destruct (HN sc n (map (start_at ns) sts) Hx0 Hx Hev ltac:(lia)) as [H1 H2]. rewrite map_length in H1, H2. split.
  - eapply whole_returned; [exact (Hv jobs n sc Hq Hev)|lia|exact Hs0|exact Hs|exact Hi|exact Hp|].
    eapply likely_weaken; [|exact H1]. intros dss _ HA. cbn beta in HA |- *. now rewrite share_map.
  - intros T0 rate HT. eapply whole_returned; [exact (Ha T0 rate jobs n sc HT Hq Hev)|lia|exact Hs0|exact Hs|exact Hi|exact Hp|].
    eapply likely_weaken; [|exact (H2 T0)]. intros dss _ HA. cbn beta in HA |- *. now rewrite share_map.
Qed.

(** * The sets have a posterior probability *)
Definition below (c : R) (x : R) : bool := if Rle_dec x c then true else false.
Lemma ramp_cont rs i c e : 0 < e -> cont_ranges rs (fun xs => ramp c e (nth i xs 0)).
Proof.
  intros He eps Hp. exists (eps * e). split; [now apply Rmult_lt_0_compat|]. intros xs ys Hx Hy Hn. eapply Rle_lt_trans; [now apply ramp_near|].
  apply (Rmult_lt_reg_r e); [exact He|]. unfold Rdiv. rewrite Rmult_assoc, Rinv_l, Rmult_1_r by lra. apply near_nth; [exact Hn|now apply Rmult_lt_0_compat].
Qed.
(** For every number and every [c] there is the posterior probability that the number is at most [c]. *)
Theorem C97_below ns L Z i c : ranged ns -> cont_ranges (ranges ns) L -> ranges_integral (ranges ns) (fun xs => exp (L xs)) Z -> 0 < Z -> (i < length ns)%nat ->
  exists p, 0 <= p <= 1 /\ posterior_mass (ranges ns) L Z (fun xs => below c (nth i xs 0)) p.
Proof.
  intros Hr HL HZi HZ Hi. pose proof (ranged_proper ns Hr) as Hp. pose proof (ranged_sds ns Hr) as Hs. pose proof (sds_len ns) as Hl. pose proof (ranged_ordered ns Hr) as Ho.
  set (I := fun g => level (ranges ns) 1 L g).
  assert (HI : forall g, cont_ranges (ranges ns) g -> ranges_integral (ranges ns) (fun xs => exp (L xs) * g xs) (I g)).
  { intros g Hg. pose proof (level_is (ranges ns) Hp (map nm_sd ns) Hl Hs 1 L HL g Hg) as H.
    replace (fun xs => exp (L xs) * g xs) with (fun xs => exp (L xs / 1) * g xs) by (extensionality xs; do 2 f_equal; field). exact H. }
  set (lo := fun e xs => ramp (c - e) e (nth i xs 0)). set (hi := fun e xs => ramp c e (nth i xs 0)).
  assert (Clo : forall e, 0 < e -> cont_ranges (ranges ns) (lo e)) by (intros; now apply ramp_cont).
  assert (Chi : forall e, 0 < e -> cont_ranges (ranges ns) (hi e)) by (intros; now apply ramp_cont).
  assert (Blo : forall e xs, 0 < e -> lo e xs <= (if below c (nth i xs 0) then 1 else 0)).
  { intros e xs He. unfold lo, below. destruct (Rle_dec _ _) as [H|H]; [apply ramp_range|]. right. apply ramp_zero; lra. }
  assert (Bhi : forall e xs, 0 < e -> (if below c (nth i xs 0) then 1 else 0) <= hi e xs).
  { intros e xs He. unfold hi, below. destruct (Rle_dec _ _) as [H|H]; [right; symmetry; now apply ramp_one|apply ramp_range]. }
  assert (Cross : forall e e', 0 < e -> 0 < e' -> I (lo e) <= I (hi e')).
  { intros e e' He He'. eapply integral_le; [exact Ho| |now apply HI, Clo|now apply HI, Chi]. intros xs _. cbn beta. apply Rmult_le_compat_l; [apply Rlt_le, exp_pos|].
    eapply Rle_trans; [now apply Blo|now apply Bhi]. }
  assert (Upper : forall e, 0 < e -> I (lo e) <= Z).
  { intros e He. eapply integral_le; [exact Ho| |now apply HI, Clo|exact HZi]. intros xs _. cbn beta. pose proof (exp_pos (L xs)). pose proof (ramp_range (c - e) e (nth i xs 0)). unfold lo. nra. }
  assert (Lower : forall e, 0 < e -> 0 <= I (lo e)).
  { intros e He. pose proof (integral_minus _ _ _ _ _ HZi HZi) as H0. rewrite Rminus_diag_eq in H0 by reflexivity. eapply integral_le; [exact Ho| |exact H0|now apply HI, Clo].
    intros xs _. cbn beta. pose proof (exp_pos (L xs)). pose proof (ramp_range (c - e) e (nth i xs 0)). unfold lo. nra. }
  destruct (cont_bounded (ranges ns) L Hp HL) as (B & HB & HLB). set (M := exp B * room (ranges ns)).
  assert (HM : 0 < M) by (unfold M; pose proof (room_pos _ Ho); pose proof (exp_pos B); nra).
  assert (Gap : forall e, 0 < e -> I (hi e) - I (lo e) <= 2 * e * M).
  { intros e He. unfold M. pose proof (integral_minus _ _ _ _ _ (HI _ (Chi e He)) (HI _ (Clo e He))) as H.
    refine (integral_strip _ Ho i _ _ (exp B) c e _ (Rlt_le _ _ (exp_pos B)) He _ _ H); [now rewrite ranges_len| |].
    - intros xs Hx. cbn beta. pose proof (exp_pos (L xs)). pose proof (ramp_range (c - e) e (nth i xs 0)). pose proof (ramp_range c e (nth i xs 0)). unfold lo, hi.
      assert (exp (L xs) <= exp B); [|nra]. specialize (HLB xs Hx). pose proof (Rle_abs (L xs)). destruct (Rle_lt_or_eq_dec (L xs) B) as [Hlt|Heq]; [lra|apply Rlt_le; now apply exp_increasing|rewrite Heq; lra].
    - intros xs Hx Hout. cbn beta. unfold lo, hi. right. destruct Hout as [H1|H1].
      + rewrite !ramp_one by lra. ring.
      + rewrite !ramp_zero by lra. ring. }
  destruct (completeness (fun q => exists e, 0 < e /\ q = I (lo e) / Z)) as (p & Hub & Hlub).
  { exists 1. intros q (e & He & ->). apply (Rmult_le_reg_r Z); [exact HZ|]. unfold Rdiv. rewrite Rmult_assoc, Rinv_l by lra. specialize (Upper e He). lra. }
  { exists (I (lo 1) / Z), 1. split; [lra|reflexivity]. }
  assert (P1 : forall e, 0 < e -> I (lo e) <= p * Z).
  { intros e He. assert (H : I (lo e) / Z <= p) by (apply Hub; now exists e). apply (Rmult_le_compat_r Z) in H; [|lra]. unfold Rdiv in H. rewrite Rmult_assoc, Rinv_l in H by lra. lra. }
  assert (P2 : forall y, (forall e, 0 < e -> I (lo e) <= y * Z) -> p <= y).
  { intros y Hy. apply Hlub. intros q (e & He & ->). apply (Rmult_le_reg_r Z); [exact HZ|]. unfold Rdiv. rewrite Rmult_assoc, Rinv_l by lra. specialize (Hy e He). lra. }
  exists p. split; [split|].
  - apply (Rmult_le_reg_r Z); [exact HZ|]. pose proof (P1 1 Rlt_0_1). pose proof (Lower 1 Rlt_0_1). lra.
  - apply P2. intros e He. specialize (Upper e He). lra.
  - intros e He. set (d := e * Z / (2 * M)). assert (Hd : 0 < d) by (apply Rdiv_lt_0_compat; [now apply Rmult_lt_0_compat|lra]).
    assert (HG : I (hi d) - I (lo d) <= e * Z) by (eapply Rle_trans; [now apply Gap|]; right; unfold d; field; lra).
    assert (HP : p * Z <= I (hi d)).
    { assert (H : p <= I (hi d) / Z) by (apply P2; intros e' He'; unfold Rdiv; rewrite Rmult_assoc, Rinv_l, Rmult_1_r by lra; now apply Cross).
      apply (Rmult_le_compat_r Z) in H; [|lra]. unfold Rdiv in H. rewrite Rmult_assoc, Rinv_l in H by lra. lra. }
    exists (lo d), (hi d), 1, (I (lo d)), (I (hi d)). split; [now apply Clo|]. split; [now apply Chi|]. split; [|split; [|split; [|split; [|split]]]].
    + intros xs _. unfold lo, hi. split; rewrite Rabs_pos_eq; apply ramp_range.
    + intros xs. split; [now apply Blo|now apply Bhi].
    + now apply HI, Clo.
    + now apply HI, Chi.
    + lra.
    + specialize (P1 d Hd). lra.
Qed.

(** There is only one. *)
Theorem C97_mass_unique rs L Z A p q : Forall (fun r => fst r <= snd r) rs -> 0 < Z -> posterior_mass rs L Z A p -> posterior_mass rs L Z A q -> p = q.
Proof.
  intros Ho HZ. assert (K : forall p q, posterior_mass rs L Z A p -> posterior_mass rs L Z A q -> p <= q).
  { clear p q. intros p q Hp Hq. apply Rnot_lt_le. intros Hlt. set (e := (p - q) / 4).
    destruct (Hp e ltac:(unfold e; lra)) as (lo & hi0 & B & v & w0 & _ & _ & _ & HA & Hv & _ & Bv & _).
    destruct (Hq e ltac:(unfold e; lra)) as (lo0 & hi & B' & v0 & w & _ & _ & _ & HA' & _ & Hw & _ & Bw).
    assert (v <= w).
    { eapply integral_le; [exact Ho| |exact Hv|exact Hw]. intros xs _. cbn beta. apply Rmult_le_compat_l; [apply Rlt_le, exp_pos|].
      destruct (HA xs) as [H1 _]. destruct (HA' xs) as [_ H2]. lra. }
    unfold e in *. nra. }
  intros Hp Hq. apply Rle_antisym; now apply K.
Qed.

(** * Cases *)
Example C97_share_case : share (fun x => if Rle_dec x 2 then true else false) [1; 5; 2; 7] = / 2.
Proof. unfold share. cbn [filter length]. repeat (destruct (Rle_dec _ _); [|try lra]; try lra). cbn [length INR]. lra. Qed.
(** Straight-line data (C88), two chains: the share of get_results()["m.m1"] up to 2 is within 1/100 of the posterior
    probability that m1 <= 2, with probability 99/100. *)
Example C97_case elements hash_of : exists ll F phi Z p N, normal_cdf F /\ (forall z, derivable_pt_lim F z (phi z)) /\
  loglike_init (Some (map ATarget [line_target])) (Some (map AFwd [line_fwd])) None None = Ok ll /\
  ranges_integral (ranges line_numbers) (fun xs => exp (data_logpdf line_K line_P line_G [line_target] xs)) Z /\
  posterior_mass (ranges line_numbers) (data_logpdf line_K line_P line_G [line_target]) Z (fun xs => below 2 (nth 1 xs 0)) p /\
  likely (one_mean phi line_numbers) (one_draw line_numbers) (1000 + N * 5) 2
    (returned elements hash_of line_numbers ll true (inversion_run (vanilla [] [] [] []) (vanilla_run (inversion_env [many_space line_numbers] ll true) (vanilla [] [] [] []) (Some 2%Z) (1000 + N * 5) (Build_sched 1000 5 false 1)) true)
      [[(7, / 2); (8, / 5)]; [(7, 3 / 4); (8, 2 / 5)]] (nth 1 line_numbers (mkNumber "" 0 1 1)) (fun ys => Rabs (share (below 2) ys - p) < / 100)) (99 / 100).
Proof.
  destruct C88_posterior_case as (ll & F & phi & Hn & Hr & HF & Hphi & Hgd & HG & Hll).
  assert (Hne : line_numbers <> []) by discriminate.
  destruct (C97_inversion elements hash_of line_numbers _ _ _ _ _ ll true F phi 1 _ Hn Hne Hr HF Hphi Hgd HG Hll eq_refl eq_refl) as (Z & HZ & HI & H).
  pose proof (C88_continuous line_numbers line_K line_P line_G [line_target] Hr HG) as HL.
  destruct (C97_below line_numbers _ Z 1 2 Hr HL HI HZ) as (p & _ & Hm); [cbn; lia|].
  destruct (H (below 2) p Hm (/ 100) (/ 100)) as (N & HN); [lra|lra|]. exists ll, F, phi, Z, p, N.
  split; [exact HF|]. split; [exact Hphi|]. split; [exact Hll|]. split; [exact HI|]. split; [exact Hm|].
  replace (99 / 100) with (1 - / 100) by lra.
  refine (proj1 (HN 2%Z (1000 + N * 5)%nat (Build_sched 1000 5 false 1) [[(7, / 2); (8, / 5)]; [(7, 3 / 4); (8, 2 / 5)]] eq_refl _ _ _ _)).
  - cbn; lia.
  - cbn [sc_burnin sc_every]. replace (1000 + N * 5 - 1000)%nat with (N * 5)%nat by lia. rewrite Nat.div_mul by lia. lia.
  - discriminate.
  - repeat constructor; cbn; lra.
Qed.
