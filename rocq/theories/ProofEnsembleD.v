(** Proofs about ModelEnsemble.v: densities of ensembles. *)
From Coq Require Import Permutation.
From Verif Require Import Base ModelUtils1D ModelPrior ModelState ModelSpace ModelEnsemble
  SpecUtils1D SpecEnsemble ProofUtils1D ProofUtils1DB ProofState ProofSpaceB ProofEnsemble ProofEnsembleB ProofEnsembleC.
Local Open Scope R_scope.

(** * Sums *)
Lemma sum_nsum f n : sum (fun i => INR (f i)) n = INR (nsum (map f (seq 0 n))).
Proof.
  induction n as [|n IH]; [reflexivity|]. rewrite seq_S, map_app. cbn [sum map Nat.add].
  assert (E : forall l x, nsum (l ++ [x]) = (nsum l + x)%nat) by (unfold nsum; induction l; intros; cbn; [lia|]; rewrite IHl; lia).
  rewrite E, plus_INR, IH. reflexivity.
Qed.
Lemma sum_eq f g n : (forall i, (i < n)%nat -> f i = g i) -> sum f n = sum g n.
Proof. induction n as [|n IH]; cbn; intros H; auto. rewrite IH by (intros; apply H; lia). f_equal. apply H. lia. Qed.
Lemma sum_scale f n c : sum (fun i => f i / c) n = sum f n / c.
Proof. induction n as [|n IH]; cbn; [unfold Rdiv; lra|]. rewrite IH. unfold Rdiv. lra. Qed.
Lemma entry_nth d i j nx ny : length d = nx -> Forall (fun r => length r = ny) d -> (i < nx)%nat -> (j < ny)%nat ->
  exists r, nth_error d i = Some r /\ nth_error r j = Some (SpecUtils1D.entry d i j).
Proof.
  intros L F Hi Hj. destruct (nth_error d i) as [r|] eqn:E; [|apply nth_error_None in E; lia].
  exists r. split; auto. unfold SpecUtils1D.entry. rewrite (nth_error_nth _ _ _ E). apply nth_error_nth'.
  rewrite Forall_forall in F. rewrite (F r (nth_error_In _ _ E)). auto.
Qed.
Lemma cell_filter ex ey i j pts c : strictly_sortedR ex -> strictly_sortedR ey ->
  counts (fun xy => in_bin ex i (fst xy) /\ in_bin ey j (snd xy)) pts c -> c = length (filter (in_cell ex ey i j) pts).
Proof.
  intros Sx Sy H. eapply counts_fun; [exact H|]. apply counts_filter. intros [x y]. unfold in_cell. cbn [fst snd].
  rewrite <- (bin_of_spec ex x i Sx), <- (bin_of_spec ey y j Sy).
  destruct (bin_of ex x) as [a|]; [|split; [discriminate|intros [Q _]; discriminate]].
  destruct (bin_of ey y) as [b|]; [|split; [discriminate|intros [_ Q]; discriminate]].
  rewrite andb_true_iff, !Nat.eqb_eq. split; [intros [-> ->]; auto|].
  intros [Q1 Q2]. injection Q1 as ->. injection Q2 as ->. auto.
Qed.
Lemma total_filter ex ey pts c : strictly_sortedR ex -> strictly_sortedR ey ->
  counts (fun xy => exists i j, in_bin ex i (fst xy) /\ in_bin ey j (snd xy)) pts c -> c = length (filter (binned ex ey) pts).
Proof.
  intros Sx Sy H. eapply counts_fun; [exact H|]. apply counts_filter. intros [x y]. unfold binned. cbn [fst snd].
  destruct (bin_of ex x) as [a|] eqn:Ea.
  - destruct (bin_of ey y) as [b|] eqn:Eb.
    + split; auto. intros _. exists a, b. split; now apply bin_of_spec.
    + split; [discriminate|]. intros (i & j & _ & Hj). apply bin_of_spec in Hj; [congruence|auto].
  - split; [discriminate|]. intros (i & j & Hi & _). apply bin_of_spec in Hi; [congruence|auto].
Qed.
Lemma histogram_total pts bx by_ d ex ey wx wy : histogram2d pts bx by_ = Ok (d, ex, ey) ->
  (forall i, (i < length ex - 1)%nat -> bin_width ex i (wx i)) -> (forall j, (j < length ey - 1)%nat -> bin_width ey j (wy j)) ->
  sum (fun i => sum (fun j => SpecUtils1D.entry d i j * wx i * wy j) (length ey - 1)) (length ex - 1) = 1.
Proof.
  intros H Hx Hy. destruct (histogram_spec _ _ _ _ _ _ H) as (_ & _ & Sx & Sy & L & F & total & T & Ht & Hc).
  rewrite (sum_eq _ (fun i => INR (nsum (map (fun j => length (filter (in_cell ex ey i j) pts)) (seq 0 (length ey - 1)))) / INR total)).
  - rewrite sum_scale, sum_nsum. rewrite <- (map_map (fun i => map (fun j => length (filter (in_cell ex ey i j) pts)) (seq 0 (length ey - 1))) nsum).
    rewrite (total_count ex ey pts _ _ eq_refl eq_refl). rewrite <- (total_filter ex ey pts total Sx Sy Ht).
    assert (INR total <> 0) by (apply not_0_INR; lia). field. auto.
  - intros i Hi. rewrite <- sum_nsum, <- sum_scale. apply sum_eq. intros j Hj.
    destruct (entry_nth d i j _ _ L F Hi Hj) as (r & Hr & Hv).
    destruct (Hc i j r _ _ _ Hr Hv (Hx i Hi) (Hy j Hj)) as (_ & _ & c & Cc & E).
    rewrite E. now rewrite (cell_filter ex ey i j pts c Sx Sy Cc).
Qed.

(** * Smallest and largest values *)
Lemma fold_max l m : m <= fold_left Rmax l m /\ (forall x, In x l -> x <= fold_left Rmax l m) /\
  (fold_left Rmax l m = m \/ In (fold_left Rmax l m) l).
Proof.
  revert m. induction l as [|y l IH]; intros m; cbn; [split; [lra|split; [easy|auto]]|].
  destruct (IH (Rmax m y)) as (A & B & C). pose proof (Rmax_l m y). pose proof (Rmax_r m y). repeat split; try lra.
  - intros x [<-|H']; [lra|auto].
  - destruct C as [->|C]; auto. unfold Rmax. destruct (Rle_dec m y); auto.
Qed.
Lemma fold_min l m : fold_left Rmin l m <= m /\ (forall x, In x l -> fold_left Rmin l m <= x) /\
  (fold_left Rmin l m = m \/ In (fold_left Rmin l m) l).
Proof.
  revert m. induction l as [|y l IH]; intros m; cbn; [split; [lra|split; [easy|auto]]|].
  destruct (IH (Rmin m y)) as (A & B & C). pose proof (Rmin_l m y). pose proof (Rmin_r m y). repeat split; try lra.
  - intros x [<-|H']; [lra|auto].
  - destruct C as [->|C]; auto. unfold Rmin. destruct (Rle_dec m y); auto.
Qed.
Lemma rmax_spec l : l <> [] -> exists m, rmax l = Ok m /\ In m l /\ forall x, In x l -> x <= m.
Proof.
  destruct l as [|x l]; [easy|]. intros _. eexists. split; [reflexivity|]. destruct (fold_max l x) as (A & B & C).
  split; [destruct C as [->|C]; [now left|now right]|]. intros y [<-|H]; auto.
Qed.
Lemma rmin_spec l : l <> [] -> exists m, rmin l = Ok m /\ In m l /\ forall x, In x l -> m <= x.
Proof.
  destruct l as [|x l]; [easy|]. intros _. eexists. split; [reflexivity|]. destruct (fold_min l x) as (A & B & C).
  split; [destruct C as [->|C]; [now left|now right]|]. intros y [<-|H]; auto.
Qed.
(** Equally spaced edges between two values contain everything in between. *)
Lemma linspace_bin lo hi n x : lo < hi -> (1 <= n)%nat -> lo <= x <= hi -> exists i, in_bin (linspace lo hi (S n)) i x.
Proof.
  intros H Hn Hx. set (e := linspace lo hi (S n)). assert (S1 : strictly_sortedR e) by now apply linspace_strict.
  assert (L : length e = S n) by apply linspace_length.
  assert (E0 : nth_error e 0 = Some lo) by (apply linspace_nth; split; [lia|]; cbn [INR]; lra).
  assert (E1 : nth_error e n = Some hi).
  { apply linspace_nth. split; [lia|]. replace (S n - 1)%nat with n by lia. field. apply not_0_INR. lia. }
  set (c := length (filter (fun y => Rleb y x) e)).
  assert (Hle : forall j a, nth_error e j = Some a -> ((j < c)%nat <-> a <= x)) by (intros; apply filter_le; auto using strict_sorted).
  assert (C0 : (0 < c)%nat) by (apply (Hle _ _ E0); lra).
  destruct (Rle_lt_dec hi x) as [Q|Q].
  - assert (x = hi) by lra. subst x. exists (n - 1)%nat.
    destruct (nth_error e (n - 1)) as [a|] eqn:Ea; [|apply nth_error_None in Ea; lia].
    exists a, hi. replace (S (n - 1)) with n by lia. split; [auto|split; [auto|split; [|right; split; auto; lia]]].
    apply (strict_sorted e S1 (n - 1)%nat n); auto. lia.
  - assert (C1 : (c <= n)%nat).
    { destruct (Nat.le_gt_cases c n) as [|G]; auto. apply (Hle _ _ E1) in G. lra. }
    exists (c - 1)%nat. destruct (nth_error e (c - 1)) as [a|] eqn:Ea; [|apply nth_error_None in Ea; lia].
    destruct (nth_error e c) as [b|] eqn:Eb; [|apply nth_error_None in Eb; lia].
    exists a, b. replace (S (c - 1)) with c by lia. split; [auto|split; [auto|split; [apply (Hle _ _ Ea); lia|]]].
    left. destruct (Rlt_le_dec x b) as [G|G]; auto. apply (Hle _ _ Eb) in G. lia.
Qed.
Lemma edges_number n data : (1 <= n)%nat -> exists lo hi, lo < hi /\ edges_of (NBins n) data = Ok (linspace lo hi (S n)) /\
  (forall x, In x data -> lo <= x <= hi) /\
  ((exists x y, In x data /\ In y data /\ x <> y) -> In lo data /\ In hi data).
Proof.
  intros Hn. cbn [edges_of]. replace (n =? 0)%nat with false by (symmetry; apply Nat.eqb_neq; lia).
  destruct data as [|x0 data0] eqn:Ed.
  { exists 0, 1. repeat split; auto; try lra; try easy; destruct H as (x & y & [] & _). }
  rewrite <- Ed. assert (Ne : data <> []) by (subst; easy). clear Ed x0 data0.
  destruct (rmin_spec data Ne) as (lo & El & Il & Hl). destruct (rmax_spec data Ne) as (hi & Eh & Ih & Hh).
  rewrite El, Eh. cbn [rbind]. destruct (Reqb lo hi) eqn:Eq.
  - apply Reqb_true in Eq. exists (lo - 1/2), (hi + 1/2). split; [lra|]. split; auto. split.
    + intros x Hx. specialize (Hl x Hx). specialize (Hh x Hx). lra.
    + intros (x & y & Hx & Hy & Nxy). pose proof (Hl x Hx). pose proof (Hh x Hx). pose proof (Hl y Hy). pose proof (Hh y Hy). lra.
  - apply Reqb_false in Eq. exists lo, hi. split; [specialize (Hl hi Ih); lra|]. split; auto.
Qed.

(** * Columns *)
Lemma counts_app {A} (P : A -> Prop) l l' n : counts P (l ++ l') n -> exists a b, counts P l a /\ counts P l' b /\ n = (a + b)%nat.
Proof.
  revert n. induction l as [|x l IH]; intros n H; cbn in H.
  - exists O, n. repeat split; auto. constructor.
  - inversion H; subst; (destruct (IH _ H4) as (a & b & Ha & Hb & ->)); [exists (S a), b|exists a, b]; repeat split; auto; [apply counts_yes|apply counts_no]; auto.
Qed.
Lemma counts_none {A} (P : A -> Prop) l c : counts P l c -> (forall a, In a l -> ~ P a) -> c = O.
Proof.
  induction 1 as [|a l n Ha _ IH|a l n Ha _ IH]; intros H; auto.
  - exfalso. apply (H a); auto. now left.
  - apply IH. intros b Hb. apply H. now right.
Qed.
Lemma counts_single {A} (P : A -> Prop) l i a0 c : counts P l c -> nth_error l i = Some a0 ->
  (forall k a, nth_error l k = Some a -> k <> i -> ~ P a) -> (P a0 /\ c = 1%nat) \/ (~ P a0 /\ c = 0%nat).
Proof.
  intros H. revert i. induction H as [|a l n Ha Hc IH|a l n Ha Hc IH]; intros i Hi Ho; [destruct i; discriminate| |].
  - destruct i as [|i]; cbn in Hi.
    + injection Hi as ->. left. split; auto. f_equal. eapply counts_none; eauto.
      intros b Hb. apply In_nth_error in Hb. destruct Hb as [k Hk]. apply (Ho (S k)); auto.
    + exfalso. apply (Ho O a); auto.
  - destruct i as [|i]; cbn in Hi.
    + injection Hi as ->. right. split; auto. eapply counts_none; eauto.
      intros b Hb. apply In_nth_error in Hb. destruct Hb as [k Hk]. apply (Ho (S k)); auto.
    + apply (IH i Hi). intros k b Hk Hn. apply (Ho (S k) b); auto.
Qed.
Lemma column_counts (P Q : R -> Prop) qs i q rows col c : nth_error qs i = Some q -> P q ->
  (forall k a, nth_error qs k = Some a -> k <> i -> ~ P a) ->
  Forall2 (fun r x => nth_error r i = Some x) rows col ->
  counts (fun xy => P (fst xy) /\ Q (snd xy)) (flat_map (fun r => combine qs r) rows) c -> counts Q col c.
Proof.
  intros Hq Pq Ho F. revert c. induction F as [|r x rows col Hx _ IH]; intros c H; cbn [flat_map] in H.
  - inversion H. constructor.
  - apply counts_app in H. destruct H as (a & b & Ha & Hb & ->). specialize (IH _ Hb).
    destruct (counts_single _ _ i (q, x) a Ha) as [[[_ Hy] ->]|[Hn ->]].
    + rewrite nth_combine, Hq, Hx. reflexivity.
    + intros k [u v] Hk Nk [Hu _]. cbn in Hu. rewrite nth_combine in Hk. destruct (nth_error qs k) as [u'|] eqn:Eu; [|easy].
      destruct (nth_error r k); [|easy]. injection Hk as -> _. apply (Ho k u); auto.
    + apply counts_yes; auto.
    + apply counts_no; auto.
Qed.

(** * Default positions *)
Lemma cumsum_spec l acc : Forall (fun w => 0 <= w) l ->
  Forall (fun x => x <= acc + rsum l) (cumsumR acc l) /\ (l <> [] -> In (acc + rsum l) (cumsumR acc l)) /\ length (cumsumR acc l) = length l.
Proof.
  revert acc. induction l as [|x l IH]; intros acc F; [split; [constructor|split; [easy|auto]]|].
  inversion F as [|? ? Hx F']; subst. destruct (IH (acc + x) F') as (A & B & C). cbn [cumsumR rsum fold_right]. fold (rsum l).
  assert (0 <= rsum l) by now apply rsum_nonneg.
  replace (acc + (x + rsum l)) with (acc + x + rsum l) by lra. split; [constructor; [lra|auto]|]. split.
  - intros _. destruct l as [|y l']; [left; cbn; lra|right; apply B; easy].
  - cbn [length]. lia.
Qed.
Lemma positions_default cells values ty n ub : cells <> [] -> Forall2 (tessellation ty) cells values ->
  deepest ty cells ub -> 0 < ub -> density_positions cells (PNum n) ty = Ok (linspace 0 ub n).
Proof.
  intros Ne F Hd Hub. unfold density_positions.
  assert (Ft : Forall (fun c => exists v, tessellation ty c v) cells).
  { clear - F. induction F; constructor; eauto. }
  rewrite Forall_forall in Ft. destruct ty; cbn [deepest] in Hd.
  - destruct Hd as [(c0 & Hc0 & Hin) Hmax].
    destruct (rmap_spec rmax (fun c m => In m c /\ forall x, In x c -> x <= m) cells) as (ms & Em & Fm).
    { intros c Hc. destruct (Ft c Hc) as (v & Hne & _). destruct (rmax_spec c Hne) as (m & E & H). eauto. }
    rewrite Em. cbn [rbind]. destruct (rmax_spec ms) as (m & E & Hm & Hx).
    { intros ->. inversion Fm. congruence. }
    rewrite E. cbn [rbind]. do 2 f_equal. apply Rle_antisym.
    + apply In_nth_error in Hm. destruct Hm as [k Hk]. destruct (Forall2_nth_r _ _ _ _ _ Fm Hk) as (c & Hc & Hi & _).
      apply (Hmax c); auto. eapply nth_error_In; eauto.
    + apply In_nth_error in Hc0. destruct Hc0 as [k Hk]. destruct (Forall2_nth _ _ _ _ _ Fm Hk) as (m0 & Hm0 & _ & Hle).
      specialize (Hle _ Hin). specialize (Hx m0 (nth_error_In _ _ Hm0)). lra.
  - destruct Hd as [(c0 & Hc0 & Hin) Hmax].
    destruct (rmap_spec (fun e => rmax (cumsumR 0 e)) (fun c m => m = rsum c) cells) as (ms & Em & Fm).
    { intros c Hc. destruct (Ft c Hc) as (v & Hne & _ & Hp). destruct (cumsum_spec c 0 Hp) as (A & B & C).
      destruct (rmax_spec (cumsumR 0 c)) as (m & E & Hm & Hx).
      { intros Q. rewrite Q in C. destruct c; [easy|discriminate]. }
      exists m. split; auto. specialize (B Hne). specialize (Hx _ B). rewrite Forall_forall in A. specialize (A _ Hm). lra. }
    rewrite Em. cbn [rbind]. do 2 f_equal. destruct (fold_max ms 0) as (A & B & C). apply Rle_antisym.
    + destruct C as [->|C]; [lra|]. apply In_nth_error in C. destruct C as [k Hk].
      destruct (Forall2_nth_r _ _ _ _ _ Fm Hk) as (c & Hc & ->). apply Hmax. eapply nth_error_In; eauto.
    + apply In_nth_error in Hc0. destruct Hc0 as [k Hk]. destruct (Forall2_nth _ _ _ _ _ Fm Hk) as (m0 & Hm0 & E).
      rewrite Hin, <- E. apply B. eapply nth_error_In; eauto.
Qed.
Lemma frac_bin ub n i k : 0 < ub -> (2 <= n)%nat -> (i < n)%nat -> (k < n)%nat ->
  (in_bin (linspace 0 ub (S n)) i (0 + INR k * ((ub - 0) / INR (n - 1))) <-> k = i).
Proof.
  intros Hub Hn Hi Hk.
  assert (S1 : strictly_sortedR (linspace 0 ub (S n))) by now apply linspace_strict.
  assert (P1 : 0 < INR (n - 1)) by (apply lt_0_INR; lia). assert (P2 : 0 < INR n) by (apply lt_0_INR; lia).
  assert (Hs : in_bin (linspace 0 ub (S n)) k (0 + INR k * ((ub - 0) / INR (n - 1)))).
  { exists (0 + INR k * ((ub - 0) / INR (S n - 1))), (0 + INR (S k) * ((ub - 0) / INR (S n - 1))).
    split; [apply linspace_nth; split; auto; lia|]. split; [apply linspace_nth; split; auto; lia|].
    replace (S n - 1)%nat with n by lia. rewrite linspace_length.
    assert (E : forall a N, 0 < N -> 0 + a * ((ub - 0) / N) = ub * (a / N)) by (intros; field; lra).
    rewrite !E by auto. split.
    - apply Rmult_le_compat_l; [lra|]. unfold Rdiv. apply Rmult_le_compat_l; [apply pos_INR|].
      apply Rinv_le_contravar; auto. apply le_INR. lia.
    - destruct (Nat.eq_dec k (n - 1)) as [->|N].
      + right. split; [|lia]. replace (S (n - 1)) with n by lia. unfold Rdiv. rewrite !Rinv_r by lra. reflexivity.
      + left. apply Rmult_lt_compat_l; [lra|].
        apply (Rmult_lt_reg_r (INR (n - 1) * INR n)); [now apply Rmult_lt_0_compat|].
        replace (INR k / INR (n - 1) * (INR (n - 1) * INR n)) with (INR k * INR n) by (field; lra).
        replace (INR (S k) / INR n * (INR (n - 1) * INR n)) with (INR (S k) * INR (n - 1)) by (field; lra).
        rewrite <- !mult_INR. apply lt_INR. nia. }
  split; [|intros ->; exact Hs]. intros Hi'. apply bin_of_spec in Hs; auto. apply bin_of_spec in Hi'; auto. congruence.
Qed.

(** With numbers of bins there is always a result. *)
Lemma histogram_exists pts n m : pts <> [] -> (1 <= n)%nat -> (1 <= m)%nat ->
  exists lo hi ylo yhi d, histogram2d pts (NBins n) (NBins m) = Ok (d, linspace lo hi (S n), linspace ylo yhi (S m)) /\
    lo < hi /\ ylo < yhi /\
    edges_of (NBins n) (map fst pts) = Ok (linspace lo hi (S n)) /\ edges_of (NBins m) (map snd pts) = Ok (linspace ylo yhi (S m)).
Proof.
  intros Ne Hn Hm.
  destruct (edges_number n (map fst pts) Hn) as (lo & hi & Hx & Ex & Rx & _).
  destruct (edges_number m (map snd pts) Hm) as (ylo & yhi & Hy & Ey & Ry & _).
  exists lo, hi, ylo, yhi. set (ex := linspace lo hi (S n)) in *. set (ey := linspace ylo yhi (S m)) in *.
  assert (Sx : strictly_sortedR ex) by now apply linspace_strict. assert (Sy : strictly_sortedR ey) by now apply linspace_strict.
  assert (All : forall xy, In xy pts -> exists i j, in_bin ex i (fst xy) /\ in_bin ey j (snd xy)).
  { intros [x y] Hin. destruct (linspace_bin lo hi n x) as [i Hi]; auto.
    { apply Rx. apply in_map_iff. exists (x, y). auto. }
    destruct (linspace_bin ylo yhi m y) as [j Hj]; auto.
    { apply Ry. apply in_map_iff. exists (x, y). auto. }
    exists i, j. auto. }
  unfold histogram2d. rewrite Ex, Ey. cbn [rbind]. rewrite (total_count ex ey pts _ _ (widths_length ex) (widths_length ey)).
  rewrite <- (total_filter ex ey pts (length pts) Sx Sy).
  2:{ clear - All. induction pts as [|p l IH]; [constructor|]. cbn. apply counts_yes; [apply All; now left|]. apply IH. intros; apply All; now right. }
  replace (length pts =? 0)%nat with false by (symmetry; apply Nat.eqb_neq; destruct pts; easy).
  cbn [orb]. destruct (existsb _ (widths ex ++ widths ey)) eqn:Ew; [|eauto 10]. exfalso.
  apply existsb_exists in Ew. destruct Ew as (w & Hw & W0). apply Reqb_true in W0. subst w.
  apply in_app_or in Hw. destruct Hw as [Hw|Hw]; apply In_nth_error in Hw; destruct Hw as [k Hk]; apply widths_nth in Hk;
    destruct Hk as (a & b & Ha & Hb & E0).
  - pose proof (Sx k (S k) a b ltac:(lia) Ha Hb). lra.
  - pose proof (Sy k (S k) a b ltac:(lia) Ha Hb). lra.
Qed.
