(** Proofs about ModelEnsemble.v: what percentiles say, order of the samples. *)
From Coq Require Import Permutation.
From Verif Require Import Base ModelUtils1D ModelPrior ModelState ModelSpace ModelEnsemble
  SpecUtils1D SpecEnsemble ProofUtils1D ProofUtils1DB ProofState ProofSpaceB ProofEnsemble.
Local Open Scope R_scope.

(** * Counts *)
Lemma counts_fun {A} (P : A -> Prop) l n m : counts P l n -> counts P l m -> n = m.
Proof. intros H. revert m. induction H; intros m H'; inversion H'; subst; auto; tauto. Qed.
Lemma counts_perm {A} (P : A -> Prop) l l' : Permutation l l' -> forall n, counts P l n -> counts P l' n.
Proof.
  induction 1 as [|x l l' _ IH|x y l|l l' l'' _ IH1 _ IH2]; intros n H; auto.
  - inversion H; subst; [apply counts_yes|apply counts_no]; auto.
  - inversion H as [|? ? ? ? H1|? ? ? ? H1]; subst; inversion H1; subst;
      repeat first [assumption | apply counts_yes; [assumption|] | apply counts_no; [assumption|]].
Qed.
Lemma counts_le {A} (P : A -> Prop) l n : counts P l n -> (n <= length l)%nat.
Proof. induction 1; cbn; lia. Qed.
Lemma counts_prefix {A} (P : A -> Prop) l n m : counts P l n ->
  (forall i a, (i < m)%nat -> nth_error l i = Some a -> P a) -> (m <= length l)%nat -> (m <= n)%nat.
Proof.
  intros H. revert m. induction H as [|a l n Ha _ IH|a l n Ha _ IH]; intros m Hi Hm; cbn in *; [lia| |].
  - destruct m as [|m]; [lia|]. enough (m <= n)%nat by lia. apply IH; [|lia].
    intros i b Hb E. apply (Hi (S i)); auto. lia.
  - destruct m as [|m]; [lia|]. exfalso. apply Ha. apply (Hi O); auto. lia.
Qed.
Lemma counts_suffix {A} (P : A -> Prop) l n m : counts P l n ->
  (forall i a, (m <= i)%nat -> nth_error l i = Some a -> P a) -> (length l - m <= n)%nat.
Proof.
  intros H. revert m. induction H as [|a l n Ha Hc IH|a l n Ha Hc IH]; intros m Hi; cbn [length] in *; [lia| |].
  - destruct m as [|m].
    + specialize (IH O). rewrite Nat.sub_0_r in *. enough (length l <= n)%nat by lia. apply IH.
      intros i b _ E. apply (Hi (S i)); auto. lia.
    + enough (length l - m <= n)%nat by lia. apply IH. intros i b Hb E. apply (Hi (S i)); auto. lia.
  - destruct m as [|m]; [exfalso; apply Ha; apply (Hi O); auto|].
    enough (length l - m <= n)%nat by lia. apply IH. intros i b Hb E. apply (Hi (S i)); auto. lia.
Qed.
Lemma counts_filter {A} (P : A -> Prop) (f : A -> bool) l : (forall a, f a = true <-> P a) ->
  counts P l (length (filter f l)).
Proof.
  intros H. induction l as [|a l IH]; cbn; [constructor|]. specialize (H a). destruct (f a) eqn:E; cbn.
  - apply counts_yes; auto. now apply H.
  - apply counts_no; auto. intros Hp. apply H in Hp. congruence.
Qed.

(** * Percentiles *)
Local Ltac sp := repeat match goal with |- _ /\ _ => split end.
Lemma percentile_fun l p v v' : percentile_of l p v -> percentile_of l p v' -> v = v'.
Proof.
  intros (s & Hs & k & t & a & Ht & Hk & Ha & Hv) (s' & Hs' & k' & t' & a' & Ht' & Hk' & Ha' & Hv').
  rewrite <- (in_order_unique _ _ _ Hs Hs') in *. rewrite Hk in Hk'.
  assert (k = k').
  { destruct (Nat.lt_trichotomy k k') as [L|[E|L]]; auto; exfalso; apply le_INR in L; rewrite S_INR in L; lra. }
  subst k'. assert (t = t') by lra. subst t'. rewrite Ha in Ha'. injection Ha' as <-.
  destruct Hv as [[Z ->]|(b & Hb & ->)], Hv' as [[Z' ->]|(b' & Hb' & ->)]; auto.
  - rewrite Z. lra.
  - rewrite Z'. lra.
  - congruence.
Qed.
(** Position of a percentile between its neighbours in the order. *)
Lemma percentile_pos l p v : percentile_of l p v ->
  exists s k a, in_order l s /\ nth_error s k = Some a /\
    INR k <= p / 100 * (INR (length l) - 1) < INR k + 1 /\ a <= v /\
    ((p / 100 * (INR (length l) - 1) = INR k /\ v = a) \/
     exists b, nth_error s (S k) = Some b /\ a <= b /\ v <= b /\
       v = a + (p / 100 * (INR (length l) - 1) - INR k) * (b - a)).
Proof.
  intros (s & Hs & k & t & a & Ht & Hk & Ha & Hv). exists s, k, a. rewrite Hk.
  destruct Hv as [[Z ->]|(b & Hb & ->)].
  - sp; auto; try lra; left; split; lra.
  - assert (a <= b) by (destruct Hs as [_ Hs]; apply (Hs k (S k)); auto).
    assert (0 <= t * (b - a)) by (apply Rmult_le_pos; lra).
    assert (0 <= (1 - t) * (b - a)) by (apply Rmult_le_pos; lra).
    sp; auto; try lra. right. exists b. sp; auto; lra.
Qed.
Lemma percentile_le l p p' v v' : percentile_of l p v -> percentile_of l p' v' -> p <= p' -> v <= v'.
Proof.
  intros H H' Hp.
  destruct (percentile_pos _ _ _ H) as (s & k & a & Hs & Ha & Hk & Hav & Hv).
  destruct (percentile_pos _ _ _ H') as (s' & k' & a' & Hs' & Ha' & Hk' & Hav' & Hv').
  rewrite <- (in_order_unique _ _ _ Hs Hs') in *. set (n := INR (length l) - 1) in *.
  assert (Hn : 0 <= n).
  { assert (L : (1 <= length l)%nat).
    { destruct Hs as [P _]. rewrite P. assert (k < length s)%nat by (apply nth_error_Some; congruence). lia. }
    apply le_INR in L. cbn in L. unfold n. lra. }
  assert (Hh : p / 100 * n <= p' / 100 * n) by (apply Rmult_le_compat_r; lra).
  set (h := p / 100 * n) in *. set (h' := p' / 100 * n) in *.
  assert (K : (k <= k')%nat).
  { destruct (Nat.le_gt_cases k k') as [L|L]; auto. apply le_INR in L. rewrite S_INR in L. lra. }
  destruct (Nat.eq_dec k k') as [->|Nk].
  - rewrite Ha in Ha'. injection Ha' as <-.
    destruct Hv as [[_ ->]|(b & Hb & Hab & Hvb & ->)]; auto.
    destruct Hv' as [[Z ->]|(b' & Hb' & Hab' & Hvb' & ->)].
    + assert (Z2 : h - INR k' <= 0) by lra. assert (0 <= (INR k' - h) * (b - a)) by (apply Rmult_le_pos; lra). lra.
    + rewrite Hb in Hb'. injection Hb' as <-. assert (0 <= (h' - h) * (b - a)) by (apply Rmult_le_pos; lra). lra.
  - destruct Hs as [_ Ss]. destruct Hv as [[_ ->]|(b & Hb & Hab & Hvb & _)].
    + assert (a <= a') by (apply (Ss k k'); auto). lra.
    + assert (b <= a') by (apply (Ss (S k) k'); auto; lia). lra.
Qed.
Lemma percentile_above l p v c : percentile_of l p v -> counts (fun x => x <= v) l c ->
  p / 100 * (INR (length l) - 1) < INR c.
Proof.
  intros H Hc. destruct (percentile_pos _ _ _ H) as (s & k & a & [P Ss] & Ha & Hk & Hav & _).
  apply (counts_perm _ _ _ P) in Hc. assert (S k <= c)%nat.
  { eapply counts_prefix; [exact Hc| |].
    - intros i x Hi Hx. cbn beta. assert (x <= a) by (apply (Ss i k); auto; lia). lra.
    - assert (k < length s)%nat by (apply nth_error_Some; congruence). lia. }
  apply le_INR in H0. rewrite S_INR in H0. lra.
Qed.
Lemma percentile_below l p v c : percentile_of l p v -> counts (fun x => v <= x) l c ->
  (1 - p / 100) * (INR (length l) - 1) < INR c.
Proof.
  intros H Hc. destruct (percentile_pos _ _ _ H) as (s & k & a & [P Ss] & Ha & Hk & Hav & Hv).
  pose proof (Permutation_length P) as L. apply (counts_perm _ _ _ P) in Hc.
  assert (Kl : (k < length s)%nat) by (apply nth_error_Some; congruence).
  destruct Hv as [[E ->]|(b & Hb & Hab & Hvb & _)].
  - assert (C : (length s - k <= c)%nat).
    { eapply counts_suffix; [exact Hc|]. intros i x Hi Hx. cbn beta. apply (Ss k i); auto. }
    apply le_INR in C. rewrite minus_INR in C by lia. rewrite L in *. lra.
  - assert (C : (length s - S k <= c)%nat).
    { eapply counts_suffix; [exact Hc|]. intros i x Hi Hx. cbn beta. assert (b <= x) by (apply (Ss (S k) i); auto). lra. }
    assert (K2 : (S k < length s)%nat) by (apply nth_error_Some; congruence).
    destruct (Req_dec (p / 100 * (INR (length l) - 1)) (INR k)) as [E|E].
    + (* exactly at a value: v = a *)
      assert (C2 : (length s - k <= c)%nat).
      { eapply counts_suffix; [exact Hc|]. intros i x Hi Hx. cbn beta.
        destruct (percentile_pos _ _ _ H) as (s' & k' & a' & Hs' & Ha' & Hk' & Hav' & Hv').
        rewrite <- (in_order_unique _ _ _ (conj P Ss) Hs') in *.
        assert (k = k').
        { destruct (Nat.lt_trichotomy k k') as [Q|[Q|Q]]; auto; exfalso; apply le_INR in Q; rewrite S_INR in Q; lra. }
        subst k'. rewrite Ha in Ha'. injection Ha' as <-.
        assert (a <= x) by (apply (Ss k i); auto).
        destruct Hv' as [[_ ->]|(b' & _ & _ & _ & ->)]; [lra|]. rewrite E. lra. }
      apply le_INR in C2. rewrite minus_INR in C2 by lia. rewrite L in *. lra.
    + apply le_INR in C. rewrite minus_INR in C by lia. rewrite S_INR in C. rewrite L in *. lra.
Qed.
Lemma percentile_bounds l p v lo hi : percentile_of l p v -> Forall (fun x => lo <= x <= hi) l -> lo <= v <= hi.
Proof.
  intros H F. destruct (percentile_pos _ _ _ H) as (s & k & a & [P Ss] & Ha & Hk & Hav & Hv).
  assert (F' : Forall (fun x => lo <= x <= hi) s) by (now rewrite <- P).
  rewrite Forall_forall in F'. pose proof (F' a (nth_error_In _ _ Ha)).
  destruct Hv as [[_ ->]|(b & Hb & _ & Hvb & _)]; [lra|]. pose proof (F' b (nth_error_In _ _ Hb)). lra.
Qed.
Lemma median_percentile l d : median_of l d <-> (l <> [] /\ percentile_of l 50 d).
Proof.
  assert (M : median_of l d -> percentile_of l 50 d).
  { intros (s & Hs & k & [[L H]|(L & a & b & Ha & Hb & ->)]); exists s; split; auto.
    - exists k, 0, d. rewrite L, plus_INR, mult_INR. cbn [INR]. sp; auto; try lra.
    - exists k, (1/2), a. rewrite L, plus_INR, mult_INR. cbn [INR]. sp; auto; try lra.
      right. exists b. split; auto. lra. }
  split; [intros H; split; auto|].
  - destruct H as (s & [P _] & k & [[L _]|[L _]]); intros ->; cbn in L; lia.
  - intros [Hl H]. destruct (np_median_spec l Hl) as (d' & _ & H'). 
    assert (Q : percentile_of l 50 d').
    { destruct H' as (s & Hs & k & [[L H']|(L & a & b & Ha & Hb & ->)]); exists s; split; auto.
      - exists k, 0, d'. rewrite L, plus_INR, mult_INR. cbn [INR]. sp; auto; try lra.
      - exists k, (1/2), a. rewrite L, plus_INR, mult_INR. cbn [INR]. sp; auto; try lra.
        right. exists b. split; auto. lra. }
    now rewrite (percentile_fun _ _ _ _ H Q).
Qed.
Lemma mean_bounds l m lo hi : l <> [] -> mean_of l m -> Forall (fun x => lo <= x <= hi) l -> lo <= m <= hi.
Proof.
  intros Hl H F. unfold mean_of in H. pose proof (len_pos l Hl) as Lp.
  assert (INR (length l) * lo <= rsum l <= INR (length l) * hi).
  { clear H Hl Lp. induction F as [|x l Hx _ IH]; [cbn; lra|]. cbn [length rsum fold_right].
    fold (rsum l). rewrite S_INR. lra. }
  split; (apply (Rmult_le_reg_l (INR (length l))); lra).
Qed.
Lemma mean_fun l m m' : l <> [] -> mean_of l m -> mean_of l m' -> m = m'.
Proof. intros Hl H H'. unfold mean_of in *. pose proof (len_pos l Hl). apply (Rmult_eq_reg_l (INR (length l))); lra. Qed.
Lemma std_zero l s : l <> [] -> std_of l s -> (s = 0 <-> exists m, Forall (fun x => x = m) l).
Proof.
  intros Hl (Hs & m & Hm & H). pose proof (len_pos l Hl) as Lp. split.
  - intros ->. exists m. assert (Z : rsum (map (fun x => (x - m) ^ 2) l) = 0) by lra. clear - Z.
    induction l as [|x l IH]; constructor; cbn [map rsum fold_right] in Z; fold (rsum (map (fun x => (x - m) ^ 2) l)) in Z.
    + assert (0 <= rsum (map (fun x => (x - m) ^ 2) l)) by (apply rsum_nonneg, Forall_map, Forall_forall; intros; apply pow2_ge_0).
      pose proof (pow2_ge_0 (x - m)). assert ((x - m) * (x - m) = 0) by (cbn [pow] in *; lra).
      apply Rmult_integral in H1. lra.
    + apply IH. assert (0 <= rsum (map (fun x => (x - m) ^ 2) l)) by (apply rsum_nonneg, Forall_map, Forall_forall; intros; apply pow2_ge_0).
      pose proof (pow2_ge_0 (x - m)). lra.
  - intros [y F]. assert (m = y).
    { assert (B : y <= m <= y) by (eapply mean_bounds; eauto; eapply Forall_impl; [|exact F]; cbn; intros; lra). lra. }
    subst y. assert (Z : rsum (map (fun x => (x - m) ^ 2) l) = 0).
    { clear - F. induction F as [|x l -> _ IH]; cbn [map rsum fold_right]; [reflexivity|].
      fold (rsum (map (fun x => (x - m) ^ 2) l)). rewrite IH. cbn. lra. }
    rewrite Z in H. assert (Q : s ^ 2 = 0).
    { apply (Rmult_eq_reg_l (INR (length l))); lra. }
    cbn [pow] in Q. rewrite Rmult_1_r in Q. apply Rmult_integral in Q. tauto.
Qed.

(** * Order of the samples *)
Lemma rmap_perm {A B} (f : A -> res B) l l' r : Permutation l l' -> rmap f l = Ok r ->
  exists r', rmap f l' = Ok r' /\ Permutation r r'.
Proof.
  intros P. revert r. induction P as [|x l l' _ IH|x y l|l l' l'' _ IH1 _ IH2]; intros r H.
  - injection H as <-. exists []. auto.
  - cbn in H. apply rbind_ok in H. destruct H as (b & Eb & H). apply rbind_ok in H. destruct H as (bs & Ebs & H).
    injection H as <-. destruct (IH _ Ebs) as (r' & E & P). exists (b :: r'). cbn. rewrite Eb. cbn. rewrite E. cbn. auto.
  - cbn in H. apply rbind_ok in H. destruct H as (b & Eb & H). apply rbind_ok in H. destruct H as (bs & Ebs & H).
    injection H as <-. apply rbind_ok in Ebs. destruct Ebs as (b' & Eb' & H). apply rbind_ok in H. destruct H as (bs' & Ebs & H).
    injection H as <-. exists (b' :: b :: bs'). cbn. rewrite Eb'. cbn. rewrite Eb. cbn. rewrite Ebs. cbn. split; auto. constructor.
  - destruct (IH1 _ H) as (r1 & E1 & P1). destruct (IH2 _ E1) as (r2 & E2 & P2). exists r2. split; auto. now rewrite P1.
Qed.
Lemma np_mean_perm l l' : Permutation l l' -> np_mean l = np_mean l'.
Proof. intros P. unfold np_mean. now rewrite (rsum_perm _ _ P), (Permutation_length P). Qed.
Lemma np_std_perm l l' : Permutation l l' -> np_std l = np_std l'.
Proof.
  intros P. unfold np_std. f_equal. rewrite (np_mean_perm _ _ P). apply np_mean_perm. now apply Permutation_map.
Qed.
Lemma np_median_perm l l' : Permutation l l' -> np_median l = np_median l'.
Proof. intros P. unfold np_median. now rewrite (rsort_eq _ _ P), (Permutation_length P). Qed.
Lemma np_percentile_perm q l l' : Permutation l l' -> np_percentile l q = np_percentile l' q.
Proof. intros P. unfold np_percentile. now rewrite (rsort_eq _ _ P), (Permutation_length P). Qed.
Lemma map_perm_eq {B} (f : list R -> B) (Hf : forall l l', Permutation l l' -> f l = f l') cs cs' :
  Forall2 (@Permutation R) cs cs' -> map f cs = map f cs'.
Proof. induction 1; cbn; f_equal; auto. Qed.
Lemma rmap_map_eq {A B} (f : A -> res B) l l' : map f l = map f l' -> rmap f l = rmap f l'.
Proof.
  revert l'. induction l as [|x l IH]; intros [|y l'] H; try discriminate; auto.
  cbn in *. injection H as E H. now rewrite E, (IH _ H).
Qed.
Lemma rmap_perm_eq {B} (f : list R -> res B) (Hf : forall l l', Permutation l l' -> f l = f l') cs cs' :
  Forall2 (@Permutation R) cs cs' -> rmap f cs = rmap f cs'.
Proof. intros H. apply rmap_map_eq. now apply map_perm_eq. Qed.
Lemma statistics_perm rows rows' nq ps st : Permutation rows rows' ->
  statistics rows nq ps = Ok st -> statistics rows' nq ps = Ok st.
Proof.
  intros P H. unfold statistics in *. destruct rows as [|r0 rows0]; [discriminate|].
  destruct rows' as [|r1 rows1]; [apply Permutation_sym, Permutation_nil in P; discriminate|].
  apply rbind_ok in H. destruct H as (cols & Ec & H).
  assert (Q : exists cols', rmap (column (r1 :: rows1)) (seq 0 nq) = Ok cols' /\ Forall2 (@Permutation R) cols cols').
  { clear H. revert cols Ec. induction (seq 0 nq) as [|j js IH]; intros cols Ec.
    - injection Ec as <-. exists []. auto.
    - cbn [rmap] in Ec. apply rbind_ok in Ec. destruct Ec as (c & E1 & Ec). apply rbind_ok in Ec. destruct Ec as (cs & E2 & Ec).
      injection Ec as <-. destruct (IH _ E2) as (cs' & E3 & F).
      destruct (rmap_perm _ _ _ _ P E1) as (c' & E4 & F').
      exists (c' :: cs'). cbn [rmap]. unfold column at 1. rewrite E4. cbn. rewrite E3. cbn. auto. }
  destruct Q as (cols' & Ec' & F). rewrite Ec'. cbn [rbind].
  rewrite <- (rmap_perm_eq np_median np_median_perm _ _ F).
  assert (E : rmap (fun q => rmap (fun c => np_percentile c q) cols') ps = rmap (fun q => rmap (fun c => np_percentile c q) cols) ps).
  { clear - F. induction ps as [|q ps IH]; cbn [rmap]; auto.
    rewrite <- (rmap_perm_eq (fun c => np_percentile c q) (np_percentile_perm q) _ _ F). now rewrite IH. }
  rewrite E, <- (map_perm_eq np_mean np_mean_perm _ _ F), <- (map_perm_eq np_std np_std_perm _ _ F). exact H.
Qed.
