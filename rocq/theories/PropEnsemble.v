(** Properties of the statistics of ensembles: C65 (means, medians, deviations, percentiles), C66
    (densities). *)
From Coq Require Import Permutation.
From Verif Require Import Base ModelUtils1D ModelPrior ModelState ModelSpace ModelEnsemble
  SpecUtils1D SpecEnsemble ProofUtils1D ProofUtils1DB ProofState ProofSpaceB
  ProofEnsemble ProofEnsembleB ProofEnsembleC ProofEnsembleD ExampleRun PropUtils1D.
Local Open Scope R_scope.
Local Ltac tess := repeat (apply Forall2_cons || apply Forall2_nil);
  (split; [easy|split; [reflexivity|]]); first [apply asc_sorted; cbn; lra | repeat constructor; lra].

(** * C65 *)
(** At every position, the statistics are those of the values which the samples have there. *)
Theorem C65_statistics_partial : forall ty cells values qs percentiles,
  cells <> [] -> Forall2 (tessellation ty) cells values -> queries ty qs ->
  Forall (fun p => 0 <= p <= 100) percentiles ->
  exists st, get_tessellation_statistics cells values qs percentiles ty = Ok st /\
    length (ts_mean st) = length qs /\ length (ts_median st) = length qs /\
    length (ts_std st) = length qs /\ length (ts_percentiles st) = length percentiles /\
    Forall (fun r => length r = length qs) (ts_percentiles st) /\
    forall j q, nth_error qs j = Some q ->
      exists xs m d s,
        Forall2 (fun cv x => cell_value ty (fst cv) (snd cv) q x) (combine cells values) xs /\
        nth_error (ts_mean st) j = Some m /\ mean_of xs m /\
        nth_error (ts_median st) j = Some d /\ median_of xs d /\
        nth_error (ts_std st) j = Some s /\ std_of xs s /\
        forall i p, nth_error percentiles i = Some p ->
          exists row v, nth_error (ts_percentiles st) i = Some row /\
            nth_error row j = Some v /\ percentile_of xs p v.
Proof.
  intros ty cells values qs ps Hne F Hq Hp. unfold get_tessellation_statistics, interpolate_tessellations.
  destruct (rows_spec (fun c v => interpolate_tessellation c v qs ty)
    (fun c v row => Forall2 (cell_value ty c v) qs row) cells values (length qs)) as (rows & Er & Fr & Lr).
  { eapply Forall2_impl; [|exact F]. intros c v Ht. now apply interp_value. }
  rewrite Er. cbn [rbind].
  assert (Lc : length cells = length values) by exact (Forall2_length F).
  destruct (statistics_spec rows (length qs) ps) as (st & Es & L1 & L2 & L3 & L4 & H); auto.
  { intros ->. destruct cells; [easy|]. cbn in *. lia. }
  { apply Forall_forall. intros r Hr. apply In_nth_error in Hr. destruct Hr as [k Hk].
    destruct (Forall2_nth_r _ _ _ _ _ Fr Hk) as (cv & _ & Hcv). symmetry. exact (Forall2_length Hcv). }
  exists st. split; auto. split; auto. split; auto. split; auto. split; [|split; auto].
  - destruct qs as [|q qs'].
    + clear - Es. unfold statistics in Es. destruct rows; [discriminate|]. cbn [length seq rmap rbind] in Es.
      apply rbind_ok in Es. destruct Es as (per & Ep & Es). injection Es as <-. cbn. apply rmap_ok in Ep.
      symmetry. exact (Forall2_length Ep).
    + destruct (H O) as (col & _ & _ & _ & _ & Hl & _); [cbn; lia|]. exact Hl.
  - intros j q Hj. assert (J : (j < length qs)%nat) by (apply nth_error_Some; congruence).
    destruct (H j J) as (col & Fc & (m & Hm & Mm) & (d & Hd & Md) & (s & Hs & Ms) & _ & Hper).
    exists col, m, d, s. split; [|auto 10]. clear - Fr Fc Hj.
    revert col Fc. induction Fr as [|cv r cvs rs Hr _ IH]; intros col Fc; inversion Fc; subst; constructor; auto.
    destruct (Forall2_nth _ _ _ _ _ Hr Hj) as (x & Hx & Hv). congruence.
Qed.
(** Two dimensions. *)
Theorem C65_statistics_2d_partial : forall sites values qs percentiles,
  sites <> [] ->
  Forall2 (fun (s : list (list R)) (v : list R) => s <> [] /\ length v = length s) sites values ->
  Forall (fun p => 0 <= p <= 100) percentiles ->
  exists st, get_tessellation_statistics_2d sites values qs percentiles = Ok st /\
    length (ts_mean st) = length qs /\ length (ts_median st) = length qs /\
    length (ts_std st) = length qs /\ Forall (fun r => length r = length qs) (ts_percentiles st) /\
    forall j q, nth_error qs j = Some q ->
      exists xs m d s,
        Forall2 (fun cv x => cell_value_nd (fst cv) (snd cv) q x) (combine sites values) xs /\
        nth_error (ts_mean st) j = Some m /\ mean_of xs m /\
        nth_error (ts_median st) j = Some d /\ median_of xs d /\
        nth_error (ts_std st) j = Some s /\ std_of xs s /\
        forall i p, nth_error percentiles i = Some p ->
          exists row v, nth_error (ts_percentiles st) i = Some row /\
            nth_error row j = Some v /\ percentile_of xs p v.
Proof.
  intros cells values qs ps Hne F Hp. unfold get_tessellation_statistics_2d, interpolate_tessellations_2d.
  destruct (rows_spec (fun c v => interpolate_2d c v qs)
    (fun c v row => Forall2 (cell_value_nd c v) qs row) cells values (length qs)) as (rows & Er & Fr & Lr).
  { eapply Forall2_impl; [|exact F]. intros c v [H1 H2]. now apply interp_2d_value. }
  rewrite Er. cbn [rbind].
  assert (Lc : length cells = length values) by exact (Forall2_length F).
  destruct (statistics_spec rows (length qs) ps) as (st & Es & L1 & L2 & L3 & L4 & H); auto.
  { intros ->. destruct cells; [easy|]. cbn in *. lia. }
  { apply Forall_forall. intros r Hr. apply In_nth_error in Hr. destruct Hr as [k Hk].
    destruct (Forall2_nth_r _ _ _ _ _ Fr Hk) as (cv & _ & Hcv). symmetry. exact (Forall2_length Hcv). }
  exists st. split; auto. split; auto. split; auto. split; auto. split; auto.
  intros j q Hj. assert (J : (j < length qs)%nat) by (apply nth_error_Some; congruence).
  destruct (H j J) as (col & Fc & (m & Hm & Mm) & (d & Hd & Md) & (s & Hs & Ms) & _ & Hper).
  exists col, m, d, s. split; [|auto 10]. clear - Fr Fc Hj.
  revert col Fc. induction Fr as [|cv r cvs rs Hr _ IH]; intros col Fc; inversion Fc; subst; constructor; auto.
  destruct (Forall2_nth _ _ _ _ _ Hr Hj) as (x & Hx & Hv). congruence.
Qed.

(** What a percentile says: more than p % of n-1 values are not above it, more than (100-p) % of
    n-1 are not below it; percentiles grow with p; the 50th is the median.  Mean and percentiles
    lie between the extreme values; the deviation is zero only when all values agree. *)
Theorem C65_percentile : forall l p v,
  percentile_of l p v ->
  (forall c, counts (fun x => x <= v) l c -> p / 100 * (INR (length l) - 1) < INR c) /\
  (forall c, counts (fun x => v <= x) l c -> (1 - p / 100) * (INR (length l) - 1) < INR c) /\
  (forall p' v', percentile_of l p' v' -> p <= p' -> v <= v') /\
  (forall v', percentile_of l p v' -> v' = v) /\
  (forall lo hi, Forall (fun x => lo <= x <= hi) l -> lo <= v <= hi).
Proof.
  intros l p v H. split; [|split; [|split; [|split]]].
  - intros c. now apply percentile_above.
  - intros c. now apply percentile_below.
  - intros p' v' H' Hp. eapply percentile_le; eauto.
  - intros v' H'. eapply percentile_fun; eauto.
  - intros lo hi F. eapply percentile_bounds; eauto.
Qed.
Theorem C65_median : forall l d, l <> [] -> (median_of l d <-> percentile_of l 50 d).
Proof. intros l d H. rewrite median_percentile. tauto. Qed.
Theorem C65_mean_std : forall l m s, l <> [] -> mean_of l m -> std_of l s ->
  (forall lo hi, Forall (fun x => lo <= x <= hi) l -> lo <= m <= hi) /\
  (s = 0 <-> Forall (fun x => x = m) l).
Proof.
  intros l m s Hl Hm Hs. split; [intros lo hi F; eapply mean_bounds; eauto|].
  rewrite (std_zero l s Hl Hs). split; [|eauto]. intros [y F].
  assert (y <= m <= y) by (eapply mean_bounds; eauto; eapply Forall_impl; [|exact F]; cbn; intros; lra).
  eapply Forall_impl; [|exact F]. cbn. intros. lra.
Qed.
(** The order of the samples does not matter. *)
Theorem C65_order : forall ty cells values cells' values' qs percentiles st,
  length cells = length values -> length cells' = length values' ->
  Permutation (combine cells values) (combine cells' values') ->
  get_tessellation_statistics cells values qs percentiles ty = Ok st ->
  get_tessellation_statistics cells' values' qs percentiles ty = Ok st.
Proof.
  intros ty c v c' v' qs ps st L L' P H. unfold get_tessellation_statistics, interpolate_tessellations, interpolate_rows in *.
  apply rbind_ok in H. destruct H as (rows & Er & H). apply rbind_ok in Er. destruct Er as (rs & Ers & Er). injection Er as <-.
  destruct (rmap_perm _ _ _ _ P Ers) as (rs' & Ers' & P').
  rewrite Ers'. cbn [rbind]. apply rmap_ok in Ers, Ers'.
  assert (length rs = length v) by (rewrite <- (Forall2_length Ers), combine_length; lia).
  assert (length rs' = length v') by (rewrite <- (Forall2_length Ers'), combine_length; lia).
  replace (length v - length rs)%nat with O in H by lia. replace (length v' - length rs')%nat with O by lia.
  cbn [repeat] in *. rewrite app_nil_r in *. eapply statistics_perm; eauto.
Qed.
(** Percentiles outside [0, 100] are refused. *)
Theorem C65_refused : forall l q, q < 0 \/ 100 < q -> np_percentile l q = Raise EValue.
Proof.
  intros l q H. unfold np_percentile. destruct H as [H|H].
  - now rewrite (proj2 (Rltb_true q 0) H).
  - rewrite (proj2 (Rltb_true 100 q) H). now rewrite orb_true_r.
Qed.
(** With fewer lists of sites than lists of values the missing samples count as zeros. *)
Theorem C65_short_refuted : exists cells values,
  Forall (Forall (fun v => 5 <= v)) values /\
  exists st, get_tessellation_statistics cells values [1] [] Nuclei = Ok st /\ ts_mean st = [5 / 2].
Proof.
  exists [[1]], [[5]; [7]]. split; [repeat constructor; lra|].
  unfold get_tessellation_statistics.
  assert (E : interpolate_tessellations [[1]] [[5]; [7]] [1] Nuclei = Ok [[5]; [0]]).
  { unfold interpolate_tessellations, interpolate_rows. cbn [combine rmap rbind fst snd interpolate_tessellation].
    unfold interpolate_nearest_1d, interp_nearest. cbn. rewrite Rleb_t by lra. reflexivity. }
  rewrite E. cbn [rbind]. destruct (np_median_spec [5; 0]) as (d & Ed & _); [easy|].
  eexists. split; [unfold statistics; cbn -[np_mean np_std np_median]; rewrite Ed; reflexivity|].
  cbn [ts_mean]. unfold np_mean. cbn. f_equal. lra.
Qed.

(** * C66 *)
(** The mass of every cell is the fraction of the pairs of position and value found in it, and
    the masses add up to one. *)
Theorem C66_density_partial : forall ty cells values qs vb d ex ey,
  Forall2 (tessellation ty) cells values -> queries ty qs ->
  get_tessellation_density cells values (PArr qs) vb ty = Ok (d, ex, ey) ->
  exists rows total,
    Forall2 (fun cv row => Forall2 (cell_value ty (fst cv) (snd cv)) qs row) (combine cells values) rows /\
    (0 < total)%nat /\
    counts (fun xy => exists i j, in_bin ex i (fst xy) /\ in_bin ey j (snd xy))
      (flat_map (fun row => combine qs row) rows) total /\
    (forall i j r v wx wy, nth_error d i = Some r -> nth_error r j = Some v ->
      bin_width ex i wx -> bin_width ey j wy ->
      0 < wx /\ 0 < wy /\
      exists c, counts (fun xy => in_bin ex i (fst xy) /\ in_bin ey j (snd xy))
                  (flat_map (fun row => combine qs row) rows) c /\
        v * wx * wy = INR c / INR total) /\
    forall wx wy, (forall i, (i < length ex - 1)%nat -> bin_width ex i (wx i)) ->
      (forall j, (j < length ey - 1)%nat -> bin_width ey j (wy j)) ->
      sum (fun i => sum (fun j => SpecUtils1D.entry d i j * wx i * wy j) (length ey - 1)) (length ex - 1) = 1.
Proof.
  intros ty cells values qs vb d ex ey F Hq H. unfold get_tessellation_density in H. cbn [density_positions rbind] in H.
  unfold interpolate_tessellations in H.
  destruct (rows_spec (fun c v => interpolate_tessellation c v qs ty)
    (fun c v row => Forall2 (cell_value ty c v) qs row) cells values (length qs)) as (rows & Er & Fr & Lr).
  { eapply Forall2_impl; [|exact F]. intros c v Ht. now apply interp_value. }
  rewrite Er in H. cbn [rbind] in H.
  destruct (histogram_spec _ _ _ _ _ _ H) as (_ & _ & _ & _ & _ & _ & total & T & Ht & Hc).
  exists rows, total. split; auto. split; auto. split; auto. split; [exact Hc|].
  intros wx wy Hx Hy. eapply histogram_total; eauto.
Qed.
(** With numbers of bins: bin i of the positions holds the values at position i, so every row of
    the density is the histogram of the values of the samples there, with mass 1/n. *)
Theorem C66_default : forall ty cells values n m ub,
  cells <> [] -> Forall2 (tessellation ty) cells values -> deepest ty cells ub -> 0 < ub ->
  (2 <= n)%nat -> (1 <= m)%nat ->
  exists d ex ey, get_tessellation_density cells values (PNum n) (NBins m) ty = Ok (d, ex, ey) /\
    length d = n /\ Forall (fun r => length r = m) d /\ length ex = S n /\ length ey = S m /\
    strictly_sortedR ey /\
    (forall i, (i <= n)%nat -> nth_error ex i = Some (INR i * (ub / INR n))) /\
    forall i, (i < n)%nat -> exists xs,
      Forall2 (fun cv x => cell_value ty (fst cv) (snd cv) (INR i * (ub / INR (n - 1))) x)
        (combine cells values) xs /\
      Forall (fun x => exists j, (j < m)%nat /\ in_bin ey j x) xs /\
      forall j r v wx wy, nth_error d i = Some r -> nth_error r j = Some v ->
        bin_width ex i wx -> bin_width ey j wy ->
        exists c, counts (in_bin ey j) xs c /\ v * wx * wy = INR c / (INR (length xs) * INR n).
Proof.
  intros ty cells values n m ub Hne F Hd Hub Hn Hm. unfold get_tessellation_density.
  rewrite (positions_default _ _ _ _ _ Hne F Hd Hub). cbn [rbind]. set (qs := linspace 0 ub n).
  assert (Hq : queries ty qs).
  { destruct ty; cbn; auto. split; [now apply strict_sorted, linspace_strict|]. apply Forall_forall. intros q Hq.
    apply In_nth_error in Hq. destruct Hq as [k Hk]. apply linspace_nth in Hk. destruct Hk as [K ->].
    assert (0 < INR (n - 1)) by (apply lt_0_INR; lia). assert (0 <= INR k * ((ub - 0) / INR (n - 1))); [|lra].
    apply Rmult_le_pos; [apply pos_INR|]. left. apply Rdiv_lt_0_compat; lra. }
  unfold interpolate_tessellations.
  destruct (rows_spec (fun c v => interpolate_tessellation c v qs ty)
    (fun c v row => Forall2 (cell_value ty c v) qs row) cells values (length qs)) as (rows & Er & Fr & Lr).
  { eapply Forall2_impl; [|exact F]. intros c v Ht. now apply interp_value. }
  rewrite Er. cbn [rbind]. set (pts := flat_map (fun row => combine qs row) rows).
  assert (Lq : length qs = n) by apply linspace_length.
  assert (Frow : Forall (fun r => length r = n) rows).
  { apply Forall_forall. intros r Hr. apply In_nth_error in Hr. destruct Hr as [k Hk].
    destruct (Forall2_nth_r _ _ _ _ _ Fr Hk) as (cv & _ & Hcv). rewrite <- Lq. symmetry. exact (Forall2_length Hcv). }
  assert (Rne : rows <> []).
  { intros ->. pose proof (Forall2_length F). destruct cells; [easy|]. cbn in *. lia. }
  assert (Lp : length pts = (length rows * n)%nat).
  { unfold pts. clear - Frow Lq. induction Frow as [|r rows Hr _ IH]; auto. cbn [flat_map]. rewrite app_length, IH, combine_length, Hr, Lq. cbn. lia. }
  assert (Fst : forall x, In x (map fst pts) <-> In x qs).
  { intros x. unfold pts. split.
    - intros Hx. apply in_map_iff in Hx. destruct Hx as ([a b] & <- & Hin). apply in_flat_map in Hin. destruct Hin as (r & _ & Hin).
      apply in_combine_l in Hin. exact Hin.
    - intros Hx. apply In_nth_error in Hx. destruct Hx as [k Hk]. destruct rows as [|r rows]; [easy|].
      assert (length r = n) by now inversion Frow. assert (k < n)%nat by (rewrite <- Lq; apply nth_error_Some; congruence).
      destruct (nth_error r k) as [y|] eqn:Ey; [|apply nth_error_None in Ey; lia].
      apply in_map_iff. exists (x, y). split; auto. apply in_flat_map. exists r. split; [now left|].
      apply (nth_error_In _ k). now rewrite nth_combine, Hk, Ey. }
  unfold histogram2d at 1. rewrite Lq.
  destruct (edges_number n (map fst pts) ltac:(lia)) as (lo & hi & Hlh & Ex & Rx & Dx). 
  assert (Pn : 0 < INR (n - 1)) by (apply lt_0_INR; lia).
  assert (Q0 : nth_error qs 0 = Some 0) by (apply linspace_nth; split; [lia|]; cbn [INR]; lra).
  assert (Q1 : nth_error qs (n - 1) = Some ub) by (apply linspace_nth; split; [lia|]; field; lra).
  assert (Rq : forall x, In x qs -> 0 <= x <= ub).
  { intros x Hx. apply In_nth_error in Hx. destruct Hx as [k Hk].
    assert (S1 : sortedR qs) by (now apply strict_sorted, linspace_strict).
    assert (k < n)%nat by (rewrite <- Lq; apply nth_error_Some; congruence).
    split; [apply (S1 O k); auto; lia|apply (S1 k (n - 1)%nat); auto; lia]. }
  destruct Dx as [Dlo Dhi].
  { exists 0, ub. rewrite !Fst. split; [eapply nth_error_In; eauto|]. split; [eapply nth_error_In; eauto|lra]. }
  assert (lo = 0).
  { apply Fst in Dlo. apply Rq in Dlo. assert (In 0 (map fst pts)) by (rewrite Fst; eapply nth_error_In; eauto).
    apply Rx in H. lra. }
  assert (hi = ub).
  { apply Fst in Dhi. apply Rq in Dhi. assert (In ub (map fst pts)) by (rewrite Fst; eapply nth_error_In; eauto).
    apply Rx in H0. lra. }
  subst lo hi.
  destruct (edges_number m (map snd pts) Hm) as (ylo & yhi & Hy & Ey & Ry & _).
  (* the counts are not all zero *)
  set (ex := linspace 0 ub (S n)) in *. set (ey := linspace ylo yhi (S m)) in *.
  assert (Sx : strictly_sortedR ex) by now apply linspace_strict. assert (Sy : strictly_sortedR ey) by now apply linspace_strict.
  assert (All : forall xy, In xy pts -> exists i j, in_bin ex i (fst xy) /\ in_bin ey j (snd xy)).
  { intros [x y] Hin. destruct (linspace_bin 0 ub n x) as [i Hi]; auto; try lia.
    { apply Rq, Fst. apply in_map_iff. exists (x, y). auto. }
    destruct (linspace_bin ylo yhi m y) as [j Hj]; auto.
    { apply Ry. apply in_map_iff. exists (x, y). auto. }
    exists i, j. auto. }
  assert (Tot : forall t, counts (fun xy => exists i j, in_bin ex i (fst xy) /\ in_bin ey j (snd xy)) pts t -> t = length pts).
  { clear - All. intros t Ht. induction Ht as [|a l k Ha _ IH|a l k Ha _ IH]; auto.
    - cbn. rewrite IH; auto. intros; apply All; now right.
    - exfalso. apply Ha, All. now left. }
  assert (Hist : exists d, histogram2d pts (NBins n) (NBins m) = Ok (d, ex, ey)).
  { unfold histogram2d. rewrite Ex, Ey. cbn [rbind]. rewrite (total_count ex ey pts _ _ (widths_length ex) (widths_length ey)).
    rewrite <- (total_filter ex ey pts (length pts) Sx Sy).
    2:{ clear - All. induction pts as [|p l IH]; [constructor|]. cbn. apply counts_yes; [apply All; now left|]. apply IH. intros; apply All; now right. }
    replace (length pts =? 0)%nat with false.
    2:{ symmetry. apply Nat.eqb_neq. rewrite Lp. destruct rows; [easy|]. cbn. lia. }
    cbn [orb]. destruct (existsb _ (widths ex ++ widths ey)) eqn:Ew; [|eauto]. exfalso.
    apply existsb_exists in Ew. destruct Ew as (w & Hw & W0). apply Reqb_true in W0. subst w.
    apply in_app_or in Hw. destruct Hw as [Hw|Hw]; apply In_nth_error in Hw; destruct Hw as [k Hk]; apply widths_nth in Hk;
      destruct Hk as (a & b & Ha & Hb & E0).
    - pose proof (Sx k (S k) a b ltac:(lia) Ha Hb). lra.
    - pose proof (Sy k (S k) a b ltac:(lia) Ha Hb). lra. }
  destruct Hist as [d Hist]. exists d, ex, ey. split; [unfold histogram2d in Hist; exact Hist|].
  destruct (histogram_spec _ _ _ _ _ _ Hist) as (_ & _ & _ & _ & Ld & Fd & total & Tp & Ht & Hc).
  assert (Lx : length ex = S n) by apply linspace_length. assert (Ly : length ey = S m) by apply linspace_length.
  rewrite Lx in Ld. rewrite Ly in Fd. replace (S n - 1)%nat with n in Ld by lia.
  split; auto. split; [eapply Forall_impl; [|exact Fd]; cbn; intros; lia|]. split; auto. split; auto. split; auto. split.
  { intros i Hi. apply linspace_nth. split; [lia|]. replace (S n - 1)%nat with n by lia. unfold Rdiv. ring. }
  intros i Hi.
  destruct (column_spec rows n i Frow Hi) as (xs & _ & Fx). exists xs.
  assert (Eq : nth_error qs i = Some (0 + INR i * ((ub - 0) / INR (n - 1)))) by (apply linspace_nth; auto).
  assert (Eq' : 0 + INR i * ((ub - 0) / INR (n - 1)) = INR i * (ub / INR (n - 1))) by (unfold Rdiv; ring).
  split; [|split].
  - rewrite <- Eq'. clear - Fr Fx Eq. revert xs Fx. induction Fr as [|cv r cvs rs Hr _ IH]; intros xs Fx; inversion Fx; subst; constructor; auto.
    destruct (Forall2_nth _ _ _ _ _ Hr Eq) as (x & Hx & Hv). congruence.
  - apply Forall_forall. intros x Hx. apply In_nth_error in Hx. destruct Hx as [k Hk].
    destruct (Forall2_nth_r _ _ _ _ _ Fx Hk) as (r & Hr & Hri).
    destruct (All (0 + INR i * ((ub - 0) / INR (n - 1)), x)) as (i' & j & _ & Hj).
    { apply in_flat_map. exists r. split; [eapply nth_error_In; eauto|]. apply (nth_error_In _ i). now rewrite nth_combine, Eq, Hri. }
    exists j. split; auto. apply bin_lt in Hj. lia.
  - intros j r v wx wy Hr Hv Hwx Hwy. destruct (Hc i j r v wx wy Hr Hv Hwx Hwy) as (_ & _ & c & Cc & E).
    exists c. split.
    + eapply (column_counts (in_bin ex i) (in_bin ey j) qs i); eauto.
      * now apply frac_bin.
      * intros k a Hk Nk. apply linspace_nth in Hk. destruct Hk as [Kn ->]. intros Hb. apply frac_bin in Hb; auto.
    + rewrite E. f_equal. rewrite (Tot _ Ht), Lp, mult_INR, (Forall2_length Fx). reflexivity.
Qed.

Theorem C66_row_mass : forall ty cells values n m ub,
  cells <> [] -> Forall2 (tessellation ty) cells values -> deepest ty cells ub -> 0 < ub ->
  (2 <= n)%nat -> (1 <= m)%nat ->
  exists d ex ey, get_tessellation_density cells values (PNum n) (NBins m) ty = Ok (d, ex, ey) /\
    forall i wx wy, (i < n)%nat -> bin_width ex i wx -> (forall j, (j < m)%nat -> bin_width ey j (wy j)) ->
      sum (fun j => SpecUtils1D.entry d i j * wx * wy j) m = 1 / INR n.
Proof.
  intros ty cells values n m ub Hne F Hd Hub Hn Hm.
  destruct (C66_default ty cells values n m ub Hne F Hd Hub Hn Hm)
    as (d & ex & ey & E & Ld & Fd & Lx & Ly & Sy & _ & H).
  exists d, ex, ey. split; auto. intros i wx wy Hi Hwx Hwy. destruct (H i Hi) as (xs & Fx & Fb & Hc).
  assert (Lxs : length xs <> O).
  { rewrite <- (Forall2_length Fx), combine_length, <- (Forall2_length F). destruct cells; [easy|]. cbn. lia. }
  rewrite (sum_eq _ (fun j => INR (length (filter (fun x => match bin_of ey x with Some b => (b =? j)%nat | None => false end) xs))
    / (INR (length xs) * INR n))).
  2:{ intros j Hj. destruct (entry_nth d i j _ _ Ld Fd Hi Hj) as (r & Hr & Hv).
      destruct (Hc j r _ _ _ Hr Hv Hwx (Hwy j Hj)) as (c & Cc & ->). do 2 f_equal.
      eapply counts_fun; [exact Cc|]. apply counts_filter. intros x. rewrite <- (bin_of_spec ey x j Sy).
      destruct (bin_of ey x) as [b|]; [|split; discriminate]. rewrite Nat.eqb_eq. split; congruence. }
  rewrite sum_scale, sum_nsum.
  replace (nsum _) with (length xs).
  { field. split; apply not_0_INR; lia. }
  clear - Fb Sy. induction Fb as [|x xs (b & Hb & Hx) _ IH].
  - symmetry. now apply nsum_zero.
  - rewrite (nsum_map_ext _ (fun j => (b2n (match bin_of ey x with Some b => (b =? j)%nat | None => false end)
      + length (filter (fun x => match bin_of ey x with Some b => (b =? j)%nat | None => false end) xs))%nat)).
    2:{ intros j _. apply filter_cons_len. }
    rewrite nsum_map_add, <- IH. apply bin_of_spec in Hx; auto. rewrite Hx.
    rewrite (nsum_delta _ 0 m b) by (try lia; intros j Hj; replace (b =? j)%nat with false by (symmetry; apply Nat.eqb_neq; lia); reflexivity).
    rewrite Nat.eqb_refl. reflexivity.
Qed.
(** Positions start at zero: with sites at negative positions most of the tessellation is left out.
    Here a site and its value are in no bin. *)
Theorem C66_negative_sites_refuted : exists cells values d ex ey,
  Forall2 (tessellation Nuclei) cells values /\
  get_tessellation_density cells values (PNum 2) (NBins 1) Nuclei = Ok (d, ex, ey) /\
  exists c v x y k, In c cells /\ In v values /\ nth_error c k = Some x /\ nth_error v k = Some y /\
    (forall i, ~ in_bin ex i x) /\ (forall j, ~ in_bin ey j y).
Proof.
  exists [[-2; -1]], [[5; 7]].
  assert (E1 : density_positions [[-2; -1]] (PNum 2) Nuclei = Ok [0; -1]).
  { unfold density_positions. cbn. unfold Rmax. destruct (Rle_dec (-2) (-1)); [|lra].
    unfold linspace. cbn. do 2 f_equal; [lra|]. f_equal. lra. }
  assert (E2 : interpolate_tessellations [[-2; -1]] [[5; 7]] [0; -1] Nuclei = Ok [[7; 7]]).
  { unfold interpolate_tessellations, interpolate_rows. cbn [combine rmap rbind fst snd interpolate_tessellation].
    unfold interpolate_nearest_1d, interp_nearest. cbn. rewrite (Rleb_f 0 (-2)), (Rleb_t (-1) 0), (Rleb_f (-1) (-2)), (Rleb_t (-1) (-1)) by lra. reflexivity. }
  unfold get_tessellation_density. rewrite E1. cbn [rbind]. rewrite E2. cbn [rbind].
  set (pts := flat_map _ _). destruct (histogram_exists pts 2 1) as (lo & hi & ylo & yhi & d & Eh & Hlh & Hy & Hx1 & Hy1); try lia; [easy|].
  exists d, (linspace lo hi 3), (linspace ylo yhi 2). split; [|split; [exact Eh|]].
  { tess. }
  assert (Ex : edges_of (NBins 2) (map fst pts) = Ok (linspace (-1) 0 3)).
  { cbn. unfold Rmin, Rmax. destruct (Rle_dec 0 (-1)); [lra|]. rewrite Reqb_f by lra. reflexivity. }
  assert (Ey : edges_of (NBins 1) (map snd pts) = Ok (linspace (7 - 1/2) (7 + 1/2) 2)).
  { cbn. unfold Rmin, Rmax. destruct (Rle_dec 7 7); [|lra]. rewrite Reqb_t by lra. reflexivity. }
  rewrite Ex in Hx1. rewrite Ey in Hy1.
  exists [-2; -1], [5; 7], (-2), 5, O. split; [now left|]. split; [now left|]. split; auto. split; auto. split.
  - intros i (a & b & Ha & _ & Hle & _). apply linspace_nth in Ha. destruct Ha as [_ ->].
    pose proof (f_equal (fun r => match r with Ok l => nth 0 l 0 | _ => 0 end) Hx1) as H0. cbn in H0.
    assert (0 <= INR i * ((hi - lo) / INR (3 - 1))); [|cbn in *; lra].
    apply Rmult_le_pos; [apply pos_INR|]. apply Rmult_le_pos; [lra|]. cbn. lra.
  - intros i (a & b & Ha & _ & Hle & _). apply linspace_nth in Ha. destruct Ha as [_ ->].
    pose proof (f_equal (fun r => match r with Ok l => nth 0 l 0 | _ => 0 end) Hy1) as H0. cbn in H0.
    assert (0 <= INR i * ((yhi - ylo) / INR (2 - 1))); [|cbn in *; lra].
    apply Rmult_le_pos; [apply pos_INR|]. apply Rmult_le_pos; [lra|]. cbn. lra.
Qed.

(** Cases *)
Example C65_case :
  Forall2 (tessellation Nuclei) [[1; 3]; [2]] [[10; 20]; [14]] /\
  get_tessellation_statistics [[1; 3]; [2]] [[10; 20]; [14]] [1] [25] Nuclei
  = Ok (mkStats [12] [12] [2] [[11]]).
Proof.
  split; [tess|].
  unfold get_tessellation_statistics.
  assert (E : interpolate_tessellations [[1; 3]; [2]] [[10; 20]; [14]] [1] Nuclei = Ok [[10]; [14]]).
  { unfold interpolate_tessellations, interpolate_rows. cbn [combine rmap rbind fst snd interpolate_tessellation].
    unfold interpolate_nearest_1d, interp_nearest. cbn. rewrite !Rleb_t by lra. reflexivity. }
  rewrite E. cbn [rbind]. unfold statistics. cbn -[np_mean np_std np_median np_percentile].
  assert (Es : rsort [10; 14] = [10; 14]) by (cbn; rewrite Rleb_t by lra; reflexivity).
  unfold np_median. rewrite Es. cbn -[np_mean np_std np_percentile].
  unfold np_percentile. rewrite Es, !Rltb_f by lra.
  replace (Int_part _) with 0%Z; [|unfold Int_part; rewrite <- (tech_up _ 1) by (cbn; lra); reflexivity].
  cbn -[np_mean np_std]. f_equal. f_equal.
  - f_equal. unfold np_mean. cbn. lra.
  - f_equal. lra.
  - f_equal. unfold np_std. replace (np_mean [10; 14]) with 12 by (unfold np_mean; cbn; lra).
    unfold np_mean. cbn -[sqrt]. replace (_ / _) with (2 * 2) by lra. apply sqrt_square. lra.
  - do 2 f_equal. lra.
Qed.
Example C66_case :
  Forall2 (tessellation Nuclei) [[1; 3]; [2]] [[10; 20]; [14]] /\ deepest Nuclei [[1; 3]; [2]] 3 /\
  Forall2 (tessellation Extents) [[1; 3]; [2]] [[10; 20]; [14]] /\ deepest Extents [[1; 3]; [2]] 4.
Proof.
  split; [tess|]. split.
  { split; [exists [1; 3]; cbn; auto|]. intros c x [<-|[<-|[]]]; cbn; intros H; repeat destruct H as [<-|H]; try lra; easy. }
  split; [tess|].
  split; [exists [1; 3]; cbn; split; [auto|lra]|]. intros c [<-|[<-|[]]]; cbn; lra.
Qed.
