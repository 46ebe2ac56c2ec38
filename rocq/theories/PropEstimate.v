(** C90: averages over the saved samples of an inversion for several numbers with uniform priors are estimates of
    posterior means: from every start and for every schedule, the mean over the draws of the squared error is at
    most a constant of the chain over the number of samples. *)
From Coquelicot Require Import Coquelicot.
From Verif Require Import Base ModelPrior ModelState ModelSpace ModelPerturb ModelChain ModelLikelihood SpecChain SpecWalk SpecInvariance SpecMany SpecEstimate.
From Verif Require Import ProofChain ProofChainB ProofBox ProofInvariance ProofConverge ProofMany ProofRanges ProofEstimate ProofEstimateMany PropMany.
From Verif Require ExampleWalk PropState PropMoves.
Local Open Scope string_scope.
Local Open Scope list_scope.
Local Open Scope R_scope.

(** What one iteration draws: a deviate per number and a uniform number; its mean. *)
Definition one_draw (ns : list number) (z : list R * R) : Prop := length (fst z) = length ns /\ 0 < snd z < 1.
Definition one_mean (phi : R -> R) (ns : list number) (k : list R * R -> R) (m : R) : Prop :=
  mean_many phi (length ns) (fun zs u => k (zs, u)) m.
Definition drawn (next : list R -> list R -> R -> list R) (xs : list R) (z : list R * R) : list R := next xs (fst z) (snd z).

Lemma visited_same ns T ll L kept save next : named ns -> ns <> [] -> evaluates ns T ll L kept ->
  follows (inversion_env [many_space ns] ll save) ns T kept next ->
  forall ds xs, in_ranges (ranges ns) xs -> Forall (one_draw ns) ds ->
  visited (fun x z => roam (ranges ns) (map nm_sd ns) T L x (fst z) (snd z)) xs ds = visited (drawn next) xs ds.
Proof.
  intros Hn Hne Hev Hnext. induction ds as [|z ds IH]; intros xs Hx Hd; [reflexivity|]. inversion Hd as [|? ? [Hz Hu] Hd']; subst. cbn [visited].
  assert (E : drawn next xs z = roam (ranges ns) (map nm_sd ns) T L xs (fst z) (snd z)) by (eapply follows_roam; eauto).
  rewrite E. f_equal. apply IH; auto. apply roam_inside; auto; [apply sds_len|now rewrite ranges_len].
Qed.
(** [v / Z] is the posterior mean of [g], at the temperature [T]. *)
Theorem C90_estimates ns T ll L kept save F phi next :
  named ns -> ns <> [] -> ranged ns -> 0 < T -> normal_cdf F -> (forall z, derivable_pt_lim F z (phi z)) ->
  cont_ranges (ranges ns) L -> evaluates ns T ll L kept ->
  follows (inversion_env [many_space ns] ll save) ns T kept next ->
  exists Z C, 0 < Z /\ ranges_integral (ranges ns) (fun xs => exp (L xs / T)) Z /\ 0 <= C /\
    forall g B, cont_ranges (ranges ns) g -> (forall xs, in_ranges (ranges ns) xs -> Rabs (g xs) <= B) ->
    exists v, ranges_integral (ranges ns) (fun xs => exp (L xs / T) * g xs) v /\
      forall burnin every n xs, in_ranges (ranges ns) xs -> (0 < every)%nat -> (0 < (n - burnin) / every)%nat ->
      exists m, mean_rounds (one_mean phi ns) (one_draw ns) n
          (fun ds => (average (map g (scheduled burnin every 0 (visited (drawn next) xs ds))) - v / Z) ^ 2) m /\
        m <= C * (B * B) / INR ((n - burnin) / every).
Proof.
  intros Hn Hne Hr HT HF Hphi HL Hev Hnext.
  pose proof (ranged_proper ns Hr) as Hp. pose proof (ranged_sds ns Hr) as Hs. pose proof (sds_len ns) as Hl.
  destruct (roams_estimate (ranges ns) Hp (map nm_sd ns) Hl Hs T HT F phi HF Hphi L HL) as (C & HC & H).
  exists (norm (ranges ns) T L), C. split; [exact (norm_pos (ranges ns) Hp (map nm_sd ns) Hl Hs T L HL)|].
  split; [exact (norm_is (ranges ns) Hp (map nm_sd ns) Hl Hs T L HL)|]. split; auto.
  intros g B Hg HB. exists (level (ranges ns) T L g). split; [exact (level_is (ranges ns) Hp (map nm_sd ns) Hl Hs T L HL g Hg)|].
  intros burnin every n xs Hx He HN. destruct (H g B Hg HB burnin every n xs Hx He HN) as (m & Hm & Hle). exists m. split; auto.
  assert (E1 : one (ranges ns) phi = one_mean phi ns) by (unfold one, one_mean; now rewrite ranges_len).
  assert (E2 : draws (ranges ns) = one_draw ns) by (unfold draws, one_draw; now rewrite ranges_len).
  rewrite E1, E2 in Hm. eapply mean_rounds_ext; [|exact Hm]. intros ds _ Hd. cbn beta.
  now rewrite (visited_same ns T ll L kept save next Hn Hne Hev Hnext ds xs Hx Hd).
Qed.
(** The mean is determined. *)
Theorem C90_mean_unique phi ns n : forall h m m',
  mean_rounds (one_mean phi ns) (one_draw ns) n h m -> mean_rounds (one_mean phi ns) (one_draw ns) n h m' -> m = m'.
Proof.
  induction n as [|n IH]; intros h m m'; cbn; [congruence|]. intros (k & Hk & Hm) (k' & Hk' & Hm').
  apply (mean_many_unique phi (length ns) (fun zs u => k (zs, u)) (fun zs u => k' (zs, u))); auto.
  intros zs u Hz Hu. assert (Hd : one_draw ns (zs, u)) by now split. eapply IH; [now apply Hk|now apply Hk'].
Qed.

(** * The saved samples *)
(** Hooks that do nothing (the samplers' defaults). *)
Definition nothing : hook state ovalue := fun c => ret (c, None).
Lemma nothing_records : leaves_records (Some nothing).
Proof. intros c tr c' o tr' H. cbn in H. unfold nothing, ret in H. injection H as <- <- <-. auto 10. Qed.
(** The numbers drawn in one iteration. *)
Definition tape (x : R * R * (list R * R)) : trace :=
  DU (fst (fst x)) :: DInt 0 :: DU (snd (fst x)) :: DInt 0 :: map DZ (fst (snd x)) ++ [DU (snd (snd x))].
Definition tape_ok (ns : list number) (x : R * R * (list R * R)) : Prop :=
  0 <= fst (fst x) < 1 /\ 0 <= snd (fst x) < 1 /\ one_draw ns (snd x).

(** The chain is at [xs], with the temperature [T], before an iteration: as [stands_at], also when nothing has been run yet. *)
Definition ready (ns : list number) (T : R) (kept : state -> Prop) (c : chain state ovalue) (xs : list R) : Prop :=
  (holds ns (c_cur c) xs /\ kept (c_cur c)) /\ c_temp c = T /\ exists d, c_saved c = SDict d.
Lemma stands_ready ns T kept c xs : stands_at ns T kept c xs -> ready ns T kept c xs.
Proof. intros (A & B & _ & D). split; auto. Qed.
Section Saved.
Context (ns : list number) (Hns : named ns) (Hne : ns <> []) (ll : loglike) (L : list R -> R) (kept : state -> Prop) (save : bool).
Context (Hev : evaluates ns 1 ll L kept).
Let E := inversion_env [many_space ns] ll save.
Context (next : list R -> list R -> R -> list R) (Hnext : follows E ns 1 kept next).
Lemma next_inside xs z : in_ranges (ranges ns) xs -> one_draw ns z -> in_ranges (ranges ns) (drawn next xs z).
Proof.
  intros Hx [Hz Hu]. unfold drawn. rewrite (follows_roam ns Hns Hne 1 ll L kept save Hev next Hnext xs (fst z) (snd z)) by auto.
  apply roam_inside; auto; [apply sds_len|now rewrite ranges_len].
Qed.
Lemma runs sc : sc_verbose sc = false -> (0 < sc_every sc)%nat -> forall ts c xs tr, Forall (tape_ok ns) ts -> ready ns 1 kept c xs -> in_ranges (ranges ns) xs ->
  exists c' ces, advance E (length ts) sc (Some nothing) (Some nothing) c (concat (map tape ts) ++ tr) = Ret (c', None) tr /\
    rounds E sc (Some nothing) (Some nothing) c (concat (map tape ts) ++ tr) ces c' tr /\
    Forall2 (stands_at ns 1 kept) ces (visited (drawn next) xs (map snd ts)).
Proof.
  intros Hv He. induction ts as [|x ts IH]; intros c xs tr Ht Hc Hx.
  - exists c, []. cbn. repeat split; constructor.
  - inversion Ht as [|? ? (Hw & Hw' & Hd) Ht']; subst. cbn [map concat length advance]. rewrite <- app_assoc.
    assert (Hf : exists flag, save_flag sc (S (c_nprop_tot c)) = Ok flag).
    { unfold save_flag. destruct (_ <=? _)%nat; [eauto|]. destruct (Nat.eqb_spec (sc_every sc) 0); [lia|eauto]. }
    destruct Hf as (flag & Hf).
    assert (Hc1 : stands_at ns 1 kept (set_flag flag c) xs).
    { destruct Hc as (H1 & H2 & H4). split; [exact H1|]. split; [exact H2|]. split; [now exists flag|exact H4]. }
    destruct Hd as [Hz Hu].
    destruct (Hnext (set_flag flag c) xs (fst (fst x)) (snd (fst x)) (fst (snd x)) (snd (snd x)) (concat (map tape ts) ++ tr) Hc1 Hx Hw Hw' Hz Hu) as (c1 & Hi & Hc1').
    assert (Et : tape x ++ concat (map tape ts) ++ tr = DU (fst (fst x)) :: DInt 0 :: DU (snd (fst x)) :: DInt 0 :: map DZ (fst (snd x)) ++ DU (snd (snd x)) :: concat (map tape ts) ++ tr).
    { unfold tape at 1. cbn [app]. rewrite <- app_assoc. reflexivity. }
    rewrite Et.
    assert (Hd : one_draw ns (snd x)) by now split.
    destruct (IH c1 (drawn next xs (snd x)) tr Ht' (stands_ready _ _ _ _ _ Hc1') (next_inside xs (snd x) Hx Hd)) as (c' & ces & Ha & Hr & Hf2).
    exists c', (c1 :: ces). split; [|split].
    + unfold bind, advance_one. rewrite Hf. cbn [call_hook]. unfold bind, nothing at 1, ret at 1. rewrite Hi. unfold nothing, ret. rewrite Hv. exact Ha.
    + econstructor; [|exact Hr]. exists flag, (set_flag flag c). do 2 eexists. split; [exact Hf|]. split; [reflexivity|]. split; [exact Hi|reflexivity].
    + cbn [map visited]. constructor; auto.
Qed.
Lemma keys_nodup xs : length xs = length ns -> NoDup (dkeys (values ns xs)).
Proof. intros H. unfold dkeys. rewrite (values_keys ns xs H). apply Hns. Qed.
Lemma in_values xs i a : length xs = length ns -> nth_error ns i = Some a -> In (nm_name a, Arr [nth i xs 0]) (values ns xs).
Proof.
  clear. revert xs i. induction ns as [|b ns' IH]; intros [|x xs] [|i] Hl Hi; cbn in *; try discriminate.
  - injection Hi as ->. now left.
  - right. apply IH; auto.
Qed.
Lemma saved_value s xs i a : holds ns s xs -> nth_error ns i = Some a -> contains "dpred" (nm_name a) = false ->
  sample E ("m." ++ nm_name a)%string s = [OArr (Arr [nth i xs 0])].
Proof.
  intros (Hl & (attrs & cache & Hs) & He) Hi Hd. unfold sample, sample_values.
  assert (Hok : nm_name a <> "discretization" /\ contains "n_dimensions" (nm_name a) = false).
  { destruct Hns as [_ H]. rewrite List.Forall_forall in H. apply H. eapply nth_error_In; eauto. }
  assert (E1 : fixed_entry E ("m." ++ nm_name a)%string = false).
  { unfold fixed_entry. change (contains "n_dimensions" ("m." ++ nm_name a)%string) with (contains "n_dimensions" (nm_name a)). now rewrite (proj2 Hok). }
  assert (E2 : contains "dpred" ("m." ++ nm_name a)%string = false) by exact Hd.
  rewrite E1, E2, Bool.andb_false_r, app_nil_r. cbn [e_ops E inversion_env chain_env state_opsB s_items].
  assert (Hnd : ~ In "n_dimensions" (dkeys (values ns xs))).
  { unfold dkeys. rewrite (values_keys ns xs Hl). intros Hin. apply in_map_iff in Hin. destruct Hin as (b & Hb & Hin).
    destruct Hns as [_ H]. rewrite List.Forall_forall in H. apply H in Hin. rewrite Hb in Hin. destruct Hin as [_ Hin]. discriminate. }
  destruct (PropState.todict_flat "m" (PS 1 (values ns xs) attrs cache) (keys_nodup xs Hl) Hnd) as [F G]. cbn [ps_vals ps_n] in F.
  assert (Ei : st_items s = ps_todict "m" (PS 1 (values ns xs) attrs cache)).
  { unfold st_items. rewrite Hs, He. cbn [fold_left fst snd]. unfold dupdate at 1. cbn [fold_left]. unfold dupdate.
    rewrite (PropState.fold_fresh fst snd) by exact G. cbn [app]. set (l := ps_todict _ _). clearbody l. clear. induction l as [|[k v] l IH]; cbn; congruence. }
  rewrite Ei. apply PropMoves.values_once; [exact G|]. rewrite F. right. apply in_map_iff. exists (nm_name a, Arr [nth i xs 0]). split; [reflexivity|].
  now apply in_values.
Qed.
Lemma sel_scheduled sc : (0 < sc_every sc)%nat -> forall ces ys sel i0, Forall2 (stands_at ns 1 kept) ces ys ->
  (forall j ce, nth_error ces j = Some ce -> c_nprop_tot ce = (i0 + S j)%nat) ->
  selects (sampled sc) ces sel -> Forall2 (stands_at ns 1 kept) sel (scheduled (sc_burnin sc) (sc_every sc) i0 ys).
Proof.
  intros He ces ys sel i0 H. revert sel i0. induction H as [|ce y ces ys Hy H IH]; intros sel i0 Hj Hs; [inversion Hs; constructor|].
  assert (H0 : c_nprop_tot ce = S i0) by (rewrite (Hj O ce eq_refl); lia).
  assert (Hj' : forall j ce', nth_error ces j = Some ce' -> c_nprop_tot ce' = (S i0 + S j)%nat) by (intros j ce' Hn; rewrite (Hj (S j) ce' Hn); lia).
  assert (Hb : ((sc_burnin sc <? S i0)%nat && ((S i0 - sc_burnin sc) mod sc_every sc =? 0)%nat) = true <-> sampled sc ce).
  { unfold sampled, on_schedule. rewrite H0. destruct Hy as (_ & Ht & _). rewrite Bool.andb_true_iff, Nat.ltb_lt, Nat.eqb_eq, Nat.mod_divide by lia.
    split; [intros [A [q Hq]]|intros [[A [q Hq]] _]]; split; auto; [split; auto|]; now exists q. }
  cbn [scheduled]. inversion Hs as [|? ? ? Hy' Hs'|? ? ? Hn' Hs']; subst; destruct (_ && _) eqn:Eb; try (constructor; auto); try (apply IH; auto).
  - exfalso. apply Hb in Hy'. discriminate.
  - exfalso. apply Hn'. now apply Hb.
Qed.
End Saved.

(** No key is stored twice. *)
Lemma append_nodup {A} k (v : A) d : NoDup (dkeys d) -> NoDup (dkeys (append_saved k v d)).
Proof. unfold append_saved. apply ProofInversion.dset_nodup. Qed.
Lemma items_nodup {St V} (E : env St V) its : forall d d' o, save_items E its d = (d', o) -> NoDup (dkeys d) -> NoDup (dkeys d').
Proof.
  induction its as [|[k v] its IH]; intros d d' o; cbn [save_items]; [now intros [= <- _]|].
  destruct (skip_key E k) as [[|]|x|]; try (now intros [= <- _]); [apply IH|]. intros H Hd. eapply IH; [exact H|]. now apply append_nodup.
Qed.
Lemma preds_nodup {V} (cs : list (string * V)) : forall d, NoDup (dkeys d) -> NoDup (dkeys (save_preds cs d)).
Proof. induction cs as [|[k v] cs IH]; intros d Hd; cbn [save_preds]; auto. apply IH. destruct (contains _ _); auto. now apply append_nodup. Qed.
Lemma rounds_nodup {St V} (E : env St V) sc b e : leaves_records b -> leaves_records e ->
  forall c tr ces c' tr', rounds E sc b e c tr ces c' tr' -> forall d d', c_saved c = SDict d -> c_saved c' = SDict d' -> NoDup (dkeys d) -> NoDup (dkeys d').
Proof.
  intros Hb He c tr ces c' tr' H. induction H as [|c tr ce c1 tr1 ces c' tr' Hr Hrs IH]; intros d d' Hd Hd' Hn; [congruence|].
  destruct (round_facts E _ _ _ _ _ _ _ _ Hb He Hr) as (F1 & F2 & F3 & F4 & F5 & F6 & F7).
  destruct (sampled_dec sc ce) as [Hs|Hs].
  - destruct (F6 (proj2 F5 Hs)) as (c2 & Hsv & Hc2 & Hs2). unfold save_state in Hsv. rewrite Hs2, Hd in Hsv.
    assert (Hex : exists d1, c_saved ce = SDict d1 /\ NoDup (dkeys d1)).
    { destruct (s_kind _ _); [| |discriminate]; (destruct (save_items E _ d) as [d1 [x|]] eqn:Ei; [discriminate|]; pose proof (items_nodup E _ _ _ _ Ei Hn) as Hn1;
        destruct (e_savedpred E); [destruct (s_cache _ _) as [cs|]; [|discriminate]|]; injection Hsv as <-; eexists; (split; [reflexivity|]); auto; now apply preds_nodup). }
    destruct Hex as (d1 & Hd1 & Hn1). eapply IH; [|exact Hd'|exact Hn1]. congruence.
  - rewrite <- F5 in Hs. eapply IH; [|exact Hd'|exact Hn]. rewrite F4, (F7 Hs). exact Hd.
Qed.
(** A run of the chain at temperature 1 saves, under the name of each number, its values at the scheduled states
    among those visited. *)
Theorem C90_saved ns ll L kept save next sc c xs ts tr d :
  named ns -> ns <> [] -> evaluates ns 1 ll L kept ->
  follows (inversion_env [many_space ns] ll save) ns 1 kept next ->
  sc_verbose sc = false -> (0 < sc_every sc)%nat ->
  ready ns 1 kept c xs -> in_ranges (ranges ns) xs -> c_saved c = SDict d -> Forall (tape_ok ns) ts ->
  exists c' d', advance (inversion_env [many_space ns] ll save) (length ts) sc (Some nothing) (Some nothing) c (concat (map tape ts) ++ tr) = Ret (c', None) tr /\
    c_saved c' = SDict d' /\ (NoDup (dkeys d) -> NoDup (dkeys d')) /\
    forall i a, nth_error ns i = Some a -> contains "dpred" (nm_name a) = false ->
      stored ("m." ++ nm_name a)%string d' = stored ("m." ++ nm_name a)%string d ++
        map (fun ys => OArr (Arr [nth i ys 0])) (scheduled (sc_burnin sc) (sc_every sc) (c_nprop_tot c) (visited (drawn next) xs (map snd ts))).
Proof.
  intros Hn Hne Hev Hnext Hv He Hc Hx Hd Ht.
  destruct (runs ns Hn Hne ll L kept save Hev next Hnext sc Hv He ts c xs tr Ht Hc Hx) as (c' & ces & Ha & Hr & Hf).
  destruct (rounds_dict _ sc _ _ nothing_records nothing_records _ _ _ _ _ Hr d Hd) as (sel & d' & Hs & Hd' & Hst).
  destruct (rounds_counts _ sc _ _ nothing_records nothing_records _ _ _ _ _ Hr) as (_ & _ & Hj).
  exists c', d'. split; [exact Ha|]. split; [exact Hd'|]. split; [exact (rounds_nodup _ sc _ _ nothing_records nothing_records _ _ _ _ _ Hr d d' Hd Hd')|]. intros i a Hi Hp. rewrite Hst. f_equal.
  pose proof (sel_scheduled ns kept sc He ces _ sel _ Hf Hj Hs) as Hsel.
  clear -Hsel Hn Hi Hp. induction Hsel as [|ce y sel ys Hy H IH]; [reflexivity|]. cbn [map concat]. rewrite IH.
  destruct Hy as ((Hh & _) & _). now rewrite (saved_value ns Hn ll save (c_cur ce) y i a Hh Hi Hp).
Qed.

(** * A case *)
(** The inversion of [C88_case] at temperature 1, started at (1, 0, 12): after one iteration, saved, the sample of "b" is 1/2;
    and the average of "b" over 100 samples, every fifth after a burn-in of 1000 iterations, has a squared error
    whose mean is at most a constant times 9/100. *)
Lemma case_holds : holds case_numbers (mkState [("m", EPS (PS 1 (values case_numbers [1; 0; 12]) [] []))] [] 1 [] []) [1; 0; 12].
Proof. split; [reflexivity|]. split; [|reflexivity]. now exists [], []. Qed.
Example C90_case : exists ll next F phi Z C,
  follows (inversion_env [many_space case_numbers] ll true) case_numbers 1 (fun _ => True) next /\
  normal_cdf F /\ (forall z, derivable_pt_lim F z (phi z)) /\
  (exists c c' d', ready case_numbers 1 (fun _ => True) c [1; 0; 12] /\
     advance (inversion_env [many_space case_numbers] ll true) 1 (Build_sched 0 1 false 1) (Some nothing) (Some nothing) c
       [DU 0; DInt 0; DU 0; DInt 0; DZ (-5); DZ 1; DZ 0; DU (/ 2)] = Ret (c', None) [] /\
     c_saved c' = SDict d' /\ stored "m.b" d' = [OArr (Arr [/ 2])]) /\
  exists v, ranges_integral (ranges case_numbers) (fun xs => exp (case_L xs / 1) * nth 1 xs 0) v /\
    exists m, mean_rounds (one_mean phi case_numbers) (one_draw case_numbers) 1500
      (fun ds => (average (map (fun ys => nth 1 ys 0) (scheduled 1000 5 0 (visited (drawn next) [1; 0; 12] ds))) - v / Z) ^ 2) m /\
    m <= C * (3 * 3) / INR 100.
Proof.
  destruct (loglike_init None None None (Some case_like)) as [ll|e|] eqn:El; try discriminate.
  assert (Hn : named case_numbers).
  { split; [|repeat constructor; try discriminate]. cbn. repeat constructor; cbn; intuition discriminate. }
  assert (Hne : case_numbers <> []) by discriminate.
  assert (Hr : ranged case_numbers) by (repeat constructor; cbn; lra).
  assert (Hev : evaluates case_numbers 1 ll case_L (fun _ => True)).
  { apply (C88_function case_numbers 1 case_like case_L ll); auto; [lra|]. intros s xs tr (Hl & (at_ & ca & Hs) & He) _.
    destruct xs as [|x [|y [|z [|]]]]; try discriminate. unfold case_like, st_get. rewrite Hs. reflexivity. }
  set (next := roam (ranges case_numbers) (map nm_sd case_numbers) 1 case_L).
  assert (Hnext : follows (inversion_env [many_space case_numbers] ll true) case_numbers 1 (fun _ => True) next).
  { intros c0 xs w w' zs u tr Hc0 Hb Hw Hw' Hz Hu. apply iterates; auto. }
  assert (Hx : in_ranges (ranges case_numbers) [1; 0; 12]) by (repeat constructor; cbn; lra).
  assert (Estep : next [1; 0; 12] [-5; 1; 0] (/ 2) = [/ 2; / 2; 12]).
  { unfold next, roam. cbn [map nm_sd case_numbers jump].
    replace (1 + -5 * / 10) with (/ 2) by field. replace (0 + 1 * / 2) with (/ 2) by field. replace (12 + 0 * 1) with 12 by ring. cbv zeta.
    rewrite (in_inr (ranges case_numbers) [/ 2; / 2; 12]) by (repeat constructor; cbn; lra).
    destruct (Rlt_dec _ _) as [|Hno]; auto. exfalso. apply Hno. unfold case_L. cbn [nth].
    apply Rlt_trans with 0; [|lra]. rewrite <- ln_1. apply ln_increasing; lra. }
  destruct ExampleWalk.normal_cdf_exists as (F & HF). destruct (nc_density F HF) as (c & Hc & Hd).
  destruct (C90_estimates case_numbers 1 ll case_L (fun _ => True) true F (fun z => c * bell z) next Hn Hne Hr ltac:(lra) HF Hd case_continuous Hev Hnext)
    as (Z & C & HZ & HI & HC & H).
  exists ll, next, F, (fun z => c * bell z), Z, C. split; [exact Hnext|]. split; [exact HF|]. split; [exact Hd|]. split.
  - set (c0 := mkChain (mkState [("m", EPS (PS 1 (values case_numbers [1; 0; 12]) [] []))] [] 1 [] []) 1 [] [] 0 0 [] (SDict []) None [] : chain state ovalue).
    assert (Hc0 : ready case_numbers 1 (fun _ => True) c0 [1; 0; 12]).
    { split; [split; [exact case_holds|exact I]|]. split; [reflexivity|]. now exists []. }
    destruct (C90_saved case_numbers ll case_L (fun _ => True) true next (Build_sched 0 1 false 1) c0 [1; 0; 12] [(0, 0, ([-5; 1; 0], / 2))] [] [] Hn Hne Hev Hnext
      eq_refl ltac:(cbn; lia) Hc0 Hx eq_refl) as (c' & d' & Ha & Hs & _ & Hst).
    { constructor; [|constructor]. unfold tape_ok, one_draw. cbn. repeat split; lra. }
    exists c0, c', d'. split; [exact Hc0|]. split; [exact Ha|]. split; [exact Hs|].
    pose proof (Hst 1%nat (mkNumber "b" (-1) 3 (/ 2)) eq_refl eq_refl) as Hb. cbn [nm_name] in Hb. change ("m." ++ "b")%string with "m.b" in Hb. rewrite Hb.
    cbn [map snd visited]. change (drawn next [1; 0; 12] ([-5; 1; 0], / 2)) with (next [1; 0; 12] [-5; 1; 0] (/ 2)). rewrite Estep. reflexivity.
  - destruct (H (fun ys => nth 1 ys 0) 3) as (v & Hv & Hm).
    + intros eps He. exists eps. split; auto. intros xs ys _ _ Hnear. destruct Hnear as [|x y xs ys Hxy Hnear]; [cbn; rewrite Rminus_0_r, Rabs_R0; lra|].
      destruct Hnear as [|x' y' xs ys Hxy' Hnear]; [cbn; rewrite Rminus_0_r, Rabs_R0; lra|]. exact Hxy'.
    + intros xs Hxs. inversion Hxs as [|? x ? xs' _ H1]; subst. inversion H1 as [|? y ? ys' Hy _]; subst. cbn in *. apply Rabs_le. lra.
    + exists v. split; [exact Hv|]. exact (Hm 1000%nat 5%nat 1500%nat [1; 0; 12] Hx ltac:(lia) ltac:(vm_compute; lia)).
Qed.
