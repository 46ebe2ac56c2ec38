(** C91: simulated annealing over several numbers with uniform priors: what is saved after the burn-in estimates
    posterior means, whatever the starting temperature and the length of the burn-in. *)
From Coquelicot Require Import Coquelicot.
From Verif Require Import Base ModelPrior ModelState ModelSpace ModelPerturb ModelChain ModelSampler ModelLikelihood SpecChain SpecSampler SpecWalk SpecInvariance SpecMany SpecEstimate SpecAnneal.
From Verif Require Import ProofChain ProofChainB ProofSamplerC ProofBox ProofInvariance ProofConverge ProofMany ProofRanges ProofEstimate ProofEstimateMany ProofAnneal PropMany PropEstimate.
From Verif Require ExampleWalk.
Local Open Scope string_scope.
Local Open Scope list_scope.
Local Open Scope R_scope.

Lemma cool_pos T0 B i : 0 < cool T0 B i.
Proof. unfold cool. destruct (_ <? _)%nat; [apply exp_pos|lra]. Qed.
Lemma visited_at_same ns ll L kept save (next : R -> list R -> list R -> R -> list R) (T : nat -> R) : named ns -> ns <> [] ->
  (forall t, 0 < t -> evaluates ns t ll L kept) -> (forall t, 0 < t -> follows (inversion_env [many_space ns] ll save) ns t kept (next t)) ->
  (forall i, 0 < T i) ->
  forall ds i xs, in_ranges (ranges ns) xs -> Forall (one_draw ns) ds ->
  visited_at (fun i x z => roam (ranges ns) (map nm_sd ns) (T i) L x (fst z) (snd z)) i xs ds = visited_at (fun i => drawn (next (T i))) i xs ds.
Proof.
  intros Hn Hne Hev Hnext HT. induction ds as [|z ds IH]; intros i xs Hx Hd; [reflexivity|]. inversion Hd as [|? ? [Hz Hu] Hd']; subst. cbn [visited_at].
  assert (E : drawn (next (T i)) xs z = roam (ranges ns) (map nm_sd ns) (T i) L xs (fst z) (snd z)).
  { unfold drawn. exact (follows_roam ns Hn Hne (T i) ll L kept save (Hev _ (HT i)) (next (T i)) (Hnext _ (HT i)) xs (fst z) (snd z) Hx Hz Hu). }
  rewrite E. f_equal. apply IH; auto. apply roam_inside; auto; [apply sds_len|now rewrite ranges_len].
Qed.

(** The mean over the draws of the whole run, burn-in included, of the squared error of the average over the saved
    samples is at most [C * B^2 / N] for [N] samples.  The constant depends on the inversion only, not on the starting
    temperature, the burn-in, the schedule, the start or the number of iterations. *)
Theorem C91_estimates ns ll L kept save F phi (next : R -> list R -> list R -> R -> list R) :
  named ns -> ns <> [] -> ranged ns -> normal_cdf F -> (forall z, derivable_pt_lim F z (phi z)) ->
  cont_ranges (ranges ns) L -> (forall t, 0 < t -> evaluates ns t ll L kept) ->
  (forall t, 0 < t -> follows (inversion_env [many_space ns] ll save) ns t kept (next t)) ->
  exists Z C, 0 < Z /\ ranges_integral (ranges ns) (fun xs => exp (L xs)) Z /\ 0 <= C /\
    forall g B, cont_ranges (ranges ns) g -> (forall xs, in_ranges (ranges ns) xs -> Rabs (g xs) <= B) ->
    exists v, ranges_integral (ranges ns) (fun xs => exp (L xs) * g xs) v /\
      forall T0 burnin every n xs, in_ranges (ranges ns) xs -> (0 < every)%nat -> (0 < (n - burnin) / every)%nat ->
      exists m, mean_rounds (one_mean phi ns) (one_draw ns) n
          (fun ds => (average (map g (scheduled burnin every 0 (visited_at (fun i => drawn (next (cool T0 burnin i))) 0 xs ds))) - v / Z) ^ 2) m /\
        m <= C * (B * B) / INR ((n - burnin) / every).
Proof.
  intros Hn Hne Hr HF Hphi HL Hev Hnext.
  pose proof (ranged_proper ns Hr) as Hp. pose proof (ranged_sds ns Hr) as Hs. pose proof (sds_len ns) as Hl.
  destruct (anneal_estimate (ranges ns) Hp (map nm_sd ns) Hl Hs F phi HF Hphi L HL) as (C & HC & H).
  exists (norm (ranges ns) 1 L), C. split; [exact (norm_pos (ranges ns) Hp (map nm_sd ns) Hl Hs 1 L HL)|].
  assert (E0 : (fun xs => exp (L xs)) = (fun xs => exp (L xs / 1))) by (apply FunctionalExtensionality.functional_extensionality; intros xs; f_equal; field).
  split; [rewrite E0; exact (norm_is (ranges ns) Hp (map nm_sd ns) Hl Hs 1 L HL)|]. split; auto.
  intros g B Hg HB. exists (level (ranges ns) 1 L g).
  assert (E1 : (fun xs => exp (L xs) * g xs) = (fun xs => exp (L xs / 1) * g xs)) by (apply FunctionalExtensionality.functional_extensionality; intros xs; f_equal; f_equal; field).
  split; [rewrite E1; exact (level_is (ranges ns) Hp (map nm_sd ns) Hl Hs 1 L HL g Hg)|].
  intros T0 burnin every n xs Hx He HN.
  destruct (H g B Hg HB burnin (cool T0 burnin) every n xs (cool_pos T0 burnin) (fun i Hi => cool_after T0 burnin i Hi) Hx He HN) as (m & Hm & Hle). exists m. split; auto.
  assert (E2 : one (ranges ns) phi = one_mean phi ns) by (unfold one, one_mean; now rewrite ranges_len).
  assert (E3 : draws (ranges ns) = one_draw ns) by (unfold draws, one_draw; now rewrite ranges_len).
  rewrite E2, E3 in Hm. eapply mean_rounds_ext; [|exact Hm]. intros ds _ Hd. cbn beta.
  now rewrite (visited_at_same ns ll L kept save next (cool T0 burnin) Hn Hne Hev Hnext (cool_pos T0 burnin) ds 0 xs Hx Hd).
Qed.

(** * The run of the sampler *)
(** A chain before the run, at whatever temperature. *)
Definition begins (ns : list number) (kept : state -> Prop) (c : chain state ovalue) (xs : list R) : Prop :=
  (exists t, ready ns t kept c xs) /\ in_ranges (ranges ns) xs /\ c_nprop_tot c = O.
(** A change of temperature does not touch what the likelihood keeps. *)
Definition tempered (kept : state -> Prop) : Prop := forall t s, kept s -> kept (st_settemp t s).

Section Saved.
Context (ns : list number) (Hns : named ns) (Hne : ns <> []) (ll : loglike) (L : list R -> R) (kept : state -> Prop) (save : bool).
Context (Hev : forall t, 0 < t -> evaluates ns t ll L kept) (Hkept : tempered kept).
Let E := inversion_env [many_space ns] ll save.
Context (next : R -> list R -> list R -> R -> list R) (Hnext : forall t, 0 < t -> follows E ns t kept (next t)).
Context (T0 : R) (HT0 : 0 < T0) (B : nat) (rate : R) (Hrate : (0 < B)%nat -> rate = ln T0 / INR B).
Let s := simulated_annealing E T0 B rate [] [] [] [].
Notation hop := (fun i => drawn (next (cool T0 B i))).

Lemma stands_temp t u c xs : stands_at ns u kept c xs -> stands_at ns t kept (set_temperature E t c) xs.
Proof.
  intros ((Hh & Hk) & _ & Hf & Hs). split; [|split; [reflexivity|split; [exact Hf|exact Hs]]].
  destruct Hh as (Hl & Hv & He). split; [split; [exact Hl|split; [exact Hv|exact He]]|]. now apply Hkept.
Qed.
Lemma ready_temp t u c xs : ready ns u kept c xs -> ready ns t kept (set_temperature E t c) xs.
Proof.
  intros ((Hh & Hk) & _ & Hs). split; [|split; [reflexivity|exact Hs]].
  destruct Hh as (Hl & Hv & He). split; [split; [exact Hl|split; [exact Hv|exact He]]|]. now apply Hkept.
Qed.
Lemma begins_at u c xs tr : stands_at ns u kept c xs -> ((B < c_nprop_tot c)%nat -> u = 1) ->
  exists c', begin_iteration s c tr = Ret (c', None) tr /\ stands_at ns (cool T0 B (c_nprop_tot c)) kept c' xs /\ c_nprop_tot c' = c_nprop_tot c.
Proof.
  intros Hc Hu. unfold begin_iteration. cbn [s simulated_annealing sm_on_begin sm_x_begin call_all]. unfold sa_on_begin. cbv zeta.
  destruct (Nat.ltb_spec (c_nprop_tot c) B) as [Hlt|Hge].
  - eexists. split; [reflexivity|]. split; [|reflexivity]. rewrite Hrate by lia. rewrite cool_formula by auto. now apply (stands_temp _ u).
  - rewrite cool_after by auto. destruct (Nat.eqb_spec (c_nprop_tot c) B) as [He|Hn].
    + eexists. split; [reflexivity|]. split; [|reflexivity]. now apply (stands_temp _ u).
    + eexists. split; [reflexivity|]. split; [|reflexivity]. rewrite <- (Hu ltac:(lia)). exact Hc.
Qed.
Lemma hop_inside i xs z : in_ranges (ranges ns) xs -> one_draw ns z -> in_ranges (ranges ns) (hop i xs z).
Proof.
  intros Hx [Hz Hu]. unfold drawn. set (t := cool T0 B i). assert (Ht : 0 < t) by apply cool_pos.
  rewrite (follows_roam ns Hns Hne t ll L kept save (Hev t Ht) (next t) (Hnext t Ht) xs (fst z) (snd z)) by auto.
  apply roam_inside; auto; [apply sds_len|now rewrite ranges_len].
Qed.
(** The chains at the ends of the iterations, from iteration [i] on. *)
Fixpoint stand_from (i : nat) (ces : list (chain state ovalue)) (ys : list (list R)) : Prop :=
  match ces, ys with
  | [], [] => True
  | c :: ces', y :: ys' => stands_at ns (cool T0 B i) kept c y /\ c_nprop_tot c = S i /\ stand_from (S i) ces' ys'
  | _, _ => False
  end.
Lemma begin_records : leaves_records (Some (begin_iteration s)).
Proof. exact (sa_begin_records E T0 B rate [] [] [] [] (Forall_nil _)). Qed.
Lemma end_records : leaves_records (Some (end_iteration s)).
Proof. exact (sa_end_records E T0 B rate [] [] [] [] (Forall_nil _)). Qed.
Lemma anneals sc : sc_verbose sc = false -> (0 < sc_every sc)%nat -> forall ts u c xs tr, Forall (tape_ok ns) ts -> ready ns u kept c xs ->
  ((B < c_nprop_tot c)%nat -> u = 1) -> in_ranges (ranges ns) xs ->
  exists c' ces, advance E (length ts) sc (Some (begin_iteration s)) (Some (end_iteration s)) c (concat (map tape ts) ++ tr) = Ret (c', None) tr /\
    rounds E sc (Some (begin_iteration s)) (Some (end_iteration s)) c (concat (map tape ts) ++ tr) ces c' tr /\
    stand_from (c_nprop_tot c) ces (visited_at hop (c_nprop_tot c) xs (map snd ts)).
Proof.
  intros Hv He. induction ts as [|x ts IH]; intros u c xs tr Ht Hc Hu Hx.
  - exists c, []. cbn. repeat split; constructor.
  - inversion Ht as [|? ? (Hw & Hw' & Hd) Ht']; subst. cbn [map concat length advance]. rewrite <- app_assoc.
    assert (Hf : exists flag, save_flag sc (S (c_nprop_tot c)) = Ok flag).
    { unfold save_flag. destruct (_ <=? _)%nat; [eauto|]. destruct (Nat.eqb_spec (sc_every sc) 0); [lia|eauto]. }
    destruct Hf as (flag & Hf).
    assert (Hc0 : stands_at ns u kept (set_flag flag c) xs).
    { destruct Hc as (H1 & H2 & H4). split; [exact H1|]. split; [exact H2|]. split; [now exists flag|exact H4]. }
    destruct (begins_at u (set_flag flag c) xs (tape x ++ concat (map tape ts) ++ tr) Hc0 Hu) as (cb & Hb & Hcb & Hnb).
    change (c_nprop_tot (set_flag flag c)) with (c_nprop_tot c) in Hcb, Hnb.
    pose proof Hd as [Hz Huu].
    destruct (Hnext _ (cool_pos T0 B (c_nprop_tot c)) cb xs (fst (fst x)) (snd (fst x)) (fst (snd x)) (snd (snd x)) (concat (map tape ts) ++ tr) Hcb Hx Hw Hw' Hz Huu) as (c1 & Hi & Hc1).
    assert (Et : tape x ++ concat (map tape ts) ++ tr = DU (fst (fst x)) :: DInt 0 :: DU (snd (fst x)) :: DInt 0 :: map DZ (fst (snd x)) ++ DU (snd (snd x)) :: concat (map tape ts) ++ tr).
    { unfold tape at 1. cbn [app]. rewrite <- app_assoc. reflexivity. }
    assert (Hro : round E sc (Some (begin_iteration s)) (Some (end_iteration s)) c (tape x ++ concat (map tape ts) ++ tr) c1 c1 (concat (map tape ts) ++ tr)).
    { exists flag, cb. do 2 eexists. split; [exact Hf|]. split; [exact Hb|]. split; [rewrite Et; exact Hi|reflexivity]. }
    destruct (round_facts E sc _ _ c _ c1 c1 _ begin_records end_records Hro) as (Hn1 & _).
    assert (Hu1 : (B < c_nprop_tot c1)%nat -> cool T0 B (c_nprop_tot c) = 1) by (intros Hlt; apply cool_after; lia).
    destruct (IH _ c1 (hop (c_nprop_tot c) xs (snd x)) tr Ht' (stands_ready _ _ _ _ _ Hc1) Hu1 (hop_inside (c_nprop_tot c) xs (snd x) Hx Hd)) as (c' & ces & Ha & Hr & Hs).
    exists c', (c1 :: ces). split; [|split].
    + unfold bind, advance_one. rewrite Hf. cbn [call_hook]. unfold bind. rewrite Hb, Et, Hi.
      unfold end_iteration at 1. cbn [s simulated_annealing sm_on_end sm_x_end call_all]. unfold ModelSampler.nothing, bind, ret. rewrite Hv. exact Ha.
    + econstructor; [exact Hro|exact Hr].
    + cbn [map visited_at stand_from]. rewrite Hn1 in Hs. auto.
Qed.
Lemma sel_from sc : sc_burnin sc = B -> (0 < sc_every sc)%nat -> forall ces ys sel i, stand_from i ces ys ->
  selects (sampled sc) ces sel -> Forall2 (stands_at ns 1 kept) sel (scheduled B (sc_every sc) i ys).
Proof.
  intros HB He. induction ces as [|ce ces IH]; intros [|y ys] sel i H Hs; try contradiction; [inversion Hs; constructor|].
  destruct H as (Hy & H0 & H).
  assert (Hb : ((B <? S i)%nat && ((S i - B) mod sc_every sc =? 0)%nat) = true <-> sampled sc ce).
  { unfold sampled, on_schedule. rewrite H0, HB. destruct Hy as (_ & Ht & _). rewrite Bool.andb_true_iff, Nat.ltb_lt, Nat.eqb_eq, Nat.mod_divide by lia.
    split; [intros [A [q Hq]]|intros [[A [q Hq]] _]]; split; auto; [split; auto|rewrite Ht; apply cool_after; lia|]; now exists q. }
  cbn [scheduled]. inversion Hs as [|? ? ? Hy' Hs'|? ? ? Hn' Hs']; subst; destruct (_ && _) eqn:Eb; try (apply IH; auto).
  - constructor; [|now apply IH]. apply Bool.andb_true_iff in Eb. destruct Eb as [Eb _]. apply Nat.ltb_lt in Eb. rewrite cool_after in Hy by lia. exact Hy.
  - exfalso. apply Hb in Hy'. discriminate.
  - exfalso. apply Hn'. now apply Hb.
Qed.
(** One chain. *)
Definition saves (sc : sched) (c c' : chain state ovalue) (xs : list R) (ds : list (list R * R)) : Prop :=
  exists d d', c_saved c = SDict d /\ c_saved c' = SDict d' /\ (NoDup (dkeys d) -> NoDup (dkeys d')) /\
    forall i a, nth_error ns i = Some a -> contains "dpred" (nm_name a) = false ->
      stored ("m." ++ nm_name a)%string d' = stored ("m." ++ nm_name a)%string d ++
        map (fun ys => OArr (Arr [nth i ys 0])) (scheduled B (sc_every sc) 0 (visited_at hop 0 xs ds)).
Lemma chain_saves sc : sc_verbose sc = false -> (0 < sc_every sc)%nat -> sc_burnin sc = B -> forall ts c xs tr, Forall (tape_ok ns) ts -> begins ns kept c xs ->
  exists c', advance E (length ts) sc (Some (begin_iteration s)) (Some (end_iteration s)) c (concat (map tape ts) ++ tr) = Ret (c', None) tr /\
    saves sc c c' xs (map snd ts).
Proof.
  intros Hv He HB ts c xs tr Ht ((u & Hc) & Hx & H0). pose proof Hc as (_ & _ & d & Hd).
  destruct (anneals sc Hv He ts u c xs tr Ht Hc ltac:(intros; lia) Hx) as (c' & ces & Ha & Hr & Hs). exists c'. split; [exact Ha|].
  destruct (rounds_dict E sc _ _ begin_records end_records _ _ _ _ _ Hr d Hd) as (sel & d' & Hsel & Hd' & Hst).
  exists d, d'. split; auto. split; auto. split; [exact (rounds_nodup _ sc _ _ begin_records end_records _ _ _ _ _ Hr d d' Hd Hd')|]. intros i a Hi Hp. rewrite Hst. f_equal. rewrite H0 in Hs.
  pose proof (sel_from sc HB He ces _ sel 0 Hs Hsel) as Hf.
  clear -Hf Hns Hi Hp. induction Hf as [|ce y sel ys Hy H IH]; [reflexivity|]. cbn [map concat]. rewrite IH.
  destruct Hy as ((Hh & _) & _). unfold E. now rewrite (saved_value ns Hns ll save (c_cur ce) y i a Hh Hi Hp).
Qed.
End Saved.

(** A run of simulated annealing over chains that have not moved yet, from initialization to the return: chain [p]
    draws [tss p], and saves under the name of each number its values at the scheduled states among those visited,
    iteration [i] moving at temperature [cool T0 burnin i]. *)
Theorem C91_saved ns ll L kept save (next : R -> list R -> list R -> R -> list R) T0 rate jobs n sc cs starts tss tr :
  named ns -> ns <> [] -> (forall t, 0 < t -> evaluates ns t ll L kept) -> tempered kept ->
  (forall t, 0 < t -> follows (inversion_env [many_space ns] ll save) ns t kept (next t)) ->
  0 < T0 -> sc_verbose sc = false -> (0 < sc_every sc)%nat ->
  Forall2 (begins ns kept) cs starts -> length tss = length cs -> Forall (fun ts => length ts = n /\ Forall (tape_ok ns) ts) tss ->
  let E := inversion_env [many_space ns] ll save in
  exists cs', inversion_run (simulated_annealing E T0 (sc_burnin sc) rate [] [] [] []) (sa_run E T0 [] [] [] [] (Some jobs) n sc)
      (1 <? jobs)%Z cs (concat (map (fun ts => concat (map tape ts)) tss) ++ tr) = Ret (cs', None) tr /\
    length cs' = length cs /\
    forall p c xs ts, nth_error cs p = Some c -> nth_error starts p = Some xs -> nth_error tss p = Some ts ->
    exists c', nth_error cs' p = Some c' /\ saves ns next T0 (sc_burnin sc) sc c c' xs (map snd ts).
Proof.
  intros Hn Hne Hev Hkept Hnext HT Hv He Hcs Hlen Htss E.
  assert (Hrun : exists rate, ((0 < sc_burnin sc)%nat -> rate = ln T0 / INR (sc_burnin sc)) /\
    forall cs tr, sa_run E T0 [] [] [] [] (Some jobs) n sc cs tr = advance_chain E (simulated_annealing E T0 (sc_burnin sc) rate [] [] [] []) (Some jobs) n sc cs tr).
  { unfold sa_run. destruct (Nat.eqb_spec (sc_burnin sc) 0) as [H0|H0].
    - exists 0. split; [lia|]. intros. now rewrite H0.
    - exists (ln T0 / INR (sc_burnin sc)). split; auto. intros. unfold py_log. unfold Rltb. destruct (Rlt_dec 0 T0); [reflexivity|contradiction]. }
  destruct Hrun as (rt & Hrate & Hrun).
  assert (Hall : forall cs starts tss, Forall2 (begins ns kept) cs starts -> length tss = length cs -> Forall (fun ts => length ts = n /\ Forall (tape_ok ns) ts) tss ->
    exists cs', each_chain (advance E n sc (Some (begin_iteration (simulated_annealing E T0 (sc_burnin sc) rt [] [] [] []))) (Some (end_iteration (simulated_annealing E T0 (sc_burnin sc) rt [] [] [] []))))
        cs (concat (map (fun ts => concat (map tape ts)) tss) ++ tr) = Ret (cs', None) tr /\ length cs' = length cs /\
      forall p c xs ts, nth_error cs p = Some c -> nth_error starts p = Some xs -> nth_error tss p = Some ts ->
      exists c', nth_error cs' p = Some c' /\ saves ns next T0 (sc_burnin sc) sc c c' xs (map snd ts)).
  { clear - Hn Hne Hev Hkept Hnext HT Hv He Hrate. intros cs starts tss Hcs. revert tss. induction Hcs as [|c xs cs starts Hc Hcs IH]; intros [|ts tss] Hlen Htss; try discriminate.
    - exists []. split; [reflexivity|]. split; [reflexivity|]. intros [|p]; discriminate.
    - inversion Htss as [|? ? [Hl Ht] Htss']; subst. cbn [map concat each_chain]. rewrite <- app_assoc.
      destruct (chain_saves ns Hn Hne ll L kept save Hev Hkept next Hnext T0 HT (sc_burnin sc) rt Hrate sc Hv He eq_refl ts c xs
        (concat (map (fun ts => concat (map tape ts)) tss) ++ tr) Ht Hc) as (c' & Ha & Hsv).
      destruct (IH tss ltac:(now injection Hlen) Htss') as (cs' & Hes & Hls & Hcs').
      exists (c' :: cs'). split; [|split; [cbn; now rewrite Hls|]].
      + unfold bind. unfold E. rewrite Ha. unfold E in Hes. rewrite Hes. reflexivity.
      + intros [|p] c0 xs0 ts0 H1 H2 H3; cbn in *; [|now apply (Hcs' p c0 xs0 ts0)]. injection H1 as <-. injection H2 as <-. injection H3 as <-. eauto. }
  set (cs0 := map (set_temperature E T0) cs).
  assert (Hcs0 : Forall2 (begins ns kept) cs0 starts).
  { unfold cs0. clear - Hcs Hkept. induction Hcs as [|c xs cs starts ((u & Hc) & Hx & H0) Hcs IH]; cbn; constructor; auto.
    split; [|split; auto]. exists T0. now apply (ready_temp ns ll kept save Hkept T0 u). }
  destruct (Hall cs0 starts tss Hcs0 ltac:(unfold cs0; now rewrite map_length) Htss) as (cs' & Hes & Hls & Hsv).
  exists cs'. split; [|split].
  - unfold inversion_run, ModelSampler.initialize. cbn [simulated_annealing sm_on_initialize sm_x_initialize call_all]. unfold sa_on_initialize, bind at 1 2, ret at 1 2 3.
    unfold bind. rewrite Hrun. unfold advance_chain, bind. fold cs0. rewrite Hes. reflexivity.
  - rewrite Hls. unfold cs0. apply map_length.
  - intros p c xs ts Hp Hx Ht. destruct (Hsv p (set_temperature E T0 c) xs ts) as (c' & Hc' & d & d' & Hd & Hd' & Hnd & Hst); auto.
    { unfold cs0. now rewrite nth_error_map, Hp. }
    exists c'. split; auto. exists d, d'. split; [exact Hd|]. split; auto.
Qed.

(** * A case *)
(** The inversion of [C88_case], annealed from temperature 4 over one iteration: two chains start at (1, 0, 12); the first
    moves to (1/2, 1/2, 12) during the burn-in and stays, the second stays where it is; each saves one sample of "b", 1/2
    and 0.  The average of "b" over 100 samples, every fifth after 1000 iterations of cooling from 4, has a squared error
    whose mean is at most a constant times 9/100. *)
Example C91_case : exists ll next F phi Z C,
  (forall t, 0 < t -> follows (inversion_env [many_space case_numbers] ll true) case_numbers t (fun _ => True) (next t)) /\
  normal_cdf F /\ (forall z, derivable_pt_lim F z (phi z)) /\
  (exists c c1 c2 d1 d2, begins case_numbers (fun _ => True) c [1; 0; 12] /\
     inversion_run (simulated_annealing (inversion_env [many_space case_numbers] ll true) 4 1 0 [] [] [] [])
       (sa_run (inversion_env [many_space case_numbers] ll true) 4 [] [] [] [] (Some 1%Z) 2 (Build_sched 1 1 false 1)) false [c; c]
       [DU 0; DInt 0; DU 0; DInt 0; DZ (-5); DZ 1; DZ 0; DU (/ 2); DU 0; DInt 0; DU 0; DInt 0; DZ 0; DZ 0; DZ 0; DU (/ 2);
        DU 0; DInt 0; DU 0; DInt 0; DZ 0; DZ 0; DZ 0; DU (/ 2); DU 0; DInt 0; DU 0; DInt 0; DZ 0; DZ 0; DZ 0; DU (/ 2)] = Ret ([c1; c2], None) [] /\
     c_saved c1 = SDict d1 /\ stored "m.b" d1 = [OArr (Arr [/ 2])] /\ c_saved c2 = SDict d2 /\ stored "m.b" d2 = [OArr (Arr [0])]) /\
  exists v, ranges_integral (ranges case_numbers) (fun xs => exp (case_L xs) * nth 1 xs 0) v /\
    exists m, mean_rounds (one_mean phi case_numbers) (one_draw case_numbers) 1500
      (fun ds => (average (map (fun ys => nth 1 ys 0) (scheduled 1000 5 0 (visited_at (fun i => drawn (next (cool 4 1000 i))) 0 [1; 0; 12] ds))) - v / Z) ^ 2) m /\
    m <= C * (3 * 3) / INR 100.
Proof.
  destruct (loglike_init None None None (Some case_like)) as [ll|e|] eqn:El; try discriminate.
  assert (Hn : named case_numbers).
  { split; [|repeat constructor; try discriminate]. cbn. repeat constructor; cbn; intuition discriminate. }
  assert (Hne : case_numbers <> []) by discriminate.
  assert (Hr : ranged case_numbers) by (repeat constructor; cbn; lra).
  assert (Hev : forall t, 0 < t -> evaluates case_numbers t ll case_L (fun _ => True)).
  { intros t Ht. apply (C88_function case_numbers t case_like case_L ll); auto. intros s xs tr (Hl & (at_ & ca & Hs) & He) _.
    destruct xs as [|x [|y [|z [|]]]]; try discriminate. unfold case_like, st_get. rewrite Hs. reflexivity. }
  set (next := fun t => roam (ranges case_numbers) (map nm_sd case_numbers) t case_L).
  assert (Hnext : forall t, 0 < t -> follows (inversion_env [many_space case_numbers] ll true) case_numbers t (fun _ => True) (next t)).
  { intros t Ht c0 xs w w' zs u tr Hc0 Hb Hw Hw' Hz Hu. apply iterates; auto. }
  assert (Hx : in_ranges (ranges case_numbers) [1; 0; 12]) by (repeat constructor; cbn; lra).
  assert (Estep : forall t, 0 < t -> next t [1; 0; 12] [-5; 1; 0] (/ 2) = [/ 2; / 2; 12]).
  { intros t Ht. unfold next, roam. cbn [map nm_sd case_numbers jump].
    replace (1 + -5 * / 10) with (/ 2) by field. replace (0 + 1 * / 2) with (/ 2) by field. replace (12 + 0 * 1) with 12 by ring. cbv zeta.
    rewrite (in_inr (ranges case_numbers) [/ 2; / 2; 12]) by (repeat constructor; cbn; lra).
    destruct (Rlt_dec _ _) as [|Hno]; auto. exfalso. apply Hno. apply Rlt_trans with 0.
    - rewrite <- ln_1. apply ln_increasing; lra.
    - apply Rdiv_lt_0_compat; auto. unfold case_L. cbn [nth]. lra. }
  assert (Ezero : forall t x, length x = 3%nat -> next t x [0; 0; 0] (/ 2) = x).
  { intros t [|x [|y [|z [|]]]] Hl; try discriminate. unfold next, roam. cbn [map nm_sd case_numbers jump].
    replace (x + 0 * / 10) with x by ring. replace (y + 0 * / 2) with y by ring. replace (z + 0 * 1) with z by ring. cbv zeta.
    destruct (inr _ _); auto. destruct (Rlt_dec _ _); auto. }
  destruct ExampleWalk.normal_cdf_exists as (F & HF). destruct (nc_density F HF) as (c & Hc & Hd).
  destruct (C91_estimates case_numbers ll case_L (fun _ => True) true F (fun z => c * bell z) next Hn Hne Hr HF Hd case_continuous Hev Hnext)
    as (Z & C & HZ & HI & HC & H).
  exists ll, next, F, (fun z => c * bell z), Z, C. split; [exact Hnext|]. split; [exact HF|]. split; [exact Hd|]. split.
  - set (c0 := mkChain (mkState [("m", EPS (PS 1 (values case_numbers [1; 0; 12]) [] []))] [] 1 [] []) 1 [] [] 0 0 [] (SDict []) None [] : chain state ovalue).
    assert (Hc0 : begins case_numbers (fun _ => True) c0 [1; 0; 12]).
    { split; [|split; [exact Hx|reflexivity]]. exists 1. split; [split; [exact case_holds|exact I]|]. split; [reflexivity|]. now exists []. }
    destruct (C91_saved case_numbers ll case_L (fun _ => True) true next 4 0 1 2 (Build_sched 1 1 false 1) [c0; c0] [[1; 0; 12]; [1; 0; 12]]
      [[(0, 0, ([-5; 1; 0], / 2)); (0, 0, ([0; 0; 0], / 2))]; [(0, 0, ([0; 0; 0], / 2)); (0, 0, ([0; 0; 0], / 2))]] [] Hn Hne Hev (fun _ _ _ => I) Hnext
      ltac:(lra) eq_refl ltac:(cbn; lia) (Forall2_cons _ _ Hc0 (Forall2_cons _ _ Hc0 (Forall2_nil _))) eq_refl) as (cs' & Ha & Hl & Hs).
    { apply Forall_cons; [|apply Forall_cons; [|apply Forall_nil]]; (split; [reflexivity|]); (apply Forall_cons; [|apply Forall_cons; [|apply Forall_nil]]); unfold tape_ok, one_draw; cbn; repeat split; lra. }
    destruct cs' as [|c1 [|c2 [|]]]; try discriminate.
    destruct (Hs 0%nat _ _ _ eq_refl eq_refl eq_refl) as (c1' & E1 & e1 & d1 & He1 & Hd1 & _ & Hst1). injection E1 as <-. injection He1 as <-.
    destruct (Hs 1%nat _ _ _ eq_refl eq_refl eq_refl) as (c2' & E2 & e2 & d2 & He2 & Hd2 & _ & Hst2). injection E2 as <-. injection He2 as <-.
    exists c0, c1, c2, d1, d2. split; [exact Hc0|]. split; [exact Ha|]. split; [exact Hd1|].
    pose proof (Hst1 1%nat (mkNumber "b" (-1) 3 (/ 2)) eq_refl eq_refl) as Hb1. pose proof (Hst2 1%nat (mkNumber "b" (-1) 3 (/ 2)) eq_refl eq_refl) as Hb2.
    cbn [nm_name] in Hb1, Hb2. change ("m." ++ "b")%string with "m.b" in Hb1, Hb2. rewrite Hb1, Hb2.
    cbn [map snd visited_at sc_burnin sc_every]. unfold drawn. cbn [fst snd]. rewrite (Estep _ (cool_pos 4 1 0)), !Ezero by reflexivity. auto.
  - destruct (H (fun ys => nth 1 ys 0) 3) as (v & Hv & Hm).
    + intros eps He. exists eps. split; auto. intros xs ys _ _ Hnear. destruct Hnear as [|x y xs ys Hxy Hnear]; [cbn; rewrite Rminus_0_r, Rabs_R0; lra|].
      destruct Hnear as [|x' y' xs ys Hxy' Hnear]; [cbn; rewrite Rminus_0_r, Rabs_R0; lra|]. exact Hxy'.
    + intros xs Hxs. inversion Hxs as [|? x ? xs' _ H1]; subst. inversion H1 as [|? y ? ys' Hy _]; subst. cbn in *. apply Rabs_le. lra.
    + exists v. split; [exact Hv|]. exact (Hm 4 1000%nat 5%nat 1500%nat [1; 0; 12] Hx ltac:(lia) ltac:(vm_compute; lia)).
Qed.
