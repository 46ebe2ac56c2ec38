(** Samplers in memory and samplers of values: the samplers, and the run of an inversion. *)
From Verif Require Import Base ModelUtils1D ModelPrior ModelState ModelSpace ModelChain ModelSampler ModelPerturb ModelLikelihood ModelHeap
  ModelHeapSampler SpecState SpecSpace SpecChain SpecRun SpecHeap SpecRefine SpecRefineChain SpecRefineSampler ProofState ProofSpace ProofChain
  ProofRun ProofRunB ProofRunC ProofHeap ProofHeapB ProofRefine ProofRefineB ProofRefineF ProofRefineK ProofRefineL ProofRefineM ProofRefineN
  ProofRefineO ProofRefineP.
Local Open Scope R_scope.

Lemma hbind_run {A B} (m : HM A) (f : A -> HM B) h tr a tr' h' : m h tr = (Ret a tr', h') -> hbind m f h tr = f a h' tr'.
Proof. intros H. unfold hbind. now rewrite H. Qed.

Section Samplers.
Variables (spaces : list space) (ll : loglike) (save : bool).
Variable like : heap -> loc -> loc -> R -> M ((dict centry * dict ovalue) * (dict centry * dict ovalue) * (ext + exn)).
Hypothesis Hlike : likelihood_reads ll like.
Hypothesis Hset : setup_ok spaces (ll_targets ll).
Hypothesis Hhier : ll_hier ll = hier_of (ll_targets ll).
Let E := h_inversion_env spaces ll save like.
Let E' := inversion_env spaces ll save.
Let P := good spaces (ll_targets ll).
Let list_ok := list_ok spaces ll.
Let lrel := lrel spaces ll.
Let Ps := Ps spaces ll.

Lemma list_ext par f g f' g' : (forall c h tr, f c h tr = g c h tr) -> (forall c tr, f' c tr = g' c tr) -> list_ok par g g' -> list_ok par f f'.
Proof. intros H1 H2 K S h c c' Sc H Hp tr. rewrite H1, H2. apply K; auto. Qed.
Lemma list_ret par o : list_ok par (fun cs => hret (cs, o)) (fun cs => ret (cs, o)).
Proof. intros S h cs cs' HS H Hp. apply simo_ret. now apply lrel_same. Qed.
Lemma list_undef par : list_ok par (fun cs => hdo ubeh) (fun cs => ubeh).
Proof. intros S h cs cs' HS H Hp. apply simo_undef. Qed.
Lemma chains_length h cs cs' : chains_stand h cs cs' -> length cs = length cs'.
Proof. intros [F _]. eapply Forall2_len; eauto. Qed.
Lemma chains_length' h (cs : list hchain) cs' : chains_stand h cs cs' -> @length hchain cs = length cs'.
Proof. apply chains_length. Qed.

(** * Temperatures *)
Lemma set_one h c c' T tr : chain_stands h c c' -> P (c_cur c') ->
  exists h1, h_set_temperature T c h tr = (Ret (with_temp T c) tr, h1) /\ only (fun l => l = c_cur c) h h1 /\
    chain_stands h1 (with_temp T c) (set_temperature E' T c') /\ P (c_cur (set_temperature E' T c')).
Proof.
  intros H Hp. destruct (hook_set_temp spaces ll save Hset Hhier T (fun l => l = c_cur c) h c c' eq_refl H Hp tr) as [U A].
  pose proof (cs_cur _ _ _ H) as (d & al & dl & Ea & _).
  unfold hbind in U, A. rewrite (run_set_temp _ _ _ _ _ _ _ _ _ Ea) in U, A |- *. cbn [hret] in U, A.
  eexists. split; [reflexivity|]. unfold agree in A. cbn [fst snd] in U, A. destruct A as (_ & A1 & _ & A2 & _). cbn [fst] in A1, A2. auto.
Qed.
Lemma set_temps_ok ts : list_ok false (h_set_temperatures ts) (fun cs => ret (set_temperatures E' ts cs)).
Proof.
  intros S h cs. revert S h ts. induction cs as [|c cs IH]; intros S h ts cs' HS H Hp.
  - destruct H as [F N]. inversion F; subst. destruct ts; exact (list_ret false None S h [] [] HS (conj F N) Hp).
  - assert (exists c' t', cs' = c' :: t') as (c' & t' & ->) by (destruct H as [F _]; inversion F; subst; eauto).
    destruct (chains_tail _ _ _ _ _ H) as (H1 & H2 & H3). destruct ts as [|T ts]; [exact (list_ret false (Some EIndex) S h _ _ HS H Hp)|].
    cbn [h_set_temperatures set_temperatures]. intros tr.
    destruct (set_one h c c' T tr H1 (Hp c' (or_introl eq_refl))) as (h1 & E1 & U1 & K1 & K2).
    assert (H2' : chains_stand h1 cs t') by (eapply chains_only; eauto; intros a Ha ->; auto).
    assert (Hp2 : Ps t') by (intros u Hu; apply Hp; now right).
    destruct (IH (current cs) h1 ts t' (fun _ a Ha => Ha) H2' Hp2 tr) as [U2 A].
    assert (Sc : forall a, (a < length h)%nat -> a = c_cur c -> S a) by (intros a _ ->; apply HS; auto; now left).
    assert (St : forall a, (a < length h)%nat -> current cs a -> S a) by (intros a _ Ha; apply HS; auto; now right).
    pose proof (only_length _ _ _ U1) as L.
    rewrite (hbind_run _ _ _ _ _ _ _ E1). unfold hbind.
    unfold agree in A |- *. cbn [ret] in A.
    destruct (h_set_temperatures ts cs h1 tr) as [[[t1 o] t|e t| |] h2]; cbn [fst snd hret] in *; try tauto.
    destruct (set_temperatures E' ts t') as [t1' o'] eqn:Et. destruct A as (A0 & J1 & J2 & J3 & J4). subst t. cbn [fst snd] in J1, J2, J3, J4. subst o'.
    split.
    { eapply only_trans; [eapply only_mono; [exact Sc|exact U1]|exact U2|exact St]. }
    cbn. split; auto. split; [|split; [auto|split]]; cbn [fst snd].
    + apply chains_cons; auto; [eapply chain_stands_only; eauto|]. intros Ha. destruct (J4 _ Ha) as [|L2]; auto.
      apply chain_cur_lt in K1. cbn in *. unfold loc in *. lia.
    + intros u [<-|Hu]; auto.
    + intros a [<-|Ha]; [left; now left|]. destruct (J4 _ Ha) as [|L2]; [left; now right|]. right. lia.
Qed.
Lemma pt_init_ok frac tmax : list_ok false (h_pt_on_initialize frac tmax) (pt_on_initialize E' frac tmax).
Proof.
  intros S h cs cs' HS H Hp. unfold h_pt_on_initialize, pt_on_initialize. rewrite (chains_length' _ _ _ H).
  destruct (pt_temperatures (length cs') frac tmax) as [ts|e|].
  - now apply set_temps_ok.
  - now apply (list_ret false).
  - apply simo_undef.
Qed.
Lemma set_temps_const T cs k : set_temperatures E' (repeat T (length cs + k)) cs = (map (set_temperature E' T) cs, None).
Proof. induction cs as [|c cs IH]; cbn; [now destruct k|]. now rewrite IH. Qed.
Lemma h_sa_init_eq T cs : forall h tr, h_sa_on_initialize T cs h tr = h_set_temperatures (repeat T (length cs)) cs h tr.
Proof.
  induction cs as [|c cs IH]; intros h tr; [reflexivity|]. cbn [h_sa_on_initialize h_set_temperatures length repeat].
  apply hbind_ext. intros c1 h1 t1. unfold hbind. rewrite IH. reflexivity.
Qed.
Lemma sa_init_ok T : list_ok false (h_sa_on_initialize T) (sa_on_initialize E' T).
Proof.
  intros S h cs cs' HS H Hp tr. rewrite h_sa_init_eq. unfold sa_on_initialize.
  rewrite <- (set_temps_const T cs' 0). rewrite (chains_length' _ _ _ H). replace (length cs' + 0)%nat with (length cs') by lia.
  now apply set_temps_ok.
Qed.

(** * Swaps *)
Lemma swap_with_ok i j : i <> j -> list_ok false (h_pt_swap_with E i j) (pt_swap_with E' i j).
Proof.
  intros Hij S h cs cs' HS H Hp. unfold h_pt_swap_with, pt_swap_with. unfold hchain. pose proof H as [F N].
  destruct (nth_error cs i) as [c1|] eqn:Ei.
  2:{ destruct (nth_error cs' i) as [x|] eqn:Ei'; [|apply simo_undef]. exfalso.
      apply nth_error_None in Ei. apply lt_of_nth in Ei'. rewrite (chains_length _ _ _ H) in Ei. lia. }
  destruct (nth_Forall2 _ _ _ _ _ F Ei) as (d1 & Ei' & H1). rewrite Ei'.
  destruct (nth_error cs j) as [c2|] eqn:Ej.
  2:{ destruct (nth_error cs' j) as [x|] eqn:Ej'; [|apply simo_undef]. exfalso.
      apply nth_error_None in Ej. apply lt_of_nth in Ej'. rewrite (chains_length _ _ _ H) in Ej. lia. }
  destruct (nth_Forall2 _ _ _ _ _ F Ej) as (d2 & Ej' & H2). rewrite Ej'. cbv zeta.
  assert (S1 : S (c_cur c1)) by (apply HS; auto; apply in_map; eapply nth_error_In; eauto).
  assert (S2 : S (c_cur c2)) by (apply HS; auto; apply in_map; eapply nth_error_In; eauto).
  assert (Hne : c_cur c1 <> c_cur c2).
  { intros Eq. apply Hij. eapply (NoDup_nth (map c_cur cs)); eauto; rewrite nth_error_map; [now rewrite Ei|rewrite Ej; cbn; now rewrite Eq]. }
  assert (P1 : P (c_cur d1)) by (apply Hp; eapply nth_error_In; eauto).
  assert (P2 : P (c_cur d2)) by (apply Hp; eapply nth_error_In; eauto).
  rewrite <- (cs_temp _ _ _ H1), <- (cs_temp _ _ _ H2).
  pose proof (sim_like spaces ll save like Hlike h (c_cur c1) (c_cur c2) (c_cur d1) (c_cur d2) (c_temp c1) (cs_cur _ _ _ H1) (cs_cur _ _ _ H2) Hne) as SL.
  pose proof (simo_only _ _ _ _ _ (simo_with _ _ _ _ _ (simo_of (fun l => l = c_cur c1 \/ l = c_cur c2) h _ _ _ _ SL
     (fr_h_like _ h _ (c_cur c1) (c_cur c2) (c_temp c1) (or_introl eq_refl) (or_intror eq_refl))))) as SL2.
  eapply simo_bind; [eapply simo_weaken; [exact SL2| |intros h' a b _ K; exact K]|].
  { intros a _ [->| ->]; auto. }
  cbv beta. intros h1 r [[s1 s2] r'] U [[[(R1 & R2 & Er) _] (t & t' & El)] U1]. cbn [fst snd] in R1, R2, Er. subst r'.
  destruct (pr_like _ _ (HPres spaces ll save Hset Hhier) _ _ _ _ _ _ _ _ El) as [Q1 Q2]. specialize (Q1 P1). specialize (Q2 P2).
  set (d1' := set_cur s1 d1). set (d2' := set_cur s2 d2).
  assert (H1' : chain_stands h1 c1 d1').
  { destruct H1. constructor; auto. eapply saved_only; eauto. }
  assert (H2' : chain_stands h1 c2 d2').
  { destruct H2. constructor; auto. eapply saved_only; eauto. }
  set (cs1 := set_nth (set_nth cs' i d1') j d2').
  pose proof (lt_of_nth _ _ _ Ei') as Li. pose proof (lt_of_nth _ _ _ Ej') as Lj.
  assert (K : chains_stand h1 cs cs1).
  { split; auto. unfold cs1. apply Forall2_nth; [rewrite !length_set_nth2; rewrite ?length_set_nth2; auto; eapply Forall2_len; eauto|].
    intros k x y Ex Ey. apply nth_error_set in Ey; [|rewrite length_set_nth2; auto]. destruct Ey as [[-> ->]|[Nk Ey]]; [assert (x = c2) by congruence; now subst|].
    apply nth_error_set in Ey; auto. destruct Ey as [[-> ->]|[Nk2 Ey]]; [assert (x = c1) by congruence; now subst|].
    destruct (nth_Forall2 _ _ _ _ _ F Ex) as (w2 & Ew2 & Hw). assert (w2 = y) by congruence. subst w2.
    eapply chain_stands_only; eauto. intros [Eq|Eq]; [apply Nk2|apply Nk]; apply (NoDup_nth (map c_cur cs) _ _ (c_cur x)); auto; rewrite nth_error_map, ?Ei, ?Ej, ?Ex; cbn; congruence. }
  assert (Kp : Ps cs1).
  { intros u Hu. unfold cs1 in Hu. apply in_set_nth in Hu. destruct Hu as [->|Hu]; [exact Q2|]. apply in_set_nth in Hu. destruct Hu as [->|Hu]; [exact Q1|]. now apply Hp. }
  destruct r as [llr|e]; [|apply simo_ret; now apply lrel_same].
  destruct (Reqb (c_temp c1) 0 || Reqb (c_temp c2) 0)%bool; [apply simo_undef|].
  eapply simo_bind; [apply simo_do|]. cbv beta. intros h2 u u' _ [-> ->].
  destruct (py_log u') as [lu|e|]; [|apply simo_ret; now apply lrel_same|apply simo_undef].
  destruct (egtb _ _); [|apply simo_ret; now apply lrel_same].
  intros tr.
  assert (Eci : nth_error cs1 i = Some d1').
  { unfold cs1. rewrite nth_set_ne; auto; [apply nth_set_eq; auto|rewrite length_set_nth2; auto]. }
  assert (Ecj : nth_error cs1 j = Some d2').
  { unfold cs1. apply nth_set_eq. rewrite length_set_nth2; auto. }
  destruct (set_one h1 c1 d1' (c_temp c2) tr H1' Q1) as (h3 & E3 & U3 & K3 & P3).
  assert (C3 : chains_stand h3 (set_nth cs i (with_temp (c_temp c2) c1)) (set_nth cs1 i (set_temperature E' (c_temp c2) d1'))).
  { eapply chains_upd; eauto. }
  assert (H2'' : chain_stands h3 c2 d2') by (eapply chain_stands_only; eauto).
  destruct (set_one h3 c2 d2' (c_temp c1) tr H2'' Q2) as (h4 & E4 & U4 & K4 & P4).
  assert (C4 : chains_stand h4 (set_nth (set_nth cs i (with_temp (c_temp c2) c1)) j (with_temp (c_temp c1) c2))
    (set_nth (set_nth cs1 i (set_temperature E' (c_temp c2) d1')) j (set_temperature E' (c_temp c1) d2'))).
  { eapply chains_upd with (c := c2) (c' := d2'); eauto.
    - rewrite nth_set_ne; auto. now apply lt_of_nth in Ei.
    - rewrite nth_set_ne; auto. now apply lt_of_nth in Eci. }
  rewrite (hbind_run _ _ _ _ _ _ _ E3), (hbind_run _ _ _ _ _ _ _ E4). cbn [hret fst snd].
  split.
  { eapply only_trans; [eapply only_mono; [|exact U3]|exact U4|].
    - intros a _ ->. unfold plus. auto.
    - intros a _ ->. unfold plus. auto. }
  unfold agree. cbn. split; auto. split; [exact C4|]. split; auto. split; cbn [fst].
  - intros w Hw. apply in_set_nth in Hw. destruct Hw as [->|Hw]; [exact P4|]. apply in_set_nth in Hw. destruct Hw as [->|Hw]; [exact P3|]. now apply Kp.
  - intros a Ha. left. unfold current in *. rewrite !map_set_nth in Ha. apply in_set_nth in Ha. destruct Ha as [->|Ha]; [cbn; apply in_map; eapply nth_error_In; eauto|].
    apply in_set_nth in Ha. destruct Ha as [->|Ha]; [cbn; apply in_map; eapply nth_error_In; eauto|auto].
Qed.
Lemma choose_two_ne n tr i j tr' : choose_two n tr = Ret (i, j) tr' -> i <> j.
Proof.
  unfold choose_two. destruct (n <? 2)%nat; [discriminate|]. destruct tr as [|[] tr]; try discriminate.
  destruct (_ && _)%bool eqn:B; [|discriminate]. intros [= <- <- _]. apply Bool.andb_true_iff in B. destruct B as [_ B].
  apply Bool.negb_true_iff, Nat.eqb_neq in B. exact B.
Qed.
Lemma swap_one_ok : list_ok false (h_pt_swap_one E) (pt_swap_one E').
Proof.
  intros S h cs cs' HS H Hp tr. unfold h_pt_swap_one, pt_swap_one. rewrite (chains_length' _ _ _ H).
  unfold hbind, hdo, bind, try. destruct (choose_two (length cs') tr) as [[i j] t|e t| |] eqn:Ec; cbn [fst snd].
  - eapply swap_with_ok; eauto. eapply choose_two_ne; eauto.
  - now apply (list_ret false (Some e)).
  - split; [apply only_refl|]. exact I.
  - split; [apply only_refl|]. exact I.
Qed.
Lemma swaps_ok k : list_ok false (h_pt_swaps E k) (pt_swaps E' k).
Proof.
  induction k as [|k IH]; [apply (list_ret false None)|]. intros S h cs cs' HS H Hp. cbn [h_pt_swaps pt_swaps].
  eapply simo_bind; [apply swap_one_ok; eauto|]. intros h1 [cs1 o] [cs1' o'] U K. pose proof K as (K1 & K2 & K3 & K4). cbn [fst snd] in *. subst o'.
  destruct o as [e|]; [apply simo_ret; split; auto|].
  eapply simo_weaken; [apply (IH (plus S h) h1 cs1 cs1'); auto|auto|].
  - intros _ a Ha. destruct (K4 a Ha); [left; auto|right; auto].
  - intros h2 x2 y2 U2 C. eapply lrel_trans; eauto.
Qed.
Lemma end_advance_ok : list_ok false (fun cs => h_pt_swaps E (length cs) cs) (pt_on_end_advance E').
Proof.
  intros S h cs cs' HS H Hp. unfold pt_on_end_advance. rewrite (chains_length' _ _ _ H). now apply swaps_ok.
Qed.

(** * Runs *)
Lemma vanilla_ok jobs n sc : list_ok (1 <? jobs)%Z (h_vanilla_run E (Some jobs) n sc) (vanilla_run E' (vanilla [] [] [] []) (Some jobs) n sc).
Proof.
  apply (advance_chain_ok spaces ll save like Hlike Hset Hhier h_nothing h_nothing h_nothing_l nothing nothing nothing_l); auto;
    try apply hook_nothing. apply nothing_l_ok.
Qed.
Lemma pt_loop_ok frac tmax jobs swap_every n sc fuel : list_ok (1 <? jobs)%Z (h_pt_loop E fuel (Some jobs) swap_every n sc)
  (pt_loop E' fuel (parallel_tempering E' frac tmax [] [] [] []) (Some jobs) swap_every n sc).
Proof.
  induction fuel as [|fuel IH]; intros S h cs cs' HS H Hp; cbn [h_pt_loop pt_loop].
  - intros tr. split; [apply only_refl|]. exact I.
  - destruct cs as [|c0 cs].
    { destruct H as [F N]. inversion F; subst. apply simo_ret. split; [split; auto|]. split; auto. }
    assert (exists c' t', cs' = c' :: t') as (c' & t' & ->) by (destruct H as [F _]; inversion F; subst; eauto).
    destruct (chains_tail _ _ _ _ _ H) as (H1 & _). cbv zeta. rewrite (cs_nprop_tot _ _ _ H1). set (it := c_nprop_tot c').
    assert (A : list_ok (1 <? jobs)%Z (h_advance_chain E h_nothing h_nothing (fun cs => h_pt_swaps E (length cs) cs) (Some jobs)
         (Nat.min swap_every (n - it)) (with_burnin (Nat.min swap_every (sc_burnin sc - it)) sc))
       (advance_chain E' (parallel_tempering E' frac tmax [] [] [] []) (Some jobs) (Nat.min swap_every (n - it)) (with_burnin (Nat.min swap_every (sc_burnin sc - it)) sc))).
    { apply (advance_chain_ok spaces ll save like Hlike Hset Hhier h_nothing h_nothing (fun cs => h_pt_swaps E (length cs) cs) nothing nothing (pt_on_end_advance E')); auto;
        try apply hook_nothing. apply end_advance_ok. }
    eapply simo_bind; [apply A; eauto|]. intros h1 [cs1 o] [cs1' o'] U K. pose proof K as (K1 & K2 & K3 & K4). cbn [fst snd] in *. subst o'.
    destruct o as [e|]; [apply simo_ret; split; auto|]. destruct (n <=? it)%nat; [apply simo_ret; split; auto|].
    eapply simo_weaken; [apply (IH (plus S h) h1 cs1 cs1'); auto|auto|].
    + intros Hj a Ha. destruct (K4 a Ha); [left; auto|right; auto].
    + intros h2 x2 y2 U2 C. eapply lrel_trans; eauto.
Qed.
Lemma sa_ok T0 jobs n sc : list_ok (1 <? jobs)%Z (h_sa_run E T0 (Some jobs) n sc) (sa_run E' T0 [] [] [] [] (Some jobs) n sc).
Proof.
  assert (A : forall b r, list_ok (1 <? jobs)%Z (h_advance_chain E (h_sa_on_begin T0 b r) h_nothing h_nothing_l (Some jobs) n sc)
     (advance_chain E' (simulated_annealing E' T0 b r [] [] [] []) (Some jobs) n sc)).
  { intros b r. apply (advance_chain_ok spaces ll save like Hlike Hset Hhier (h_sa_on_begin T0 b r) h_nothing h_nothing_l (sa_on_begin E' T0 b r) nothing nothing_l); auto;
      [apply hook_sa_begin; auto|apply hook_nothing|apply nothing_l_ok]. }
  unfold h_sa_run, sa_run. destruct (sc_burnin sc =? 0)%nat; [apply A|]. destruct (py_log T0) as [l|e|]; [apply A|apply list_ret|apply list_undef].
Qed.
Lemma run_ok par init run s run' : list_ok false init (sm_on_initialize s) -> sm_x_initialize s = [] -> list_ok par run run' ->
  list_ok false (h_inversion_run init run par) (inversion_run s run' par).
Proof.
  intros Hi Hx Hr S h cs cs' HS H Hp. unfold h_inversion_run, inversion_run.
  assert (Hi2 : list_ok false init (ModelSampler.initialize s)).
  { eapply list_ext; [reflexivity| |exact Hi]. intros c tr. unfold ModelSampler.initialize. rewrite Hx. cbn. unfold bind, ret.
    destruct (sm_on_initialize s c tr) as [[c1 [x|]] t|x t| |]; reflexivity. }
  eapply simo_bind; [apply Hi2; eauto|]. intros h1 [cs1 o] [cs1' o'] U K. pose proof K as (K1 & K2 & K3 & K4). cbn [fst snd] in *. subst o'.
  destruct o as [e|]; [apply simo_ret; split; auto|].
  eapply simo_bind with (R := fun h' x y => lrel h1 cs1 h' x y /\ (par = true -> chains_stand h' cs1 cs1')).
  - destruct par.
    + eapply simo_weaken with (S := fun _ => False) (R := fun h' x y => lrel h1 cs1 h' x y /\ only (fun _ => False) h1 h').
      * apply simo_only. apply Hr; auto. discriminate.
      * intros a _ [].
      * intros h' x y _ [C D]. split; auto. intros _. eapply no_change; eauto.
    + eapply simo_weaken; [apply (Hr (plus S h) h1 cs1 cs1'); auto|auto|].
      * intros _ a Ha. destruct (K4 a Ha); [left; auto|right; auto].
      * intros h' x y _ C. split; [exact C|discriminate].
  - intros h2 [cs2 o] [cs2' o'] U2 [C Hpar]. pose proof (lrel_trans spaces ll _ _ _ _ _ _ _ _ _ U K C) as C2.
    pose proof C2 as (J1 & J2 & J3 & J4). cbn [fst snd] in *. subst o'. destruct o as [e|]; apply simo_ret; auto.
    destruct par; [|split; auto]. split; [cbn [fst]; auto|]. split; auto.
Qed.
End Samplers.
