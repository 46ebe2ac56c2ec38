(** A new inversion in memory and with values. *)
From Verif Require Import Base ModelUtils1D ModelPrior ModelState ModelSpace ModelChain ModelSampler ModelPerturb ModelLikelihood ModelHeap
  ModelHeapSampler SpecState SpecSpace SpecChain SpecRun SpecHeap SpecRefine SpecRefineChain SpecRefineSampler ProofState ProofSpace ProofStep ProofChain
  ProofRun ProofRunB ProofRunC ProofHeap ProofHeapB ProofRefine ProofRefineB ProofRefineC ProofRefineD ProofRefineE ProofRefineF ProofRefineK ProofRefineL
  ProofRefineM ProofRefineN ProofRefineO ProofRefineP ProofRefineQ.
Local Open Scope R_scope.

(** * What is touched *)
Lemma ok_target_init b t a : forall h, own_state b h a -> ok all b h (h_target_initialize t a) any.
Proof.
  intros h O. unfold h_target_initialize. destruct (is_hier t); [|now apply ok_ret].
  okb (apply ok_do). subst. okb (apply ok_alloc). destruct Q as (L & -> & ->). apply ok_st_set; [exact I|].
  exact (own_state_ev _ _ _ _ _ V0 O).
Qed.
Lemma ok_targets_init b ts a : forall h, own_state b h a -> ok all b h (h_targets_initialize ts a) any.
Proof.
  induction ts as [|t ts IH]; intros h O; [now apply ok_ret|]. cbn [h_targets_initialize].
  okb (apply ok_target_init; exact O). apply IH. eapply own_state_ev; eauto.
Qed.
Lemma ok_starting spaces ll b h : ok all b h (h_starting_state spaces ll) (fun h' a => own_state b h' a).
Proof.
  unfold h_starting_state. eapply ok_bind; [apply ok_hmap|].
  { intros h0 s. okb (apply ok_do). subst. okb (apply ok_new). now apply ok_ret. }
  intros h1 dl V1 _. okb (apply ok_alloc). destruct Q as (L & -> & ->).
  okb (apply (ok_mk_state_dict b _ _ 1 [] dl L); apply nth_new). destruct Q as (dl' & _ & _ & O).
  okb (apply ok_targets_init; exact O). apply ok_ret. eapply own_state_ev; eauto.
Qed.

(** * A State under construction *)
Definition entry_at (h1 : heap) (ns : list noise) (b : loc) (e : ModelState.entry) : Prop :=
  rep_entry h1 b e \/ exists k d, b = (length h1 + 2 + k)%nat /\ nth_error ns k = Some d /\ e = ENoise d.
Definition built (h1 : heap) (ns : list noise) (h : heap) (a : loc) (s : state) : Prop :=
  exists dl al, h = h1 ++ HDict dl :: HState (length h1) al (st_temp s) (st_cache s) (st_extra s) :: map HNoise ns /\
    a = S (length h1) /\ drel (entry_at h1 ns) dl (st_vals s) /\ arel (entry_at h1 ns) al (st_attrs s).
Lemma entry_at_mono h1 ns d b e : entry_at h1 ns b e -> entry_at h1 (ns ++ [d]) b e.
Proof.
  intros [H|(k & d0 & -> & E & ->)]; [now left|]. right. exists k, d0. repeat split; auto. rewrite nth_error_app1; auto. now apply lt_of_nth in E.
Qed.
Lemma built_rep h1 ns h a s : built h1 ns h a s -> rep_state h a s.
Proof.
  intros (dl & al & -> & -> & D & G).
  assert (W : forall b e, entry_at h1 ns b e ->
     rep_entry (h1 ++ HDict dl :: HState (length h1) al (st_temp s) (st_cache s) (st_extra s) :: map HNoise ns) b e).
  { intros b e [H|(k & d & -> & E & ->)]; [eapply rep_entry_kept; [apply untouched_app|exact H]|]. constructor.
    rewrite nth_error_app2 by lia. replace (length h1 + 2 + k - length h1)%nat with (S (S k)) by lia. cbn. now rewrite nth_error_map, E. }
  eapply rep_state_mk.
  - rewrite nth_error_app2 by lia. replace (S (length h1) - length h1)%nat with 1%nat by lia. reflexivity.
  - rewrite nth_error_app2, Nat.sub_diag by lia. reflexivity.
  - eapply drel_mono; [exact W|exact D].
  - eapply arel_mono; [exact W|exact G].
Qed.
Lemma set_mid {A} (l : list A) x r z : set_nth (l ++ x :: r) (length l) z = l ++ z :: r.
Proof.
  unfold set_nth. rewrite firstn_app, Nat.sub_diag, firstn_all. cbn [firstn]. rewrite app_nil_r. f_equal. f_equal.
  rewrite skipn_app. replace (S (length l) - length l)%nat with 1%nat by lia. rewrite skipn_all2 by lia. reflexivity.
Qed.
Lemma set_mid2 {A} (l : list A) x y r z : set_nth (l ++ x :: y :: r) (S (length l)) z = l ++ x :: z :: r.
Proof.
  replace (l ++ x :: y :: r) with ((l ++ [x]) ++ y :: r) by (rewrite <- app_assoc; reflexivity).
  replace (S (length l)) with (length (l ++ [x])) by (rewrite app_length; cbn; lia). rewrite set_mid. rewrite <- app_assoc. reflexivity.
Qed.
Lemma run_set_built h1 ns h a s k d tr : built h1 ns h a s ->
  exists h', hbind (alloc (HNoise d)) (fun b => h_st_set k b a) h tr = (Ret tt tr, h') /\ built h1 (ns ++ [d]) h' a (st_set k (ENoise d) s).
Proof.
  intros (dl & al & -> & -> & D & G). set (r := map HNoise ns). set (r' := map HNoise (ns ++ [d])).
  assert (Er : r' = r ++ [HNoise d]) by (unfold r, r'; now rewrite map_app).
  set (Hs := HState (length h1) al (st_temp s) (st_cache s) (st_extra s)).
  assert (El : (length (h1 ++ HDict dl :: Hs :: r) = length h1 + 2 + length ns)%nat) by (rewrite app_length; cbn; unfold r; rewrite map_length; lia).
  unfold hbind at 1, alloc. rewrite El. rewrite <- app_assoc. cbn [app]. rewrite <- Er. unfold h_st_set.
  unfold hbind at 1, load at 1. rewrite nth_error_app2 by lia. replace (length h1 + 2 + length ns - length h1)%nat with (S (S (length ns))) by lia.
  assert (En : nth_error r' (length ns) = Some (HNoise d)).
  { rewrite Er, nth_error_app2; unfold r; rewrite map_length; [|lia]. now rewrite Nat.sub_diag. }
  cbn [nth_error]. rewrite En.
  unfold hbind at 1. rewrite (run_load_state _ _ (length h1) al (st_temp s) (st_cache s) (st_extra s)).
  2:{ rewrite nth_error_app2 by lia. replace (S (length h1) - length h1)%nat with 1%nat by lia. reflexivity. }
  cbn beta iota. unfold hbind at 1. rewrite (run_load_dict _ _ dl).
  2:{ rewrite nth_error_app2, Nat.sub_diag by lia. reflexivity. }
  cbn beta iota. unfold hbind at 1. rewrite run_store by (rewrite app_length; cbn; lia). rewrite set_mid.
  rewrite run_store by (rewrite app_length; cbn; lia). unfold Hs. rewrite set_mid2. eexists. split; [reflexivity|].
  assert (Ea : entry_at h1 (ns ++ [d]) (length h1 + 2 + length ns)%nat (ENoise d)).
  { right. exists (length ns), d. repeat split; auto. apply nth_new. }
  eexists _, _. split; [reflexivity|]. split; auto. split; cbn.
  - apply drel_set; auto. eapply drel_mono; [|exact D]. intros. now apply entry_at_mono.
  - apply arel_set; auto. eapply arel_mono; [|exact G]. intros. now apply entry_at_mono.
Qed.
Lemma sim_targets h1 ts : forall ns h a s, built h1 ns h a s ->
  forall tr, agree (fun h' _ s' => exists ns', built h1 ns' h' a s') (h_targets_initialize ts a h tr) (targets_initialize ts s tr).
Proof.
  induction ts as [|t ts IH]; intros ns h a s B tr; cbn [h_targets_initialize targets_initialize].
  - cbn. eauto.
  - unfold h_target_initialize, target_initialize. destruct (is_hier t); [|apply (IH ns h a s B tr)].
    unfold hbind at 1. unfold hbind at 1. unfold hdo, bind, ret.
    destruct (uniform (t_std_min t) (t_std_max t) tr) as [std t1|e t1| |]; cbn [fst snd agree]; auto.
    destruct (t_corr t).
    + destruct (uniform (t_cor_min t) (t_cor_max t) t1) as [cor t2|e t2| |]; cbn [fst snd agree]; auto.
      destruct (run_set_built h1 ns h a s (t_name t) (mkNoise std (Some cor)) t2 B) as (h' & -> & B'). exact (IH _ _ _ _ B' t2).
    + destruct (run_set_built h1 ns h a s (t_name t) (mkNoise std None) t1 B) as (h' & -> & B'). exact (IH _ _ _ _ B' t1).
Qed.
Lemma sim_spaces spaces : forall h, sim h
  (hmap (fun s => hbind (hdo (ModelSpace.initialize s)) (fun p => hbind (h_new p) (fun a => hret (sp_name s, a)))) spaces)
  (mapM (fun s => bind (ModelSpace.initialize s) (fun p => ret (sp_name s, EPS p))) spaces)
  (fun h' => drel (rep_entry h')).
Proof.
  induction spaces as [|s spaces IH]; intros h; cbn [hmap mapM]; [apply sim_ret; constructor|].
  eapply sim_bind with (R := fun h' x y => fst x = fst y /\ rep_entry h' (snd x) (snd y)).
  - apply sim_draw_from. intros p (t & t' & Ep). apply sim_new; [eapply step_initialize; eauto|].
    intros h' a U Ra. apply sim_ret. split; auto. now constructor.
  - intros h1 x y U [K1 K2]. eapply sim_bind; [apply IH|]. intros h2 dl vals U2 D. apply sim_ret. constructor; auto.
    split; auto. eapply rep_entry_kept; eauto.
Qed.
Lemma bind_bind {A B C} (m : M A) (f : A -> M B) (g : B -> M C) tr : bind (bind m f) g tr = bind m (fun x => bind (f x) g) tr.
Proof. unfold bind. destruct (m tr); auto. Qed.
Lemma sim_starting spaces ll h tr : agree (fun h' a s => rep_state h' a s) (h_starting_state spaces ll h tr) (starting_state spaces ll tr).
Proof.
  unfold h_starting_state, starting_state, initialize_all. rewrite bind_bind.
  pose proof (sim_spaces spaces h tr) as S0. unfold agree in S0. unfold hbind at 1. unfold bind at 1.
  destruct (hmap _ spaces h tr) as [[dl t|e t| |] h1]; destruct (mapM _ spaces tr) as [vals t'|e' t'| |]; cbn [fst snd] in S0; try contradiction;
    try (cbn; tauto).
  destruct S0 as (-> & U & D).
  pose proof (sim_mk_state h1 h1 dl vals 1 [] (untouched_refl h1) D t') as S1. unfold agree in S1.
  rewrite <- (hbind_assoc (alloc (HDict dl)) (fun d => h_mk_state d 1 []) (fun a => hbind (h_targets_initialize (ll_targets ll) a) (fun _ => hret a)) h1 t').
  unfold hbind at 1. destruct (hbind (alloc (HDict dl)) (fun d => h_mk_state d 1 []) h1 t') as [[a t2|e t2| |] h2]; cbn [fst snd ret] in S1; try contradiction.
  destruct S1 as (-> & _ & (h3 & dl3 & al3 & -> & -> & _ & D3 & G3)).
  unfold bind, ret. unfold hbind.
  assert (B : built h3 [] (h3 ++ [HDict dl3; HState (length h3) al3 (st_temp (mk_state vals 1 [])) (st_cache (mk_state vals 1 [])) (st_extra (mk_state vals 1 []))])
    (S (length h3)) (mk_state vals 1 [])).
  { exists dl3, al3. split; [reflexivity|]. split; auto. split; [eapply drel_mono; [|exact D3]|eapply arel_mono; [|exact G3]]; intros; now left. }
  pose proof (sim_targets h3 (ll_targets ll) [] _ _ _ B t') as S2. unfold agree in S2. unfold ll_initialize.
  destruct (h_targets_initialize (ll_targets ll) (S (length h3)) _ t') as [[u t4|e t4| |] h4]; destruct (targets_initialize (ll_targets ll) (mk_state vals 1 []) t') as [s t5|e5 t5| |];
    cbn [fst snd hret agree] in *; auto.
  destruct S2 as (-> & ns & B2). split; auto. eapply built_rep; eauto.
Qed.

(** * The chains *)
Lemma sim_chains spaces ll save : setup_ok spaces (ll_targets ll) -> forall n S h,
  simo S h (h_inversion_chains spaces ll n) (inversion_chains spaces ll save n)
    (fun h' cs cs' => chains_stand h' cs cs' /\ Ps spaces ll cs' /\ forall a, current cs a -> (length h <= a)%nat).
Proof.
  intros Hset. induction n as [|n IH]; intros S h.
  - cbn. apply simo_ret. split; [split; constructor|]. split; [intros ? []|intros ? []].
  - unfold inversion_chains. cbn [h_inversion_chains repeatM]. 
    eapply simo_ext; [intros tr; apply bind_bind|].
    eapply simo_bind with (R := fun h' a s => rep_state h' a s /\ (length h <= a)%nat /\ good spaces (ll_targets ll) s).
    + intros tr. destruct (ok_starting spaces ll (length h) h (le_n _) tr) as [V Q]. split; [eapply ev_only; eauto|].
      pose proof (sim_starting spaces ll h tr) as A. unfold agree in *.
      destruct (h_starting_state spaces ll h tr) as [[a t|e t| |] h1]; destruct (starting_state spaces ll tr) as [s t'|e' t'| |] eqn:Es; cbn [fst snd] in *; auto.
      destruct A as [-> A]. split; auto. split; auto. split; [now destruct (Q a t' eq_refl)|]. eapply starting_ok; eauto.
    + intros h1 a s U (Ra & La & Gs). pose proof (only_length _ _ _ U) as L.
      eapply simo_ext with (v' := bind (inversion_chains spaces ll save n) (fun xs => ret (new_chain (inversion_env spaces ll save) s :: xs))).
      { intros tr. reflexivity. }
      eapply simo_bind; [apply simo_only; eapply simo_weaken with (S := fun _ => False); [apply (IH (fun _ => False) h1)|intros ? _ []|intros h' x y V K; exact (conj K V)]|].
      cbv beta. intros h2 cs cs' U2 [[(H & Hp & Hc) V] _]. apply simo_ret. split; [|split].
      * apply chains_cons; auto.
        -- constructor; try reflexivity; [|constructor]. cbn. eapply rep_state_only; eauto.
        -- cbn. intros Ha. apply Hc in Ha. destruct Ra as (d & al & dl & Ea & _). apply lt_of_nth in Ea. unfold loc in *. lia.
      * intros u [<-|Hu]; auto.
      * intros b [<-|Hb]; auto. apply Hc in Hb. lia.
Qed.
