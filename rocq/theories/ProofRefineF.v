(** States with objects and with values: copies, moves of one space, noise. *)
From Verif Require Import Base ModelUtils1D ModelPrior ModelState ModelSpace ModelChain ModelPerturb ModelLikelihood ModelHeap
  SpecState SpecHeap SpecRefine ProofInversion ProofState ProofSpace ProofSpaceC ProofNested ProofStep ProofHeap ProofHeapB
  ProofRefine ProofRefineB ProofRefineC ProofRefineD ProofRefineE.
Local Open Scope R_scope.

Lemma edrel_kept h h' dl vals : untouched h h' -> drel (rep_entry h) dl vals -> drel (rep_entry h') dl vals.
Proof. intros U. apply drel_mono. intros. eapply rep_entry_kept; eauto. Qed.
Lemma earel_kept h h' dl vals : untouched h h' -> arel (rep_entry h) dl vals -> arel (rep_entry h') dl vals.
Proof. intros U. apply arel_mono. intros. eapply rep_entry_kept; eauto. Qed.
Lemma rep_entry_obj h b e : rep_entry h b e -> exists o, nth_error h b = Some o /\
  match o with HPS _ _ _ _ => True | HNoise _ => True | _ => False end.
Proof.
  intros [b0 p H|b0 d E]; [|eexists; split; [exact E|exact I]].
  destruct (rep_inv _ _ _ H) as (d & al & cl & dl & E & _). eexists; split; [exact E|exact I].
Qed.
Lemma rep_state_mk h a s d al dl : nth_error h a = Some (HState d al (st_temp s) (st_cache s) (st_extra s)) ->
  nth_error h d = Some (HDict dl) -> drel (rep_entry h) dl (st_vals s) -> arel (rep_entry h) al (st_attrs s) -> rep_state h a s.
Proof. intros. exists d, al, dl. auto. Qed.
(** Evolutions of ProofHeap.v keep what a State holds. *)
Lemma rep_state_ev N h h' a s : ev N (length h) h h' -> rep_state h a s -> rep_state h' a s.
Proof.
  intros V (d & al & dl & E1 & E2 & D & G). pose proof (ev_untouched _ _ _ V) as U.
  destruct (U _ _ E2) as (o & E3 & So). cbn in So. subst o.
  eapply rep_state_mk; [eapply ev_state; eauto|exact E3|eapply edrel_kept; eauto|eapply earel_kept; eauto].
Qed.
Lemma sim_ok {A B} N h (m : HM A) (v : M B) R : sim h m v R -> ok N (length h) h m any ->
  sim h m v (fun h' a b => R h' a b /\ ev N (length h) h h').
Proof.
  intros H K tr. specialize (H tr). destruct (K (le_n _) tr) as [V _]. unfold agree in *.
  destruct (m h tr) as [[a t|e t| |] h1]; destruct (v tr); cbn in *; auto.
  destruct H as (-> & U & Hr). auto.
Qed.

(** * Constructor *)
Lemma run_st_set h1 dl al t c x k b e tr : rep_entry h1 b e ->
  h_st_set k b (S (length h1)) (h1 ++ [HDict dl; HState (length h1) al t c x]) tr =
  (Ret tt tr, h1 ++ [HDict (dset k b dl); HState (length h1) (dset k b al) t c x]).
Proof.
  intros H. pose proof (nth_two h1 (HDict dl) (HState (length h1) al t c x)) as [N1 N2].
  assert (S0 : forall tr', hbind (load_state (S (length h1))) (fun '(d, at_, t, c, x) => hbind (load_dict d) (fun dl => hbind (store d (HDict (dset k b dl)))
      (fun _ => store (S (length h1)) (HState d (dset k b at_) t c x)))) (h1 ++ [HDict dl; HState (length h1) al t c x]) tr'
    = (Ret tt tr', h1 ++ [HDict (dset k b dl); HState (length h1) (dset k b al) t c x])).
  { intros tr'. unfold hbind at 1. rewrite (run_load_state _ _ _ _ _ _ _ _ N2). unfold hbind at 1. rewrite (run_load_dict _ _ _ _ N1).
    unfold hbind. rewrite run_store by (rewrite app_length; cbn; lia). rewrite (proj1 (set_two h1 _ _ _)).
    rewrite run_store by (rewrite app_length; cbn; lia). now rewrite (proj2 (set_two h1 _ _ _)). }
  destruct (rep_entry_obj _ _ _ H) as (o & E & Ho). unfold h_st_set, hbind at 1, load.
  rewrite nth_error_app1 by (apply nth_error_Some; congruence). rewrite E.
  destruct o; try tauto; apply S0.
Qed.
Lemma run_st_post_init h1 t c todo tvals : drel (rep_entry h1) todo tvals -> forall dl al vals attrs tr,
  drel (rep_entry h1) dl vals -> arel (rep_entry h1) al attrs ->
  let s := fold_left (fun s ke => st_set (fst ke) (snd ke) s) tvals (mkState vals attrs t c []) in
  exists dl' al',
    h_st_post_init todo (S (length h1)) (h1 ++ [HDict dl; HState (length h1) al t c []]) tr =
      (Ret tt tr, h1 ++ [HDict dl'; HState (length h1) al' (st_temp s) (st_cache s) (st_extra s)]) /\
    drel (rep_entry h1) dl' (st_vals s) /\ arel (rep_entry h1) al' (st_attrs s).
Proof.
  intros F. induction F as [|[k b] [k2 v] todo tvals [K1 K2] F IH]; intros dl al vals attrs tr D G.
  - cbn. exists dl, al. auto.
  - cbn in K1, K2. subst k2. cbn [h_st_post_init fold_left fst snd]. cbv zeta.
    destruct (IH (dset k b dl) (dset k b al) (dset k v vals) (dset k v attrs) tr
      (drel_set _ _ _ _ _ _ D K2) (arel_set _ _ _ _ _ _ G K2)) as (dl' & al' & E & D' & G').
    exists dl', al'. split; [|split; [exact D'|exact G']].
    unfold hbind. rewrite (run_st_set _ _ _ _ _ _ _ _ _ _ K2). exact E.
Qed.
Definition scopied (h : heap) (h' : heap) (a : loc) (s : state) : Prop :=
  exists h1 dl al, h' = h1 ++ [HDict dl; HState (length h1) al (st_temp s) (st_cache s) (st_extra s)] /\ a = S (length h1) /\
    untouched h h1 /\ drel (rep_entry h1) dl (st_vals s) /\ arel (rep_entry h1) al (st_attrs s).
Lemma scopied_rep h h' a s : scopied h h' a s -> rep_state h' a s.
Proof.
  intros (h1 & dl & al & -> & -> & U & D & G).
  pose proof (nth_two h1 (HDict dl) (HState (length h1) al (st_temp s) (st_cache s) (st_extra s))) as [N1 N2].
  eapply rep_state_mk; eauto.
  - eapply edrel_kept; [apply untouched_app|exact D].
  - eapply earel_kept; [apply untouched_app|exact G].
Qed.
Lemma sim_mk_state h0 h dl vals t c : untouched h0 h -> drel (rep_entry h) dl vals ->
  sim h (hbind (alloc (HDict dl)) (fun d => h_mk_state d t c)) (ret (mk_state vals t c)) (scopied h0).
Proof.
  intros U D tr. unfold hbind at 1, alloc. unfold h_mk_state. unfold hbind at 1.
  rewrite (run_load_dict _ _ dl) by apply nth_new. unfold hbind at 1, alloc.
  rewrite app_length. cbn [length]. rewrite <- app_assoc. cbn [app].
  replace (length h + 1)%nat with (S (length h)) by lia.
  destruct (run_st_post_init h t c dl vals D dl [] vals [] tr D (arel_nil _ _)) as (dl' & al' & E & D' & G').
  unfold hbind. rewrite E. cbn. split; [reflexivity|]. split; [apply untouched_app|].
  exists h, dl', al'. auto.
Qed.

(** * Copies *)
Lemma sim_entry_copy h b e : rep_entry h b e -> sim h (h_entry_copy b) (lift (entry_copy e)) rep_entry.
Proof.
  intros [b0 p H|b0 d E]; unfold h_entry_copy.
  - destruct (rep_inv _ _ _ H) as (d & al & cl & dl & E & _). eapply sim_load; [exact E|]. cbv beta iota. cbn [entry_copy].
    eapply sim_ext; [intros tr; apply lift_bind|].
    intros tr. pose proof (sim_copy_ps h b0 p H tr) as S1. unfold agree in *. unfold bind.
    destruct (copy_ps b0 h tr) as [[x t|e0 t| |] h2]; destruct (lift (ps_copy p) tr) as [y t'|e' t'| |]; cbn in *; auto; try tauto.
    destruct S1 as (-> & U & C). repeat split; auto. constructor. eapply copied_rep; eauto.
  - eapply sim_load; [exact E|]. cbn. apply sim_alloc_ret. constructor. apply nth_new.
Qed.
Lemma sim_st_copy h a s keep : rep_state h a s -> sim h (h_st_copy keep a) (lift (st_copy keep s)) (scopied h).
Proof.
  intros (d & al & dl & E1 & E2 & D & G). unfold h_st_copy, st_copy.
  eapply sim_load_state; [exact E1|]. eapply sim_load_dict; [exact E2|].
  eapply sim_ext; [intros tr; apply lift_bind|]. eapply sim_bind.
  - eapply (sim_hmap h _ _ _ (fun h' kb kv => fst kb = fst kv /\ rep_entry h' (snd kb) (snd kv)) dl (st_vals s) D).
    + intros h1 h2 c0 d0 U [K1 K2]. split; [auto|eapply rep_entry_kept; eauto].
    + intros h' [k b] [k' e] _ U [K1 K2]. cbn in K1, K2. subst k'. cbn [fst snd].
      eapply sim_ext; [intros tr; apply lift_bind|].
      eapply sim_bind; [apply sim_entry_copy; eapply rep_entry_kept; eauto|].
      intros h2 b' e' U2 R2. apply sim_ret. auto.
  - cbn. intros h1 dl' vals' U1 D1. apply (sim_mk_state h h1); auto.
Qed.

(** * A move of one space *)
Lemma sim_elem_state e h a s : rep_state h a s ->
  sim h (h_elem_perturb_state e a) (elem_perturb_state e s) (fun h' x y => rep_state h' (fst x) (fst y) /\ snd x = snd y).
Proof.
  intros Rs. pose proof Rs as (d & al & dl & E1 & E2 & D & G). unfold h_elem_perturb_state, elem_perturb_state.
  apply sim_step with (h1 := h) (a := dl); [|apply untouched_refl|].
  { intros tr. unfold h_any_vals, hbind at 1, load. rewrite E1. now apply run_load_dict. }
  unfold st_get. pose proof (drel_get _ _ _ (elem_space e) D) as Dg. destruct (dget (elem_space e) dl) as [b|].
  2:{ rewrite Dg. apply sim_err. }
  destruct Dg as (v & Ev & Hv). rewrite Ev. destruct Hv as [b p H|b n E].
  2:{ eapply sim_load; [exact E|]. apply sim_ubeh. }
  destruct (rep_inv _ _ _ H) as (d' & al' & cl' & dl' & E & _). eapply sim_load; [exact E|]. cbv beta iota.
  eapply sim_bind; [apply (sim_ok all); [apply sim_elem; exact H|apply ok_elem]|]. cbn.
  intros h1 [b' r] [p' r'] U1 [[R1 Er] V]. cbn in R1, Er. subst r'.
  apply sim_b. eapply simb_bind; [apply sim_st_copy; eapply rep_state_ev; eauto|].
  intros h2 c s2 U2 (h3 & dl3 & al3 & -> & -> & U3 & D3 & G3).
  assert (R3 : rep_entry h3 b' (EPS p')) by (constructor; eapply rep_kept; eauto).
  eapply simb_step; [intros tr; eapply run_st_set; exact R3|].
  apply simb_ret; [eapply untouched_trans; [exact U3|apply untouched_app]|]. split; [|reflexivity].
  apply (scopied_rep h3). exists h3, (dset (elem_space e) b' dl3), (dset (elem_space e) b' al3). cbn.
  repeat split; auto.
  - apply untouched_refl.
  - apply drel_set; auto.
  - apply arel_set; auto.
Qed.

(** * Reading a State back *)
Lemma read_entry_rep h b e : rep_entry h b e -> read_entry h b = Some (view_entry e).
Proof.
  intros [b0 p H|b0 d E]; unfold read_entry.
  - destruct (rep_inv _ _ _ H) as (d & al & cl & dl & E & _). rewrite E.
    now rewrite (read_rep _ _ _ _ (rep_deep _ _ _ H) H).
  - now rewrite E.
Qed.
Lemma run_view_state h a s tr : rep_state h a s ->
  ModelHeap.view_state a h tr = (Ret (mkState (SpecState.view_state s) [] (st_temp s) (st_cache s) (st_extra s)) tr, h).
Proof.
  intros (d & al & dl & E1 & E2 & D & G). unfold ModelHeap.view_state, read_state. rewrite E1, E2.
  rewrite (omap_Forall2 _ (fun ke => (fst ke, view_entry (snd ke))) _ dl (st_vals s) D); [reflexivity|].
  intros [k b] [k' e] _ [K1 K2]. cbn in K1, K2. subst k'. cbn. now rewrite (read_entry_rep _ _ _ K2).
Qed.
Lemma noise_of_view t s x y z : noise_of t (mkState (SpecState.view_state s) [] x y z) = noise_of t s.
Proof.
  unfold noise_of, st_get, SpecState.view_state. cbn [st_vals].
  induction (st_vals s) as [|[k e] l IH]; [reflexivity|]. cbn [map dget fst snd].
  destruct (t_name t =? k)%string; [|exact IH]. now destruct e.
Qed.

(** * Noise *)
Lemma sim_perturb_targets ts : forall h a s newl newv, rep_state h a s -> drel (rep_entry h) newl newv ->
  sim h (h_perturb_targets ts a newl) (perturb_targets ts s newv) (fun h' => drel (rep_entry h')).
Proof.
  induction ts as [|t ts IH]; intros h a s newl newv Rs D.
  - cbn. now apply sim_ret.
  - cbn [h_perturb_targets perturb_targets].
    eapply sim_step; [intros tr; apply run_view_state; exact Rs|apply untouched_refl|].
    rewrite noise_of_view. apply sim_lift. intros d _. apply sim_draw. intros d'. apply sim_alloc.
    apply IH.
    + eapply (rep_state_ev all); [|exact Rs]. apply ev_app. lia.
    + apply drel_set; [eapply edrel_kept; [apply untouched_app|exact D]|]. constructor. apply nth_new.
Qed.
Lemma sim_noise ts h a s : rep_state h a s ->
  sim h (h_noise_perturb ts a) (noise_perturb ts s) (fun h' x y => rep_state h' (fst x) (fst y) /\ snd x = snd y).
Proof.
  intros Rs. unfold h_noise_perturb, noise_perturb.
  eapply sim_bind; [apply (sim_ok all); [apply sim_perturb_targets; [exact Rs|constructor]|apply ok_perturb_targets]|].
  cbn. intros h1 newl newv U1 [D1 V1].
  apply sim_b. eapply simb_bind; [apply sim_st_copy; eapply rep_state_ev; eauto|].
  intros h2 c s2 U2 (h3 & dl3 & al3 & -> & -> & U3 & D3 & G3).
  pose proof (nth_two h3 (HDict dl3) (HState (length h3) al3 (st_temp s2) (st_cache s2) (st_extra s2))) as [N1 N2].
  eapply simb_step; [intros tr; apply run_load_state; exact N2|]. cbv beta iota.
  eapply simb_step; [intros tr; apply run_load_dict; exact N1|].
  eapply simb_step.
  { intros tr. rewrite run_store by (rewrite app_length; cbn; lia). rewrite (proj1 (set_two h3 _ _ _)). reflexivity. }
  apply simb_ret; [eapply untouched_trans; [exact U3|apply untouched_app]|]. split; [|reflexivity].
  apply (scopied_rep h3). exists h3, (dupdate dl3 newl), al3. cbn.
  repeat split; auto.
  - apply untouched_refl.
  - apply drel_update; [|exact D3]. eapply edrel_kept; eauto.
Qed.
