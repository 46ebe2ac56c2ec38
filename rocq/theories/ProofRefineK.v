(** The walk over the copied State, in memory and with values. *)
From Verif Require Import Base ModelUtils1D ModelPrior ModelState ModelSpace ModelChain ModelPerturb ModelLikelihood ModelHeap
  SpecState SpecHeap SpecRefine ProofInversion ProofState ProofSpace ProofNested ProofPerturb ProofStep ProofHeap ProofHeapB
  ProofRefine ProofRefineB ProofRefineD ProofRefineE ProofRefineF ProofRefineG ProofRefineH ProofRefineI ProofRefineJ.
Local Open Scope nat_scope.

(** * Combination with what is reachable *)
Lemma sim_gd {A B} G n1 h (m : HM A) (v : M B) R Q : sim h m v R -> gd G n1 m Q -> closed G h -> n1 <= length h ->
  sim h m v (fun h' a b => R h' a b /\ closed G h' /\ n1 <= length h' /\ Q a).
Proof.
  intros S Gm C L tr. specialize (S tr). destruct (Gm h tr C L) as (C' & L' & F). unfold agree in *.
  destruct (m h tr) as [[a t|e t| |] h']; destruct (v tr) as [b t'|e' t'| |]; cbn in *; auto.
  destruct S as (-> & U & HR). repeat split; eauto.
Qed.

(** * One state, and a list of states *)
Definition rep3 (h : heap) (x : loc * ext * string) (y : psstate * ext * string) : Prop :=
  rep h (fst (fst x)) (fst (fst y)) /\ snd (fst x) = snd (fst y) /\ snd x = snd y.
Lemma sim_psp_ps q h a p : rep h a p -> sim h (h_psp_ps q a) (psp_perturb_ps q p) rep3.
Proof.
  intros H. unfold h_psp_ps, psp_perturb_ps. apply sim_draw. intros i. apply sim_lift. intros ew _.
  eapply sim_bind; [apply sim_elem; exact H|]. intros h' [a' r] [p' r'] U [Ha E]. cbn in Ha, E. subst r'.
  apply sim_ret. repeat split; auto.
Qed.
Definition repl (n : nat) (h : heap) (x : list loc * nat * ext * dict nat) (y : list psstate * nat * ext * dict nat) : Prop :=
  Forall2 (rep h) (fst (fst (fst x))) (fst (fst (fst y))) /\ length (fst (fst (fst y))) = n /\
  snd (fst (fst x)) = snd (fst (fst y)) /\ snd (fst x) = snd (fst y) /\ snd x = snd y.
Lemma sim_walk_list q target : forall ps h vs i ratio stats, Forall2 (rep h) vs ps ->
  sim h (h_walk_list q target vs i ratio stats) (walk_list q target ps i ratio stats) (repl (length ps)).
Proof.
  induction ps as [|p ps IH]; intros h vs i ratio stats H; inversion H as [|v p' vt pt Hv Ht]; subst; cbn [h_walk_list walk_list].
  - apply sim_ret. repeat split; constructor.
  - destruct (i =? target)%nat.
    + eapply sim_bind; [apply sim_psp_ps; exact Hv|]. intros h1 [[v' r] ty] [[p' r'] ty'] U1 (Rv & E1 & E2). cbn in Rv, E1, E2. subst r' ty'.
      eapply sim_bind; [apply IH; eapply reps_kept; eauto|].
      intros h2 [[[t' i'] ra'] st'] [[[tp i2] ra2] st2] U2 (F & L & K1 & K2 & K3). cbn in F, L, K1, K2, K3. subst.
      apply sim_ret. repeat split; cbn; auto. constructor; auto. eapply rep_kept; eauto.
    + eapply sim_bind; [apply sim_copy_ps; exact Hv|]. intros h1 v' p' U1 Rv. apply copied_rep in Rv.
      eapply sim_bind; [apply IH; eapply reps_kept; eauto|].
      intros h2 [[[t' i'] ra'] st'] [[[tp i2] ra2] st2] U2 (F & L & K1 & K2 & K3). cbn in F, L, K1, K2, K3. subst.
      apply sim_ret. repeat split; cbn; auto. constructor; auto. eapply rep_kept; eauto.
Qed.

(** * Running the in-place change *)
Lemma nth_set_ne {A} (l : list A) i j x : i < length l -> i <> j -> nth_error (set_nth l i x) j = nth_error l j.
Proof. intros L H. rewrite nth_set_nth by auto. destruct (Nat.eqb_spec j i); [lia|reflexivity]. Qed.
Lemma nth_set_eq {A} (l : list A) i x : i < length l -> nth_error (set_nth l i x) i = Some x.
Proof. intros H. rewrite nth_set_nth by auto. now rewrite Nat.eqb_refl. Qed.
Lemma lt_of_nth {A} (l : list A) i x : nth_error l i = Some x -> i < length l.
Proof. intros E. apply nth_error_Some. congruence. Qed.
Lemma run_any_set_ps k h x n d al cl dl b v : nth_error h x = Some (HPS n d al cl) -> nth_error h d = Some (HDict dl) ->
  repv h b v -> v <> Lst [] -> exists h', (forall tr, h_any_set k b x h tr = (Ret tt tr, h')) /\ setat k h h' x b /\ length h' = length h.
Proof.
  intros E1 E2 R Vn. pose proof (lt_of_nth _ _ _ E1) as L1. pose proof (lt_of_nth _ _ _ E2) as L2.
  assert (Nx : d <> x) by (intros ->; congruence).
  exists (set_nth (set_nth h d (HDict (dset k b dl))) x (HPS n d (dset k b al) cl)). split; [|split].
  - intros tr. unfold h_any_set. unfold hbind at 1. unfold load at 1. rewrite E1. unfold h_set. unfold hbind at 1. unfold load at 1.
    assert (S0 : hbind (load_ps x) (fun '(n, d, at_, c) => hbind (load_dict d) (fun dl => hbind (store d (HDict (dset k b dl)))
      (fun _ => store x (HPS n d (dset k b at_) c)))) h tr =
      (Ret tt tr, set_nth (set_nth h d (HDict (dset k b dl))) x (HPS n d (dset k b al) cl))).
    { unfold hbind at 1. rewrite (run_load_ps _ _ _ _ _ _ _ E1). unfold hbind at 1. rewrite (run_load_dict _ _ _ _ E2).
      unfold hbind. rewrite run_store by auto. apply run_store. now rewrite set_nth_length. }
    destruct R as [b l E|b l E|b ls ps E F|b ls ps E F]; rewrite E; auto.
    destruct F; [now destruct Vn|exact S0].
  - exists n, d, al, cl, dl. repeat split; auto.
    + apply nth_set_eq. now rewrite set_nth_length.
    + rewrite nth_set_ne by (rewrite ?set_nth_length; auto). now apply nth_set_eq.
    + intros y H1 H2. rewrite nth_set_ne by (rewrite ?set_nth_length; auto). rewrite nth_set_ne; auto.
  - rewrite !set_nth_length; rewrite ?set_nth_length; auto.
Qed.
Lemma run_any_set_st k h x d al t c e dl b p : nth_error h x = Some (HState d al t c e) -> nth_error h d = Some (HDict dl) ->
  rep h b p -> exists h', (forall tr, h_any_set k b x h tr = (Ret tt tr, h')) /\ ssetat k h h' x b /\ length h' = length h.
Proof.
  intros E1 E2 R. pose proof (lt_of_nth _ _ _ E1) as L1. pose proof (lt_of_nth _ _ _ E2) as L2.
  assert (Nx : d <> x) by (intros ->; congruence).
  exists (set_nth (set_nth h d (HDict (dset k b dl))) x (HState d (dset k b al) t c e)). split; [|split].
  - intros tr. unfold h_any_set. unfold hbind at 1. unfold load at 1. rewrite E1. unfold h_st_set. unfold hbind at 1. unfold load at 1.
    destruct (rep_inv _ _ _ R) as (d' & al' & cl' & dl' & E & _). rewrite E.
    unfold hbind at 1. rewrite (run_load_state _ _ _ _ _ _ _ _ E1). unfold hbind at 1. rewrite (run_load_dict _ _ _ _ E2).
    unfold hbind. rewrite run_store by auto. apply run_store. now rewrite set_nth_length.
  - exists d, al, t, c, e, dl. repeat split; auto.
    + apply nth_set_eq. now rewrite set_nth_length.
    + rewrite nth_set_ne by (rewrite ?set_nth_length; auto). now apply nth_set_eq.
    + intros y H1 H2. rewrite nth_set_ne by (rewrite ?set_nth_length; auto). rewrite nth_set_ne; auto.
  - rewrite !set_nth_length; rewrite ?set_nth_length; auto.
Qed.
Lemma setat_upk k h h' x b : setat k h h' x b -> upk k h h'.
Proof.
  intros (n & d & al & cl & dl & E1 & E2 & E3 & E4 & E5) l o E.
  destruct (Nat.eq_dec l x) as [->|Hx]; [|destruct (Nat.eq_dec l d) as [->|Hd]].
  - rewrite E1 in E. injection E as <-. eexists. split; [exact E3|]. eauto.
  - rewrite E2 in E. injection E as <-. eexists. split; [exact E4|]. exists (dset k b dl). split; [reflexivity|].
    intros k' Hk. now apply dget_dset_other.
  - exists o. rewrite E5 by auto. split; [auto|]. destruct o; eauto.
Qed.
Lemma ssetat_upk k h h' x b : ssetat k h h' x b -> upk k h h'.
Proof.
  intros (d & al & t & c & e & dl & E1 & E2 & E3 & E4 & E5) l o E.
  destruct (Nat.eq_dec l x) as [->|Hx]; [|destruct (Nat.eq_dec l d) as [->|Hd]].
  - rewrite E1 in E. injection E as <-. eexists. split; [exact E3|]. cbn. eauto 6.
  - rewrite E2 in E. injection E as <-. eexists. split; [exact E4|]. exists (dset k b dl). split; [reflexivity|].
    intros k' Hk. now apply dget_dset_other.
  - exists o. rewrite E5 by auto. split; [auto|]. destruct o; cbn; eauto 6.
Qed.
Lemma upk_trans k h1 h2 h3 : upk k h1 h2 -> upk k h2 h3 -> upk k h1 h3.
Proof.
  intros A B l o E. destruct (A l o E) as (o2 & E2 & S2). destruct (B l o2 E2) as (o3 & E3 & S3). exists o3. split; [auto|].
  destruct o; try (subst o2; exact S3).
  - destruct S2 as (dl' & -> & H2). destruct S3 as (dl3 & -> & H3). exists dl3. split; auto. intros k' Hk. rewrite H3, H2; auto.
  - destruct S2 as (al & cl & ->). exact S3.
  - destruct S2 as (al & t & c & e & ->). exact S3.
Qed.

(** * The walk *)
Section Walk.
Variable q : psp.
Variable target : nat.
Variable h0 : heap.
Variable a : loc.
Variable s0 : state.
Variable new : loc.
Variable n1 : nat.
Hypothesis Hn1 : length h0 <= n1.
Hypothesis Hs0 : sane_state s0.
Hypothesis Ha : rep_state h0 a s0.
Let k0 := psp_space q.
Let G (l : loc) : Prop := live h0 l \/ n1 <= l.
Let Gnew : forall l, n1 <= l -> G l.
Proof. intros l H. now right. Qed.

Definition inv (h : heap) (s : state) : Prop :=
  exists F, stree G k0 h new s s0 F /\ NoDup F /\ (forall y, In y F -> length h0 <= y < n1) /\
    closed G h /\ n1 <= length h /\ untouched h0 h.
Lemma notG F : (forall y, In y F -> length h0 <= y < n1) -> forall y, In y F -> ~ G y.
Proof. intros R y Hy [L|L]; apply R in Hy; [apply live_lt in L; lia|lia]. Qed.
Definition qrel (h : heap) (x : loc * loc) (y : path * dict child) : Prop :=
  exists p, snd y = ps_children p /\ sane p /\ off k0 (fst y) /\ spat (fst y) s0 = Some p /\ shat h new (fst y) (fst x) /\ rep h0 (snd x) p.
Lemma qrel_kept h h' x y : upk k0 h h' -> qrel h x y -> qrel h' x y.
Proof. intros U (p & E & Sp & O & P & H & R). exists p. repeat split; auto. eapply shat_kept; eauto. Qed.
Lemma qrels_kept h h' xs ys : upk k0 h h' -> Forall2 (qrel h) xs ys -> Forall2 (qrel h') xs ys.
Proof. intros U F. induction F; constructor; auto. eapply qrel_kept; eauto. Qed.
Definition wrel (h : heap) (hs : hwalk) (ws : walk) : Prop :=
  inv h (w_new ws) /\ hw_i hs = w_i ws /\ hw_ratio hs = w_ratio ws /\ hw_stats hs = w_stats ws /\
  Forall2 (qrel h) (hw_queue hs) (w_queue ws).

Lemma inv_ev N h h' s : ev N (length h) h h' -> closed G h' -> n1 <= length h' -> inv h s -> inv h' s.
Proof.
  intros V C L (F & T & NF & RF & _ & _ & U). exists F. split; [eapply stree_ev; eauto|]. repeat split; auto.
  - now apply RF.
  - now apply RF.
  - eapply untouched_trans; eauto. eapply ev_untouched; eauto.
Qed.
Lemma inv_out h h' s s' F F' : stree G k0 h' new s' s0 F' -> NoDup F' -> incl F' F -> (forall y, In y F -> length h0 <= y < n1) ->
  (forall y, ~ In y F -> nth_error h' y = nth_error h y) -> length h' = length h -> inv h s -> inv h' s'.
Proof.
  intros T NF I RF Out Lh (F1 & _ & _ & _ & C & L & U). exists F'. split; [exact T|]. repeat split; auto.
  - now apply RF, I.
  - now apply RF, I.
  - apply (closed_data G h); auto. intros l o Gl E. exists o. split; [|apply same_data_refl]. rewrite <- Out; auto.
    intros HF. now apply (notG F RF l HF).
  - lia.
  - intros l o E. destruct (U l o E) as (o' & E' & So). exists o'. split; [|auto]. rewrite Out; auto.
    intros HF. apply RF in HF. apply lt_of_nth in E. lia.
Qed.
Lemma rep_G b p : rep h0 b p -> G b.
Proof. intros R. left. left. eauto. Qed.
Lemma repv_child b v : repv h0 b v -> match value_child v with CMany ps => v = Lst ps | COne _ => False | CNone => forall ps, v <> Lst ps end.
Proof. intros []; cbn; auto; discriminate. Qed.

Lemma Forall2_combine h w k x n d al cl dl b' p ls : off k0 w -> k <> k0 -> w <> [] -> spat w s0 = Some p ->
  shat h new w x -> nth_error h x = Some (HPS n d al cl) -> nth_error h d = Some (HDict dl) -> dget k dl = Some b' ->
  nth_error h b' = Some (HLst ls) ->
  forall all, ps_get k p = Some (Lst all) ->
  forall ps i vs' vs, Forall2 (rep h0) vs ps -> length vs' = length vs ->
   (forall j c, nth_error vs' j = Some c -> nth_error ls (i + j) = Some c) ->
   (forall j c, nth_error ps j = Some c -> nth_error all (i + j) = Some c) -> (forall c, In c ps -> sane c) ->
  Forall2 (qrel h) (combine vs' vs) (map (fun ip => (w ++ [(k, fst ip)], ps_children (snd ip))) (combine (seq i (length ps)) ps)).
Proof.
  intros O Hk Hw P H E1 E2 E3 E4 all Ek. induction ps as [|c ps IH]; intros i vs' vs F L Q1 Q2 Sc.
  - inversion F; subst. destruct vs'; [|discriminate]. constructor.
  - inversion F as [|v c' vt ct Hv Ft]; subst. destruct vs' as [|v' vs']; [discriminate|]. cbn [length seq combine map fst snd].
    constructor.
    + exists c. cbn. repeat split; auto.
      * apply Sc. now left.
      * apply Forall_app. split; [exact O|]. repeat constructor. exact Hk.
      * rewrite spat_app by auto. rewrite P, Ek. rewrite <- (Nat.add_0_r i). apply Q2. reflexivity.
      * eapply shat_app; eauto. rewrite <- (Nat.add_0_r i). apply Q1. reflexivity.
    + apply IH; auto.
      * intros j y Ej. replace (S i + j) with (i + S j) by lia. apply Q1. exact Ej.
      * intros j y Ej. replace (S i + j) with (i + S j) by lia. apply Q2. exact Ej.
      * intros y Hy. apply Sc. now right.
Qed.
Lemma simb_ext {A B} hb h (m : HM A) (v v' : M B) R : (forall tr, v tr = v' tr) -> simb hb h m v' R -> simb hb h m v R.
Proof. intros E H tr. rewrite E. apply H. Qed.
Lemma ev_new N h o : ev N (length h) h (h ++ [o]).
Proof. intros l x E. exists x. split; [|apply evo_refl]. rewrite nth_error_app1; [auto|]. eapply lt_of_nth; eauto. Qed.

Lemma sim_node w x p : off k0 w -> w <> [] -> spat w s0 = Some p -> sane p ->
  forall vals l h hs ws, drel (repv h0) l vals -> incl vals (ps_vals p) -> wrel h hs ws -> shat h new w x ->
  simb h0 h (h_walk_node q target x l hs) (walk_node q target w (map (fun kv => (fst kv, value_child (snd kv))) vals) ws) wrel.
Proof.
  intros O Hw P Sp. inversion Sp as [n vals0 attrs0 cache0 Hnd Hlen Hsub]; subst p. cbn [ps_vals].
  induction vals as [|[k v] vals IH]; intros l h hs ws D I W H; inversion D as [|[k' b] y l' ? [K1 K2] Dt]; subst; cbn [h_walk_node walk_node map fst snd].
  - destruct W as (Iv & W). pose proof Iv as (F & _ & _ & _ & _ & _ & U). apply simb_ret; [exact U|]. split; auto.
  - cbn in K1, K2. subst k'. assert (Hin : In (k, v) vals0) by (apply I; now left).
    assert (It : incl vals vals0) by (intros z Hz; apply I; now right).
    pose proof W as (Iv & Wi & Wr & Ws & Wq). pose proof Iv as (F & T & NF & RF & C & L & U).
    assert (K2h : repv h b v) by (eapply repv_kept; eauto).
    destruct (repv_shape _ _ _ K2h) as (o & Eb & Hsh).
    eapply (simb_step _ _ h _ o); [intros tr; unfold load; now rewrite Eb|].
    destruct v as [l0|l0|ps|ps]; [subst o|subst o|destruct Hsh as (ls & -> & Fl)|destruct Hsh as (ls & -> & Fl)]; cbn [value_child]; try (apply IH; auto).
    destruct (Hlen _ _ Hin) as [_ Vn].
    destruct (String.eqb_spec k (psp_space q)) as [Ek|Ek].
    + subst k. fold k0 in Hin, I, Hlen. rewrite Wi, Wr, Ws. eapply simb_bind.
      { apply (sim_gd G n1) with (Q := fun x => Forall G (fst (fst (fst x)))).
        - apply (sim_ok (fun k => k = psp_space q)); [apply sim_walk_list; exact Fl|apply ok_walk_list].
        - apply gd_walk_list; [exact Gnew|]. inversion K2 as [| | |? ls0 ? E0 F0]; subst.
          destruct (U _ _ E0) as (o2 & E2 & So). cbn in So. subst o2. rewrite Eb in E2. injection E2 as ->.
          eapply Forall_impl; [|eapply live_reps; exact F0]. intros z Hz. now left.
        - exact C.
        - exact L. }
      intros h1 [[[vs' i'] ra'] st'] [[[ps' i2] ra2] st2] U1 (((Fr & Lr & Q1 & Q2 & Q3) & V1) & C1 & L1 & G1).
      cbn in Fr, Lr, Q1, Q2, Q3, G1. subst i2 ra2 st2. cbv beta iota.
      pose proof (inv_ev _ _ _ _ V1 C1 L1 Iv) as Iv1.
      set (h2 := h1 ++ [HLst vs']). set (b' := length h1).
      eapply (simb_step _ _ h2 _ b'); [intros tr; reflexivity|].
      destruct (gd_alloc G n1 Gnew (HLst vs') G1 h1 [] C1 L1) as (C2 & L2 & _). cbn [snd alloc] in C2, L2. fold h2 in C2, L2.
      assert (V2 : ev none (length h1) h1 h2) by apply ev_new.
      pose proof (inv_ev _ _ _ _ V2 C2 L2 Iv1) as Iv2. pose proof (ev_untouched _ _ _ V2) as U2.
      assert (H2 : shat h2 new w x).
      { eapply shat_kept; [|exact O|exact H]. eapply upk_trans; apply upk_untouched; eauto. }
      assert (Rb : repv h2 b' (Lst ps')).
      { econstructor; [apply nth_new|]. eapply reps_kept; [|exact Fr]. exact U2. }
      assert (Gb : G b') by (apply Gnew; exact L1).
      assert (Vn' : Lst ps' <> Lst []).
      { intros E. injection E as ->. destruct ps; [now apply Vn|discriminate]. }
      pose proof Iv2 as (F2 & T2 & NF2 & RF2 & _ & _ & U02).
      destruct (stree_at G k0 h2 w new (w_new ws) s0 F2 x (PS n vals0 attrs0 cache0) T2 O P H2) as (qw & Fw & Tw & Iw).
      inversion Tw as [a1 n2 d1 al1 cl1 dl1 vals1 attrs1 cache1 vals2 attrs2 cache2 F3 M1 M2 D1 B1 B2]; subst.
      destruct (run_any_set_ps k0 h2 x n d1 al1 cl1 dl1 b' (Lst ps') M1 M2 Rb Vn') as (h3 & Run & St & Ln).
      eapply (simb_step _ _ h3 _ tt); [exact Run|].
      destruct (stree_set G k0 h2 h3 w new (w_new ws) s0 F2 x (PS n vals0 attrs0 cache0) b' (Lst ps') C2 T2 NF2 (notG F2 RF2) O P H2) as
        (s' & F' & Es & T3 & NF3 & I3 & Out); auto.
      { cbn [ps_vals]. apply in_map_iff. exists (k0, Lst ps). auto. }
      eapply simb_ext; [intros tr; unfold bind, lift; fold k0; rewrite Es; reflexivity|].
      assert (Up : upk k0 h h3).
      { eapply upk_trans; [apply upk_untouched; exact U1|]. eapply upk_trans; [apply upk_untouched; exact U2|]. eapply setat_upk; eauto. }
      apply IH; auto.
      * split; [|repeat split; auto]. { eapply inv_out; eauto. } cbn. eapply qrels_kept; eauto.
      * eapply shat_kept; eauto.
    + assert (Hls : ls <> []) by (intros ->; inversion Fl; subst; now apply Vn).
      destruct ls as [|ls1 lst]; [now destruct Hls|]. destruct ps as [|ps1 pst]; [now destruct Vn|].
      destruct (stree_at G k0 h w new (w_new ws) s0 F x (PS n vals0 attrs0 cache0) T O P H) as (qw & Fw & Tw & Iw).
      inversion Tw as [a1 n2 d1 al1 cl1 dl1 vals1 attrs1 cache1 vals2 attrs2 cache2 F3 M1 M2 D1 B1 B2]; subst.
      eapply (simb_step _ _ h _ dl1); [intros tr; unfold h_any_vals, hbind, load; rewrite M1; now apply run_load_dict|].
      pose proof (treed_get G k0 h dl1 vals1 vals0 F3 k D1) as Q.
      assert (Eg : dget k vals0 = Some (Lst (ps1 :: pst))) by (apply dget_in_nodup; auto). rewrite Eg in Q.
      destruct Q as (b' & v' & Fb & Q1 & Q2 & Tv & Ib). rewrite Q1.
      inversion Tv as [? ? ? ? Hk0| | | |k2 b2 ls' ps' ps0 F4 N4 T4]; subst; [now destruct Ek|].
      eapply (simb_step _ _ h _ (HLst ls')); [intros tr; unfold load; now rewrite N4|].
      apply IH; auto. split; [exact Iv|repeat split; auto]. cbn [hw_queue w_queue]. apply Forall2_app; [exact Wq|].
      pose proof (treel_len G k0 _ _ _ _ _ T4) as Ll1.
      inversion K2 as [| | |? ls0 ? E0 F0]; subst. destruct (U _ _ E0) as (o2 & E2 & So). cbn in So. subst o2. rewrite Eb in E2. injection E2 as <-.
      pose proof (Forall2_len _ _ _ F0) as Lf. pose proof (Forall2_len _ _ _ Fl) as Lg.
      eapply (Forall2_combine h w k x n d1 al1 cl1 dl1 b' (PS n vals0 attrs0 cache0) ls' O Ek Hw P H M1 M2 Q1 N4 (ps1 :: pst)); auto.
      * lia.
      * intros c Hc. eapply Hsub; [exact Hin|exact Hc].
Qed.

Lemma sim_root : forall es l h hs ws, drel (rep_entry h0) l es -> incl es (st_vals s0) -> wrel h hs ws ->
  simb h0 h (h_walk_node q target new l hs) (walk_node q target [] (map (fun ke => (fst ke, entry_child (snd ke))) es) ws) wrel.
Proof.
  destruct Hs0 as [Hnd Hsub].
  induction es as [|[k e] es IH]; intros l h hs ws D I W; inversion D as [|[k' b] y l' ? [K1 K2] Dt]; subst; cbn [h_walk_node walk_node map fst snd].
  - destruct W as (Iv & W). pose proof Iv as (F & _ & _ & _ & _ & _ & U). apply simb_ret; [exact U|]. split; auto.
  - cbn in K1, K2. subst k'. assert (Hin : In (k, e) (st_vals s0)) by (apply I; now left).
    assert (It : incl es (st_vals s0)) by (intros z Hz; apply I; now right).
    pose proof W as (Iv & Wi & Wr & Ws & Wq). pose proof Iv as (F & T & NF & RF & C & L & U).
    destruct K2 as [b p R|b d E].
    + assert (Rh : rep h b p) by (eapply rep_kept; eauto). destruct (rep_inv _ _ _ Rh) as (d' & al' & cl' & dl' & Eb & _).
      eapply (simb_step _ _ h _ _); [intros tr; unfold load; rewrite Eb; reflexivity|]. cbn [entry_child].
      assert (Sp : sane p) by (eapply Hsub; eauto).
      destruct (String.eqb_spec k (psp_space q)) as [Ek|Ek].
      * subst k. fold k0 in Hin, I. rewrite Wi, Wr, Ws. destruct (w_i ws =? target)%nat; [|apply IH; auto; split; [auto|repeat split; auto]].
        eapply simb_bind.
        { apply (sim_gd G n1) with (Q := fun x => G (fst (fst x))).
          - apply (sim_ok all); [apply sim_psp_ps; exact Rh|apply ok_psp_ps].
          - apply gd_psp_ps; [exact Gnew|]. eapply rep_G; eauto.
          - exact C.
          - exact L. }
        intros h1 [[b' r] ty] [[p' r'] ty'] U1 (((Rp & Q1 & Q2) & V1) & C1 & L1 & G1). cbn in Rp, Q1, Q2, G1. subst r' ty'. cbv beta iota.
        pose proof (inv_ev _ _ _ _ V1 C1 L1 Iv) as Iv1. pose proof Iv1 as (F1 & T1 & NF1 & RF1 & _ & _ & U01).
        pose proof T1 as (d1 & al1 & dl1 & F3 & M1 & M2 & _ & _ & _ & _).
        destruct (run_any_set_st k0 h1 new d1 al1 _ _ _ dl1 b' p' M1 M2 Rp) as (h3 & Run & St & Ln).
        eapply (simb_step _ _ h3 _ tt); [exact Run|].
        destruct (stree_sset G k0 h1 h3 new (w_new ws) s0 F1 b' p' C1 T1 NF1 (notG F1 RF1)) as (F' & T3 & NF3 & I3 & Out); auto.
        { apply in_map_iff. exists (k0, EPS p). auto. }
        apply IH; auto. split; [|repeat split; auto]. { eapply inv_out; eauto. }
        cbn. eapply qrels_kept; [|exact Wq]. eapply upk_trans; [apply upk_untouched; exact U1|]. eapply ssetat_upk; eauto.
      * pose proof T as (d1 & al1 & dl1 & F3 & M1 & M2 & D1 & _ & _ & _).
        eapply (simb_step _ _ h _ dl1); [intros tr; unfold h_any_vals, hbind, load; rewrite M1; now apply run_load_dict|].
        pose proof (streed_get G k0 h dl1 _ _ F3 k D1) as Q.
        assert (Eg : dget k (st_vals s0) = Some (EPS p)) by (apply dget_in_nodup; auto). rewrite Eg in Q.
        destruct Q as (b' & v' & Fb & Q1 & Q2 & Tv & Ib). rewrite Q1.
        apply IH; auto. split; [exact Iv|repeat split; auto]. cbn [hw_queue w_queue]. apply Forall2_app; [exact Wq|].
        constructor; [|constructor]. exists p. cbn [fst snd app]. repeat split; auto.
        -- repeat constructor. exact Ek.
        -- cbn [spat]. unfold st_get. now rewrite Eg.
        -- cbn [shat]. exists d1, al1, (st_temp (w_new ws)), (st_cache (w_new ws)), (st_extra (w_new ws)), dl1, b'. repeat split; auto. constructor.
    + destruct (U _ _ E) as (o2 & Eb & So). cbn in So. subst o2.
      eapply (simb_step _ _ h _ _); [intros tr; unfold load; rewrite Eb; reflexivity|]. cbn [entry_child]. apply IH; auto.
Qed.
Lemma simb_bind2 {A B A' B'} hb h (m : HM A) (v : M B) R (f : A -> HM A') (g : B -> M B') S :
  simb hb h m v R -> (forall h' x y, R h' x y -> simb hb h' (f x) (g y) S) -> simb hb h (hbind m f) (bind v g) S.
Proof.
  intros H K tr. specialize (H tr). unfold hbind, bind, agree in *.
  destruct (m h tr) as [[x t|e t| |] h1]; destruct (v tr) as [y t'|e' t'| |]; cbn in *; try tauto.
  destruct H as (-> & U & Hr). exact (K h1 x y Hr t').
Qed.
Lemma simb_ubeh {A B} hb h R : simb (A := A) (B := B) hb h (hdo ubeh) ubeh R.
Proof. intros tr. exact I. Qed.
Lemma sim_loop : forall fuel h hs ws, wrel h hs ws -> simb h0 h (h_walk_loop fuel q target hs) (walk_loop fuel q target ws) wrel.
Proof.
  induction fuel as [|f IH]; intros h hs ws W; pose proof W as (Iv & Wi & Wr & Ws & Wq); pose proof Iv as (F & T & NF & RF & C & L & U);
    cbn [h_walk_loop walk_loop]; destruct (hw_queue hs) as [|[x b] hrest]; destruct (w_queue ws) as [|[w c] wrest] eqn:Ewq; inversion Wq as [|? ? ? ? Hq Wt]; subst;
    try (apply simb_ret; auto); rewrite Wi; destruct (w_i ws <=? target)%nat; try (apply simb_ret; auto); [apply simb_ubeh|].
  destruct Hq as (p & Ec & Sp & O & P & Hx & R). cbn in Ec, O, P, Hx, R. subst c.
  destruct (rep_inv _ _ _ R) as (d & al & cl & dl & E1 & E2 & D & _). destruct (U _ _ E1) as (o1 & M1 & (cl' & ->)). destruct (U _ _ E2) as (o2 & M2 & So).
  cbn in So. subst o2.
  eapply (simb_step _ _ h _ dl); [intros tr; unfold h_any_vals, hbind, load; rewrite M1; now apply run_load_dict|].
  eapply simb_bind2 with (R := wrel); [|intros h' hs' ws' W'; apply IH; exact W'].
  apply (sim_node w x p); auto.
  - intros ->. discriminate.
  - apply incl_refl.
  - split; [auto|repeat split; auto].
Qed.
Lemma sim_walk fuel h ws : wrel h (mkHwalk 0 (Fin 0) [] []) ws -> w_i ws = 0 -> w_ratio ws = Fin 0 -> w_stats ws = [] -> w_queue ws = [] ->
  simb h0 h (h_walk_loop (S fuel) q target (mkHwalk 0 (Fin 0) [] [(new, a)]))
    (walk_loop (S fuel) q target (mkWalk (w_new ws) 0 (Fin 0) [] [([], st_children s0)])) wrel.
Proof.
  intros W E1 E2 E3 E4. cbn [h_walk_loop walk_loop hw_queue w_queue hw_i w_i hw_ratio w_ratio hw_stats w_stats w_new]. cbn [Nat.leb].
  destruct Ha as (d & al & dl & M1 & M2 & D & _). pose proof W as ((F & _ & _ & _ & _ & _ & U) & _).
  destruct (U _ _ M1) as (o1 & N1 & (c' & x' & ->)). destruct (U _ _ M2) as (o2 & N2 & So). cbn in So. subst o2.
  eapply (simb_step _ _ h _ dl); [intros tr; unfold h_any_vals, hbind, load; rewrite N1; now apply run_load_dict|].
  eapply simb_bind2 with (R := wrel); [|intros h' hs' ws' W'; apply sim_loop; exact W'].
  apply sim_root; [exact D|apply incl_refl|]. destruct W as (Iv & _). split; [exact Iv|repeat split; constructor].
Qed.
End Walk.

(** * The counting loop looks at what a view shows *)
Definition vchild (c : child) : child :=
  match c with COne p => COne (view p) | CMany ps => CMany (map view ps) | CNone => CNone end.
Definition vchildren (l : dict child) : dict child := map (fun kc => (fst kc, vchild (snd kc))) l.
Lemma ps_children_view p : ps_children (view p) = vchildren (ps_children p).
Proof.
  unfold ps_children. rewrite view_ps_vals. unfold view_vals, vchildren. rewrite !map_map. apply map_ext. intros [k v]. cbn. now destruct v.
Qed.
Lemma count_node_view name l : forall n queue, count_node name (vchildren l) n (map vchildren queue) =
  rbind (count_node name l n queue) (fun nq => Ok (fst nq, map vchildren (snd nq))).
Proof.
  induction l as [|[k c] l IH]; intros n queue; [reflexivity|]. cbn [vchildren map fst snd count_node].
  fold (vchildren l). destruct c as [p|ps|]; cbn [vchild]; [| |apply IH].
  - destruct (String.eqb k name); [apply IH|]. rewrite ps_children_view. specialize (IH n (queue ++ [ps_children p])).
    rewrite map_app in IH. exact IH.
  - destruct (String.eqb k name); [rewrite map_length; apply IH|]. destruct ps as [|p ps]; [reflexivity|]. cbn [map].
    specialize (IH n (queue ++ map ps_children (p :: ps))). rewrite map_app, map_map in IH. cbn [map] in IH.
    rewrite <- (ps_children_view p) in IH. rewrite <- IH. rewrite map_map.
    rewrite (map_ext _ _ ps_children_view). reflexivity.
Qed.
Lemma count_loop_view name fuel : forall n queue, count_loop fuel name (map vchildren queue) n = count_loop fuel name queue n.
Proof.
  induction fuel as [|f IH]; intros n [|l queue]; cbn [count_loop map]; auto. rewrite count_node_view.
  destruct (count_node name l n queue) as [[n' queue']|e|]; cbn; auto.
Qed.
Lemma ps_size_view p : ps_size (view p) = ps_size p.
Proof.
  induction p as [n vals attrs cache IH] using psstate_ind'. rewrite view_eq. cbn [ps_size]. f_equal. unfold view_vals.
  induction vals as [|[k v] vals IHv]; [reflexivity|]. cbn [map fst snd]. rewrite IHv by (intros; eapply IH; eauto; right; eauto). f_equal.
  destruct v as [l|l|ps|ps]; cbn [view_value]; auto.
  assert (K : forall l, (forall x, In x l -> In x ps) -> (fix each (q : list psstate) : nat := match q with [] => 0 | x :: r => ps_size x + each r end) (map view l) =
     (fix each (q : list psstate) : nat := match q with [] => 0 | x :: r => ps_size x + each r end) l).
  { induction l as [|x l IHl]; intros Hl; [reflexivity|]. cbn [map]. rewrite IHl by (intros; apply Hl; now right). f_equal.
    apply (IH k (Lst ps)); [now left|]. apply Hl. now left. }
  apply K. auto.
Qed.
Lemma st_size_view s x y z : st_size (mkState (SpecState.view_state s) [] x y z) = st_size s.
Proof.
  unfold st_size, SpecState.view_state. cbn [st_vals]. do 2 f_equal. rewrite map_map. apply map_ext. intros [k e]. cbn.
  destruct e; cbn; auto using ps_size_view.
Qed.
Lemma st_children_view s x y z : st_children (mkState (SpecState.view_state s) [] x y z) = vchildren (st_children s).
Proof.
  unfold st_children, SpecState.view_state, vchildren. cbn [st_vals]. rewrite !map_map. apply map_ext. intros [k e]. cbn. now destruct e.
Qed.

(** * ParamSpacePerturbation.perturb *)
Definition srep2 (h : heap) (x : loc * ext) (y : state * ext) : Prop := rep_state h (fst x) (fst y) /\ snd x = snd y.
Lemma sim_psp q h a s : rep_state h a s -> sane_state s -> sim h (h_psp_perturb q a) (psp_perturb q s) srep2.
Proof.
  intros Ra Ss. apply sim_b. unfold h_psp_perturb, psp_perturb.
  eapply simb_bind.
  { apply (sim_ok none). - apply (sim_st_copy_tree h (psp_space q)); auto. - eapply ok_weaken; [apply ok_st_copy|]. intros; exact I. }
  intros h1 new s' U1 ((F & T & NF & RF) & V1). cbv beta.
  assert (Ra1 : rep_state h1 a s) by (eapply rep_state_ev; eauto).
  eapply (simb_step _ _ h1); [intros tr; apply (run_view_state _ _ _ _ Ra1)|].
  rewrite st_size_view, st_children_view. change [vchildren (st_children s)] with (map vchildren [st_children s]). rewrite count_loop_view.
  apply simb_lift. intros n _. apply simb_draw. intros target.
  set (G := fun l => live h l \/ length h1 <= l).
  pose proof (untouched_length _ _ U1) as L1.
  assert (Iv : inv q h s new (length h1) h1 s').
  { exists F. split; [|split; [exact NF|split; [exact RF|split; [|split; [lia|exact U1]]]]].
    - destruct T as (d & al & dl & F' & E1 & E2 & D & A1 & A2 & ->). exists d, al, dl, F'. repeat split; auto.
      eapply streed_mono; [|exact D]. intros l Hl. now left.
    - assert (CL : closed (live h) h1).
      { apply (closed_data (live h) h); [|apply live_closed]. intros l o Hl E. pose proof (live_lt _ _ Hl) as Ll.
        destruct (nth_error h l) as [o'|] eqn:Eo; [|apply nth_error_None in Eo; lia]. exists o'. split; [reflexivity|].
        destruct (U1 _ _ Eo) as (o2 & E2 & So). congruence. }
      intros l o [Hl|Hl] E; [|apply lt_of_nth in E; lia]. specialize (CL l o Hl E). destruct o; cbn in *; auto.
      + eapply Forall_impl; [|exact CL]. intros; now left.
      + eapply Forall_impl; [|exact CL]. intros; now left.
      + eapply Forall_impl; [|exact CL]. intros; now left.
      + destruct CL as [C1 C2]. split; [now left|]. intros k b E'. left. eapply C2; eauto. }
  eapply simb_bind2 with (R := wrel q h s new (length h1)).
  { apply (sim_walk q target h a s new (length h1) L1 Ss Ra (nsum (map (fun ke => match snd ke with EPS p => ps_size p | ENoise _ => 0 end) (st_vals s)))
      h1 (mkWalk s' 0 (Fin 0) [] [])); try reflexivity.
    split; [exact Iv|repeat split; constructor]. }
  intros h2 hs ws ((F2 & T2 & NF2 & RF2 & C2 & L2 & U2) & Wi & Wr & Ws & _). cbv beta.
  rewrite Wr, Ws. cbv zeta. pose proof (stree_rep _ _ _ _ _ _ _ T2) as Rn. pose proof T2 as (d & al & dl & F' & E1 & E2 & D & A1 & A2 & ->).
  pose proof (lt_of_nth _ _ _ E1) as Ln.
  eapply simb_step.
  { intros tr. unfold h_st_save_cache, hbind. rewrite (run_load_state _ _ _ _ _ _ _ _ E1). rewrite run_store by auto. reflexivity. }
  apply simb_ret.
  - intros l o E. destruct (U2 l o E) as (o' & E' & So). exists o'. split; [|auto].
    rewrite nth_set_ne; auto. intros ->. destruct (RF2 l (or_introl eq_refl)). apply lt_of_nth in E. lia.
  - split; [|reflexivity]. cbn [fst]. pose proof NF2 as NF3. inversion NF3 as [|? ? Nn ND]; subst.
    set (o := HState d al (st_temp (w_new ws)) (dset "perturb_stats"%string (CStats (map (fun kn : string * nat => (fst kn, (INR (snd kn) / INR (nsum (map snd (w_stats ws))))%R)) (w_stats ws))) (st_cache (w_new ws))) (st_extra (w_new ws))).
    assert (Hnd : d <> new) by (intros ->; apply Nn; now left).
    apply (stree_rep G (psp_space q) _ _ _ s (new :: d :: F')).
    exists d, al, dl, F'. cbn [st_save_cache st_vals st_attrs st_temp st_cache st_extra]. repeat split; auto.
    + now apply nth_set_eq.
    + rewrite nth_set_ne; auto.
    + eapply streed_frame; [exact C2| | |exact D].
      * intros x Gx o' E. exists o'. split; [|apply same_data_refl]. rewrite nth_set_ne; auto. intros ->.
        apply (notG h (length h1) L1 (x :: d :: F') RF2 x (or_introl eq_refl)). exact Gx.
      * intros x Hx o' E. exists o'. split; [|apply same_data_refl]. rewrite nth_set_ne; auto. intros ->. apply Nn. now right.
Qed.
Lemma sim_pfunc f h a s : rep_state h a s -> sane_state s -> sim h (h_pfunc f a) (pfunc_perturb f s) srep2.
Proof. intros R Ss. destruct f as [q|ts]; [now apply sim_psp|]. apply sim_noise. exact R. Qed.
