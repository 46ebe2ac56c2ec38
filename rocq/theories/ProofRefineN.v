(** Chains in memory: which States change, and what goes on to stand for the same values. *)
From Verif Require Import Base ModelUtils1D ModelPrior ModelState ModelSpace ModelChain ModelSampler ModelPerturb ModelLikelihood ModelHeap
  ModelHeapSampler SpecState SpecSpace SpecChain SpecRun SpecHeap SpecRefine SpecRefineChain SpecRefineSampler ProofState ProofSpace ProofChain
  ProofRun ProofRunB ProofRunC ProofHeap ProofHeapB ProofRefine ProofRefineB ProofRefineF ProofRefineK ProofRefineL ProofRefineM.
Local Open Scope R_scope.

(** * Frames *)
Lemma only_refl S h : only S h h.
Proof. intros a o E. exists o. split; auto. destruct o; try apply same_data_refl. eauto. Qed.
Lemma only_untouched_ps S h h' a o : only S h h' -> nth_error h a = Some o -> (forall d at_ t c x, o <> HState d at_ t c x) ->
  exists o', nth_error h' a = Some o' /\ same_data o o'.
Proof. intros H E N. destruct (H a o E) as (o' & E' & K). exists o'. split; auto. destruct o; auto. now destruct (N vals attrs temp cache extra). Qed.
Lemma only_length S h h' : only S h h' -> (length h <= length h')%nat.
Proof.
  intros H. destruct (Nat.le_gt_cases (length h) (length h')) as [|L]; auto. exfalso.
  destruct (nth_error h (length h')) as [o|] eqn:E.
  - destruct (H _ _ E) as (o' & E' & _). apply lt_of_nth in E'. lia.
  - apply nth_error_None in E. lia.
Qed.
Lemma only_mono (S S' : loc -> Prop) h h' : (forall a, (a < length h)%nat -> S a -> S' a) -> only S h h' -> only S' h h'.
Proof.
  intros W H a o E. destruct (H a o E) as (o' & E' & K). exists o'. split; auto. destruct o; auto.
  destruct K as [K1 K2]. split; auto. intros N. apply K2. intros Sa. apply N. apply W; auto. now apply lt_of_nth in E.
Qed.
Lemma only_trans (S S' : loc -> Prop) h h1 h2 : only S h h1 -> only S' h1 h2 ->
  (forall a, (a < length h)%nat -> S' a -> S a) -> only S h h2.
Proof.
  intros H1 H2 W a o E. destruct (H1 a o E) as (o1 & E1 & K1). destruct (H2 a o1 E1) as (o2 & E2 & K2).
  exists o2. split; auto. destruct o; cbn in K1.
  - subst o1. exact K2.
  - subst o1. exact K2.
  - subst o1. exact K2.
  - subst o1. exact K2.
  - subst o1. exact K2.
  - destruct K1 as (c' & ->). destruct K2 as (c2 & ->). cbn. eauto.
  - subst o1. exact K2.
  - destruct K1 as [(t & c & x & ->) K1]. destruct K2 as [(t2 & c2 & x2 & ->) K2]. split; eauto.
    intros N. rewrite K2; [now apply K1|]. intros Sa. apply N. apply W; auto. now apply lt_of_nth in E.
Qed.
Lemma only_state S h h' a o : only S h h' -> nth_error h a = Some o -> ~ S a -> (exists d at_ t c x, o = HState d at_ t c x) ->
  nth_error h' a = Some o.
Proof.
  intros H E N (d & at_ & t & c & x & ->). destruct (H _ _ E) as (o' & E' & _ & K). now rewrite (K N) in E'.
Qed.
Lemma ev_only N S h h' : ev N (length h) h h' -> only S h h'.
Proof.
  intros V a o E. assert (L : (a < length h)%nat) by now apply lt_of_nth in E.
  destruct (V a o E) as (o' & E' & K). exists o'. split; auto. destruct o; cbn in K.
  - destruct K as (l' & -> & Kl). now rewrite Kl.
  - destruct K as (l' & -> & Kl). now rewrite Kl.
  - exact K.
  - exact K.
  - destruct K as (dl' & -> & Kl & _). now rewrite Kl.
  - destruct K as (at' & c' & -> & Kl). rewrite Kl by auto. cbn. eauto.
  - exact K.
  - destruct K as (at' & c' & -> & Kl). destruct (Kl L) as [-> ->]. split; eauto.
Qed.
Lemma only_set (S : loc -> Prop) h a d at_ t c x t' c' x' : nth_error h a = Some (HState d at_ t c x) -> S a ->
  only S h (set_nth h a (HState d at_ t' c' x')).
Proof.
  intros Ea Sa b o Eb. destruct (Nat.eq_dec a b) as [<-|Hn].
  - rewrite Ea in Eb. injection Eb as <-. eexists. split; [apply nth_set_eq; now apply lt_of_nth in Ea|]. split; eauto. now intros [].
  - exists o. split; [rewrite nth_set_ne; auto; now apply lt_of_nth in Ea|]. destruct o; try apply same_data_refl. eauto.
Qed.

(** * What stands for values goes on to do so *)
Lemma rep_only S h h' a p : only S h h' -> rep h a p -> rep h' a p.
Proof.
  intros U. apply (rep_ind2 h (rep h') (repv h')).
  - intros a0 n d al cl dl vals attrs cache E1 E2 F G. destruct (U _ _ E1) as (o1 & N1 & S1). destruct (U _ _ E2) as (o2 & N2 & S2).
    cbn in S1, S2. destruct S1 as (c' & ->). subst o2. econstructor; eauto.
  - intros b l E. destruct (U _ _ E) as (o & N & K). cbn in K. subst o. now constructor.
  - intros b l E. destruct (U _ _ E) as (o & N & K). cbn in K. subst o. now constructor.
  - intros b l ps E F. destruct (U _ _ E) as (o & N & K). cbn in K. subst o. econstructor; eauto.
  - intros b l ps E F. destruct (U _ _ E) as (o & N & K). cbn in K. subst o. econstructor; eauto.
Qed.
Lemma repv_only S h h' b v : only S h h' -> repv h b v -> repv h' b v.
Proof.
  intros U H. assert (L : forall ls ps, Forall2 (rep h) ls ps -> Forall2 (rep h') ls ps).
  { intros ls ps. apply Forall2_mono. intros. eapply rep_only; eauto. }
  destruct H as [b l E|b l E|b ls ps E F|b ls ps E F]; destruct (U _ _ E) as (o & N & K); cbn in K; subst o; econstructor; eauto.
Qed.
Lemma rep_entry_only S h h' b e : only S h h' -> rep_entry h b e -> rep_entry h' b e.
Proof.
  intros U [b0 p H|b0 d E].
  - constructor. eapply rep_only; eauto.
  - destruct (U _ _ E) as (o & N & K). cbn in K. subst o. now constructor.
Qed.
Lemma rep_state_only S h h' a s : only S h h' -> ~ S a -> rep_state h a s -> rep_state h' a s.
Proof.
  intros U N (d & al & dl & E1 & E2 & D & G).
  destruct (U _ _ E2) as (o & E3 & So). cbn in So. subst o.
  eapply rep_state_mk; [eapply only_state; eauto 8|exact E3| |].
  - eapply drel_mono; [|exact D]. intros. eapply rep_entry_only; eauto.
  - eapply arel_mono; [|exact G]. intros. eapply rep_entry_only; eauto.
Qed.
Fixpoint stands_only S h h' (U : only S h h') x y (H : stands h x y) {struct H} : stands h' x y.
Proof.
  destruct H as [n|r|b v Rv Nv|l ds F|o|d|n|l]; try (constructor; fail).
  - constructor; auto. eapply repv_only; eauto.
  - constructor. induction F as [|q q' l l' G F IH]; constructor; [|exact IH].
    clear F IH. induction G as [|e e' m m' [K1 K2] G IH]; constructor; [|exact IH].
    split; [exact K1|]. exact (stands_only S h h' U _ _ K2).
Qed.
Lemma saved_only S h h' x y : only S h h' -> saved_stands h x y -> saved_stands h' x y.
Proof.
  intros U. destruct x as [d|], y as [d'|]; cbn; auto. apply Forall2_mono. intros a b [K1 K2]. split; auto.
  eapply Forall2_mono; [|exact K2]. intros. eapply stands_only; eauto.
Qed.
Lemma chain_stands_only S h h' c c' : only S h h' -> ~ S (c_cur c) -> chain_stands h c c' -> chain_stands h' c c'.
Proof.
  intros U N []. constructor; auto; [eapply rep_state_only; eauto|eapply saved_only; eauto].
Qed.
Lemma chain_cur_lt h c c' : chain_stands h c c' -> (c_cur c < length h)%nat.
Proof. intros [(d & al & dl & E & _) _ _ _ _ _ _ _ _ _]. now apply lt_of_nth in E. Qed.

(** * Triples *)
Definition fr {A} (S : loc -> Prop) (h : heap) (m : HM A) (Q : A -> Prop) : Prop :=
  forall tr, only S h (snd (m h tr)) /\ forall a tr', fst (m h tr) = Ret a tr' -> Q a.
Lemma fr_bind {A B} S h (m : HM A) (f : A -> HM B) Q T :
  fr S h m Q -> (forall h' a, only S h h' -> Q a -> fr (fun l => S l \/ (length h <= l)%nat) h' (f a) T) -> fr S h (hbind m f) T.
Proof.
  intros Hm Hf tr. unfold hbind. destruct (Hm tr) as [U F].
  destruct (m h tr) as [[a tr'|e tr'| |] h'] eqn:R; cbn in *; try (split; [exact U|discriminate]).
  destruct (Hf h' a U (F a tr' eq_refl) tr') as [U2 F2]. split; auto.
  eapply only_trans; [exact U|exact U2|]. intros b L [?|?]; [auto|lia].
Qed.
Lemma fr_mono {A} (S S' : loc -> Prop) h (m : HM A) (Q Q' : A -> Prop) : (forall a, (a < length h)%nat -> S a -> S' a) -> (forall a, Q a -> Q' a) ->
  fr S h m Q -> fr S' h m Q'.
Proof. intros W1 W2 H tr. destruct (H tr) as [U F]. split; [eapply only_mono; eauto|eauto]. Qed.
Lemma fr_pure {A} S h (f : heap -> trace -> out A) (Q : A -> Prop) : (forall tr a tr', f h tr = Ret a tr' -> Q a) ->
  fr S h (fun h tr => (f h tr, h)) Q.
Proof. intros H tr. cbn. split; [apply only_refl|eauto]. Qed.
Lemma fr_ret {A} S h (a : A) (Q : A -> Prop) : Q a -> fr S h (hret a) Q.
Proof. intros H tr. cbn. split; [apply only_refl|]. now intros ? ? [= <- _]. Qed.
Lemma fr_do {A} S h (m : M A) : fr S h (hdo m) (fun _ => True).
Proof. intros tr. cbn. split; [apply only_refl|auto]. Qed.
Lemma fr_try {A} S h (m : HM A) Q : fr S h m Q -> fr S h (htry m) (fun r => match r with inl a => Q a | inr _ => True end).
Proof.
  intros H tr. unfold htry. destruct (H tr) as [U F]. destruct (m h tr) as [[a tr'|e tr'| |] h'] eqn:R; cbn in *.
  - split; auto. intros x tr'' [= <- _]. now apply (F a tr').
  - split; auto. now intros x tr'' [= <- _].
  - split; auto. discriminate.
  - split; auto. discriminate.
Qed.
Lemma fr_h_save (S : loc -> Prop) h a cx : S a -> fr S h (h_save a cx) (fun _ => True).
Proof.
  intros Sa tr. split; [|auto]. unfold h_save, hbind, load_state, hbind, load. cbn.
  destruct (nth_error h a) as [o|] eqn:E; [|apply only_refl].
  destruct o; try apply only_refl. cbn. unfold store.
  destruct (Nat.ltb_spec a (length h)); [|apply only_refl]. cbn. eapply only_set; eauto.
Qed.
Lemma fr_h_like (S : loc -> Prop) h E o n T : S o -> S n -> fr S h (h_like E o n T) (fun _ => True).
Proof.
  intros So Sn. unfold h_like. eapply fr_bind; [apply (fr_pure S h (fun h tr => he_like E h o n T tr) (fun _ => True)); auto|].
  intros h1 [[co cn] l] _ _. eapply fr_bind; [apply fr_h_save; auto|]. intros h2 _ _ _.
  eapply fr_bind; [apply fr_h_save; auto|]. intros h3 _ _ _. now apply fr_ret.
Qed.
Definition same_or_new {A} (h : heap) (c : chain loc hout) (x : chain loc hout * A) : Prop :=
  c_cur (fst x) = c_cur c \/ (length h <= c_cur (fst x))%nat.
Lemma fr_decide S h h0 E ty new lpr llr c : (length h0 <= new)%nat -> fr S h (h_decide E ty new lpr llr c) (same_or_new h0 c).
Proof.
  intros Ln tr. unfold h_decide.
  destruct (h_items h (c_cur c)); [destruct (h_items h new)|]; cbn; (split; [apply only_refl|]);
    try discriminate. intros [c1 v] tr'. unfold decide, bind. destruct (drawU tr) as [u t|e t| |]; try discriminate.
  destruct (py_log u) as [lu|e|]; try discriminate; intros [= <- <-].
  - rename H1 into Hf || idtac. destruct (finish (env_at E h) ty (egtb (eadd lpr llr) (Fin lu)) new c) as [c2 v2] eqn:Ef.
    apply finish_cur in Ef. unfold same_or_new. cbn in *. destruct (egtb _ _); subst; auto.
  - now left.
Qed.
