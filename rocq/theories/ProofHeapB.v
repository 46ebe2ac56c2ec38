(** Values read back and chains, on top of ProofHeap.v. *)
From Verif Require Import Base ModelUtils1D ModelPrior ModelState ModelSpace ModelChain ModelPerturb
  ModelLikelihood ModelHeap SpecHeap SpecChain ProofState ProofInversion ProofNested ProofHeap.
Local Open Scope list_scope.

(** ** The relation of the specification *)
Lemma same_data_refl o : same_data o o.
Proof. destruct o; cbn; eauto. Qed.
Lemma same_data_trans a b c : same_data a b -> same_data b c -> same_data a c.
Proof.
  destruct a; cbn; intros H1 H2; try (now subst).
  - destruct H1 as (c' & ->). exact H2.
  - destruct H1 as (c' & x' & ->). exact H2.
Qed.
Lemma untouched_refl h : untouched h h.
Proof. intros a o E. exists o. split; auto. apply same_data_refl. Qed.
Lemma untouched_trans h1 h2 h3 : untouched h1 h2 -> untouched h2 h3 -> untouched h1 h3.
Proof.
  intros H1 H2 a o E. destruct (H1 _ _ E) as (o2 & E2 & S2). destruct (H2 _ _ E2) as (o3 & E3 & S3).
  exists o3. split; auto. eapply same_data_trans; eauto.
Qed.
Lemma untouched_length h h' : untouched h h' -> length h <= length h'.
Proof.
  intros H. destruct (Nat.le_gt_cases (length h) (length h')) as [|L]; auto. exfalso.
  destruct (nth_error h (length h')) as [o|] eqn:E.
  - destruct (H _ _ E) as (o' & E' & _).
    assert (X : nth_error h' (length h') <> None) by congruence. apply nth_error_Some in X. lia.
  - apply nth_error_None in E. lia.
Qed.
(** An operation that keeps what existed, State objects altogether. *)
Lemma ev_untouched N h h' : ev N (length h) h h' -> untouched h h'.
Proof.
  intros V a o E. destruct (V _ _ E) as (o' & E' & O). exists o'. split; auto.
  assert (L : a < length h) by (apply nth_error_Some; congruence).
  destruct o; cbn in *; auto.
  - destruct O as (l' & -> & O). now rewrite O.
  - destruct O as (l' & -> & O). now rewrite O.
  - destruct O as (l' & -> & O & _). now rewrite O.
  - destruct O as (at' & c' & -> & O). rewrite O by auto. eauto.
  - destruct O as (at' & c' & -> & O). destruct (O L) as [-> ->]. eauto.
Qed.
Lemma ev_state N h h' a d at_ t c x : ev N (length h) h h' ->
  nth_error h a = Some (HState d at_ t c x) -> nth_error h' a = Some (HState d at_ t c x).
Proof.
  intros V E. destruct (V _ _ E) as (o' & E' & at' & c' & -> & O).
  destruct O as [-> ->]; [apply nth_error_Some; congruence|auto].
Qed.

(** ** Reading back *)
Lemma omap_mono {A B} (f g : A -> option B) l ys :
  (forall x y, In x l -> f x = Some y -> g x = Some y) -> omap f l = Some ys -> omap g l = Some ys.
Proof.
  revert ys. induction l as [|x t IH]; cbn; intros ys H E; auto.
  destruct (f x) eqn:Ex; [|discriminate]. destruct (omap f t) eqn:Et; [|discriminate].
  rewrite (H x b (or_introl eq_refl) Ex), (IH l (fun z y Hz => H z y (or_intror Hz)) eq_refl). exact E.
Qed.
Lemma read_ps_kept h h' : untouched h h' -> forall f f' a p, f <= f' ->
  read_ps f h a = Some p -> read_ps f' h' a = Some p.
Proof.
  intros U. induction f as [|f IH]; intros f' a p Lf E; [discriminate|]. destruct f' as [|f']; [lia|].
  cbn [read_ps] in *. destruct (nth_error h a) as [[| | | | |n d at_ c| |]|] eqn:Ea; try discriminate.
  destruct (U _ _ Ea) as (o' & -> & c' & ->). destruct (nth_error h d) as [[| | | |dl| | |]|] eqn:Ed; try discriminate.
  destruct (U _ _ Ed) as (o'' & -> & ->).
  match goal with |- match omap ?g dl with _ => _ end = _ =>
    match type of E with match omap ?f' dl with _ => _ end = _ =>
      destruct (omap f' dl) as [vals|] eqn:Em; [|discriminate]; assert (Eg : omap g dl = Some vals) end end.
  { eapply omap_mono; [|exact Em]. cbn beta. intros [k v] [k' w] _ Hx. cbn [fst snd] in *.
    destruct (nth_error h v) as [[]|] eqn:Ev; try discriminate;
      destruct (U _ _ Ev) as (ov & -> & ->); auto.
    - destruct (omap (read_ps f h) l) eqn:El; [|discriminate].
      erewrite omap_mono; [exact Hx| |exact El]. intros. eapply IH; [lia|eauto].
    - destruct (omap (read_ps f h) l) eqn:El; [|discriminate].
      erewrite omap_mono; [exact Hx| |exact El]. intros. eapply IH; [lia|eauto]. }
  now rewrite Eg.
Qed.
Lemma read_entry_kept h h' b e : untouched h h' -> read_entry h b = Some e -> read_entry h' b = Some e.
Proof.
  intros U. unfold read_entry. destruct (nth_error h b) as [[]|] eqn:E; try discriminate;
    destruct (U _ _ E) as (o' & -> & S); cbn in S.
  - destruct S as (c' & ->). destruct (read_ps (length h) h b) eqn:Er; [|discriminate].
    rewrite (read_ps_kept h h' U _ (length h') _ _ (untouched_length _ _ U) Er). auto.
  - now subst.
Qed.
(** The values of a State stay; its caches are its own. *)
Lemma read_state_kept h h' a s : untouched h h' -> read_state h a = Some s ->
  exists s', read_state h' a = Some s' /\ st_vals s' = st_vals s /\ st_temp s' = st_temp s.
Proof.
  intros U. unfold read_state. destruct (nth_error h a) as [[]|] eqn:E; try discriminate.
  destruct (U _ _ E) as (o' & -> & c' & x' & ->).
  destruct (nth_error h vals) as [[]|] eqn:Ed; try discriminate. destruct (U _ _ Ed) as (o'' & -> & ->).
  destruct (omap _ d) as [vs|] eqn:Eo; [|discriminate]. intros [= <-].
  erewrite omap_mono; [|intros [k v] y _ Hx|exact Eo].
  - eexists. split; [reflexivity|]. auto.
  - cbn in *. destruct (read_entry h v) eqn:Ee; [|discriminate]. now rewrite (read_entry_kept _ _ _ _ U Ee).
Qed.
Lemma show_kept h h' : untouched h h' -> forall o v, show h o = Some v -> show h' o = Some v.
Proof.
  intros U. fix IH 1. intros o v. destruct o as [n|r|a|l|x|c]; try exact (fun H => H).
  - clear IH. cbn. destruct (nth_error h a) as [[]|] eqn:E; try discriminate; destruct (U _ _ E) as (o' & -> & ->); auto.
    destruct (omap _ l) eqn:El; [|discriminate]. intros H. erewrite omap_mono; [exact H| |exact El].
    intros x y _ Hx. exact (read_ps_kept h h' U _ (length h') _ _ (untouched_length _ _ U) Hx).
  - cbn [show]. intros H.
    match type of H with option_map _ (?F l) = _ => destruct (F l) as [ds|] eqn:El; [|discriminate] end.
    match goal with |- option_map _ (?G l) = _ => assert (Eg : G l = Some ds) end.
    { clear H. revert ds El. induction l as [|d r IHr]; intros ds; [exact (fun H => H)|].
      match goal with |- match ?X with _ => _ end = _ -> match ?Y with _ => _ end = _ =>
        destruct X as [y|] eqn:Ed; [|discriminate]; assert (Ed' : Y = Some y) end.
      { revert y Ed. induction d as [|[k z] t IHt]; intros y; [exact (fun H => H)|].
        destruct (show h z) as [z'|] eqn:Ez; [|discriminate]. apply IH in Ez. rewrite Ez.
        match goal with |- match ?X with _ => _ end = _ -> _ => destruct X as [t'|]; [|discriminate] end.
        intros [= <-]. now rewrite (IHt _ eq_refl). }
      rewrite Ed'. match goal with |- match ?X with _ => _ end = _ -> _ => destruct X as [t'|]; [|discriminate] end.
      intros [= <-]. now rewrite (IHr _ eq_refl). }
    rewrite Eg. exact H.
Qed.

(** ** Chains *)
(** Saved lists only grow. *)
Definition grows (c c' : chain loc hout) : Prop :=
  match c_saved c, c_saved c' with
  | SDict d, SDict d' => forall k, exists l, stored k d' = stored k d ++ l
  | SList l, SList l' => exists m, l' = l ++ m
  | _, _ => False
  end.
Lemma grows_same c c' : c_saved c' = c_saved c -> grows c c'.
Proof.
  intros E. unfold grows. rewrite E. destruct (c_saved c); [intros k|]; exists []; now rewrite app_nil_r.
Qed.
Lemma grows_trans a b c : grows a b -> grows b c -> grows a c.
Proof.
  unfold grows. destruct (c_saved a), (c_saved b), (c_saved c); try tauto.
  - intros H1 H2 k. destruct (H1 k) as (l1 & E1), (H2 k) as (l2 & E2).
    exists (l1 ++ l2). now rewrite E2, E1, app_assoc.
  - intros (m1 & ->) (m2 & ->). exists (m1 ++ m2). now rewrite app_assoc.
Qed.
Lemma append_grows k' (v : hout) d k : exists l, stored k (append_saved k' v d) = stored k d ++ l.
Proof.
  unfold stored, append_saved. destruct (String.eqb_spec k' k) as [->|Hn].
  - rewrite dget_dset_same. destruct (dget k d); eauto.
  - rewrite dget_dset_other by auto. exists []. now rewrite app_nil_r.
Qed.
Lemma save_items_grows (E : env loc hout) its d k : exists l, stored k (fst (save_items E its d)) = stored k d ++ l.
Proof.
  revert d. induction its as [|[k' v] t IH]; intros d; cbn.
  - exists []. now rewrite app_nil_r.
  - destruct (skip_key E k') as [[]|e|]; try (exists []; now rewrite app_nil_r); [apply IH|].
    destruct (IH (append_saved k' v d)) as (l & ->), (append_grows k' v d k) as (l' & ->).
    exists (l' ++ l). now rewrite app_assoc.
Qed.
Lemma save_preds_grows cs (d : dict (list hout)) k : exists l, stored k (save_preds cs d) = stored k d ++ l.
Proof.
  revert d. induction cs as [|[k' v] t IH]; intros d; cbn [save_preds].
  - exists []. now rewrite app_nil_r.
  - destruct (contains "dpred" k'); [|apply IH].
    destruct (IH (append_saved k' v d)) as (l & ->), (append_grows k' v d k) as (l' & ->).
    exists (l' ++ l). now rewrite app_assoc.
Qed.
Lemma save_state_grows (E : env loc hout) c : grows c (fst (save_state E c)).
Proof.
  assert (R : grows c c) by now apply grows_same.
  unfold save_state. destruct (s_kind (e_ops E) (c_cur c)); destruct (c_saved c) as [d|l] eqn:Es; auto.
  3:{ unfold grows. cbn. rewrite Es. eauto. }
  all: destruct (save_items E (s_items (e_ops E) (c_cur c)) d) as [d1 oe] eqn:Ei;
    pose proof (save_items_grows E (s_items (e_ops E) (c_cur c)) d) as G; rewrite Ei in G; cbn [fst] in G;
    destruct oe; [|destruct (e_savedpred E); [destruct (s_cache (e_ops E) (c_cur c))|]];
    unfold grows; cbn; rewrite Es; auto; intros k;
    destruct (G k) as (l1 & E1), (save_preds_grows l d1 k) as (l2 & ->); rewrite E1;
    exists (l1 ++ l2); now rewrite app_assoc.
Qed.
Lemma finish_grows (E : env loc hout) ty acc new c : grows c (fst (finish E ty acc new c)).
Proof.
  unfold finish. set (c1 := if acc then set_cur new c else c).
  assert (G1 : grows c c1) by (apply grows_same; subst c1; now destruct acc).
  destruct (save_statistics E ty acc new c1) as [c2|e] eqn:Es; auto.
  assert (G2 : grows c c2).
  { eapply grows_trans; [exact G1|apply grows_same]. revert Es. unfold save_statistics.
    destruct (String.prefix psp_prefix ty); [destruct (s_pstats (e_ops E) new)|]; intros Es;
      try discriminate; injection Es as <-; reflexivity. }
  destruct (c_flag c2) as [flag|]; auto. destruct (flag && Reqb (c_temp c2) 1); auto.
  destruct (save_state E c2) as [c3 oe] eqn:E3. cbn. eapply grows_trans; [exact G2|].
  pose proof (save_state_grows E c2) as G. now rewrite E3 in G.
Qed.
Lemma decide_grows (E : env loc hout) ty new lpr llr c tr x tr' :
  decide E ty new lpr llr c tr = Ret x tr' -> grows c (fst x).
Proof.
  unfold decide, bind. destruct (drawU tr); try discriminate. destruct (py_log a); try discriminate;
    intros [= <- _]; [apply finish_grows|now apply grows_same].
Qed.

(** Triples for what existing objects become at this level. *)
Definition keeps {A} (m : HM A) (Q : A -> Prop) : Prop :=
  forall h tr, untouched h (snd (m h tr)) /\ (forall a tr', fst (m h tr) = Ret a tr' -> Q a).
Lemma keeps_bind {A B} (m : HM A) (f : A -> HM B) Q S :
  keeps m Q -> (forall a, Q a -> keeps (f a) S) -> keeps (hbind m f) S.
Proof.
  intros Hm Hf h tr. unfold hbind. destruct (Hm h tr) as [U F].
  destruct (m h tr) as [[a tr'|e tr'| |] h'] eqn:R; cbn in *; try (split; [exact U|discriminate]).
  destruct (Hf a (F a tr' eq_refl) h' tr') as [U2 F2]. split; auto. eapply untouched_trans; eauto.
Qed.
Lemma keeps_ret {A} (a : A) (Q : A -> Prop) : Q a -> keeps (hret a) Q.
Proof. intros H h tr. cbn. split; [apply untouched_refl|]. now intros ? ? [= <- _]. Qed.
Lemma keeps_do {A} (m : M A) : keeps (hdo m) (fun _ => True).
Proof. intros h tr. cbn. split; [apply untouched_refl|auto]. Qed.
Lemma keeps_pure {A} (f : heap -> trace -> out A) : keeps (fun h tr => (f h tr, h)) (fun _ => True).
Proof. intros h tr. cbn. split; [apply untouched_refl|auto]. Qed.
Lemma keeps_try {A} (m : HM A) Q : keeps m Q -> keeps (htry m) (fun r => match r with inl a => Q a | inr _ => True end).
Proof.
  intros H h tr. unfold htry. destruct (H h tr) as [U F]. destruct (m h tr) as [[a tr'|e tr'| |] h'] eqn:R; cbn in *.
  - split; auto. intros x tr'' [= <- _]. now apply (F a tr').
  - split; auto. now intros x tr'' [= <- _].
  - split; auto. discriminate.
  - split; auto. discriminate.
Qed.
Lemma keeps_weaken {A} (m : HM A) (Q Q' : A -> Prop) : keeps m Q -> (forall a, Q a -> Q' a) -> keeps m Q'.
Proof. intros H W h tr. destruct (H h tr). split; eauto. Qed.
Lemma keeps_ok {A} N (m : HM A) Q :
  (forall h, ok N (length h) h m (Q h)) -> keeps m (fun _ => True).
Proof. intros H h tr. destruct (H h (le_n _) tr) as [V _]. split; auto. eapply ev_untouched; eauto. Qed.
Lemma keeps_h_save a cx : keeps (h_save a cx) (fun _ => True).
Proof.
  intros h tr. split; [|auto]. unfold h_save, hbind, load_state, hbind, load. cbn.
  destruct (nth_error h a) as [o|] eqn:E; [|apply untouched_refl].
  destruct o; try apply untouched_refl. cbn. unfold store.
  destruct (Nat.ltb_spec a (length h)); [|apply untouched_refl]. cbn.
  intros x ox Ex. rewrite nth_set_nth by auto. destruct (Nat.eqb_spec x a) as [->|Hn].
  - rewrite E in Ex. injection Ex as <-. eexists. split; [reflexivity|]. cbn. eauto.
  - exists ox. split; auto. apply same_data_refl.
Qed.
Lemma keeps_h_like E o n T : keeps (h_like E o n T) (fun _ => True).
Proof.
  unfold h_like. eapply keeps_bind; [apply (keeps_pure (fun h tr => he_like E h o n T tr))|].
  intros [[co cn] l] _. eapply keeps_bind; [apply keeps_h_save|]. intros _ _.
  eapply keeps_bind; [apply keeps_h_save|]. intros _ _. now apply keeps_ret.
Qed.
Lemma keeps_h_decide E ty new lpr llr c : keeps (h_decide E ty new lpr llr c) (fun x => grows c (fst x)).
Proof.
  intros h tr. unfold h_decide.
  destruct (h_items h (c_cur c)); [destruct (h_items h new)|]; cbn; (split; [apply untouched_refl|]);
    try discriminate. intros a tr'. apply decide_grows.
Qed.
(** The perturbation functions of the chain leave alone what exists. *)
Definition good_funcs (E : henv) : Prop :=
  forall ty f, In (ty, f) (he_funcs E) -> forall a, keeps (f a) (fun _ => True).
Lemma keeps_attempt E c : good_funcs E -> keeps (h_attempt E c) (fun x => grows c (fst x)).
Proof.
  intros G. assert (R : forall e, grows c (count_exc e c)) by (intros; now apply grows_same).
  assert (R0 : grows c c) by now apply grows_same.
  unfold h_attempt. eapply keeps_bind; [apply keeps_do|]. intros [i|e] _; [|now apply keeps_ret].
  destruct (nth_error (he_funcs E) i) as [[ty f]|] eqn:Ei; [|now apply keeps_ret].
  eapply keeps_bind; [apply keeps_try, (G ty f); eapply nth_error_In; eauto|].
  intros [[new lpr]|e] _; [|destruct e; now apply keeps_ret].
  destruct (eisinf lpr); [apply keeps_h_decide|].
  eapply keeps_bind; [apply keeps_h_like|]. intros [llr|e] _; [apply keeps_h_decide|].
  destruct e; now apply keeps_ret.
Qed.
Lemma keeps_tries E k c : good_funcs E -> keeps (h_tries E k c) (fun x => grows c (fst x)).
Proof.
  intros G. revert c. induction k as [|k IH]; intros c; cbn [h_tries].
  - apply keeps_ret. now apply grows_same.
  - eapply keeps_bind; [now apply keeps_attempt|]. intros [c' v] Gc. cbn [fst] in Gc.
    destruct v; try now apply keeps_ret. eapply keeps_weaken; [apply IH|].
    intros x. now apply grows_trans.
Qed.
Lemma keeps_advance E n sc c : good_funcs E -> keeps (h_advance E n sc c) (fun x => grows c (fst x)).
Proof.
  intros G. revert c. induction n as [|n IH]; intros c; cbn [h_advance].
  - apply keeps_ret. now apply grows_same.
  - destruct (save_flag sc (S (c_nprop_tot c))) as [flag|e|].
    + eapply keeps_bind; [now apply keeps_tries|]. intros [c' o] Gc. cbn [fst] in Gc.
      destruct o; [now apply keeps_ret|]. eapply keeps_weaken; [apply IH|]. intros x. now apply grows_trans.
    + apply keeps_ret. now apply grows_same.
    + intros h tr. cbn. split; [apply untouched_refl|discriminate].
Qed.
Lemma good_inversion spaces ll save like : good_funcs (h_inversion_env spaces ll save like).
Proof.
  intros ty f Hf a. cbn in Hf. apply in_map_iff in Hf. destruct Hf as ([pf w] & [= <- <-] & _). cbn [fst].
  eapply keeps_ok. intros h. apply ok_pfunc.
Qed.
