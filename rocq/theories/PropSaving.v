(** C63, continued: which names can be saved. *)
From Verif Require Import Base ModelPrior ModelState ModelSpace ModelPerturb ModelChain ModelSampler
  ModelLikelihood SpecUtils1D SpecPrior SpecState SpecSpace SpecPerturb SpecChain SpecRun SpecTrees
  ProofUtils1D ProofChain ProofChainB ProofInversion ProofSampler
  ProofState ProofSpace ProofSpaceB ProofSpaceC ProofSpaceE ProofNested ProofPerturb ProofTree ProofRun ProofRunB ProofRunC
  PropRun ProofTrees ProofStep ExampleRun PropTrees PropPredictions PropState.
Local Open Scope R_scope.
Local Open Scope string_scope.

(** * Strings *)
Fixpoint no_dot (s : string) : Prop :=
  match s with EmptyString => True | String c t => c <> "."%char /\ no_dot t end.
Lemma prefix_dot n : no_dot n -> forall a b, String.prefix n (a ++ "." ++ b) = String.prefix n a.
Proof.
  induction n as [|c n IH]; intros Hn a b; [destruct a; reflexivity|]. destruct Hn as [Hc Hn].
  destruct a as [|x a]; cbn [append String.prefix].
  - destruct (ascii_dec c "."); congruence.
  - destruct (ascii_dec c x); [|reflexivity]. exact (IH Hn a b).
Qed.
Lemma contains_dot n a b : no_dot n -> n <> "" -> contains n (a ++ "." ++ b) = contains n a || contains n b.
Proof.
  intros Hn Hne. assert (HP : forall s, contains n s = String.prefix n s ||
     match s with EmptyString => false | String _ t => contains n t end).
  { intros [|x s]; cbn [contains]; destruct (String.prefix n _); reflexivity. }
  induction a as [|x a IH].
  - cbn [append]. rewrite HP. change (String "." b) with ("" ++ "." ++ b). rewrite prefix_dot by exact Hn.
    destruct n as [|y n]; [congruence|]. cbn. reflexivity.
  - change (String x a ++ "." ++ b) with (String x (a ++ "." ++ b)). rewrite HP, IH.
    rewrite (HP (String x a)). change (String x (a ++ "." ++ b)) with (String x a ++ "." ++ b).
    rewrite prefix_dot by exact Hn. now rewrite orb_assoc.
Qed.
Lemma nd_no_dot : no_dot "n_dimensions".
Proof. cbn. repeat split; discriminate. Qed.
Lemma append_length a b : String.length (a ++ b) = (String.length a + String.length b)%nat.
Proof. induction a; cbn; auto. Qed.
Lemma substring_append a b : substring 0 (String.length a) (a ++ b) = a.
Proof. induction a as [|x a IH]; cbn; [destruct b; reflexivity|]. now rewrite IH. Qed.
Lemma strip_dimensions name : strip_ndim (name ++ ".n_dimensions") = name.
Proof.
  unfold strip_ndim. rewrite append_length. change (String.length ".n_dimensions") with 13%nat.
  replace (_ + 13 - 13)%nat with (String.length name) by lia. apply substring_append.
Qed.

(** * Saving *)
(** The entry is one for which the chain can tell whether it has to be saved. *)
Definition known_key (spaces : list space) (k : string) : Prop :=
  contains "n_dimensions" k = true -> exists sp, In sp spaces /\ sp_name sp = strip_ndim k.
Lemma known_skip spaces ll fs save k : known_key spaces k <-> exists b, skip_key (chain_env spaces ll fs save) k = Ok b.
Proof.
  unfold known_key, skip_key. cbn [e_transd chain_env]. destruct (contains "n_dimensions" k).
  - unfold space_named. destruct (find _ spaces) as [sp|] eqn:F; cbn [option_map].
    + apply find_some in F. destruct F as [Hin E]. apply String.eqb_eq in E. split; eauto.
    + split; [|intros [b [=]]]. intros H. destruct (H eq_refl) as (sp & Hin & E).
      pose proof (find_none _ _ F sp Hin) as HN. cbn beta in HN. rewrite E, String.eqb_refl in HN. discriminate.
  - split; [eauto|discriminate].
Qed.
Lemma save_items_known spaces ll fs save its : forall d,
  (Forall (known_key spaces) (map fst its) -> snd (save_items (chain_env spaces ll fs save) its d) = None) /\
  (~ Forall (known_key spaces) (map fst its) -> snd (save_items (chain_env spaces ll fs save) its d) = Some EKey).
Proof.
  induction its as [|[k v] t IH]; intros d.
  - split; [reflexivity|]. intros []. constructor.
  - cbn [save_items map fst]. pose proof (known_skip spaces ll fs save k) as HK.
    destruct (skip_key (chain_env spaces ll fs save) k) as [b|e|] eqn:E.
    + assert (Hk : known_key spaces k) by (apply HK; eauto).
      assert (HF : Forall (known_key spaces) (k :: map fst t) <-> Forall (known_key spaces) (map fst t)).
      { split; [intros H; inversion H; auto|auto]. }
      rewrite HF. destruct b; apply IH.
    + assert (e = EKey).
      { unfold skip_key in E. destruct (contains _ k); [|discriminate]. destruct (e_transd _); [|discriminate].
        destruct (o _); congruence. }
      subst e. split; [|reflexivity]. intros H. inversion H as [|? ? Hk]; subst. apply HK in Hk. destruct Hk as [b [=]].
    + exfalso. revert E. apply skip_key_undef.
Qed.
(** Saving goes through exactly when all entries of the state are of this kind. *)
Theorem C63_saving_keys spaces ll save c d : c_saved c = SDict d ->
  (snd (save_state (inversion_env spaces ll save) c) = None <->
   Forall (known_key spaces) (dkeys (st_items (c_cur c)))) /\
  (snd (save_state (inversion_env spaces ll save) c) <> None ->
   snd (save_state (inversion_env spaces ll save) c) = Some EKey).
Proof.
  intros Hd. unfold save_state, inversion_env.
  change (s_kind _ (c_cur c)) with KState. rewrite Hd. cbv match.
  change (s_items (e_ops (chain_env spaces ll (inv_pfuncs spaces ll) save)) (c_cur c)) with (st_items (c_cur c)).
  destruct (save_items_known spaces ll (inv_pfuncs spaces ll) save (st_items (c_cur c)) d) as [H1 H2].
  destruct (save_items _ (st_items (c_cur c)) d) as [d1 [e|]] eqn:E; cbn [snd] in H1, H2.
  - cbn [snd]. split; [|intros _].
    + split; [discriminate|]. intros H. apply H1 in H. discriminate.
    + apply H2. intros H. apply H1 in H. discriminate.
  - assert (HS : forall x, snd (if e_savedpred (chain_env spaces ll (inv_pfuncs spaces ll) save)
         then match s_cache (e_ops (chain_env spaces ll (inv_pfuncs spaces ll) save)) (c_cur c) with
              | Some cs => (set_saved (SDict (save_preds cs d1)) c, None)
              | None => (set_saved (SDict d1) c, Some EAttr)
              end
         else (x, None)) = @None exn).
    { intros x. cbn [e_savedpred e_ops s_cache chain_env state_opsB]. destruct save; reflexivity. }
    rewrite HS. split; [|congruence]. split; auto. intros _.
    destruct (Forall_dec (known_key spaces)) with (l := map fst (st_items (c_cur c))) as [H|H]; auto.
    + intros k. pose proof (known_skip spaces ll (inv_pfuncs spaces ll) save k) as HK.
      destruct (skip_key (chain_env spaces ll (inv_pfuncs spaces ll) save) k) as [b|e|] eqn:Ek.
      * left. apply HK. eauto.
      * right. rewrite HK. intros [b [=]].
      * right. rewrite HK. intros [b [=]].
    + apply H2 in H. discriminate.
Qed.

(** Names in which "n_dimensions" does not occur, at the top level. *)
Record quiet_names (spaces : list space) (ts : list target) : Prop := {
  qn_spaces : forall sp, In sp spaces -> contains "n_dimensions" (sp_name sp) = false;
  qn_params : forall sp k, In sp spaces -> In k (dkeys (sp_params sp)) -> contains "n_dimensions" k = false;
  qn_targets : forall t, In t ts -> contains "n_dimensions" (t_name t) = false
}.
(** C63 for saving: with such names every state of every chain of an inversion can be saved,
    and the values are added under their names. *)
Theorem C63_saving_partial spaces ts fs ratio func ll save c d :
  loglike_init ts fs ratio func = Ok ll -> setup_ok spaces (ll_targets ll) ->
  quiet_names spaces (ll_targets ll) ->
  chain_of spaces ll save c -> c_saved c = SDict d ->
  exists d', save_state (inversion_env spaces ll save) c = (set_saved (SDict d') c, None) /\
    forall k, stored k d' = (stored k d ++ ProofChainB.sample (inversion_env spaces ll save) k (c_cur c))%list.
Proof.
  intros Hll Hset [Q1 Q2 Q3] Hc Hd. pose proof (chain_of_ok _ _ _ _ _ _ _ _ Hll Hset Hc) as [Hg _].
  destruct (C63_saving_keys spaces ll save c d Hd) as [HK _].
  assert (HN : snd (save_state (inversion_env spaces ll save) c) = None).
  { apply HK. apply Forall_forall. intros k Hk Hcon. unfold dkeys in Hk. apply in_map_iff in Hk.
    destruct Hk as ([k' v] & E & Hin). cbn in E. subst k'.
    apply items_shows in Hin; [|eapply state_ok_sane; [eauto|apply Hg]|apply Hg].
    destruct Hin as [(name & p & E & Hs)|(name & nd & E & Hs)].
    - destruct (good_get_space _ _ _ _ _ Hg E) as (sp & Hsp & -> & Hwf).
      assert (HP : forall k0, In k0 (dkeys (ps_vals p)) -> contains "n_dimensions" k0 = false).
      { intros k0 H0. destruct (Hwf sp p (part_here _ _)) as (_ & (A & _) & _). rewrite A in H0.
        unfold names in H0. apply in_app_or in H0. destruct H0 as [H0|H0]; [|eapply Q2; eauto].
        destruct (is_disc sp); [destruct H0 as [<-|[]]; reflexivity|destruct H0]. }
      assert (HD : forall k0, In k0 (dkeys (ps_vals p)) -> contains "n_dimensions" (sp_name sp ++ "." ++ k0) = false).
      { intros k0 H0. rewrite contains_dot by (apply nd_no_dot || discriminate). now rewrite Q1, HP by assumption. }
      inversion Hs as [nm q E1 E2|nm q k0 v0 Hget Hnl E1 E2|nm q k0 l ds Hget HF E1 E2]; subst.
      + exists sp. split; auto. now rewrite strip_dimensions.
      + rewrite HD in Hcon; [discriminate|]. eapply dget_in_keys. exact Hget.
      + rewrite HD in Hcon; [discriminate|]. eapply dget_in_keys. exact Hget.
    - destruct (good_get_noise _ _ _ _ _ Hg E) as (t & Ht & Hu & -> & _).
      assert (HT : forall x, contains "n_dimensions" x = false -> contains "n_dimensions" (t_name t ++ "." ++ x) = false).
      { intros x Hx. rewrite contains_dot by (apply nd_no_dot || discriminate). now rewrite Q3, Hx by assumption. }
      inversion Hs; subst.
      + change ".std" with ("." ++ "std") in Hcon. rewrite HT in Hcon by reflexivity. discriminate.
      + change ".correlation" with ("." ++ "correlation") in Hcon. rewrite HT in Hcon by reflexivity. discriminate. }
  destruct (save_state (inversion_env spaces ll save) c) as [c' o] eqn:Hs. cbn [snd] in HN. subst o.
  destruct (save_state_dict _ c c' d Hs Hd) as (d' & Hd' & Hst).
  exists d'. split; [|exact Hst]. f_equal.
  apply save_state_frame in Hs. destruct Hs as (sv & ->). cbn in Hd'. now subst sv.
Qed.
Example C63_saving_case : exists c d, chain_of [ex_vor] ex_ll true c /\ c_saved c = SDict d /\
  quiet_names [ex_vor] (ll_targets ex_ll).
Proof.
  destruct ex_chain as (c & H & H1 & H2). exists c. eexists. split; [exact H|]. split; [exact H2|].
  split.
  - intros sp [<-|[]]. reflexivity.
  - intros sp k [<-|[]] [<-|[<-|[]]]; reflexivity.
  - intros t [<-|[]]. reflexivity.
Qed.

(** C63 is false for saving: a perfectly valid parameter space with a parameter called
    "log_n_dimensions"; no state of it can be saved. *)
Definition nd_prior : prior := mkPrior "log_n_dimensions" false (Gauss (HS 0) (HS 1)) (HS (1/10)) (HS (1/10)).
Definition nd_space : space := Space "m" (Some 1%nat) 1 1 0 Plain [("log_n_dimensions", PPrior nd_prior)].
Lemma dupdate_keys {A} (l : dict A) : forall d k, In k (dkeys d) \/ In k (dkeys l) -> In k (dkeys (dupdate d l)).
Proof.
  induction l as [|[k1 v1] l IH]; intros d k H; cbn in *; [tauto|].
  apply IH. destruct H as [H|[H|H]]; auto; left.
  - destruct (String.eqb_spec k k1) as [E|E].
    + subst. eapply dget_in_keys. apply dget_dset_same.
    + destruct (dget_keys _ _ H) as [w Hw]. eapply dget_in_keys. rewrite dget_dset_other by exact E. exact Hw.
  - subst. eapply dget_in_keys. apply dget_dset_same.
Qed.
Lemma fold_keys {A B} (key : B -> string) (f : B -> A) (l : list B) : forall d k,
  In k (dkeys d) \/ (exists b, In b l /\ key b = k) ->
  In k (dkeys (fold_left (fun acc b => dset (key b) (f b) acc) l d)).
Proof.
  induction l as [|b l IH]; intros d k H; cbn.
  - destruct H as [H|(b & [] & _)]. exact H.
  - apply IH. destruct (String.eqb_spec k (key b)) as [E|E].
    + left. subst. eapply dget_in_keys. apply dget_dset_same.
    + destruct H as [H|(b' & [->|Hb] & Eb)]; [|congruence|right; eauto].
      left. destruct (dget_keys _ _ H) as [w Hw]. eapply dget_in_keys. rewrite dget_dset_other by exact E. exact Hw.
Qed.
Lemma items_key s name p k : In (name, EPS p) (st_vals s) -> In k (dkeys (ps_vals p)) ->
  In (name ++ "." ++ k) (dkeys (st_items s)).
Proof.
  intros Hin Hk. unfold st_items. apply dupdate_keys. left.
  assert (G : forall l acc, In (name ++ "." ++ k) (dkeys acc) \/ In (name, EPS p) l ->
    In (name ++ "." ++ k) (dkeys (fold_left (fun acc ke => dupdate acc
        match snd ke with
        | EPS p => ps_todict (fst ke) p
        | ENoise d => noise_todict (fst ke) d
        end) l acc))).
  { induction l as [|[n e] l IH]; intros acc H; cbn [fold_left].
    - destruct H as [H|[]]. exact H.
    - apply IH. destruct H as [H|[H|H]]; [left; apply dupdate_keys; now left| |now right].
      left. injection H as -> ->. apply dupdate_keys. right. cbn [fst snd]. destruct p as [n' vals attrs cache].
      rewrite todict_eq. apply (fold_keys (fun kv => name ++ "." ++ fst kv)). right.
      apply in_map_iff in Hk. destruct Hk as ([k' v] & E & Hkv). cbn in E. subst k'. exists (k, v). auto. }
  apply G. now right.
Qed.
Lemma nd_only s' : sub_space nd_space s' -> s' = nd_space.
Proof. intros H. inversion H as [|s k s1 s2 Hin Hsub]; subst; auto. destruct Hin as [E|[]]. discriminate E. Qed.
Theorem C63_saving_refuted : valid nd_space /\
  forall ll save c d, good [nd_space] (ll_targets ll) (c_cur c) -> c_saved c = SDict d ->
    snd (save_state (inversion_env [nd_space] ll save) c) = Some EKey.
Proof.
  split.
  { intros s' Hs. apply nd_only in Hs. subst s'.
    split; [cbn; lia|]. split; [cbn; lra|]. split; [exact I|]. split; [|split; [|split]].
    - cbn. repeat constructor; cbn; intuition discriminate.
    - cbn. intuition discriminate.
    - cbn. intros k p [E|[]]. injection E as <- <-. split; auto. exact ex_prior_w.
    - cbn. intros k p [E|[]]. discriminate E. }
  intros ll save c d Hg Hd. destruct (C63_saving_keys [nd_space] ll save c d Hd) as [HK HE].
  apply HE. intros HN. apply HK in HN. rewrite Forall_forall in HN.
  destruct (so_spaces _ _ _ (proj1 Hg) nd_space (or_introl eq_refl)) as (p & E & Hwf).
  assert (Hin : In "m.log_n_dimensions" (dkeys (st_items (c_cur c)))).
  { apply (items_key _ "m" p "log_n_dimensions").
    - apply dget_some_in. exact E.
    - destruct (Hwf _ _ (part_here _ _)) as (_ & (A & _) & _). rewrite A. now left. }
  destruct (HN _ Hin eq_refl) as (sp & [<-|[]] & Es). discriminate Es.
Qed.
