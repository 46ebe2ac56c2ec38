(** The copy of a State as a tree, and in-place changes of it. *)
From Verif Require Import Base ModelUtils1D ModelPrior ModelState ModelSpace ModelChain ModelPerturb ModelLikelihood ModelHeap
  SpecState SpecHeap SpecRefine ProofInversion ProofState ProofSpace ProofNested ProofPerturb ProofStep ProofHeap ProofHeapB
  ProofRefine ProofRefineB ProofRefineE ProofRefineF ProofRefineG ProofRefineH ProofRefineI.
Local Open Scope nat_scope.

Section STree.
Variable G : loc -> Prop.
Variable k0 : string.
Notation tree := (tree G k0).
Notation treed := (treed G k0).
Notation treev := (treev G k0).

Inductive streee (h : heap) : string -> loc -> ModelState.entry -> ModelState.entry -> list loc -> Prop :=
| ste_seal k b p e0 : k = k0 -> G b -> rep h b p -> streee h k b (EPS p) e0 []
| ste_noise k b d : nth_error h b = Some (HNoise d) -> streee h k b (ENoise d) (ENoise d) [b]
| ste_ps k b q p F : tree h b q p F -> streee h k b (EPS q) (EPS p) F.
Inductive streed (h : heap) : dict loc -> dict ModelState.entry -> dict ModelState.entry -> list loc -> Prop :=
| streed_nil : streed h [] [] [] []
| streed_cons k b v v0 F t tv tv0 F' : streee h k b v v0 F -> streed h t tv tv0 F' ->
    streed h ((k, b) :: t) ((k, v) :: tv) ((k, v0) :: tv0) (F ++ F').
Definition stree (h : heap) (a : loc) (s s0 : state) (F : list loc) : Prop :=
  exists d al dl F', nth_error h a = Some (HState d al (st_temp s) (st_cache s) (st_extra s)) /\ nth_error h d = Some (HDict dl) /\
    streed h dl (st_vals s) (st_vals s0) F' /\ (forall k, dget k al = dget k dl) /\
    (forall k, dget k (st_attrs s) = dget k (st_vals s)) /\ F = a :: d :: F'.

Lemma streed_drel h dl vals vals0 F : streed h dl vals vals0 F -> drel (rep_entry h) dl vals.
Proof.
  intros D. induction D as [|k b v v0 F t tv tv0 F' Hv D IH]; constructor; auto. split; [reflexivity|]. cbn.
  destruct Hv as [k b p e0 Hk Gb R|k b d E|k b q p F T]; constructor; auto. eapply tree_rep; eauto.
Qed.
Lemma stree_rep h a s s0 F : stree h a s s0 F -> rep_state h a s.
Proof.
  intros (d & al & dl & F' & E1 & E2 & D & A1 & A2 & ->). pose proof (streed_drel _ _ _ _ _ D) as Dr.
  eapply rep_state_mk; eauto. intros k b E. rewrite A1 in E. pose proof (drel_get _ _ _ k Dr) as Q. rewrite E in Q.
  destruct Q as (e & Ee & He). exists e. now rewrite A2.
Qed.
Lemma streed_kept h h' dl vals vals0 F : untouched h h' -> streed h dl vals vals0 F -> streed h' dl vals vals0 F.
Proof.
  intros U D. induction D as [|k b v v0 F t tv tv0 F' Hv D IH]; constructor; auto.
  destruct Hv as [k b p e0 Hk Gb R|k b d E|k b q p F T].
  - apply ste_seal; auto. eapply rep_kept; eauto.
  - destruct (U _ _ E) as (o & N & So). cbn in So. subst o. now constructor.
  - constructor. eapply tree_kept; eauto.
Qed.
Lemma stree_ev N h h' a s s0 F : ev N (length h) h h' -> stree h a s s0 F -> stree h' a s s0 F.
Proof.
  intros V (d & al & dl & F' & E1 & E2 & D & A1 & A2 & ->). pose proof (ev_untouched _ _ _ V) as U.
  destruct (U _ _ E2) as (o & E3 & So). cbn in So. subst o. exists d, al, dl, F'. repeat split; auto.
  - eapply ev_state; eauto.
  - eapply streed_kept; eauto.
Qed.
Lemma streee_frame h h' k b e e0 F : closed G h -> (forall x, G x -> sameat h h' x) -> (forall x, In x F -> sameat h h' x) ->
  streee h k b e e0 F -> streee h' k b e e0 F.
Proof.
  intros C SG SF H. revert SF. destruct H as [k1 b1 p e1 Hk Gb R|k1 b1 d E|k1 b1 q p F1 T]; intros SF.
  - apply ste_seal; auto. apply (rep_frame G h h' C SG); auto.
  - destruct (SF b1 (or_introl eq_refl) _ E) as (o & N & So). cbn in So. subst o. now constructor.
  - constructor. apply (tree_frame_all G k0 h h' C SG); auto.
Qed.
Lemma streed_frame h h' dl vals vals0 F : closed G h -> (forall x, G x -> sameat h h' x) -> (forall x, In x F -> sameat h h' x) ->
  streed h dl vals vals0 F -> streed h' dl vals vals0 F.
Proof.
  intros C SG SF D. induction D as [|k b v v0 F t tv tv0 F' Hv D IH]; constructor.
  - eapply streee_frame; eauto. intros x Hx. apply SF, in_app_iff. auto.
  - apply IH. intros x Hx. apply SF, in_app_iff. auto.
Qed.
Lemma streed_get h dl vals vals0 F k : streed h dl vals vals0 F ->
  match dget k vals0 with
  | Some v0 => exists b v Fb, dget k dl = Some b /\ dget k vals = Some v /\ streee h k b v v0 Fb /\ incl Fb F
  | None => dget k dl = None /\ dget k vals = None
  end.
Proof.
  intros D. induction D as [|k1 b v v0 F t tv tv0 F' Hv D IH]; cbn [dget]; [auto|].
  destruct (String.eqb_spec k k1) as [->|Hn].
  - exists b, v, F. repeat split; auto. intros x Hx. apply in_app_iff. auto.
  - destruct (dget k tv0) as [v1|]; [|exact IH]. destruct IH as (b' & v' & Fb & E1 & E2 & Ht & I). exists b', v', Fb.
    repeat split; auto. intros x Hx. apply in_app_iff. auto.
Qed.
Lemma streed_set h h' dl vals vals0 F b p : closed G h -> (forall x, G x -> sameat h h' x) -> (forall x, In x F -> sameat h h' x) ->
  streed h dl vals vals0 F -> NoDup F -> In k0 (dkeys vals0) -> G b -> rep h' b p ->
  exists F', streed h' (dset k0 b dl) (dset k0 (EPS p) vals) vals0 F' /\ NoDup F' /\ incl F' F.
Proof.
  intros C SG SF D N K Gb Rb.
  induction D as [|k1 b1 v1 v0 F t tv tv0 F' Hv D IH]; [destruct K|]. cbn [dset].
  destruct (String.eqb_spec k0 k1) as [<-|Hn].
  - exists F'. split; [|split; [eapply NoDup_app_r; eauto|intros x Hx; apply in_app_iff; auto]].
    change F' with ([] ++ F'). constructor; [now apply ste_seal|]. eapply streed_frame; eauto. intros x Hx. apply SF, in_app_iff. auto.
  - destruct K as [K|K]; [now destruct Hn|].
    destruct IH as (F2 & D2 & N2 & I2); auto.
    { intros x Hx. apply SF, in_app_iff. auto. }
    { eapply NoDup_app_r; eauto. }
    exists (F ++ F2). split; [constructor; auto; eapply streee_frame; eauto; intros x Hx; apply SF, in_app_iff; auto|].
    split; [|apply incl_app2; [apply incl_refl|auto]].
    apply (NoDup_app_incl F F F' F2); auto; [eapply NoDup_app_l; eauto|apply incl_refl].
Qed.
Lemma streed_upd h h' dl vals vals0 F k v0 : closed G h -> (forall x, G x -> sameat h h' x) ->
  streed h dl vals vals0 F -> NoDup F -> dget k vals0 = Some v0 ->
  exists b v Fb, dget k dl = Some b /\ dget k vals = Some v /\ streee h k b v v0 Fb /\ NoDup Fb /\ incl Fb F /\
  (forall v' Fb', streee h' k b v' v0 Fb' -> NoDup Fb' -> incl Fb' Fb -> (forall x, In x F -> ~ In x Fb -> sameat h h' x) ->
   exists F', streed h' dl (dset k v' vals) vals0 F' /\ NoDup F' /\ incl F' F).
Proof.
  intros C SG D N K.
  induction D as [|k1 b1 v1 v01 F t tv tv0 F' Hv D IH]; [discriminate|]. cbn [dget] in *. cbn [dset].
  destruct (String.eqb_spec k k1) as [<-|Hn].
  - injection K as ->. exists b1, v1, F. repeat split; auto; [eapply NoDup_app_l; eauto|intros x Hx; apply in_app_iff; auto|].
    intros v' Fb' Hv' N' I' SF. exists (Fb' ++ F'). split; [constructor; auto; eapply streed_frame; eauto|].
    { intros x Hx. apply SF; [apply in_app_iff; auto|]. intros Hx'. eapply NoDup_app_dis; eauto. }
    split; [|apply incl_app2; [auto|apply incl_refl]].
    apply (NoDup_app_incl F Fb' F' F'); auto; [eapply NoDup_app_r; eauto|apply incl_refl].
  - destruct IH as (b & v & Fb & E1 & E2 & Ht & Nb & Ib & Q); auto; [eapply NoDup_app_r; eauto|].
    exists b, v, Fb. repeat split; auto; [intros x Hx; apply in_app_iff; auto|].
    intros v' Fb' Hv' N' I' SF. destruct (Q v' Fb' Hv' N' I') as (F2 & D2 & N2 & I2).
    { intros x Hx Hb. apply SF; [apply in_app_iff; auto|auto]. }
    exists (F ++ F2). split; [constructor; auto; eapply streee_frame; eauto|].
    { intros x Hx. apply SF; [apply in_app_iff; auto|]. intros Hx'. apply Ib in Hx'. eapply NoDup_app_dis; eauto. }
    split; [|apply incl_app2; [apply incl_refl|auto]].
    apply (NoDup_app_incl F F F' F2); auto; [eapply NoDup_app_l; eauto|apply incl_refl].
Qed.

(** ** Nodes below the State *)
Definition spat (w : path) (s : state) : option psstate :=
  match w with
  | [] => None
  | (k, _) :: w' => match st_get k s with Some (EPS p) => pat w' p | _ => None end
  end.
Definition shat (h : heap) (a : loc) (w : path) (x : loc) : Prop :=
  match w with
  | [] => False
  | (k, _) :: w' => exists d al t c e dl b, nth_error h a = Some (HState d al t c e) /\ nth_error h d = Some (HDict dl) /\
      dget k dl = Some b /\ hat h b w' x
  end.
Lemma shat_kept h h' a w x : upk k0 h h' -> off k0 w -> shat h a w x -> shat h' a w x.
Proof.
  intros U O. destruct w as [|[k i] w]; [intros []|]. intros (d & al & t & c & e & dl & b & E1 & E2 & E3 & H).
  inversion O as [|? ? Hk O']; subst. cbn in Hk.
  destruct (U _ _ E1) as (o1 & N1 & (al' & t' & c' & e' & ->)). destruct (U _ _ E2) as (o2 & N2 & (dl' & -> & Hd)).
  exists d, al', t', c', e', dl', b. repeat split; auto; [now rewrite Hd|]. eapply hat_kept; eauto.
Qed.
Lemma spat_app w s k i : w <> [] -> spat (w ++ [(k, i)]) s =
  match spat w s with
  | Some q => match ps_get k q with Some (Lst l) => nth_error l i | _ => None end
  | None => None
  end.
Proof.
  destruct w as [|[k1 i1] w]; [congruence|]. intros _. cbn [app spat]. destruct (st_get k1 s) as [[p|]|]; [|reflexivity|reflexivity].
  apply pat_app.
Qed.
Lemma shat_app h a w x n d al cl dl k i b ls c : shat h a w x -> nth_error h x = Some (HPS n d al cl) -> nth_error h d = Some (HDict dl) ->
  dget k dl = Some b -> nth_error h b = Some (HLst ls) -> nth_error ls i = Some c -> shat h a (w ++ [(k, i)]) c.
Proof.
  destruct w as [|[k1 i1] w]; [intros []|]. intros (d1 & al1 & t1 & c1 & e1 & dl1 & b1 & E1 & E2 & E3 & H) X1 X2 X3 X4 X5.
  cbn [app shat]. exists d1, al1, t1, c1, e1, dl1, b1. repeat split; auto. eapply hat_app; eauto.
Qed.
Lemma stree_at h w a s s0 F x pw : stree h a s s0 F -> off k0 w -> spat w s0 = Some pw -> shat h a w x ->
  exists qw Fw, tree h x qw pw Fw /\ incl Fw F.
Proof.
  intros (d & al & dl & F' & E1 & E2 & D & A1 & A2 & ->) O E H. destruct w as [|[k i] w]; [destruct H|].
  destruct H as (d1 & al1 & t1 & c1 & e1 & dl1 & b1 & X1 & X2 & X3 & H). rewrite E1 in X1. injection X1 as <- <- <- <- <-.
  rewrite E2 in X2. injection X2 as <-. inversion O as [|? ? Hk O']; subst. cbn in Hk.
  cbn [spat] in E. unfold st_get in E. pose proof (streed_get _ _ _ _ _ k D) as Q.
  destruct (dget k (st_vals s0)) as [[p|]|]; try discriminate. destruct Q as (b & v & Fb & Q1 & Q2 & Hv & I).
  rewrite Q1 in X3. injection X3 as ->. inversion Hv as [? ? ? ? Hk0| |k2 b2 q p2 F2 T]; subst; [congruence|].
  destruct (tree_at G k0 h w b1 q p Fb x pw T O' E H) as (qw & Fw & Tw & Iw). exists qw, Fw. split; [exact Tw|].
  intros y Hy. right. right. apply I, Iw, Hy.
Qed.
Lemma stree_set h h' w a s s0 F x pw b v : closed G h -> stree h a s s0 F -> NoDup F -> (forall y, In y F -> ~ G y) ->
  off k0 w -> spat w s0 = Some pw -> shat h a w x -> In k0 (dkeys (ps_vals pw)) ->
  setat k0 h h' x b -> G b -> repv h b v -> v <> Lst [] ->
  exists s' F', set_in_state w k0 v s = Ok s' /\ stree h' a s' s0 F' /\ NoDup F' /\ incl F' F /\
    (forall y, ~ In y F -> nth_error h' y = nth_error h y).
Proof.
  intros C T N GF O E H Kw St Gb Rb Vn. pose proof T as (d & al & dl & F0 & E1 & E2 & D & A1 & A2 & ->).
  destruct w as [|[k i] w]; [destruct H|].
  destruct H as (d1 & al1 & t1 & c1 & e1 & dl1 & b1 & X1 & X2 & X3 & H). rewrite E1 in X1. injection X1 as <- <- <- <- <-.
  rewrite E2 in X2. injection X2 as <-. inversion O as [|? ? Hk O']; subst. cbn in Hk.
  inversion N as [|? ? Nx N']; subst. inversion N' as [|? ? Nd N'']; subst.
  assert (Out : forall y, ~ In y (a :: d :: F0) -> nth_error h' y = nth_error h y).
  { intros y Hy. destruct (stree_at h ((k, i) :: w) a s s0 (a :: d :: F0) x pw T O E) as (qw & Fw & Tw & Iw).
    { cbn [shat]. exists d, al, (st_temp s), (st_cache s), (st_extra s), dl, b1. auto. }
    destruct St as (n' & d' & al' & cl' & dl' & S1 & S2 & S3 & S4 & S5).
    inversion Tw as [a0 n0 d0 al0 cl0 dl0 vals1 attrs1 cache1 vals01 attrs01 cache01 F1 M1 M2 D1 B1 B2]; subst.
    rewrite M1 in S1. injection S1 as -> -> -> ->. apply S5; intros ->; apply Hy, Iw; cbn; auto. }
  assert (SG : forall y, G y -> sameat h h' y).
  { intros y Hy o Eo. exists o. split; [|apply same_data_refl]. rewrite Out; auto. intros HF. eapply GF; eauto. }
  cbn [spat] in E. unfold st_get in E. destruct (dget k (st_vals s0)) as [e0|] eqn:Ek; [|discriminate].
  destruct (streed_upd h h' dl (st_vals s) (st_vals s0) F0 k e0 C SG D N'' Ek) as (b2 & v2 & Fb & Q1 & Q2 & Tv & Nb & Ib & Qd).
  rewrite Q1 in X3. injection X3 as ->. destruct e0 as [p|]; [|discriminate].
  inversion Tv as [? ? ? ? Hk0| |k2 b3 q p2 F2 Tp]; subst; [congruence|].
  assert (IF : forall y, In y Fb -> In y (a :: d :: F0)) by (intros y Hy; right; right; now apply Ib).
  destruct (tree_set G k0 h h' w C b1 q p Fb x pw b v Tp Nb (fun y Hy => GF y (IF y Hy)) O' E H Kw St Gb Rb Vn)
    as (q2 & Fb' & Es & Tq & NF & IFb & Out2).
  destruct (Qd (EPS q2) Fb') as (F4 & D4 & N4 & I4); auto.
  { now constructor. }
  { intros y _ Hy o Eo. exists o. split; [|apply same_data_refl]. now rewrite Out2. }
  exists (st_set k (EPS q2) s), (a :: d :: F4). split; [|split; [|split; [|split]]].
  - cbn [set_in_state]. unfold st_get. rewrite Q2. rewrite Es. reflexivity.
  - assert (Da : ~ In a Fb) by (intros HF; apply Nx; right; now apply Ib).
    assert (Dd : ~ In d Fb) by (intros HF; apply Nd; now apply Ib).
    exists d, al, dl, F4. cbn. rewrite (Out2 _ Da), (Out2 _ Dd). repeat split; auto. intros k'. now apply dget_set_step.
  - constructor; [intros [->|Hx]; [apply Nx; now left|apply Nx; right; auto]|]. constructor; auto.
  - intros y [->|[->|Hy]]; cbn; auto.
  - exact Out.
Qed.
(** The same at the State itself. *)
Definition ssetat (h h' : heap) (x b : loc) : Prop :=
  exists d al t c e dl, nth_error h x = Some (HState d al t c e) /\ nth_error h d = Some (HDict dl) /\
    nth_error h' x = Some (HState d (dset k0 b al) t c e) /\ nth_error h' d = Some (HDict (dset k0 b dl)) /\
    forall y, y <> x -> y <> d -> nth_error h' y = nth_error h y.
Lemma stree_sset h h' a s s0 F b p : closed G h -> stree h a s s0 F -> NoDup F -> (forall y, In y F -> ~ G y) ->
  In k0 (dkeys (st_vals s0)) -> ssetat h h' a b -> G b -> rep h b p ->
  exists F', stree h' a (st_set k0 (EPS p) s) s0 F' /\ NoDup F' /\ incl F' F /\
    (forall y, ~ In y F -> nth_error h' y = nth_error h y).
Proof.
  intros C (d & al & dl & F0 & E1 & E2 & D & A1 & A2 & ->) N GF Kw (d1 & al1 & t1 & c1 & e1 & dl1 & X1 & X2 & X3 & X4 & X5) Gb Rb.
  rewrite E1 in X1. injection X1 as <- <- <- <- <-. rewrite E2 in X2. injection X2 as <-.
  inversion N as [|? ? Nx N']; subst. inversion N' as [|? ? Nd N'']; subst.
  assert (SG : forall y, G y -> sameat h h' y).
  { intros y Hy o Eo. exists o. split; [|apply same_data_refl]. rewrite X5; auto; intros ->; eapply GF; eauto; cbn; auto. }
  assert (SF : forall y, In y F0 -> sameat h h' y).
  { intros y Hy o Eo. exists o. split; [|apply same_data_refl]. rewrite X5; auto; intros ->; [apply Nx; now right|auto]. }
  assert (Rb' : rep h' b p) by (apply (rep_frame G h h' C SG); auto).
  destruct (streed_set h h' dl (st_vals s) (st_vals s0) F0 b p C SG SF D N'' Kw Gb Rb') as (F' & D' & NF & IF).
  exists (a :: d :: F'). split; [|split; [|split]].
  - exists d, (dset k0 b al), (dset k0 b dl), F'. cbn. repeat split; auto; intros k'; now apply dget_set_step.
  - constructor; [intros [->|Hx]; [apply Nx; now left|apply Nx; right; auto]|]. constructor; auto.
  - intros y [->|[->|Hy]]; cbn; auto.
  - intros y Hy. apply X5; intros ->; apply Hy; cbn; auto.
Qed.
End STree.

Lemma tree_mono (G G' : loc -> Prop) k0 h : (forall l, G l -> G' l) ->
  (forall a q p F, tree G k0 h a q p F -> tree G' k0 h a q p F) /\
  (forall dl vals vals0 F, treed G k0 h dl vals vals0 F -> treed G' k0 h dl vals vals0 F) /\
  (forall k b v v0 F, treev G k0 h k b v v0 F -> treev G' k0 h k b v v0 F) /\
  (forall ls qs ps F, treel G k0 h ls qs ps F -> treel G' k0 h ls qs ps F).
Proof.
  intros M.
  apply (tree_all G k0 h (fun a q p F _ => tree G' k0 h a q p F) (fun dl vals vals0 F _ => treed G' k0 h dl vals vals0 F)
    (fun k b v v0 F _ => treev G' k0 h k b v v0 F) (fun ls qs ps F _ => treel G' k0 h ls qs ps F)).
  - intros. econstructor; eauto.
  - constructor.
  - intros. now constructor.
  - intros. apply treev_seal; auto.
  - intros. now constructor.
  - intros. now constructor.
  - intros. econstructor; eauto. eapply Forall_impl; eauto.
  - intros. econstructor; eauto.
  - constructor.
  - intros. now constructor.
Qed.
Lemma streed_mono (G G' : loc -> Prop) k0 h dl vals vals0 F : (forall l, G l -> G' l) ->
  streed G k0 h dl vals vals0 F -> streed G' k0 h dl vals vals0 F.
Proof.
  intros M D. induction D as [|k b v v0 F t tv tv0 F' Hv D IH]; constructor; auto.
  destruct Hv as [k b p e0 Hk Gb R|k b d E|k b q p F T].
  - apply ste_seal; auto.
  - now constructor.
  - constructor. eapply tree_mono; eauto.
Qed.

(** * The copy of a State *)
Section SCopy.
Variable h0 : heap.
Variable k0 : string.
Notation live := (live h0).
Lemma run_st_post_init_exact h1 t c todo : forall dl al tr,
  (forall k b, In (k, b) todo -> exists e, rep_entry h1 b e) ->
  h_st_post_init todo (S (length h1)) (h1 ++ [HDict dl; HState (length h1) al t c []]) tr =
    (Ret tt tr, h1 ++ [HDict (dupdate dl todo); HState (length h1) (dupdate al todo) t c []]).
Proof.
  unfold dupdate. induction todo as [|[k b] todo IH]; intros dl al tr H; [reflexivity|].
  cbn [h_st_post_init fold_left fst snd]. destruct (H k b (or_introl eq_refl)) as (e & He).
  unfold hbind. rewrite (run_st_set _ _ _ _ _ _ _ _ _ _ He). apply IH. intros k' b' Hin. apply (H k' b'). now right.
Qed.
Lemma mk_state_nodup vals t c : NoDup (dkeys vals) -> mk_state vals t c = mkState vals (dupdate [] vals) t c [].
Proof.
  intros N. unfold mk_state.
  assert (H : forall l v a, fold_left (fun s ke => st_set (fst ke) (snd ke) s) l (mkState v a t c []) = mkState (dupdate v l) (dupdate a l) t c []).
  { unfold dupdate. induction l as [|[k e] l IH]; intros v a; [reflexivity|]. cbn. apply IH. }
  rewrite H. now rewrite dupdate_self.
Qed.
Lemma streed_keys G h dl vals vals0 F : streed G k0 h dl vals vals0 F -> dkeys dl = dkeys vals0 /\ dkeys vals = dkeys vals0.
Proof. intros D. induction D as [|k b v v0 F t tv tv0 F' Hv D [I1 I2]]; [auto|]. unfold dkeys in *. cbn. now rewrite I1, I2. Qed.
Lemma sim_st_copy_tree a s keep : rep_state h0 a s -> sane_state s ->
  sim h0 (h_st_copy keep a) (lift (st_copy keep s)) (fun h' x s' => exists F, stree live k0 h' x s' s F /\ fr h0 h' F).
Proof.
  intros (d & al & dl & E1 & E2 & D & A) [Nd Sn]. unfold h_st_copy, st_copy.
  eapply sim_load_state; [exact E1|]. eapply sim_load_dict; [exact E2|].
  eapply sim_ext; [intros tr; apply lift_bind|].
  eapply sim_bind with (R := fun h' dl' vals' => exists F, streed live k0 h' dl' vals' (st_vals s) F /\ fr h0 h' F).
  - assert (Sp : forall k p, In (k, EPS p) (st_vals s) -> sane p) by exact Sn.
    assert (U : untouched h0 h0) by apply untouched_refl. revert U. clear E1 E2 Nd Sn A.
    assert (K : forall h, untouched h0 h -> sim h (hmap (fun kb => b <~ h_entry_copy (snd kb) ;; hret (fst kb, b)) dl)
      (lift (rmap (fun ke => e <-? entry_copy (snd ke) ;; Ok (fst ke, e)) (st_vals s)))
      (fun h' dl' vals' => exists F, streed live k0 h' dl' vals' (st_vals s) F /\ fr h h' F)); [|exact (K h0)].
    induction D as [|[k b] [k' e] dl vals [K1 K2] D IH]; intros h U.
    + cbn. apply sim_ret. exists []. split; [constructor|]. split; [constructor|intros y []].
    + cbn in K1, K2. subst k'. cbn [hmap rmap fst snd].
      assert (E : forall tr, lift (y <-? (w <-? entry_copy e ;; Ok (k, w)) ;;
          ys <-? rmap (fun ke => e <-? entry_copy (snd ke) ;; Ok (fst ke, e)) vals ;; Ok (y :: ys)) tr =
        bind (lift (entry_copy e)) (fun w => bind (lift (rmap (fun ke => e <-? entry_copy (snd ke) ;; Ok (fst ke, e)) vals))
          (fun ys => ret ((k, w) :: ys))) tr).
      { intros tr. destruct (entry_copy e); [|reflexivity|reflexivity]. cbn. unfold bind, lift, ret. now destruct (rmap _ vals). }
      eapply sim_ext; [exact E|]. clear E.
      assert (S1 : sim h (hbind (h_entry_copy b) (fun b' => hret (k, b'))) (lift (entry_copy e))
        (fun h' kb w => fst kb = k /\ exists F, streee live k0 h' k (snd kb) w e F /\ fr h h' F)).
      { destruct K2 as [b p H|b n E].
        - destruct (rep_inv _ _ _ H) as (d' & al' & cl' & dl' & E & _). destruct (U _ _ E) as (o & E' & (c' & ->)).
          unfold h_entry_copy. intros tr. cbn [entry_copy].
          assert (S2 : sim h (copy_ps b) (lift (ps_copy p)) (tcopy h0 k0 h p)).
          { intros tr'. apply (sim_copy_tree h0 k0 (length h)); auto.
            - apply (rep_deep h b). eapply rep_kept; eauto.
            - eapply Sp. left. reflexivity. }
          specialize (S2 tr). rewrite lift_bind. unfold hbind, load, bind, agree in *. rewrite E'.
          destruct (copy_ps b h tr) as [[x t|e0 t| |] h2]; destruct (lift (ps_copy p) tr) as [y t'|e' t'| |]; cbn in *; auto; try tauto.
          destruct S2 as (-> & U2 & (F2 & T2 & Fr2)). repeat split; auto. exists F2. split; [now constructor|auto].
        - destruct (U _ _ E) as (o & E' & So). cbn in So. subst o. intros tr. unfold h_entry_copy, hbind, load. rewrite E'. cbn.
          repeat split; auto; [apply untouched_app|]. exists [length h]. split; [constructor; apply nth_new|apply fr_one]. }
      eapply sim_bind; [exact S1|]. intros h1 [k1 b1] w U1 [Ek (F1 & T1 & Fr1)]. cbn in Ek, T1. subst k1.
      eapply sim_bind; [apply IH; [|eapply untouched_trans; eauto]|].
      * intros k1 p Hin. eapply Sp. right. exact Hin.
      * intros h2 dl' vals' U2 (F2 & T2 & Fr2). apply sim_ret. exists (F1 ++ F2). split.
        -- constructor; [|exact T2].
           assert (Dk : streed live k0 h2 [(k, b1)] [(k, w)] [(k, e)] (F1 ++ [])).
           { eapply streed_kept; [exact U2|]. constructor; [exact T1|constructor]. }
           inversion Dk as [|? ? ? ? Fa ? ? ? Fb Ha Hb Q1 Q2 Q3 Q4]; subst. inversion Hb; subst. rewrite !app_nil_r in Q4. now subst Fa.
        -- eapply fr_app; eauto using untouched_length.
  - intros h1 dl' vals' U1 (F1 & T1 & Fr1).
    destruct (streed_keys _ _ _ _ _ _ T1) as [Kd Kv].
    assert (Nv : NoDup (dkeys vals')) by now rewrite Kv.
    assert (Ndl : NoDup (dkeys dl')) by now rewrite Kd.
    set (c := if keep then filter (fun kc => String.eqb (fst kc) "dpred") (st_cache s) else []).
    change (sim h1 (hbind (alloc (HDict dl')) (fun d' => h_mk_state d' (st_temp s) c)) (ret (mk_state vals' (st_temp s) c))
      (fun h' x s' => exists F, stree live k0 h' x s' s F /\ fr h0 h' F)).
    intros tr. unfold hbind at 1, alloc. unfold h_mk_state. unfold hbind at 1.
    rewrite (run_load_dict _ _ dl') by apply nth_new. unfold hbind at 1, alloc.
    rewrite app_length. cbn [length]. rewrite <- app_assoc. cbn [app].
    replace (length h1 + 1)%nat with (S (length h1)) by lia.
    unfold hbind. rewrite run_st_post_init_exact.
    2:{ intros k b Hin. pose proof (streed_drel _ _ _ _ _ _ _ T1) as Dr. clear - Dr Hin.
        induction Dr as [|[k1 b1] [k2 e] l l' [K1 K2] F IH]; [destruct Hin|]. destruct Hin as [E|Hin]; [injection E as -> ->; eauto|auto]. }
    cbn [hret]. unfold hret, ret, agree. cbn [fst snd]. split; [reflexivity|]. split; [apply untouched_app|].
    rewrite (dupdate_self _ Ndl), (mk_state_nodup _ _ _ Nv).
    exists (S (length h1) :: length h1 :: F1). split.
    + pose proof (nth_two h1 (HDict dl') (HState (length h1) (dupdate [] dl') (st_temp s) c [])) as [M1 M2].
      exists (length h1), (dupdate [] dl'), dl', F1. cbn. repeat split; auto.
      * eapply streed_kept; [apply untouched_app|exact T1].
      * intros k. rewrite dget_dupdate by auto. cbn. now destruct (dget k dl').
      * intros k. rewrite dget_dupdate by auto. cbn. now destruct (dget k vals').
    + destruct Fr1 as [NF RF]. pose proof (untouched_length _ _ U1). split.
      * constructor; [intros [Hx|Hx]; [lia|apply RF in Hx; lia]|]. constructor; [intros Hx; apply RF in Hx; lia|auto].
      * intros y [<-|[<-|Hy]]; rewrite app_length; cbn; try lia. apply RF in Hy. lia.
Qed.
End SCopy.
