(** The copy that a walk changes in place: a tree of objects that nothing else refers to. *)
From Verif Require Import Base ModelUtils1D ModelPrior ModelState ModelSpace ModelChain ModelPerturb ModelLikelihood ModelHeap
  SpecState SpecHeap SpecRefine ProofInversion ProofState ProofSpace ProofNested ProofStep ProofHeapB
  ProofRefine ProofRefineB ProofRefineE ProofRefineG.
Local Open Scope nat_scope.

(** One object with the same data, caches aside. *)
Definition sameat (h h' : heap) (x : loc) : Prop :=
  forall o, nth_error h x = Some o -> exists o', nth_error h' x = Some o' /\ same_data o o'.
Lemma sameat_untouched h h' x : untouched h h' -> sameat h h' x.
Proof. intros U o. apply U. Qed.

Section Tree.
Variable G : loc -> Prop.
Variable k0 : string.

(** The object [a] shows the first state; the second is the state that was copied; the list
    holds the addresses of all objects of the tree.  Entries named [k0] may have been replaced
    by objects outside of the tree. *)
Inductive tree (h : heap) : loc -> psstate -> psstate -> list loc -> Prop :=
| tree_ps a n d al cl dl vals attrs cache vals0 attrs0 cache0 F :
    nth_error h a = Some (HPS n d al cl) -> nth_error h d = Some (HDict dl) ->
    treed h dl vals vals0 F ->
    (forall k, dget k al = dget k dl) -> (forall k, dget k attrs = dget k vals) ->
    tree h a (PS n vals attrs cache) (PS n vals0 attrs0 cache0) (a :: d :: F)
with treed (h : heap) : dict loc -> dict value -> dict value -> list loc -> Prop :=
| treed_nil : treed h [] [] [] []
| treed_cons k b v v0 F t tv tv0 F' : treev h k b v v0 F -> treed h t tv tv0 F' ->
    treed h ((k, b) :: t) ((k, v) :: tv) ((k, v0) :: tv0) (F ++ F')
with treev (h : heap) : string -> loc -> value -> value -> list loc -> Prop :=
| treev_seal k b v v0 : k = k0 -> G b -> repv h b v -> treev h k b v v0 []
| treev_arr k b l : nth_error h b = Some (HArr l) -> treev h k b (Arr l) (Arr l) [b]
| treev_arrn k b l : nth_error h b = Some (HArrN l) -> treev h k b (ArrN l) (ArrN l) [b]
| treev_obj k b ls ps : nth_error h b = Some (HObj ls) -> Forall G ls -> Forall2 (rep h) ls ps ->
    treev h k b (AObj ps) (AObj ps) [b]
| treev_lst k b ls ps ps0 F : nth_error h b = Some (HLst ls) -> treel h ls ps ps0 F ->
    treev h k b (Lst ps) (Lst ps0) (b :: F)
with treel (h : heap) : list loc -> list psstate -> list psstate -> list loc -> Prop :=
| treel_nil : treel h [] [] [] []
| treel_cons a q p F t tq tp F' : tree h a q p F -> treel h t tq tp F' -> treel h (a :: t) (q :: tq) (p :: tp) (F ++ F').
Scheme tree_m := Induction for tree Sort Prop
  with treed_m := Induction for treed Sort Prop
  with treev_m := Induction for treev Sort Prop
  with treel_m := Induction for treel Sort Prop.
Combined Scheme tree_all from tree_m, treed_m, treev_m, treel_m.

Lemma tree_rep_all h :
  (forall a q p F, tree h a q p F -> rep h a q) /\
  (forall dl vals vals0 F, treed h dl vals vals0 F -> drel (repv h) dl vals) /\
  (forall k b v v0 F, treev h k b v v0 F -> repv h b v) /\
  (forall ls qs ps F, treel h ls qs ps F -> Forall2 (rep h) ls qs).
Proof.
  apply (tree_all h (fun a q p F _ => rep h a q) (fun dl vals vals0 F _ => drel (repv h) dl vals)
    (fun k b v v0 F _ => repv h b v) (fun ls qs ps F _ => Forall2 (rep h) ls qs)).
  - intros. econstructor; eauto. intros k b E. rewrite e1 in E. pose proof (drel_get _ _ _ k H) as D. rewrite E in D.
    destruct D as (v & Ev & Hv). exists v. now rewrite e2.
  - constructor.
  - intros. constructor; auto.
  - auto.
  - intros. now constructor.
  - intros. now constructor.
  - intros. econstructor; eauto.
  - intros. econstructor; eauto.
  - constructor.
  - intros. constructor; auto.
Qed.
Lemma tree_rep h a q p F : tree h a q p F -> rep h a q.
Proof. apply tree_rep_all. Qed.

(** What is reachable in a closed set of objects depends on those objects only. *)
Lemma rep_frame h h' : closed G h -> (forall x, G x -> sameat h h' x) ->
  (forall a p, rep h a p -> G a -> rep h' a p) /\ (forall b v, repv h b v -> G b -> repv h' b v).
Proof.
  intros C S.
  assert (L : forall ls ps, Forall2 (fun a p => G a -> rep h' a p) ls ps -> Forall G ls -> Forall2 (rep h') ls ps).
  { intros ls ps F. induction F; intros K; [constructor|]. inversion K; subst. constructor; auto. }
  assert (H1 : forall a p, rep h a p -> G a -> rep h' a p).
  { apply (rep_ind2 h (fun a p => G a -> rep h' a p) (fun b v => G b -> repv h' b v)).
    - intros a n d al cl dl vals attrs cache E1 E2 F A Ha. destruct (C _ _ Ha E1) as [Hd Hal]. pose proof (C _ _ Hd E2) as Hl. cbn in Hl.
      destruct (S _ Ha _ E1) as (o1 & N1 & (cl' & ->)). destruct (S _ Hd _ E2) as (o2 & N2 & So). cbn in So. subst o2.
      econstructor; eauto.
      + clear E2 N2. induction F as [|x y l l' [K1 K2] F IH]; constructor; inversion Hl; subst; auto.
      + intros k b E. destruct (A k b E) as (v & Ev & Hv). exists v. split; [auto|]. apply Hv. eapply Hal; eauto.
    - intros b l E Hb. destruct (S _ Hb _ E) as (o & N & So). cbn in So. subst o. now constructor.
    - intros b l E Hb. destruct (S _ Hb _ E) as (o & N & So). cbn in So. subst o. now constructor.
    - intros b ls ps E F Hb. destruct (S _ Hb _ E) as (o & N & So). cbn in So. subst o. econstructor; eauto. apply L; auto. exact (C _ _ Hb E).
    - intros b ls ps E F Hb. destruct (S _ Hb _ E) as (o & N & So). cbn in So. subst o. econstructor; eauto. apply L; auto. exact (C _ _ Hb E). }
  split; [exact H1|]. intros b v H Hb.
  assert (L2 : forall ls ps, Forall2 (rep h) ls ps -> Forall G ls -> Forall2 (rep h') ls ps).
  { intros ls ps F. induction F; intros K; [constructor|]. inversion K; subst. constructor; auto. }
  destruct H as [b l E|b l E|b ls ps E F|b ls ps E F]; destruct (S _ Hb _ E) as (o & N & So); cbn in So; subst o; econstructor; eauto;
    apply L2; auto; exact (C _ _ Hb E).
Qed.
Lemma tree_frame_all h h' : closed G h -> (forall x, G x -> sameat h h' x) ->
  (forall a q p F, tree h a q p F -> (forall x, In x F -> sameat h h' x) -> tree h' a q p F) /\
  (forall dl vals vals0 F, treed h dl vals vals0 F -> (forall x, In x F -> sameat h h' x) -> treed h' dl vals vals0 F) /\
  (forall k b v v0 F, treev h k b v v0 F -> (forall x, In x F -> sameat h h' x) -> treev h' k b v v0 F) /\
  (forall ls qs ps F, treel h ls qs ps F -> (forall x, In x F -> sameat h h' x) -> treel h' ls qs ps F).
Proof.
  intros C S. destruct (rep_frame h h' C S) as [R1 R2].
  assert (L2 : forall ls ps, Forall2 (rep h) ls ps -> Forall G ls -> Forall2 (rep h') ls ps).
  { intros ls ps F. induction F; intros K; [constructor|]. inversion K; subst. constructor; auto. }
  apply (tree_all h (fun a q p F _ => (forall x, In x F -> sameat h h' x) -> tree h' a q p F)
    (fun dl vals vals0 F _ => (forall x, In x F -> sameat h h' x) -> treed h' dl vals vals0 F)
    (fun k b v v0 F _ => (forall x, In x F -> sameat h h' x) -> treev h' k b v v0 F)
    (fun ls qs ps F _ => (forall x, In x F -> sameat h h' x) -> treel h' ls qs ps F)).
  - intros a n d al cl dl vals attrs cache vals0 attrs0 cache0 F E1 E2 D IH A1 A2 K.
    destruct (K a (or_introl eq_refl) _ E1) as (o1 & N1 & (cl' & ->)). destruct (K d (or_intror (or_introl eq_refl)) _ E2) as (o2 & N2 & So).
    cbn in So. subst o2. econstructor; eauto. apply IH. intros x Hx. apply K. now right; right.
  - constructor.
  - intros. constructor; [apply H|apply H0]; intros; apply H1; apply in_app_iff; auto.
  - intros. apply treev_seal; auto.
  - intros. destruct (H b (or_introl eq_refl) _ e) as (o & N & So). cbn in So. subst o. now constructor.
  - intros. destruct (H b (or_introl eq_refl) _ e) as (o & N & So). cbn in So. subst o. now constructor.
  - intros. destruct (H b (or_introl eq_refl) _ e) as (o & N & So). cbn in So. subst o. econstructor; eauto.
  - intros. destruct (H0 b (or_introl eq_refl) _ e) as (o & N & So). cbn in So. subst o. econstructor; eauto. apply H. intros. apply H0. now right.
  - constructor.
  - intros. constructor; [apply H|apply H0]; intros; apply H1; apply in_app_iff; auto.
Qed.
Lemma tree_kept h h' : untouched h h' ->
  (forall a q p F, tree h a q p F -> tree h' a q p F) /\
  (forall dl vals vals0 F, treed h dl vals vals0 F -> treed h' dl vals vals0 F) /\
  (forall k b v v0 F, treev h k b v v0 F -> treev h' k b v v0 F) /\
  (forall ls qs ps F, treel h ls qs ps F -> treel h' ls qs ps F).
Proof.
  intros U.
  apply (tree_all h (fun a q p F _ => tree h' a q p F) (fun dl vals vals0 F _ => treed h' dl vals vals0 F)
    (fun k b v v0 F _ => treev h' k b v v0 F) (fun ls qs ps F _ => treel h' ls qs ps F)).
  - intros a n d al cl dl vals attrs cache vals0 attrs0 cache0 F E1 E2 D IH A1 A2.
    destruct (U _ _ E1) as (o1 & N1 & (cl' & ->)). destruct (U _ _ E2) as (o2 & N2 & So). cbn in So. subst o2. econstructor; eauto.
  - constructor.
  - intros. now constructor.
  - intros. apply treev_seal; auto. eapply repv_kept; eauto.
  - intros. destruct (U _ _ e) as (o & N & So). cbn in So. subst o. now constructor.
  - intros. destruct (U _ _ e) as (o & N & So). cbn in So. subst o. now constructor.
  - intros. destruct (U _ _ e) as (o & N & So). cbn in So. subst o. econstructor; eauto. eapply reps_kept; eauto.
  - intros. destruct (U _ _ e) as (o & N & So). cbn in So. subst o. econstructor; eauto.
  - constructor.
  - intros. now constructor.
Qed.

(** ** Nodes *)
(** The state at a position below the copied state, and the object there. *)
Fixpoint pat (w : path) (p : psstate) : option psstate :=
  match w with
  | [] => Some p
  | (k, i) :: w' =>
      match ps_get k p with
      | Some (Lst l) => match nth_error l i with Some c => pat w' c | None => None end
      | _ => None
      end
  end.
Inductive hat (h : heap) : loc -> path -> loc -> Prop :=
| hat_nil a : hat h a [] a
| hat_cons a n d al cl dl k i w b ls c x : nth_error h a = Some (HPS n d al cl) -> nth_error h d = Some (HDict dl) ->
    dget k dl = Some b -> nth_error h b = Some (HLst ls) -> nth_error ls i = Some c -> hat h c w x -> hat h a ((k, i) :: w) x.
Definition off (w : path) : Prop := Forall (fun ki : string * nat => fst ki <> k0) w.

Lemma treed_get h dl vals vals0 F k : treed h dl vals vals0 F ->
  match dget k vals0 with
  | Some v0 => exists b v Fb, dget k dl = Some b /\ dget k vals = Some v /\ treev h k b v v0 Fb /\ incl Fb F
  | None => dget k dl = None /\ dget k vals = None
  end.
Proof.
  intros D. induction D as [|k1 b v v0 F t tv tv0 F' Hv D IH]; cbn [dget]; [auto|].
  destruct (String.eqb_spec k k1) as [->|Hn].
  - exists b, v, F. repeat split; auto. intros x Hx. apply in_app_iff. auto.
  - destruct (dget k tv0) as [v1|]; [|exact IH]. destruct IH as (b' & v' & Fb & E1 & E2 & Ht & I). exists b', v', Fb.
    repeat split; auto. intros x Hx. apply in_app_iff. auto.
Qed.
Lemma treel_nth h ls qs ps F i p : treel h ls qs ps F -> nth_error ps i = Some p ->
  exists a q Fa, nth_error ls i = Some a /\ nth_error qs i = Some q /\ tree h a q p Fa /\ incl Fa F.
Proof.
  intros L. revert i. induction L as [|a q p1 F t tq tp F' Ht L IH]; intros [|i] E; cbn in E; try discriminate.
  - injection E as <-. exists a, q, F. cbn. repeat split; auto. intros x Hx. apply in_app_iff. auto.
  - destruct (IH i E) as (a' & q' & Fa & E1 & E2 & Hp & I). exists a', q', Fa. cbn. repeat split; auto. intros x Hx. apply in_app_iff. auto.
Qed.
Lemma treel_len h ls qs ps F : treel h ls qs ps F -> length ls = length ps.
Proof. intros L. induction L; cbn; auto. Qed.
Lemma tree_at h w : forall a q p F x pw, tree h a q p F -> off w -> pat w p = Some pw -> hat h a w x ->
  exists qw Fw, tree h x qw pw Fw /\ incl Fw F.
Proof.
  induction w as [|[k i] w IH]; intros a q p F x pw T O E H.
  - cbn in E. injection E as <-. inversion H; subst. exists q, F. split; [auto|apply incl_refl].
  - inversion O as [|? ? Hk O']; subst. cbn in Hk. cbn [pat] in E. inversion H as [|a0 n d al cl dl k1 i1 w1 b ls c x0 E1 E2 E3 E4 E5 H']; subst.
    inversion T as [a0 n0 d0 al0 cl0 dl0 vals attrs cache vals0 attrs0 cache0 F0 N1 N2 D A1 A2]; subst.
    rewrite N1 in E1. injection E1 as -> -> -> ->. rewrite N2 in E2. injection E2 as ->.
    pose proof (treed_get _ _ _ _ _ k D) as Q. unfold ps_get in E. cbn [ps_vals] in E.
    destruct (dget k vals0) as [[| | |l0]|]; try discriminate. destruct Q as (b' & v & Fb & Q1 & Q2 & Hv & I).
    rewrite Q1 in E3. injection E3 as ->. destruct (nth_error l0 i) as [p1|] eqn:En; [|discriminate].
    inversion Hv as [? ? ? ? Hk0| | | |k2 b2 ls2 ps2 ps0 F2 Nb L]; subst; [congruence|].
    rewrite Nb in E4. injection E4 as ->. destruct (treel_nth _ _ _ _ _ _ _ L En) as (a' & q' & Fa & La & _ & Ta & Ia).
    rewrite La in E5. injection E5 as ->. destruct (IH _ _ _ _ _ _ Ta O' E H') as (qw & Fw & Tw & Iw).
    exists qw, Fw. split; [exact Tw|]. intros y Hy. right. right. apply I. right. apply Ia, Iw, Hy.
Qed.

(** ** Changes that keep nodes where they are *)
Definition upk (h h' : heap) : Prop :=
  forall l o, nth_error h l = Some o -> exists o', nth_error h' l = Some o' /\
    match o with
    | HPS n d _ _ => exists al cl, o' = HPS n d al cl
    | HState d _ _ _ _ => exists al t c x, o' = HState d al t c x
    | HDict dl => exists dl', o' = HDict dl' /\ forall k, k <> k0 -> dget k dl' = dget k dl
    | _ => o' = o
    end.
Lemma upk_untouched h h' : untouched h h' -> upk h h'.
Proof.
  intros U l o E. destruct (U l o E) as (o' & E' & S). exists o'. split; [auto|]. destruct o; cbn in S; subst; eauto.
Qed.
Lemma hat_kept h h' a w x : upk h h' -> off w -> hat h a w x -> hat h' a w x.
Proof.
  intros U O H. induction H as [a|a n d al cl dl k i w b ls c x E1 E2 E3 E4 E5 H IH]; [constructor|].
  inversion O as [|? ? Hk O']; subst. cbn in Hk.
  destruct (U _ _ E1) as (o1 & N1 & (al' & cl' & ->)). destruct (U _ _ E2) as (o2 & N2 & (dl' & -> & Hd)).
  destruct (U _ _ E4) as (o3 & N3 & ->). econstructor; eauto. now rewrite Hd.
Qed.
Lemma pat_app w : forall p k i, pat (w ++ [(k, i)]) p =
  match pat w p with
  | Some q => match ps_get k q with Some (Lst l) => nth_error l i | _ => None end
  | None => None
  end.
Proof.
  induction w as [|[k1 i1] w IH]; intros p k i; cbn [app pat].
  - destruct (ps_get k p) as [[| | |l]|]; try reflexivity. now destruct (nth_error l i).
  - destruct (ps_get k1 p) as [[| | |l]|]; try reflexivity. destruct (nth_error l i1); [apply IH|reflexivity].
Qed.
Lemma hat_app h a w x : hat h a w x -> forall n d al cl dl k i b ls c, nth_error h x = Some (HPS n d al cl) -> nth_error h d = Some (HDict dl) ->
  dget k dl = Some b -> nth_error h b = Some (HLst ls) -> nth_error ls i = Some c -> hat h a (w ++ [(k, i)]) c.
Proof.
  intros H. induction H; intros; cbn [app]; [|econstructor; eauto].
  eapply hat_cons; [eassumption|eassumption|eassumption|eassumption|eassumption|constructor].
Qed.

(** ** Setting an entry named [k0] at a node *)
Lemma NoDup_app_incl {A} (l1 l1' l2 l2' : list A) : NoDup (l1 ++ l2) -> NoDup l1' -> NoDup l2' -> incl l1' l1 -> incl l2' l2 -> NoDup (l1' ++ l2').
Proof.
  intros N N1 N2 I1 I2. induction l1' as [|x l1' IH]; [exact N2|]. cbn. inversion N1; subst. constructor.
  - rewrite in_app_iff. intros [H|H]; [contradiction|].
    assert (X1 : In x l1) by (apply I1; now left). assert (X2 : In x l2) by (now apply I2).
    clear - N X1 X2. induction l1 as [|y l1 IH]; [destruct X1|]. cbn in N. inversion N; subst. destruct X1 as [->|X1]; [|auto].
    apply H1. apply in_app_iff. auto.
  - apply IH; auto. intros y Hy. apply I1. now right.
Qed.
Lemma NoDup_app_l {A} (l1 l2 : list A) : NoDup (l1 ++ l2) -> NoDup l1.
Proof. induction l1; intros N; [constructor|]. cbn in N. inversion N; subst. constructor; [|auto]. rewrite in_app_iff in *. tauto. Qed.
Lemma NoDup_app_r {A} (l1 l2 : list A) : NoDup (l1 ++ l2) -> NoDup l2.
Proof. induction l1; intros N; [exact N|]. cbn in N. inversion N; auto. Qed.
Lemma NoDup_app_dis {A} (l1 l2 : list A) x : NoDup (l1 ++ l2) -> In x l1 -> In x l2 -> False.
Proof.
  induction l1 as [|y l1 IH]; intros N H1 H2; [destruct H1|]. cbn in N. inversion N; subst. destruct H1 as [->|H1]; [|auto].
  apply H3. apply in_app_iff. auto.
Qed.
Lemma incl_app2 {A} (l1 l1' l2 l2' : list A) : incl l1' l1 -> incl l2' l2 -> incl (l1' ++ l2') (l1 ++ l2).
Proof. intros I1 I2 x. rewrite !in_app_iff. intros [H|H]; auto. Qed.

Lemma treed_set h h' dl vals vals0 F b v : closed G h -> (forall x, G x -> sameat h h' x) -> (forall x, In x F -> sameat h h' x) ->
  treed h dl vals vals0 F -> NoDup F -> In k0 (dkeys vals0) -> G b -> repv h' b v ->
  exists F', treed h' (dset k0 b dl) (dset k0 v vals) vals0 F' /\ NoDup F' /\ incl F' F.
Proof.
  intros C SG SF D N K Gb Rb. destruct (tree_frame_all h h' C SG) as (_ & FD & FV & _).
  induction D as [|k1 b1 v1 v0 F t tv tv0 F' Hv D IH]; [destruct K|]. cbn [dset].
  destruct (String.eqb_spec k0 k1) as [<-|Hn].
  - exists F'. split; [|split; [eapply NoDup_app_r; eauto|intros x Hx; apply in_app_iff; auto]].
    change F' with ([] ++ F'). constructor; [now apply treev_seal|]. apply FD; auto. intros x Hx. apply SF, in_app_iff. auto.
  - destruct K as [K|K]; [now destruct Hn|].
    destruct IH as (F2 & D2 & N2 & I2); auto.
    { intros x Hx. apply SF, in_app_iff. auto. }
    { eapply NoDup_app_r; eauto. }
    exists (F ++ F2). split; [constructor; auto; apply FV; auto; intros x Hx; apply SF, in_app_iff; auto|].
    split; [|apply incl_app2; [apply incl_refl|auto]].
    apply (NoDup_app_incl F F F' F2); auto; [eapply NoDup_app_l; eauto|apply incl_refl].
Qed.
(** One entry or one state of a list changes, the rest stays. *)
Lemma treed_upd h h' dl vals vals0 F k v0 : closed G h -> (forall x, G x -> sameat h h' x) ->
  treed h dl vals vals0 F -> NoDup F -> dget k vals0 = Some v0 -> k <> k0 ->
  exists b v Fb, dget k dl = Some b /\ dget k vals = Some v /\ treev h k b v v0 Fb /\ NoDup Fb /\ incl Fb F /\
  (forall v' Fb', treev h' k b v' v0 Fb' -> NoDup Fb' -> incl Fb' Fb -> (forall x, In x F -> ~ In x Fb -> sameat h h' x) ->
   exists F', treed h' dl (dset k v' vals) vals0 F' /\ NoDup F' /\ incl F' F).
Proof.
  intros C SG D N K Kn. destruct (tree_frame_all h h' C SG) as (_ & FD & FV & _).
  induction D as [|k1 b1 v1 v01 F t tv tv0 F' Hv D IH]; [discriminate|]. cbn [dget] in *. cbn [dset].
  destruct (String.eqb_spec k k1) as [<-|Hn].
  - injection K as ->. exists b1, v1, F. repeat split; auto; [eapply NoDup_app_l; eauto|intros x Hx; apply in_app_iff; auto|].
    intros v' Fb' Hv' N' I' SF. exists (Fb' ++ F'). split; [constructor; auto; apply FD; auto|].
    { intros x Hx. apply SF; [apply in_app_iff; auto|]. intros Hx'. eapply NoDup_app_dis; eauto. }
    split; [|apply incl_app2; [auto|apply incl_refl]].
    apply (NoDup_app_incl F Fb' F' F'); auto; [eapply NoDup_app_r; eauto|apply incl_refl].
  - destruct IH as (b & v & Fb & E1 & E2 & Ht & Nb & Ib & Q); auto; [eapply NoDup_app_r; eauto|].
    exists b, v, Fb. repeat split; auto; [intros x Hx; apply in_app_iff; auto|].
    intros v' Fb' Hv' N' I' SF. destruct (Q v' Fb' Hv' N' I') as (F2 & D2 & N2 & I2).
    { intros x Hx Hb. apply SF; [apply in_app_iff; auto|auto]. }
    exists (F ++ F2). split; [constructor; auto; apply FV; auto|].
    { intros x Hx. apply SF; [apply in_app_iff; auto|]. intros Hx'. apply Ib in Hx'. eapply NoDup_app_dis; eauto. }
    split; [|apply incl_app2; [apply incl_refl|auto]].
    apply (NoDup_app_incl F F F' F2); auto; [eapply NoDup_app_l; eauto|apply incl_refl].
Qed.
Lemma treel_upd h h' ls qs ps F i p : closed G h -> (forall x, G x -> sameat h h' x) ->
  treel h ls qs ps F -> NoDup F -> nth_error ps i = Some p ->
  exists a q Fa, nth_error ls i = Some a /\ nth_error qs i = Some q /\ tree h a q p Fa /\ NoDup Fa /\ incl Fa F /\
  (forall q' Fa', tree h' a q' p Fa' -> NoDup Fa' -> incl Fa' Fa -> (forall x, In x F -> ~ In x Fa -> sameat h h' x) ->
   exists F', treel h' ls (set_nth qs i q') ps F' /\ NoDup F' /\ incl F' F).
Proof.
  intros C SG L. destruct (tree_frame_all h h' C SG) as (FT & _ & _ & FL). revert i.
  induction L as [|a1 q1 p1 F t tq tp F' Ht L IH]; intros [|i] N E; cbn in E; try discriminate.
  - injection E as ->. exists a1, q1, F. repeat split; auto; [eapply NoDup_app_l; eauto|intros x Hx; apply in_app_iff; auto|].
    intros q' Fa' Hq' N' I' SF. exists (Fa' ++ F'). split; [unfold set_nth; cbn; constructor; auto; apply FL; auto|].
    { intros x Hx. apply SF; [apply in_app_iff; auto|]. intros Hx'. eapply NoDup_app_dis; eauto. }
    split; [|apply incl_app2; [auto|apply incl_refl]].
    apply (NoDup_app_incl F Fa' F' F'); auto; [eapply NoDup_app_r; eauto|apply incl_refl].
  - destruct (IH i) as (a & q & Fa & E1 & E2 & Hq & Na & Ia & Q); auto; [eapply NoDup_app_r; eauto|].
    exists a, q, Fa. repeat split; auto; [intros x Hx; apply in_app_iff; auto|].
    intros q' Fa' Hq' N' I' SF. destruct (Q q' Fa' Hq' N' I') as (F2 & D2 & N2 & I2).
    { intros x Hx Hb. apply SF; [apply in_app_iff; auto|auto]. }
    exists (F ++ F2). split.
    { unfold set_nth in *. cbn. constructor; auto. apply FT; auto.
      intros x Hx. apply SF; [apply in_app_iff; auto|]. intros Hx'. apply Ia in Hx'. eapply NoDup_app_dis; eauto. }
    split; [|apply incl_app2; [apply incl_refl|auto]].
    apply (NoDup_app_incl F F F' F2); auto; [eapply NoDup_app_l; eauto|apply incl_refl].
Qed.
Lemma dget_set_step {A} (k : string) (v : A) d e : (forall x, dget x d = dget x e) -> forall x, dget x (dset k v d) = dget x (dset k v e).
Proof.
  intros H x. destruct (String.eqb_spec x k) as [->|Hn]; [now rewrite !dget_dset_same|]. now rewrite !dget_dset_other by auto.
Qed.
(** [h'] is [h] after set_param_values([k0], [b]) on the object [x]. *)
Definition setat (h h' : heap) (x b : loc) : Prop :=
  exists n d al cl dl, nth_error h x = Some (HPS n d al cl) /\ nth_error h d = Some (HDict dl) /\
    nth_error h' x = Some (HPS n d (dset k0 b al) cl) /\ nth_error h' d = Some (HDict (dset k0 b dl)) /\
    forall y, y <> x -> y <> d -> nth_error h' y = nth_error h y.
Lemma tree_set h h' w : closed G h ->
  forall a q p F x pw b v, tree h a q p F -> NoDup F -> (forall y, In y F -> ~ G y) ->
  off w -> pat w p = Some pw -> hat h a w x -> In k0 (dkeys (ps_vals pw)) ->
  setat h h' x b -> G b -> repv h b v -> v <> Lst [] ->
  exists q' F', set_in_ps w k0 v q = Ok q' /\ tree h' a q' p F' /\ NoDup F' /\ incl F' F /\
    (forall y, ~ In y F -> nth_error h' y = nth_error h y).
Proof.
  intros C. induction w as [|[k i] w IH]; intros a q p F x pw b v T N GF O E H Kw St Gb Rb Vn.
  - inversion H; subst. cbn in E. injection E as <-. destruct St as (n & d & al & cl & dl & E1 & E2 & E3 & E4 & E5).
    inversion T as [a0 n0 d0 al0 cl0 dl0 vals attrs cache vals0 attrs0 cache0 F0 N1 N2 D A1 A2]; subst.
    rewrite N1 in E1. injection E1 as -> -> -> ->. rewrite N2 in E2. injection E2 as ->.
    inversion N as [|? ? Nx N']; subst. inversion N' as [|? ? Nd N'']; subst.
    assert (SG : forall y, G y -> sameat h h' y).
    { intros y Hy o Eo. exists o. split; [|apply same_data_refl]. rewrite E5; auto; intros ->; eapply GF; eauto; cbn; auto. }
    assert (SF : forall y, In y F0 -> sameat h h' y).
    { intros y Hy o Eo. exists o. split; [|apply same_data_refl]. rewrite E5; auto; intros ->; [apply Nx; now right|auto]. }
    assert (Rb' : repv h' b v) by (apply (rep_frame h h' C SG); auto).
    destruct (treed_set h h' dl vals vals0 F0 b v C SG SF D N'' Kw Gb Rb') as (F' & D' & NF & IF).
    exists (PS n (dset k0 v vals) (dset k0 v attrs) cache), (x :: d :: F').
    split; [|split; [|split; [|split]]].
    + cbn [set_in_ps]. unfold ps_set. destruct v as [| | |[|]]; try reflexivity. now destruct Vn.
    + econstructor; eauto; now apply dget_set_step.
    + constructor; [intros [->|Hx]; [apply Nx; now left|apply Nx; right; auto]|]. constructor; auto.
    + intros y [->|[->|Hy]]; cbn; auto.
    + intros y Hy. apply E5; intros ->; apply Hy; cbn; auto.
  - inversion O as [|? ? Hk O']; subst. cbn in Hk. cbn [pat] in E.
    inversion H as [|a0 n d al cl dl k1 i1 w1 b1 ls c x0 E1 E2 E3 E4 E5 H']; subst.
    inversion T as [a0 n0 d0 al0 cl0 dl0 vals attrs cache vals0 attrs0 cache0 F0 N1 N2 D A1 A2]; subst.
    rewrite N1 in E1. injection E1 as -> -> -> ->. rewrite N2 in E2. injection E2 as ->.
    inversion N as [|? ? Nx N']; subst. inversion N' as [|? ? Nd N'']; subst.
    unfold ps_get in E. cbn [ps_vals] in E. destruct (dget k vals0) as [v0|] eqn:Ev0; [|discriminate].
    destruct v0 as [| | |l0]; try discriminate. destruct (nth_error l0 i) as [p1|] eqn:En; [|discriminate].
    (* the changed objects are below the state at [i] *)
    assert (SG0 : forall y, (~ In y (a :: d :: F0)) -> nth_error h' y = nth_error h y).
    { intros y Hy. destruct (tree_at h ((k, i) :: w) a _ _ _ x pw T O) as (qw & Fw & Tw & Iw).
      - cbn [pat]. unfold ps_get. cbn [ps_vals]. now rewrite Ev0, En.
      - exact H.
      - destruct St as (n' & d' & al' & cl' & dl' & S1 & S2 & S3 & S4 & S5).
        inversion Tw as [a0 n0 d0 al0 cl0 dl0 vals1 attrs1 cache1 vals01 attrs01 cache01 F1 M1 M2 D1 B1 B2]; subst.
        rewrite M1 in S1. injection S1 as -> -> -> ->.
        apply S5; intros ->; apply Hy, Iw; cbn; auto. }
    assert (SG : forall y, G y -> sameat h h' y).
    { intros y Hy o Eo. exists o. split; [|apply same_data_refl]. rewrite SG0; auto. intros HF. eapply GF; eauto. }
    destruct (treed_upd h h' dl vals vals0 F0 k (Lst l0) C SG D N'' Ev0 Hk) as (b2 & v2 & Fb & Q1 & Q2 & Tv & Nb & Ib & Qd).
    rewrite Q1 in E3. injection E3 as ->.
    inversion Tv as [? ? ? ? Hk0| | | |k2 b3 ls2 ps2 ps0 F2 Nb1 L]; subst; [congruence|].
    rewrite Nb1 in E4. injection E4 as ->. inversion Nb as [|? ? Nbb Nb2]; subst.
    destruct (treel_upd h h' ls ps2 l0 F2 i p1 C SG L Nb2 En) as (a' & q' & Fa & La & Lq & Ta & Na & Ia & Ql).
    rewrite La in E5. injection E5 as ->.
    assert (IF : forall y, In y Fa -> In y (a :: d :: F0)).
    { intros y Hy. right. right. apply Ib. right. now apply Ia. }
    destruct (IH c q' p1 Fa x pw b v Ta Na (fun y Hy => GF y (IF y Hy)) O' E H' Kw St Gb Rb Vn) as (q2 & Fa' & Es & Tq & NF & IFa & Out).
    assert (SO : forall y, ~ In y Fa -> sameat h h' y).
    { intros y Hy o Eo. exists o. split; [|apply same_data_refl]. now rewrite Out. }
    destruct (Ql q2 Fa' Tq NF IFa (fun y _ Hy => SO y Hy)) as (F3 & L3 & N3 & I3).
    assert (Tv' : treev h' k b1 (Lst (set_nth ps2 i q2)) (Lst l0) (b1 :: F3)).
    { econstructor; [|exact L3]. rewrite Out; [exact Nb1|]. intros HF. apply Nbb. now apply Ia. }
    destruct (Qd _ _ Tv') as (F4 & D4 & N4 & I4).
    { constructor; [intros HF; apply Nbb; auto|auto]. }
    { intros y [->|Hy]; cbn; auto. }
    { intros y Hy Hy2. apply SO. intros HF. apply Hy2. right. now apply Ia. }
    exists (PS n (dset k (Lst (set_nth ps2 i q2)) vals) (dset k (Lst (set_nth ps2 i q2)) attrs) cache), (a :: d :: F4).
    split; [|split; [|split; [|split]]].
    + cbn [set_in_ps]. unfold ps_get. cbn [ps_vals]. rewrite Q2. unfold idx. rewrite Lq. cbn [rbind]. rewrite Es. cbn [rbind].
      unfold ps_set. destruct (set_nth ps2 i q2) eqn:Eq; [|reflexivity].
      exfalso. unfold set_nth in Eq. destruct (firstn i ps2); discriminate.
    + assert (Da : ~ In a Fa) by (intros HF; apply Nx; right; apply Ib; right; now apply Ia).
      assert (Dd : ~ In d Fa) by (intros HF; apply Nd; apply Ib; right; now apply Ia).
      econstructor; [rewrite (Out _ Da); exact N1|rewrite (Out _ Dd); exact N2|exact D4|exact A1|intros k'; now apply dget_set_step].
    + constructor; [intros [->|Hx]; [apply Nx; now left|apply Nx; right; auto]|]. constructor; auto.
    + intros y [->|[->|Hy]]; cbn; auto.
    + exact SG0.
Qed.
End Tree.
