(** Objects in memory and the models with values: a simulation. *)
From Verif Require Import Base ModelUtils1D ModelPrior ModelState ModelSpace ModelChain ModelPerturb ModelLikelihood ModelHeap
  SpecState SpecHeap SpecRefine ProofInversion ProofState ProofSpace ProofSpaceC ProofNested ProofStep ProofHeapB.
Local Open Scope R_scope.

(** * The relation *)
Section RepInd.
Variable h : heap.
Variable P : loc -> psstate -> Prop.
Variable Q : loc -> value -> Prop.
Hypothesis Hps : forall a n d al cl dl vals attrs cache,
  nth_error h a = Some (HPS n d al cl) -> nth_error h d = Some (HDict dl) ->
  Forall2 (fun kb kv => fst kb = fst kv /\ Q (snd kb) (snd kv)) dl vals ->
  (forall k b, dget k al = Some b -> exists v, dget k attrs = Some v /\ Q b v) ->
  P a (PS n vals attrs cache).
Hypothesis Harr : forall b l, nth_error h b = Some (HArr l) -> Q b (Arr l).
Hypothesis Harrn : forall b l, nth_error h b = Some (HArrN l) -> Q b (ArrN l).
Hypothesis Hobj : forall b ls ps, nth_error h b = Some (HObj ls) -> Forall2 P ls ps -> Q b (AObj ps).
Hypothesis Hlst : forall b ls ps, nth_error h b = Some (HLst ls) -> Forall2 P ls ps -> Q b (Lst ps).
Fixpoint rep_ind2 a p (H : rep h a p) {struct H} : P a p
with repv_ind2 b v (H : repv h b v) {struct H} : Q b v.
Proof.
  - destruct H as [a n d al cl dl vals attrs cache E1 E2 F G]. apply (Hps a n d al cl dl vals attrs cache E1 E2).
    + clear E2. induction F as [|x y l l' [K1 K2] F IH]; constructor; [split; [exact K1|exact (repv_ind2 _ _ K2)]|exact IH].
    + intros k b E. destruct (G k b E) as (v & Ev & Hv). exists v. split; [exact Ev|exact (repv_ind2 _ _ Hv)].
  - destruct H as [b l E|b l E|b ls ps E F|b ls ps E F].
    + exact (Harr b l E).
    + exact (Harrn b l E).
    + apply (Hobj b ls ps E). clear E. induction F as [|x y l l' K F IH]; constructor; [exact (rep_ind2 _ _ K)|exact IH].
    + apply (Hlst b ls ps E). clear E. induction F as [|x y l l' K F IH]; constructor; [exact (rep_ind2 _ _ K)|exact IH].
Qed.
End RepInd.

Definition drel {B} (R : loc -> B -> Prop) (dl : dict loc) (vals : dict B) : Prop :=
  Forall2 (fun kb kv => fst kb = fst kv /\ R (snd kb) (snd kv)) dl vals.
Definition arel {B} (R : loc -> B -> Prop) (al : dict loc) (attrs : dict B) : Prop :=
  forall k b, dget k al = Some b -> exists v, dget k attrs = Some v /\ R b v.

Lemma Forall2_mono {A B} (R R' : A -> B -> Prop) l l' : (forall a b, R a b -> R' a b) -> Forall2 R l l' -> Forall2 R' l l'.
Proof. intros H F. induction F; constructor; auto. Qed.
Lemma drel_mono {B} (R R' : loc -> B -> Prop) dl vals : (forall b v, R b v -> R' b v) -> drel R dl vals -> drel R' dl vals.
Proof. intros H. apply Forall2_mono. intros a b [? ?]. auto. Qed.
Lemma arel_mono {B} (R R' : loc -> B -> Prop) dl vals : (forall b v, R b v -> R' b v) -> arel R dl vals -> arel R' dl vals.
Proof. intros H F k b E. destruct (F k b E) as (v & ? & ?). eauto. Qed.
Lemma drel_get {B} (R : loc -> B -> Prop) dl vals k : drel R dl vals ->
  match dget k dl with
  | Some b => exists v, dget k vals = Some v /\ R b v
  | None => dget k vals = None
  end.
Proof.
  intros F. induction F as [|[k1 b] [k2 v] l l' [K1 K2] F IH]; cbn [dget]; [reflexivity|]. cbn in K1, K2. subst k2.
  destruct (k =? k1)%string; eauto.
Qed.
Lemma drel_set {B} (R : loc -> B -> Prop) dl vals k b v : drel R dl vals -> R b v -> drel R (dset k b dl) (dset k v vals).
Proof.
  intros F Hv. induction F as [|[k1 b1] [k2 v1] l l' [K1 K2] F IH]; cbn [dset].
  - repeat constructor; auto.
  - cbn in K1, K2. subst k2. destruct (k =? k1)%string; constructor; auto.
Qed.
Lemma drel_update {B} (R : loc -> B -> Prop) new nvals : drel R new nvals -> forall dl vals, drel R dl vals ->
  drel R (dupdate dl new) (dupdate vals nvals).
Proof.
  intros F. unfold dupdate. induction F as [|[k1 b1] [k2 v1] l l' [K1 K2] F IH]; intros dl vals D; cbn; [exact D|].
  cbn in K1, K2. subst k2. apply IH. apply drel_set; auto.
Qed.
Lemma arel_set {B} (R : loc -> B -> Prop) al attrs k b v : arel R al attrs -> R b v -> arel R (dset k b al) (dset k v attrs).
Proof.
  intros F Hv k' b' E. destruct (String.eqb_spec k' k) as [->|Hn].
  - rewrite dget_dset_same in E. injection E as <-. exists v. now rewrite dget_dset_same.
  - rewrite dget_dset_other in E by auto. rewrite dget_dset_other by auto. auto.
Qed.
Lemma arel_nil {B} (R : loc -> B -> Prop) attrs : arel R [] attrs.
Proof. intros k b E. discriminate. Qed.
Lemma rep_inv h a p : rep h a p -> exists d al cl dl,
  nth_error h a = Some (HPS (ps_n p) d al cl) /\ nth_error h d = Some (HDict dl) /\
  drel (repv h) dl (ps_vals p) /\ arel (repv h) al (ps_attrs p).
Proof. intros []. exists d, al, cl, dl. auto. Qed.
Lemma rep_mk h a p d al cl dl : nth_error h a = Some (HPS (ps_n p) d al cl) -> nth_error h d = Some (HDict dl) ->
  drel (repv h) dl (ps_vals p) -> arel (repv h) al (ps_attrs p) -> rep h a p.
Proof. destruct p as [n vals attrs cache]. cbn. intros. econstructor; eauto. Qed.

(** Objects that are left alone go on to stand for the same values. *)
Lemma rep_kept h h' a p : untouched h h' -> rep h a p -> rep h' a p.
Proof.
  intros U. apply (rep_ind2 h (rep h') (repv h')).
  - intros a0 n d al cl dl vals attrs cache E1 E2 F G. destruct (U _ _ E1) as (o1 & N1 & S1). destruct (U _ _ E2) as (o2 & N2 & S2).
    cbn in S1, S2. destruct S1 as (c' & ->). subst o2. econstructor; eauto.
  - intros b l E. destruct (U _ _ E) as (o & N & S). cbn in S. subst o. now constructor.
  - intros b l E. destruct (U _ _ E) as (o & N & S). cbn in S. subst o. now constructor.
  - intros b l ps E F. destruct (U _ _ E) as (o & N & S). cbn in S. subst o. econstructor; eauto.
  - intros b l ps E F. destruct (U _ _ E) as (o & N & S). cbn in S. subst o. econstructor; eauto.
Qed.
Lemma repv_kept h h' b v : untouched h h' -> repv h b v -> repv h' b v.
Proof.
  intros U H. assert (L : forall ls ps, Forall2 (rep h) ls ps -> Forall2 (rep h') ls ps).
  { intros ls ps. apply Forall2_mono. intros. eapply rep_kept; eauto. }
  destruct H as [b l E|b l E|b ls ps E F|b ls ps E F]; destruct (U _ _ E) as (o & N & S); cbn in S; subst o; econstructor; eauto.
Qed.
Lemma rep_entry_kept h h' b e : untouched h h' -> rep_entry h b e -> rep_entry h' b e.
Proof.
  intros U [b0 p H|b0 d E].
  - constructor. eapply rep_kept; eauto.
  - destruct (U _ _ E) as (o & N & S). cbn in S. subst o. now constructor.
Qed.
Lemma drel_kept h h' dl vals : untouched h h' -> drel (repv h) dl vals -> drel (repv h') dl vals.
Proof. intros U. apply drel_mono. intros. eapply repv_kept; eauto. Qed.
Lemma arel_kept h h' dl vals : untouched h h' -> arel (repv h) dl vals -> arel (repv h') dl vals.
Proof. intros U. apply arel_mono. intros. eapply repv_kept; eauto. Qed.
Lemma reps_kept h h' ls ps : untouched h h' -> Forall2 (rep h) ls ps -> Forall2 (rep h') ls ps.
Proof. intros U. apply Forall2_mono. intros. eapply rep_kept; eauto. Qed.
Lemma untouched_app h l : untouched h (h ++ l).
Proof.
  intros a o E. exists o. split; [|apply same_data_refl]. rewrite nth_error_app1; [exact E|]. apply nth_error_Some. congruence.
Qed.

(** * Simulation *)
Definition sim {A B} (h : heap) (m : HM A) (v : M B) (R : heap -> A -> B -> Prop) : Prop :=
  forall tr, agree (fun h' a b => untouched h h' /\ R h' a b) (m h tr) (v tr).
Lemma sim_bind {A B A' B'} h (m : HM A) (v : M B) R (f : A -> HM A') (g : B -> M B') S :
  sim h m v R -> (forall h' a b, untouched h h' -> R h' a b -> sim h' (f a) (g b) S) ->
  sim h (hbind m f) (bind v g) S.
Proof.
  intros H K tr. specialize (H tr). unfold hbind, bind, agree in *.
  destruct (m h tr) as [[a t|e t| |] h1]; destruct (v tr) as [b t'|e' t'| |]; cbn in *; try tauto.
  destruct H as (-> & U & Hr). specialize (K h1 a b U Hr t'). unfold agree in K.
  destruct (f a h1 t') as [[a2 t2|e2 t2| |] h2]; destruct (g b t') as [b2 t2'|e2' t2'| |]; cbn in *; try tauto.
  destruct K as (-> & U2 & HS). split; [reflexivity|]. split; [eapply untouched_trans; eauto|exact HS].
Qed.
Lemma sim_weaken {A B} h (m : HM A) (v : M B) (R R' : heap -> A -> B -> Prop) :
  (forall h' a b, untouched h h' -> R h' a b -> R' h' a b) -> sim h m v R -> sim h m v R'.
Proof.
  intros K H tr. specialize (H tr). unfold agree in *. destruct (m h tr) as [[a t|e t| |] h1]; destruct (v tr); cbn in *; auto.
  destruct H as (-> & U & Hr). auto.
Qed.
Lemma sim_ret {A B} h (a : A) (b : B) (R : heap -> A -> B -> Prop) : R h a b -> sim h (hret a) (ret b) R.
Proof. intros H tr. cbn. repeat split; auto. apply untouched_refl. Qed.
Lemma sim_do {A} h (m : M A) : sim h (hdo m) m (fun h' a b => h' = h /\ a = b).
Proof. intros tr. unfold agree, hdo. cbn. destruct (m tr); cbn; auto. repeat split; auto. apply untouched_refl. Qed.
Lemma sim_err {A B} h e (R : heap -> A -> B -> Prop) : sim h (hdo (err e)) (err e) R.
Proof. intros tr. cbn. auto. Qed.
Lemma sim_ubeh {A B} h (R : heap -> A -> B -> Prop) : sim h (hdo ubeh) ubeh R.
Proof. intros tr. cbn. auto. Qed.
Lemma sim_ext {A B} h (m : HM A) (v v' : M B) R : (forall tr, v tr = v' tr) -> sim h m v' R -> sim h m v R.
Proof. intros E H tr. rewrite E. apply H. Qed.
(** Steps that only the objects take. *)
Lemma sim_step {A A' B} h h1 (m : HM A) a (f : A -> HM A') (v : M B) R :
  (forall tr, m h tr = (Ret a tr, h1)) -> untouched h h1 -> sim h1 (f a) v R -> sim h (hbind m f) v R.
Proof.
  intros E U H tr. unfold hbind. rewrite E. specialize (H tr). unfold agree in *.
  destruct (f a h1 tr) as [[a2 t2|e2 t2| |] h2]; destruct (v tr); cbn in *; auto.
  destruct H as (-> & U2 & HS). repeat split; auto. eapply untouched_trans; eauto.
Qed.
Lemma sim_load {A B} h a o (f : obj -> HM A) (v : M B) R : nth_error h a = Some o -> sim h (f o) v R -> sim h (hbind (load a) f) v R.
Proof. intros E. apply sim_step; [|apply untouched_refl]. intros tr. unfold load. now rewrite E. Qed.
Lemma run_load_ps h a n d al cl tr : nth_error h a = Some (HPS n d al cl) -> load_ps a h tr = (Ret (n, d, al, cl) tr, h).
Proof. intros E. unfold load_ps, hbind, load. now rewrite E. Qed.
Lemma run_load_dict h d dl tr : nth_error h d = Some (HDict dl) -> load_dict d h tr = (Ret dl tr, h).
Proof. intros E. unfold load_dict, hbind, load. now rewrite E. Qed.
Lemma run_load_state h a d al t c x tr : nth_error h a = Some (HState d al t c x) -> load_state a h tr = (Ret (d, al, t, c, x) tr, h).
Proof. intros E. unfold load_state, hbind, load. now rewrite E. Qed.
Lemma sim_load_ps {A B} h a n d al cl (f : _ -> HM A) (v : M B) R : nth_error h a = Some (HPS n d al cl) ->
  sim h (f (n, d, al, cl)) v R -> sim h (hbind (load_ps a) f) v R.
Proof. intros E. apply sim_step; [|apply untouched_refl]. intros tr. now apply run_load_ps. Qed.
Lemma sim_load_dict {A B} h d dl (f : _ -> HM A) (v : M B) R : nth_error h d = Some (HDict dl) ->
  sim h (f dl) v R -> sim h (hbind (load_dict d) f) v R.
Proof. intros E. apply sim_step; [|apply untouched_refl]. intros tr. now apply run_load_dict. Qed.
Lemma sim_load_state {A B} h a d al t c x (f : _ -> HM A) (v : M B) R : nth_error h a = Some (HState d al t c x) ->
  sim h (f (d, al, t, c, x)) v R -> sim h (hbind (load_state a) f) v R.
Proof. intros E. apply sim_step; [|apply untouched_refl]. intros tr. now apply run_load_state. Qed.
Lemma sim_alloc {A B} h o (f : loc -> HM A) (v : M B) R : sim (h ++ [o]) (f (length h)) v R -> sim h (hbind (alloc o) f) v R.
Proof. apply sim_step; [|apply untouched_app]. reflexivity. Qed.
Lemma nth_new {A} (l : list A) x : nth_error (l ++ [x]) (length l) = Some x.
Proof. rewrite nth_error_app2, Nat.sub_diag; [reflexivity|lia]. Qed.
Lemma sim_alloc_ret {B} h o (b : B) (R : heap -> loc -> B -> Prop) : R (h ++ [o]) (length h) b -> sim h (alloc o) (ret b) R.
Proof. intros H tr. cbn. repeat split; auto. apply untouched_app. Qed.
(** Code that computes from numbers. *)
Lemma sim_lift {A A' B'} h (r : res A) (f : A -> HM A') (g : A -> M B') S :
  (forall x, r = Ok x -> sim h (f x) (g x) S) -> sim h (hbind (hlift r) f) (bind (lift r) g) S.
Proof.
  intros K. destruct r as [x|e|]; intros tr.
  - apply (K x eq_refl).
  - cbn. auto.
  - exact I.
Qed.
Lemma sim_lift_res {A A' B'} h (r : res A) (f : A -> HM A') (g : A -> res B') S :
  (forall x, r = Ok x -> sim h (f x) (lift (g x)) S) -> sim h (hbind (hlift r) f) (lift (rbind r g)) S.
Proof.
  intros K. destruct r as [x|e|]; intros tr.
  - apply (K x eq_refl).
  - cbn. auto.
  - exact I.
Qed.
Lemma sim_draw {A A' B'} h (m : M A) (f : A -> HM A') (g : A -> M B') S :
  (forall x, sim h (f x) (g x) S) -> sim h (hbind (hdo m) f) (bind m g) S.
Proof. intros K. eapply sim_bind; [apply sim_do|]. cbn. intros h' a b _ [-> ->]. apply K. Qed.

(** * Constructors *)
Lemma nth_two {A} (l : list A) x y : nth_error (l ++ [x; y]) (length l) = Some x /\ nth_error (l ++ [x; y]) (S (length l)) = Some y.
Proof. split; rewrite nth_error_app2 by lia; [now rewrite Nat.sub_diag|]. now replace (S (length l) - length l)%nat with 1%nat by lia. Qed.
Lemma set_two {A} (l : list A) x y z : set_nth (l ++ [x; y]) (length l) z = l ++ [z; y] /\ set_nth (l ++ [x; y]) (S (length l)) z = l ++ [x; z].
Proof.
  unfold set_nth. split.
  - rewrite firstn_app, Nat.sub_diag, firstn_all, app_nil_r. rewrite skipn_app, skipn_all2 by lia.
    replace (S (length l) - length l)%nat with 1%nat by lia. reflexivity.
  - rewrite firstn_app, firstn_all2 by lia. rewrite skipn_app, skipn_all2 by lia.
    replace (S (length l) - length l)%nat with 1%nat by lia. replace (S (S (length l)) - length l)%nat with 2%nat by lia.
    cbn. now rewrite <- app_assoc.
Qed.
Lemma run_store h a o tr : (a < length h)%nat -> store a o h tr = (Ret tt tr, set_nth h a o).
Proof. intros H. unfold store. destruct (Nat.ltb_spec a (length h)); [reflexivity|lia]. Qed.
Lemma repv_shape h b v : repv h b v -> exists o, nth_error h b = Some o /\
  match v with Arr l => o = HArr l | ArrN l => o = HArrN l
  | AObj ps => exists ls, o = HObj ls /\ Forall2 (rep h) ls ps | Lst ps => exists ls, o = HLst ls /\ Forall2 (rep h) ls ps end.
Proof. intros []; eauto. Qed.
Lemma Forall2_len {A B} (R : A -> B -> Prop) l l' : Forall2 R l l' -> length l = length l'.
Proof. induction 1; cbn; auto. Qed.
Lemma run_len h b v tr : repv h b v -> h_len b h tr = (Ret (value_len v) tr, h).
Proof.
  intros H. unfold h_len, hbind, load. destruct H as [b l E|b l E|b ls ps E F|b ls ps E F]; rewrite E; cbn; try reflexivity;
    unfold hret; now rewrite (Forall2_len _ _ _ F).
Qed.
Lemma run_set h1 n dl al cl k b v tr : repv h1 b v ->
  h_set k b (S (length h1)) (h1 ++ [HDict dl; HPS n (length h1) al cl]) tr =
  match v with
  | Lst [] => (Err EIndex tr, h1 ++ [HDict dl; HPS n (length h1) al cl])
  | _ => (Ret tt tr, h1 ++ [HDict (dset k b dl); HPS n (length h1) (dset k b al) cl])
  end.
Proof.
  intros H. pose proof (nth_two h1 (HDict dl) (HPS n (length h1) al cl)) as [N1 N2].
  assert (S0 : forall tr', hbind (load_ps (S (length h1))) (fun '(n, d, at_, c) => hbind (load_dict d) (fun dl => hbind (store d (HDict (dset k b dl)))
      (fun _ => store (S (length h1)) (HPS n d (dset k b at_) c)))) (h1 ++ [HDict dl; HPS n (length h1) al cl]) tr'
    = (Ret tt tr', h1 ++ [HDict (dset k b dl); HPS n (length h1) (dset k b al) cl])).
  { intros tr'. unfold hbind at 1. rewrite (run_load_ps _ _ _ _ _ _ _ N2). unfold hbind at 1. rewrite (run_load_dict _ _ _ _ N1).
    unfold hbind. rewrite run_store by (rewrite app_length; cbn; lia). rewrite (proj1 (set_two h1 _ _ _)).
    rewrite run_store by (rewrite app_length; cbn; lia). now rewrite (proj2 (set_two h1 _ _ _)). }
  destruct (repv_shape _ _ _ H) as (o & E & Ho). unfold h_set, hbind at 1, load.
  rewrite nth_error_app1 by (apply nth_error_Some; congruence). rewrite E.
  destruct v as [l|l|ps|ps]; subst; try apply S0.
  - destruct Ho as (ls & -> & F). apply S0.
  - destruct Ho as (ls & -> & F). destruct F; [reflexivity|]. apply S0.
Qed.
Lemma run_post_init h1 n todo tvals : drel (repv h1) todo tvals -> forall dl al vals attrs tr,
  drel (repv h1) dl vals -> arel (repv h1) al attrs ->
  match post_init tvals (PS n vals attrs []) with
  | Ok p => exists dl' al',
      h_post_init todo n (S (length h1)) (h1 ++ [HDict dl; HPS n (length h1) al []]) tr =
        (Ret tt tr, h1 ++ [HDict dl'; HPS n (length h1) al' []]) /\
      drel (repv h1) dl' (ps_vals p) /\ arel (repv h1) al' (ps_attrs p) /\ ps_n p = n /\ ps_cache p = []
  | Raise e => exists h', h_post_init todo n (S (length h1)) (h1 ++ [HDict dl; HPS n (length h1) al []]) tr = (Err e tr, h')
  | Undef => False
  end.
Proof.
  intros F. induction F as [|[k b] [k2 v] todo tvals [K1 K2] F IH]; intros dl al vals attrs tr D G.
  - cbn. exists dl, al. auto.
  - cbn in K1, K2. subst k2. cbn [post_init ps_n].
    assert (R : repv (h1 ++ [HDict dl; HPS n (length h1) al []]) b v) by (eapply repv_kept; [apply untouched_app|exact K2]).
    assert (EX : h_post_init ((k, b) :: todo) n (S (length h1)) (h1 ++ [HDict dl; HPS n (length h1) al []]) tr =
      if negb (value_len v =? n)%nat then (Err EValue tr, h1 ++ [HDict dl; HPS n (length h1) al []])
      else match v with
           | Lst [] => (Err EIndex tr, h1 ++ [HDict dl; HPS n (length h1) al []])
           | _ => h_post_init todo n (S (length h1)) (h1 ++ [HDict (dset k b dl); HPS n (length h1) (dset k b al) []]) tr
           end).
    { cbn [h_post_init]. unfold hbind at 1. rewrite (run_len _ _ _ _ R). destruct (negb _); [reflexivity|].
      unfold hbind. rewrite (run_set _ _ _ _ _ _ _ _ _ K2). now destruct v as [| | |[|]]. }
    rewrite EX. clear EX. destruct (negb (value_len v =? n)%nat); [eexists; reflexivity|].
    assert (Hs : v <> Lst [] -> ps_set k v (PS n vals attrs []) = Ok (PS n (dset k v vals) (dset k v attrs) [])).
    { intros Hn. destruct v as [| | |[|]]; try reflexivity. now destruct Hn. }
    assert (Hd : (v = Lst []) \/ v <> Lst []).
    { destruct v as [| | |[|]]; try (right; discriminate). now left. }
    destruct Hd as [->|Hd]; [cbn; eexists; reflexivity|].
    rewrite (Hs Hd). cbn [rbind]. specialize (IH (dset k b dl) (dset k b al) (dset k v vals) (dset k v attrs) tr
      (drel_set _ _ _ _ _ _ D K2) (arel_set _ _ _ _ _ _ G K2)). destruct v as [| | |[|]]; auto. now destruct Hd.
Qed.
(** What a constructor leaves: the dictionary and the object at the end of the heap. *)
Definition built (h1 : heap) (h' : heap) (a : loc) (p : psstate) : Prop :=
  exists dl al, h' = h1 ++ [HDict dl; HPS (ps_n p) (length h1) al []] /\ a = S (length h1) /\
    drel (repv h1) dl (ps_vals p) /\ arel (repv h1) al (ps_attrs p).
Lemma built_rep h1 h' a p : built h1 h' a p -> rep h' a p /\ untouched h1 h'.
Proof.
  intros (dl & al & -> & -> & D & G).
  pose proof (nth_two h1 (HDict dl) (HPS (ps_n p) (length h1) al [])) as [N1 N2].
  split; [|apply untouched_app]. eapply rep_mk; eauto.
  - eapply drel_kept; [apply untouched_app|exact D].
  - eapply arel_kept; [apply untouched_app|exact G].
Qed.
Lemma sim_mk {A B} h n dl vals (f : loc -> HM A) (g : psstate -> M B) S : drel (repv h) dl vals ->
  (forall h' a p, mk_ps n vals = Ok p -> built h h' a p -> rep h' a p -> sim h' (f a) (g p) S) ->
  sim h (hbind (alloc (HDict dl)) (fun d => hbind (h_mk_ps n d) f)) (bind (lift (mk_ps n vals)) g) S.
Proof.
  intros D K tr. unfold hbind at 1, alloc. unfold hbind at 1. unfold h_mk_ps. unfold hbind at 1.
  rewrite (run_load_dict _ _ dl) by apply nth_new. unfold hbind at 1, alloc.
  rewrite app_length. cbn [length]. rewrite <- app_assoc. cbn [app].
  replace (length h + 1)%nat with (Datatypes.S (length h)) by lia.
  pose proof (run_post_init h n dl vals D dl [] vals [] tr D (arel_nil _ _)) as P. unfold mk_ps in *.
  destruct (post_init vals (PS n vals [] [])) as [p|e|] eqn:Ep; [| |destruct P].
  - destruct P as (dl' & al' & E & D' & G' & <- & Ec). unfold hbind at 1. rewrite E. cbn.
    assert (Bt : built h (h ++ [HDict dl'; HPS (ps_n p) (length h) al' []]) (Datatypes.S (length h)) p) by (exists dl', al'; auto).
    destruct (built_rep _ _ _ _ Bt) as [Rp U].
    specialize (K _ _ p eq_refl Bt Rp tr). unfold bind, lift, ret. unfold agree in *.
    destruct (f _ _ tr) as [[a2 t2|e2 t2| |] h2]; destruct (g p tr); cbn in *; auto.
    destruct K as (-> & U2 & HS). repeat split; auto. eapply untouched_trans; eauto.
  - destruct P as (h' & E). unfold hbind. rewrite E. cbn. auto.
Qed.
