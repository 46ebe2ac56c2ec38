(** A copy of a State is a tree of its own. *)
From Verif Require Import Base ModelUtils1D ModelPrior ModelState ModelSpace ModelChain ModelPerturb ModelLikelihood ModelHeap
  SpecState SpecHeap SpecRefine ProofInversion ProofState ProofSpace ProofNested ProofPerturb ProofStep ProofHeapB
  ProofRefine ProofRefineB ProofRefineE ProofRefineF ProofRefineG ProofRefineH.
Local Open Scope nat_scope.

(** * Constructors with distinct names *)
Lemma run_post_init_exact h1 n todo : forall dl al tr h',
  (forall k b, In (k, b) todo -> b < length h1) ->
  h_post_init todo n (S (length h1)) (h1 ++ [HDict dl; HPS n (length h1) al []]) tr = (Ret tt tr, h') ->
  h' = h1 ++ [HDict (dupdate dl todo); HPS n (length h1) (dupdate al todo) []].
Proof.
  unfold dupdate. induction todo as [|[k b] t IH]; intros dl al tr h' L E.
  - cbn in E. now injection E as <-.
  - cbn [h_post_init] in E. cbn [fold_left fst snd].
    assert (Eb : forall l2, nth_error (h1 ++ l2) b = nth_error h1 b) by (intros; apply nth_error_app1; eapply L; left; reflexivity).
    unfold hbind in E at 1. unfold h_len, hbind, load in E. rewrite Eb in E.
    destruct (nth_error h1 b) as [o|] eqn:Eo; [|discriminate].
    pose proof (nth_two h1 (HDict dl) (HPS n (length h1) al [])) as [N1 N2].
    assert (S0 : forall tr', hbind (load_ps (S (length h1))) (fun '(n, d, at_, c) => hbind (load_dict d) (fun dl => hbind (store d (HDict (dset k b dl)))
        (fun _ => store (S (length h1)) (HPS n d (dset k b at_) c)))) (h1 ++ [HDict dl; HPS n (length h1) al []]) tr'
      = (Ret tt tr', h1 ++ [HDict (dset k b dl); HPS n (length h1) (dset k b al) []])).
    { intros tr'. unfold hbind at 1. rewrite (run_load_ps _ _ _ _ _ _ _ N2). unfold hbind at 1. rewrite (run_load_dict _ _ _ _ N1).
      unfold hbind. rewrite run_store by (rewrite app_length; cbn; lia). rewrite (proj1 (set_two h1 _ _ _)).
      rewrite run_store by (rewrite app_length; cbn; lia). now rewrite (proj2 (set_two h1 _ _ _)). }
    assert (Es : (forall l, o = HLst l -> l <> []) -> match o with HArr _ | HArrN _ | HObj _ | HLst _ => True | _ => False end ->
      forall tr', h_set k b (S (length h1)) (h1 ++ [HDict dl; HPS n (length h1) al []]) tr' =
        (Ret tt tr', h1 ++ [HDict (dset k b dl); HPS n (length h1) (dset k b al) []])).
    { intros Hl Ho tr'. unfold h_set, hbind at 1, load. rewrite Eb. destruct o as [l|l|l|l|l|? ? ? ?|l|? ? ? ? ?]; try tauto; try apply S0.
      destruct l; [now destruct (Hl [] eq_refl)|apply S0]. }
    assert (EX : h_set k b (S (length h1)) (h1 ++ [HDict dl; HPS n (length h1) al []]) tr =
        (Ret tt tr, h1 ++ [HDict (dset k b dl); HPS n (length h1) (dset k b al) []]) /\
      h_post_init t n (S (length h1)) (h1 ++ [HDict (dset k b dl); HPS n (length h1) (dset k b al) []]) tr = (Ret tt tr, h')).
    { destruct o as [l|l|l|l|l|? ? ? ?|l|? ? ? ? ?]; try discriminate; cbn [hret] in E; unfold hret in E;
        (destruct (negb (length l =? n)); [discriminate|]).
      - assert (Q := Es ltac:(discriminate) I tr). rewrite Q in E. auto.
      - assert (Q := Es ltac:(discriminate) I tr). rewrite Q in E. auto.
      - assert (Q := Es ltac:(discriminate) I tr). rewrite Q in E. auto.
      - destruct l as [|y l]; [|assert (Q := Es ltac:(intros l' [= <-]; discriminate) I tr); rewrite Q in E; auto].
        exfalso. unfold h_set, hbind at 1, load in E. rewrite Eb in E. discriminate. }
    destruct EX as [_ E2]. apply (IH _ _ _ _ (fun k' b' H => L k' b' (or_intror H)) E2).
Qed.
Lemma dupdate_self {A} (d : dict A) : NoDup (dkeys d) -> dupdate d d = d.
Proof.
  intros N. unfold dupdate. assert (H : forall t, incl t d -> fold_left (fun acc kv => dset (fst kv) (snd kv) acc) t d = d).
  { induction t as [|[k v] t IH]; intros I; [reflexivity|]. cbn. rewrite dset_same; auto; [|apply I; now left].
    apply IH. intros x Hx. apply I. now right. }
  apply H, incl_refl.
Qed.
Lemma drel_lt h dl vals k b : drel (repv h) dl vals -> In (k, b) dl -> b < length h.
Proof.
  intros D. induction D as [|[k1 b1] [k2 v1] l l' [K1 K2] F IH]; intros []; auto. injection H as -> ->.
  destruct (repv_shape _ _ _ K2) as (o & E & _). apply nth_error_Some. cbn in E. congruence.
Qed.
Lemma sim_mk2 {A B} h n dl vals (f : loc -> HM A) (g : psstate -> M B) S : drel (repv h) dl vals -> NoDup (dkeys dl) ->
  (forall p, mk_ps n vals = Ok p -> sim (h ++ [HDict dl; HPS n (length h) (dupdate [] dl) []]) (f (Datatypes.S (length h))) (g p) S) ->
  sim h (hbind (alloc (HDict dl)) (fun d => hbind (h_mk_ps n d) f)) (bind (lift (mk_ps n vals)) g) S.
Proof.
  intros D Nd K tr. unfold hbind at 1, alloc. unfold hbind at 1. unfold h_mk_ps. unfold hbind at 1.
  rewrite (run_load_dict _ _ dl) by apply nth_new. unfold hbind at 1, alloc.
  rewrite app_length. cbn [length]. rewrite <- app_assoc. cbn [app].
  replace (length h + 1)%nat with (Datatypes.S (length h)) by lia.
  pose proof (run_post_init h n dl vals D dl [] vals [] tr D (arel_nil _ _)) as P. unfold mk_ps in *.
  destruct (post_init vals (PS n vals [] [])) as [p|e|] eqn:Ep; [| |destruct P].
  - destruct P as (dl' & al' & E & D' & G' & En & Ec). pose proof E as E'. apply run_post_init_exact in E'; [|intros; eapply (drel_lt _ dl vals); eauto].
    rewrite (dupdate_self _ Nd) in E'. unfold hbind at 1. rewrite E, E'. cbn.
    specialize (K p eq_refl tr). unfold bind, lift, ret. unfold agree in *.
    destruct (f _ _ tr) as [[a2 t2|e2 t2| |] h2]; destruct (g p tr); cbn in *; auto.
    destruct K as (-> & U2 & HS). repeat split; auto. eapply untouched_trans; [apply untouched_app|exact U2].
  - destruct P as (h' & E). unfold hbind. rewrite E. cbn. auto.
Qed.

(** * Copies *)
Definition fr (h h' : heap) (F : list loc) : Prop := NoDup F /\ forall y, In y F -> length h <= y < length h'.
Lemma fr_app h h1 h2 F1 F2 : fr h h1 F1 -> fr h1 h2 F2 -> length h <= length h1 -> length h1 <= length h2 -> fr h h2 (F1 ++ F2).
Proof.
  intros [N1 R1] [N2 R2] L1 L2. split.
  - clear - N1 N2 R1 R2. induction F1 as [|x F1 IH]; [exact N2|]. cbn. inversion N1; subst. constructor.
    + rewrite in_app_iff. intros [H|H]; [contradiction|]. apply R2 in H. specialize (R1 x (or_introl eq_refl)). lia.
    + apply IH; auto. intros y Hy. apply R1. now right.
  - intros y Hy. apply in_app_iff in Hy. destruct Hy as [Hy|Hy]; [apply R1 in Hy|apply R2 in Hy]; lia.
Qed.
Lemma fr_one h o : fr h (h ++ [o]) [length h].
Proof. split; [repeat constructor; auto|]. intros y [<-|[]]. rewrite app_length. cbn. lia. Qed.
Lemma fr_cons h h' F o : fr h h' F -> length h <= length h' -> fr h (h' ++ [o]) (length h' :: F).
Proof.
  intros [N R] L. split.
  - constructor; auto. intros H. apply R in H. lia.
  - intros y [<-|Hy]; rewrite app_length; cbn; [lia|]. apply R in Hy. lia.
Qed.
Section Copy.
Variable h0 : heap.
Variable k0 : string.
(** Objects below the states that exist. *)
Definition live (l : loc) : Prop :=
  (exists p, rep h0 l p) \/ (exists v, repv h0 l v) \/
  (exists dl vals, nth_error h0 l = Some (HDict dl) /\ drel (repv h0) dl vals) .
Lemma live_lt l : live l -> l < length h0.
Proof.
  intros [(p & R)|[(v & R)|(dl & vals & E & _)]].
  - destruct (rep_inv _ _ _ R) as (d & al & cl & dl & E & _). apply nth_error_Some. congruence.
  - destruct (repv_shape _ _ _ R) as (o & E & _). apply nth_error_Some. congruence.
  - apply nth_error_Some. congruence.
Qed.
Lemma live_reps ls ps : Forall2 (rep h0) ls ps -> Forall live ls.
Proof. induction 1; constructor; auto. left. eauto. Qed.
Lemma live_drel dl vals : drel (repv h0) dl vals -> gd_d live dl.
Proof. induction 1 as [|[k b] [k' v] ? ? [K1 K2]]; constructor; auto. right. left. eauto. Qed.
Lemma live_closed : closed live h0.
Proof.
  intros l o H E. destruct H as [(p & R)|[(v & R)|(dl & vals & E' & D)]].
  - destruct (rep_inv _ _ _ R) as (d & al & cl & dl & E1 & E2 & D & A). rewrite E1 in E. injection E as <-. cbn. split.
    + right. right. eauto.
    + intros k b Eb. destruct (A k b Eb) as (v & _ & Hv). right. left. eauto.
  - destruct R as [b l' E1|b l' E1|b ls ps E1 F|b ls ps E1 F]; rewrite E1 in E; injection E as <-; cbn; auto; eapply live_reps; eauto.
  - rewrite E' in E. injection E as <-. cbn. eapply live_drel; eauto.
Qed.
Lemma closed_data (G : loc -> Prop) h h' : (forall l o, G l -> nth_error h' l = Some o -> exists o', nth_error h l = Some o' /\ same_data o' o) ->
  closed G h -> closed G h'.
Proof.
  intros S C l o Hl E. destruct (S l o Hl E) as (o' & E' & Sd). pose proof (C l o' Hl E') as Ho.
  destruct o'; cbn in Sd; try (subst o; exact Ho).
  - destruct Sd as (c' & ->). exact Ho.
  - destruct Sd as (c' & x' & ->). exact I.
Qed.

Notation treeL := (tree live k0).
Definition tcopy (h : heap) (p : psstate) (h' : heap) (x : loc) (q : psstate) : Prop := exists F, treeL h' x q p F /\ fr h h' F.
Lemma sim_copy_list f h ls ps : (forall h a p, In p ps -> rep h0 a p -> untouched h0 h -> sim h (h_copy f a) (lift (ps_copy p)) (tcopy h p)) ->
  Forall2 (rep h0) ls ps -> untouched h0 h ->
  sim h (hmap (h_copy f) ls) (lift (rmap ps_copy ps)) (fun h' x y => exists F, treel live k0 h' x y ps F /\ fr h h' F).
Proof.
  intros H F. revert h H. induction F as [|a b l l' Rab F IH]; intros h H U.
  - cbn. apply sim_ret. exists []. split; [constructor|]. split; [constructor|intros y []].
  - cbn [hmap rmap].
    assert (E : forall tr, lift (y <-? ps_copy b ;; ys <-? rmap ps_copy l' ;; Ok (y :: ys)) tr =
      bind (lift (ps_copy b)) (fun y => bind (lift (rmap ps_copy l')) (fun ys => ret (y :: ys))) tr).
    { intros tr. destruct (ps_copy b); [|reflexivity|reflexivity]. cbn. unfold bind, lift, ret. now destruct (rmap ps_copy l'). }
    eapply sim_ext; [exact E|]. eapply sim_bind; [apply H; [now left|exact Rab|exact U]|].
    intros h1 y z U1 (F1 & T1 & Fr1). eapply sim_bind.
    + apply IH; [|eapply untouched_trans; eauto]. intros h' a' p' Hb R' U'. apply H; [now right|auto|auto].
    + cbn. intros h2 ys zs U2 (F2 & T2 & Fr2). apply sim_ret. exists (F1 ++ F2). split.
      * constructor; [|exact T2]. eapply tree_kept; eauto.
      * eapply fr_app; eauto using untouched_length.
Qed.
Lemma sim_copy_vals f dl vals : drel (repv h0) dl vals ->
  (forall k v p, In (k, v) vals -> In p (states_in v) -> forall h a, rep h0 a p -> untouched h0 h ->
     sim h (h_copy f a) (lift (ps_copy p)) (tcopy h p)) ->
  forall h, untouched h0 h ->
  sim h (hmap (fun kb =>
           o <~ load (snd kb) ;;
           b' <~ match o with
                 | HArr l => alloc (HArr l)
                 | HArrN l => alloc (HArrN l)
                 | HObj l => alloc (HObj l)
                 | HLst l => l' <~ hmap (h_copy f) l ;; alloc (HLst l')
                 | _ => hdo ubeh
                 end ;;
           hret (fst kb, b')) dl)
    (lift (rmap (fun kv => v <-? value_copy (snd kv) ;; Ok (fst kv, v)) vals))
    (fun h' dl' vals' => exists F, treed live k0 h' dl' vals' vals F /\ fr h h' F).
Proof.
  intros D. induction D as [|[k b] [k' v] dl vals [K1 K2] D IH]; intros H h U.
  - cbn. apply sim_ret. exists []. split; [constructor|]. split; [constructor|intros y []].
  - cbn in K1, K2. subst k'. cbn [hmap rmap fst snd].
    assert (E : forall tr, lift (y <-? (w <-? value_copy v ;; Ok (k, w)) ;;
        ys <-? rmap (fun kv => v <-? value_copy (snd kv) ;; Ok (fst kv, v)) vals ;; Ok (y :: ys)) tr =
      bind (lift (value_copy v)) (fun w => bind (lift (rmap (fun kv => v <-? value_copy (snd kv) ;; Ok (fst kv, v)) vals))
        (fun ys => ret ((k, w) :: ys))) tr).
    { intros tr. destruct (value_copy v); [|reflexivity|reflexivity]. cbn. unfold bind, lift, ret. now destruct (rmap _ vals). }
    eapply sim_ext; [exact E|]. clear E.
    assert (S1 : sim h (hbind (load b) (fun o => hbind (match o with
                 | HArr l => alloc (HArr l)
                 | HArrN l => alloc (HArrN l)
                 | HObj l => alloc (HObj l)
                 | HLst l => l' <~ hmap (h_copy f) l ;; alloc (HLst l')
                 | _ => hdo ubeh
                 end) (fun b' => hret (k, b')))) (lift (value_copy v))
      (fun h' kb w => fst kb = k /\ exists F, treev live k0 h' k (snd kb) w v F /\ fr h h' F)).
    { pose proof (repv_kept _ _ _ _ U K2) as K3. destruct K2 as [b l E|b l E|b ls ps E Fl|b ls ps E Fl].
      - inversion K3 as [? ? E3| | |]; subst. eapply sim_load; [exact E3|]. cbn [value_copy]. apply sim_alloc, sim_ret. split; [reflexivity|].
        exists [length h]. split; [constructor; apply nth_new|apply fr_one].
      - inversion K3 as [|? ? E3| |]; subst. eapply sim_load; [exact E3|]. cbn [value_copy]. apply sim_alloc, sim_ret. split; [reflexivity|].
        exists [length h]. split; [constructor; apply nth_new|apply fr_one].
      - destruct (U _ _ E) as (o & E3 & So). cbn in So. subst o.
        eapply sim_load; [exact E3|]. cbn [value_copy]. apply sim_alloc, sim_ret. split; [reflexivity|].
        exists [length h]. split; [econstructor; [apply nth_new| |]|apply fr_one].
        + eapply live_reps; eauto.
        + eapply reps_kept; [apply untouched_app|]. eapply reps_kept; eauto.
      - destruct (U _ _ E) as (o & E3 & So). cbn in So. subst o.
        eapply sim_load; [exact E3|]. cbn [value_copy]. cbv beta iota.
        eapply sim_ext; [intros tr; apply lift_bind|].
        intros tr.
        assert (S2 : sim h (hmap (h_copy f) ls) (lift (rmap ps_copy ps)) (fun h' x y => exists F, treel live k0 h' x y ps F /\ fr h h' F)).
        { apply sim_copy_list; auto. intros h' a p Hp R' U'. apply (H k (Lst ps) p); [now left|exact Hp|exact R'|exact U']. }
        specialize (S2 tr). unfold hbind, bind, agree in *.
        destruct (hmap (h_copy f) ls h tr) as [[x t|e t| |] h2]; destruct (lift (rmap ps_copy ps) tr) as [y t'|e' t'| |]; cbn in *; auto; try tauto.
        destruct S2 as (-> & U2 & (F2 & T2 & Fr2)). repeat split; auto.
        + eapply untouched_trans; [exact U2|apply untouched_app].
        + exists (length h2 :: F2). split.
          * econstructor; [apply nth_new|]. eapply tree_kept; [apply untouched_app|exact T2].
          * apply fr_cons; auto. eapply untouched_length; eauto. }
    eapply sim_bind; [exact S1|]. intros h1 [k1 b1] w U1 [Ek (F1 & T1 & Fr1)]. cbn in Ek, T1. subst k1.
    eapply sim_bind; [apply IH; [|eapply untouched_trans; eauto]|].
    + intros k1 v1 p Hin Hp. eapply H; eauto. right. exact Hin.
    + intros h2 dl' vals' U2 (F2 & T2 & Fr2). apply sim_ret. exists (F1 ++ F2). split.
      * constructor; [|exact T2]. eapply tree_kept; eauto.
      * eapply fr_app; eauto using untouched_length.
Qed.
Lemma treed_keys G h dl vals vals0 F : treed G k0 h dl vals vals0 F -> dkeys dl = dkeys vals0 /\ dkeys vals = dkeys vals0.
Proof. intros D. induction D as [|k b v v0 F t tv tv0 F' Hv D [I1 I2]]; [auto|]. unfold dkeys in *. cbn. now rewrite I1, I2. Qed.
Lemma sim_copy_tree f : forall h a p, deep f p -> sane p -> rep h0 a p -> untouched h0 h ->
  sim h (h_copy f a) (lift (ps_copy p)) (tcopy h p).
Proof.
  induction f as [|f IH]; intros h a p D Sp R0 U; [inversion D|].
  inversion D as [m n vals attrs cache Hd]; subst. inversion Sp as [n' v' a' c' Nd Hl Hs]; subst.
  inversion R0 as [a0 n0 d al cl dl v0 at0 c0 E1 E2 F A]; subst.
  rewrite ps_copy_eq. cbn [h_copy].
  destruct (U _ _ E1) as (o1 & E1' & (cl' & ->)). destruct (U _ _ E2) as (o2 & E2' & So). cbn in So. subst o2.
  eapply sim_load_ps; [exact E1'|]. eapply sim_load_dict; [exact E2'|].
  eapply sim_ext; [intros tr; apply lift_bind|].
  eapply sim_bind.
  - apply sim_copy_vals; [exact F| |exact U]. intros k v p Hin Hp h' a' R' U'. apply IH; eauto.
  - intros h1 dl' vals' U1 (F1 & T1 & Fr1).
    eapply sim_ext; [intros tr; apply lift_bind|].
    destruct (treed_keys _ _ _ _ _ _ T1) as [Kd Kv].
    assert (Dr : drel (repv h1) dl' vals') by (eapply tree_rep_all; eauto).
    apply (sim_mk2 h1 n dl' vals'
      (fun a' => hbind (load_ps a') (fun '(n', e, at_, _) => hbind (store a' (HPS n' e at_ cl')) (fun _ => hret a')))
      (fun p' => lift (Ok (PS (ps_n p') (ps_vals p') (ps_attrs p') cache))) (tcopy h (PS n vals attrs cache)) Dr); [now rewrite Kd|].
    intros p' Ep. assert (Nv : NoDup (dkeys vals')) by now rewrite Kv. destruct (mk_ps_ok n vals' p' Nv Ep) as [-> _]. cbn [ps_n ps_vals ps_attrs].
    pose proof (nth_two h1 (HDict dl') (HPS n (length h1) (dupdate [] dl') [])) as [N1 N2].
    eapply sim_load_ps; [exact N2|].
    eapply sim_step with (h1 := h1 ++ [HDict dl'; HPS n (length h1) (dupdate [] dl') cl']).
    + intros tr. rewrite run_store by (rewrite app_length; cbn; lia). now rewrite (proj2 (set_two h1 _ _ _)).
    + intros x o Ex. destruct (Nat.lt_ge_cases x (length h1)) as [Lx|Lx].
      * exists o. rewrite nth_error_app1 in * by lia. split; [auto|apply same_data_refl].
      * rewrite nth_error_app2 in * by lia. destruct (x - length h1)%nat as [|[|[|]]]; cbn in *; try discriminate.
        -- injection Ex as <-. eexists. split; reflexivity.
        -- injection Ex as <-. eexists. split; [reflexivity|]. cbn. eauto.
    + apply sim_ret. exists (S (length h1) :: length h1 :: F1). split.
      * pose proof (nth_two h1 (HDict dl') (HPS n (length h1) (dupdate [] dl') cl')) as [M1 M2].
        econstructor; [exact M2|exact M1| | |].
        -- eapply tree_kept; [apply untouched_app|exact T1].
        -- intros k. rewrite dget_dupdate by now rewrite Kd. cbn. now destruct (dget k dl').
        -- reflexivity.
      * destruct Fr1 as [NF RF]. pose proof (untouched_length _ _ U1). split.
        -- constructor; [intros [Hx|Hx]; [lia|apply RF in Hx; lia]|]. constructor; [intros Hx; apply RF in Hx; lia|auto].
        -- intros y [<-|[<-|Hy]]; rewrite app_length; cbn; try lia. apply RF in Hy. lia.
Qed.
End Copy.
