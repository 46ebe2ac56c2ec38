(** Reading objects back, copies, and states made from nothing. *)
From Verif Require Import Base ModelUtils1D ModelPrior ModelState ModelSpace ModelChain ModelPerturb ModelLikelihood ModelHeap
  SpecState SpecHeap SpecRefine ProofInversion ProofState ProofSpace ProofSpaceC ProofNested ProofStep ProofHeapB ProofRefine.
Local Open Scope R_scope.

(** * Depth *)
Inductive deep : nat -> psstate -> Prop :=
| deep_intro m n vals attrs cache :
    (forall k v c, In (k, v) vals -> In c (states_in v) -> deep m c) -> deep (S m) (PS n vals attrs cache).
Lemma deep_mono m p : deep m p -> forall m', (m <= m')%nat -> deep m' p.
Proof.
  intros H. induction H as [m n vals attrs cache H IH]. intros [|m'] L; [lia|]. constructor. intros. eapply IH; eauto. lia.
Qed.
Lemma deep_size p : deep (psize p) p.
Proof.
  induction p as [n vals attrs cache IH] using psstate_ind'.
  assert (exists m, psize (PS n vals attrs cache) = S m) as [m Em] by (cbn [psize]; eauto).
  rewrite Em. constructor. intros k v c Hk Hc. eapply deep_mono; [eapply IH; eauto|].
  pose proof (psize_in n vals attrs cache k v c Hk Hc). lia.
Qed.
Lemma omap_Forall2 {A B C} (f : A -> option C) (g : B -> C) (R : A -> B -> Prop) l l' :
  Forall2 R l l' -> (forall a b, In b l' -> R a b -> f a = Some (g b)) -> omap f l = Some (map g l').
Proof.
  intros F H. induction F as [|a b l l' K F IH]; [reflexivity|]. cbn.
  rewrite (H a b (or_introl eq_refl) K), IH; [reflexivity|]. intros a' b' Hb. apply H. now right.
Qed.
Lemma read_rep f : forall h a p, deep f p -> rep h a p -> read_ps f h a = Some (view p).
Proof.
  induction f as [|f IH]; intros h a p D R; [inversion D|].
  inversion D as [m n vals attrs cache Hd]; subst. inversion R as [a0 n0 d al cl dl v0 at0 c0 E1 E2 F G]; subst.
  cbn [read_ps]. rewrite E1, E2.
  rewrite (omap_Forall2 _ (fun kv => (fst kv, view_value (snd kv))) _ dl vals F); [now rewrite view_eq|].
  intros [k b] [k' v] Hin [K1 K2]. cbn in K1, K2. subst k'. cbn [fst snd].
  destruct K2 as [b l E|b l E|b ls ps E Fl|b ls ps E Fl]; rewrite E; cbn [view_value].
  - reflexivity.
  - reflexivity.
  - rewrite (omap_Forall2 _ view _ ls ps Fl); [reflexivity|]. intros x q Hq Rq. apply IH; auto. eapply Hd; eauto.
  - rewrite (omap_Forall2 _ view _ ls ps Fl); [reflexivity|]. intros x q Hq Rq. apply IH; auto. eapply Hd; eauto.
Qed.
Lemma rep_fun h a p q : rep h a p -> rep h a q -> view p = view q.
Proof.
  intros H1 H2. set (m := Nat.max (psize p) (psize q)).
  assert (E1 : read_ps m h a = Some (view p)) by (apply read_rep; auto; eapply deep_mono; [apply deep_size|lia]).
  assert (E2 : read_ps m h a = Some (view q)) by (apply read_rep; auto; eapply deep_mono; [apply deep_size|lia]).
  congruence.
Qed.
Lemma rep_child h a p k v c : rep h a p -> In (k, v) (ps_vals p) -> In c (states_in v) -> exists x, rep h x c.
Proof.
  intros R Hin Hc. destruct (rep_inv _ _ _ R) as (d & al & cl & dl & _ & _ & F & _).
  induction F as [|[k1 b1] [k2 v1] dl vals [K1 K2] F IH]; [destruct Hin|].
  destruct Hin as [E|Hin]; [|auto]. injection E as -> ->. cbn in K2.
  assert (L : forall ls ps, Forall2 (rep h) ls ps -> In c ps -> exists x, rep h x c).
  { intros ls ps Fl. induction Fl as [|x y ls ps Hx Fl IHl]; intros []; subst; eauto. }
  destruct K2; cbn in Hc; try tauto; eauto.
Qed.
Lemma view_child k v c vals : In (k, v) vals -> In c (states_in v) ->
  exists v', In (k, v') (view_vals vals) /\ In (view c) (states_in v').
Proof.
  intros Hk Hc. exists (view_value v). split.
  - unfold view_vals. change (k, view_value v) with ((fun kv : string * value => (fst kv, view_value (snd kv))) (k, v)). now apply in_map.
  - rewrite view_states. now apply in_map.
Qed.
(** The depth is bounded by the number of objects. *)
Lemma rep_deep_path h f : forall p a L, rep h a p -> NoDup L ->
  (forall x, In x L -> (x < length h)%nat /\ exists px, rep h x px /\ (psize (view p) < psize (view px))%nat) ->
  (length h <= f + length L)%nat -> deep f p.
Proof.
  induction f as [|f IH]; intros p a L R N HL Hf.
  - exfalso. assert (Na : ~ In a L).
    { intros Ha. destruct (HL a Ha) as (_ & px & Rx & Lx). rewrite (rep_fun _ _ _ _ R Rx) in Lx. lia. }
    assert (La : (a < length h)%nat).
    { destruct (rep_inv _ _ _ R) as (d & al & cl & dl & E & _). apply nth_error_Some. congruence. }
    assert (I : incl (a :: L) (seq 0 (length h))).
    { intros x [<-|Hx]; apply in_seq; [lia|]. destruct (HL x Hx). lia. }
    assert (Nd : NoDup (a :: L)) by (constructor; auto).
    pose proof (NoDup_incl_length Nd I) as Q. rewrite seq_length in Q. cbn in Q. unfold loc in *. lia.
  - assert (Na : ~ In a L).
    { intros Ha. destruct (HL a Ha) as (_ & px & Rx & Lx). rewrite (rep_fun _ _ _ _ R Rx) in Lx. lia. }
    assert (La : (a < length h)%nat).
    { destruct (rep_inv _ _ _ R) as (d & al & cl & dl & E & _). apply nth_error_Some. congruence. }
    destruct p as [n vals attrs cache]. constructor. intros k v c Hk Hc.
    destruct (rep_child _ _ _ _ _ _ R Hk Hc) as (x & Rx).
    assert (Lc : (psize (view c) < psize (view (PS n vals attrs cache)))%nat).
    { rewrite view_eq. destruct (view_child k v c vals Hk Hc) as (v' & Hi & Hs). eapply psize_in; eauto. }
    apply (IH c x (a :: L)); auto.
    + constructor; auto.
    + intros y [<-|Hy]; [split; eauto|]. destruct (HL y Hy) as (Ly & px & Rpx & Lpx). split; [auto|]. exists px. split; [auto|lia].
    + cbn. lia.
Qed.
Lemma rep_deep h a p : rep h a p -> deep (length h) p.
Proof. intros R. apply (rep_deep_path h (length h) p a []); auto; [constructor|intros x []|lia]. Qed.
Lemma run_view h a p tr : rep h a p -> view_ps a h tr = (Ret (view p) tr, h).
Proof. intros R. unfold view_ps. rewrite (read_rep _ _ _ _ (rep_deep _ _ _ R) R). reflexivity. Qed.
Lemma sim_view {A B} h a p (f : psstate -> HM A) (v : M B) R : rep h a p -> sim h (f (view p)) v R -> sim h (hbind (view_ps a) f) v R.
Proof. intros Rp. apply sim_step; [|apply untouched_refl]. intros tr. now apply run_view. Qed.
Lemma run_get h k a p : rep h a p -> exists ob, (forall tr, h_get k a h tr = (Ret ob tr, h)) /\
  match ob with Some b => exists v, ps_get k p = Some v /\ repv h b v | None => ps_get k p = None end.
Proof.
  intros R. destruct (rep_inv _ _ _ R) as (d & al & cl & dl & E1 & E2 & D & G). exists (dget k dl). split.
  - intros tr. unfold h_get, hbind. rewrite (run_load_ps _ _ _ _ _ _ _ E1). now rewrite (run_load_dict _ _ _ _ E2).
  - exact (drel_get _ _ _ k D).
Qed.
Lemma sim_get {A B} h k a p (f : option loc -> HM A) (v : M B) R : rep h a p ->
  (forall b w, ps_get k p = Some w -> repv h b w -> sim h (f (Some b)) v R) ->
  (ps_get k p = None -> sim h (f None) v R) ->
  sim h (hbind (h_get k a) f) v R.
Proof.
  intros Rp H1 H2. destruct (run_get h k a p Rp) as (ob & E & Ho).
  apply sim_step with (h1 := h) (a := ob); [exact E|apply untouched_refl|].
  destruct ob as [b|]; [destruct Ho as (w & Ew & Hw)|]; eauto.
Qed.

(** * Copies *)
Lemma sim_hmap {A B C D} h (f : A -> HM C) (g : B -> res D) (R : A -> B -> Prop) (T : heap -> C -> D -> Prop) l l' :
  Forall2 R l l' -> (forall h1 h2 c d, untouched h1 h2 -> T h1 c d -> T h2 c d) ->
  (forall h' a b, In b l' -> untouched h h' -> R a b -> sim h' (f a) (lift (g b)) T) ->
  sim h (hmap f l) (lift (rmap g l')) (fun h' x y => Forall2 (T h') x y).
Proof.
  intros F K H. revert h H. induction F as [|a b l l' Rab F IH]; intros h H.
  - cbn. apply sim_ret. constructor.
  - cbn [hmap rmap].
    assert (E : forall tr, lift (y <-? g b ;; ys <-? rmap g l' ;; Ok (y :: ys)) tr =
      bind (lift (g b)) (fun y => bind (lift (rmap g l')) (fun ys => ret (y :: ys))) tr).
    { intros tr. destruct (g b); [|reflexivity|reflexivity]. cbn. unfold bind, lift, ret. now destruct (rmap g l'). }
    eapply sim_ext; [exact E|]. eapply sim_bind; [apply H; [now left|apply untouched_refl|exact Rab]|].
    intros h1 y z U1 Ht. eapply sim_bind.
    + apply IH. intros h' a' b' Hb U R'. apply H; [now right|eapply untouched_trans; eauto|exact R'].
    + cbn. intros h2 ys zs U2 Fs. apply sim_ret. constructor; [eapply K; eauto|exact Fs].
Qed.
Definition copied (h : heap) (h' : heap) (a : loc) (p : psstate) : Prop :=
  exists h1 dl al cl, h' = h1 ++ [HDict dl; HPS (ps_n p) (length h1) al cl] /\ a = S (length h1) /\ untouched h h1 /\
    drel (repv h1) dl (ps_vals p) /\ arel (repv h1) al (ps_attrs p).
Lemma copied_rep h h' a p : copied h h' a p -> rep h' a p.
Proof.
  intros (h1 & dl & al & cl & -> & -> & U & D & G).
  pose proof (nth_two h1 (HDict dl) (HPS (ps_n p) (length h1) al cl)) as [N1 N2].
  eapply rep_mk; eauto.
  - eapply drel_kept; [apply untouched_app|exact D].
  - eapply arel_kept; [apply untouched_app|exact G].
Qed.
Lemma lift_bind {A B} (r : res A) (f : A -> res B) tr : lift (rbind r f) tr = bind (lift r) (fun x => lift (f x)) tr.
Proof. now destruct r. Qed.
Lemma sim_copy f : forall h a p, deep f p -> rep h a p -> sim h (h_copy f a) (lift (ps_copy p)) (copied h).
Proof.
  induction f as [|f IH]; intros h a p D R; [inversion D|].
  inversion D as [m n vals attrs cache Hd]; subst. inversion R as [a0 n0 d al cl dl v0 at0 c0 E1 E2 F G]; subst.
  rewrite ps_copy_eq. cbn [h_copy].
  eapply sim_load_ps; [exact E1|]. eapply sim_load_dict; [exact E2|].
  eapply sim_ext; [intros tr; apply lift_bind|].
  eapply sim_bind.
  - eapply (sim_hmap h _ _ _ (fun h' kb kv => fst kb = fst kv /\ repv h' (snd kb) (snd kv)) dl vals F).
    + intros h1 h2 c0 d0 U [K1 K2]. split; [auto|eapply repv_kept; eauto].
    + intros h' [k b] [k' v] Hin U [K1 K2]. cbn in K1, K2. subst k'. cbn [fst snd].
      apply (repv_kept _ _ _ _ U) in K2.
      destruct K2 as [b l E|b l E|b ls ps E Fl|b ls ps E Fl]; (eapply sim_load; [exact E|]); cbn [value_copy rbind].
      * apply sim_alloc, sim_ret. cbn. split; [reflexivity|]. constructor. apply nth_new.
      * apply sim_alloc, sim_ret. cbn. split; [reflexivity|]. constructor. apply nth_new.
      * apply sim_alloc, sim_ret. cbn. split; [reflexivity|]. econstructor; [apply nth_new|].
        eapply reps_kept; [apply untouched_app|exact Fl].
      * assert (Eb : forall tr, lift (v <-? (ps' <-? rmap ps_copy ps ;; Ok (Lst ps')) ;; Ok (k, v)) tr =
          bind (lift (rmap ps_copy ps)) (fun ps' => ret (k, Lst ps')) tr).
        { intros tr. now destruct (rmap ps_copy ps). }
        eapply sim_ext; [exact Eb|].
        intros tr. (* the copies of the list, then the list *)
        assert (S1 : sim h' (hmap (h_copy f) ls) (lift (rmap ps_copy ps)) (fun h'' x y => Forall2 (rep h'') x y)).
        { eapply (sim_hmap h' _ _ _ (fun h'' x y => rep h'' x y) ls ps Fl).
          - intros. eapply rep_kept; eauto.
          - intros h2 x q Hq U2 Rq. eapply sim_weaken; [|apply IH; [eapply Hd; eauto|eapply rep_kept; eauto]].
            cbn. intros. eapply copied_rep; eauto. }
        revert tr. change (sim h' (hbind (hbind (hmap (h_copy f) ls) (fun l' => alloc (HLst l'))) (fun b' => hret (k, b')))
          (bind (lift (rmap ps_copy ps)) (fun ps' => ret (k, Lst ps')))
          (fun h'' kb kv => fst kb = fst kv /\ repv h'' (snd kb) (snd kv))).
        intros tr. specialize (S1 tr). unfold hbind, bind, agree in *.
        destruct (hmap (h_copy f) ls h' tr) as [[x t|e t| |] h2]; destruct (lift (rmap ps_copy ps) tr) as [y t'|e' t'| |]; cbn in *; auto; try tauto.
        destruct S1 as (-> & U2 & Fx). repeat split; auto.
        -- eapply untouched_trans; [exact U2|apply untouched_app].
        -- econstructor; [apply nth_new|]. eapply reps_kept; [apply untouched_app|exact Fx].
  - cbn. intros h1 dl' vals' U1 D1.
    eapply sim_ext; [intros tr; apply lift_bind|].
    assert (Dr : drel (repv h1) dl' vals') by exact D1.
    eapply sim_weaken; [|eapply (sim_mk h1 n dl' vals'
      (fun a' => hbind (load_ps a') (fun '(n', e, at_, _) => hbind (store a' (HPS n' e at_ cl)) (fun _ => hret a')))
      (fun p' => lift (Ok (PS (ps_n p') (ps_vals p') (ps_attrs p') cache))) (copied h) Dr)].
    + auto.
    + intros h' a' p' Ep Bt Rp'. destruct Bt as (dl2 & al2 & -> & -> & D2 & G2).
      pose proof (nth_two h1 (HDict dl2) (HPS (ps_n p') (length h1) al2 [])) as [N1 N2].
      eapply sim_load_ps; [exact N2|].
      eapply sim_step with (h1 := h1 ++ [HDict dl2; HPS (ps_n p') (length h1) al2 cl]).
      * intros tr. rewrite run_store by (rewrite app_length; cbn; lia). now rewrite (proj2 (set_two h1 _ _ _)).
      * intros x o Ex. destruct (Nat.lt_ge_cases x (length h1)) as [Lx|Lx].
        -- exists o. rewrite nth_error_app1 in * by lia. split; [auto|apply same_data_refl].
        -- rewrite nth_error_app2 in * by lia. destruct (x - length h1)%nat as [|[|[|]]]; cbn in *; try discriminate.
           ++ injection Ex as <-. eexists. split; reflexivity.
           ++ injection Ex as <-. eexists. split; [reflexivity|]. cbn. eauto.
      * apply sim_ret. exists h1, dl2, al2, cl. repeat split; auto.
Qed.
Lemma sim_copy_ps h a p : rep h a p -> sim h (copy_ps a) (lift (ps_copy p)) (copied h).
Proof. intros R. exact (sim_copy (length h) h a p (rep_deep _ _ _ R) R). Qed.
