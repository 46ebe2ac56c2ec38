(** States made from nothing, and what depends on values only. *)
From Verif Require Import Base ModelUtils1D ModelPrior ModelState ModelSpace ModelChain ModelPerturb ModelLikelihood ModelHeap
  SpecState SpecHeap SpecRefine ProofInversion ProofState ProofSpace ProofSpaceC ProofNested ProofStep ProofHeapB ProofRefine ProofRefineB.
Local Open Scope R_scope.

(** * Allocation *)
Definition h_new_value (v : value) : HM loc :=
  match v with
  | Arr x => alloc (HArr x)
  | ArrN x => alloc (HArrN x)
  | AObj ps => hbind (hmap h_new ps) (fun ls => alloc (HObj ls))
  | Lst ps => hbind (hmap h_new ps) (fun ls => alloc (HLst ls))
  end.
Lemma hbind_ext {A B} (m m' : HM A) (f f' : A -> HM B) h tr : (forall h tr, m h tr = m' h tr) -> (forall a h tr, f a h tr = f' a h tr) ->
  hbind m f h tr = hbind m' f' h tr.
Proof. intros E1 E2. unfold hbind. rewrite E1. destruct (m' h tr) as [[]]; auto. Qed.
Lemma hbind_assoc {A B C} (m : HM A) (f : A -> HM B) (g : B -> HM C) h tr :
  hbind (hbind m f) g h tr = hbind m (fun x => hbind (f x) g) h tr.
Proof. unfold hbind. now destruct (m h tr) as [[]]. Qed.
Lemma hb {A B} (m : HM A) (f : A -> HM B) h tr a tr' h' : m h tr = (Ret a tr', h') -> hbind m f h tr = f a h' tr'.
Proof. intros E. unfold hbind. now rewrite E. Qed.
Lemma h_new_eq n vals attrs cache h tr : h_new (PS n vals attrs cache) h tr =
  hbind (hmap (fun kv => hbind (h_new_value (snd kv)) (fun b => hret (fst kv, b))) vals)
    (fun dl => hbind (alloc (HDict dl)) (fun d => alloc (HPS n d dl []))) h tr.
Proof.
  cbn [h_new]. apply hbind_ext; [|reflexivity].
  assert (L : forall ps h tr, (fix all (q : list psstate) : HM (list loc) :=
     match q with [] => hret [] | x :: r => y <~ h_new x ;; ys <~ all r ;; hret (y :: ys) end) ps h tr = hmap h_new ps h tr).
  { induction ps as [|p ps IH]; intros h1 t1; [reflexivity|]. cbn [hmap]. apply hbind_ext; [reflexivity|].
    intros. apply hbind_ext; [exact IH|reflexivity]. }
  induction vals as [|[k v] t IH]; intros h1 t1; [reflexivity|]. cbn [hmap fst snd]. rewrite hbind_assoc.
  apply hbind_ext.
  - intros h2 t2. destruct v; cbn [h_new_value]; try reflexivity; (apply hbind_ext; [apply L|reflexivity]).
  - intros b h2 t2. unfold hbind at 2. cbn. apply hbind_ext; [exact IH|reflexivity].
Qed.
Lemma run_hmap {A B} (f : A -> HM loc) (g : A -> B) (T : heap -> loc -> B -> Prop) l : 
  (forall h1 h2 c d, untouched h1 h2 -> T h1 c d -> T h2 c d) ->
  (forall a h, In a l -> exists h' b, (forall tr, f a h tr = (Ret b tr, h')) /\ untouched h h' /\ T h' b (g a)) ->
  forall h, exists h' bs, (forall tr, hmap f l h tr = (Ret bs tr, h')) /\ untouched h h' /\ Forall2 (T h') bs (map g l).
Proof.
  intros K. induction l as [|a l IH]; intros H h.
  - exists h, []. repeat split; [apply untouched_refl|constructor].
  - destruct (H a h (or_introl eq_refl)) as (h1 & b & E1 & U1 & T1).
    destruct (IH (fun a' h' Ha => H a' h' (or_intror Ha)) h1) as (h2 & bs & E2 & U2 & F2).
    exists h2, (b :: bs). split; [|split; [eapply untouched_trans; eauto|]].
    + intros tr. cbn [hmap]. unfold hbind. rewrite E1, E2. reflexivity.
    + cbn. constructor; [eapply K; eauto|exact F2].
Qed.
Lemma run_new p : in_step p -> forall h, exists h' a, (forall tr, h_new p h tr = (Ret a tr, h')) /\ untouched h h' /\ rep h' a p.
Proof.
  induction p as [n vals attrs cache IH] using psstate_ind'. intros Hs h.
  assert (V : forall k v h, In (k, v) vals -> exists h' b, (forall tr, h_new_value v h tr = (Ret b tr, h')) /\ untouched h h' /\ repv h' b v).
  { intros k v h0 Hin.
    assert (L : forall ps, (forall q, In q ps -> In q (states_in v)) -> forall h, exists h' bs,
       (forall tr, hmap h_new ps h tr = (Ret bs tr, h')) /\ untouched h h' /\ Forall2 (rep h') bs ps).
    { intros ps Hps. pose proof (run_hmap h_new (fun q => q) (fun h x q => rep h x q) ps) as X.
      rewrite map_id in X. apply X; [intros; eapply rep_kept; eauto|]. intros q h1 Hq. eapply IH; eauto.
      eapply step_child; [exact Hs|exact Hin|auto]. }
    destruct v as [l|l|ps|ps]; cbn [h_new_value].
    - exists (h0 ++ [HArr l]), (length h0). repeat split; [apply untouched_app|]. constructor. apply nth_new.
    - exists (h0 ++ [HArrN l]), (length h0). repeat split; [apply untouched_app|]. constructor. apply nth_new.
    - destruct (L ps (fun q Hq => Hq) h0) as (h1 & bs & E & U & F). exists (h1 ++ [HObj bs]), (length h1). repeat split.
      + intros tr. unfold hbind. now rewrite E.
      + eapply untouched_trans; [exact U|apply untouched_app].
      + econstructor; [apply nth_new|]. eapply reps_kept; [apply untouched_app|exact F].
    - destruct (L ps (fun q Hq => Hq) h0) as (h1 & bs & E & U & F). exists (h1 ++ [HLst bs]), (length h1). repeat split.
      + intros tr. unfold hbind. now rewrite E.
      + eapply untouched_trans; [exact U|apply untouched_app].
      + econstructor; [apply nth_new|]. eapply reps_kept; [apply untouched_app|exact F]. }
  assert (D : forall l, (forall kv, In kv l -> In kv vals) -> forall h, exists h' dl,
     (forall tr, hmap (fun kv => hbind (h_new_value (snd kv)) (fun b => hret (fst kv, b))) l h tr = (Ret dl tr, h')) /\
     untouched h h' /\ drel (repv h') dl l).
  { induction l as [|[k v] l IHl]; intros Hl h0.
    - exists h0, []. repeat split; [apply untouched_refl|constructor].
    - destruct (V k v h0 (Hl _ (or_introl eq_refl))) as (h1 & b & E1 & U1 & R1).
      destruct (IHl (fun kv H => Hl kv (or_intror H)) h1) as (h2 & dl & E2 & U2 & F2).
      exists h2, ((k, b) :: dl). repeat split; [|eapply untouched_trans; eauto|].
      + intros tr. cbn [hmap fst snd]. rewrite hbind_assoc, (hb _ _ _ _ _ _ _ (E1 tr)).
        rewrite (hb (hret (k, b)) _ h1 tr (k, b) tr h1 eq_refl). now rewrite (hb _ _ _ _ _ _ _ (E2 tr)).
      + constructor; [split; [reflexivity|eapply repv_kept; eauto]|exact F2]. }
  destruct (D vals (fun kv H => H) h) as (h1 & dl & E & U & F).
  exists (h1 ++ [HDict dl; HPS n (length h1) dl []]), (S (length h1)). repeat split.
  - intros tr. rewrite h_new_eq. rewrite (hb _ _ _ _ _ _ _ (E tr)). unfold hbind, alloc. rewrite <- app_assoc. rewrite app_length. cbn.
    now replace (length h1 + 1)%nat with (S (length h1)) by lia.
  - eapply untouched_trans; [exact U|apply untouched_app].
  - pose proof (nth_two h1 (HDict dl) (HPS n (length h1) dl [])) as [N1 N2].
    econstructor; [exact N2|exact N1| |].
    + eapply drel_kept; [apply untouched_app|exact F].
    + intros k b Eb. pose proof (drel_get _ _ _ k F) as G. rewrite Eb in G. destruct G as (v & Ev & Hv). exists v. split.
      * inversion Hs as [? ? ? ? A B]; subst. auto.
      * eapply repv_kept; [apply untouched_app|exact Hv].
Qed.
Lemma sim_new {A B} h p (f : loc -> HM A) (v : M B) R : in_step p ->
  (forall h' a, untouched h h' -> rep h' a p -> sim h' (f a) v R) -> sim h (hbind (h_new p) f) v R.
Proof. intros Hp K. destruct (run_new p Hp h) as (h' & a & E & U & Rp). eapply sim_step; eauto. Qed.

(** * Functions of values *)
Lemma num_at_view o i : num_at (option_map view_value o) i = num_at o i.
Proof. now destruct o as [[]|]. Qed.
Lemma positions_view o : positions_of (option_map view_value o) = positions_of o.
Proof. now destruct o as [[]|]. Qed.
Lemma site_at_view o i : site_at (option_map view_value o) i = site_at o i.
Proof. unfold site_at. now rewrite positions_view. Qed.
Lemma nearest_view o x : nearest_neighbour (option_map view_value o) x = nearest_neighbour o x.
Proof. now destruct o as [[]|]. Qed.
Lemma state_at_view o i : state_at (option_map view_value o) i = rbind (state_at o i) (fun p => Ok (view p)).
Proof.
  destruct o as [[]|]; cbn; try reflexivity; unfold idx; rewrite nth_error_map; now destruct (nth_error l i).
Qed.
Lemma bind_ext {A B} (m m' : M A) (f f' : A -> M B) tr : m tr = m' tr -> (forall a tr, f a tr = f' a tr) -> bind m f tr = bind m' f' tr.
Proof. intros E1 E2. unfold bind. rewrite E1. destruct (m' tr); auto. Qed.

Lemma lift_state_at {B} o i (f : psstate -> M B) tr :
  bind (lift (state_at (option_map view_value o) i)) f tr = bind (lift (state_at o i)) (fun p => f (view p)) tr.
Proof. rewrite state_at_view. now destruct (state_at o i). Qed.
Lemma sfn_view s : forall old new tr, sample_from_neighbour s (view old) new tr = sample_from_neighbour s old new tr.
Proof.
  induction s as [s IH] using space_ind'. intros old new tr. destruct s as [nm fx mi ma rg cls params]. rewrite !sfn_eq.
  apply bind_ext; [reflexivity|]. intros [q0 acc0] t0. apply bind_ext; [reflexivity|]. intros ps t1.
  generalize (combine (seq 0 (length ps)) ps). intros is. revert q0 acc0 t1.
  induction is as [|[i x] more IHi]; intros q acc t; [reflexivity|]. cbn [nb_points].
  rewrite view_get, nearest_view. apply bind_ext; [reflexivity|]. intros j t2. apply bind_ext; [|intros [q2 a2] t3; apply IHi].
  assert (G : forall l, incl l params -> forall q acc t, nb_each sample_from_neighbour (view old) i x j l q acc t =
     nb_each sample_from_neighbour old i x j l q acc t).
  { induction l as [|[k [pr|s']] l IHl]; intros Hl q1 acc1 t3; [reflexivity| |]; cbn [nb_each]; rewrite view_get.
    - rewrite num_at_view. do 7 (apply bind_ext; [reflexivity|]; first [intros [? ?] ?|intros ? ?]). apply IHl. intros z Hz. apply Hl. now right.
    - destruct (is_disc s'); [|apply IHl; intros z Hz; apply Hl; now right]. rewrite lift_state_at.
      apply bind_ext; [reflexivity|]. intros o t4. apply bind_ext; [reflexivity|]. intros n t5. apply bind_ext.
      + apply (IH k s'). apply Hl. now left.
      + intros [n' l'] t6. do 2 (apply bind_ext; [reflexivity|]; intros ? ?). apply IHl. intros z Hz. apply Hl. now right. }
  apply G. intros z Hz. exact Hz.
Qed.
Lemma newborn_view s x old tr : newborn_params s x (view old) tr = newborn_params s x old tr.
Proof.
  unfold newborn_params.
  assert (B : forall j ps acc tr, newborn_from_neighbour ps x j (view old) acc tr = newborn_from_neighbour ps x j old acc tr).
  { intros j. induction ps as [|[k [pr|s']] t IH]; intros acc ta; [reflexivity| |]; cbn [newborn_from_neighbour].
    - rewrite view_get, num_at_view. do 5 (apply bind_ext; [reflexivity|]; first [intros [? ?] ?|intros ? ?]).
      apply bind_ext; [apply IH|]. reflexivity.
    - destruct (is_disc s'); [|reflexivity]. rewrite view_get, lift_state_at.
      apply bind_ext; [reflexivity|]. intros o t4. apply bind_ext; [reflexivity|]. intros n t5. apply bind_ext; [apply sfn_view|].
      intros [n' l'] t6. apply bind_ext; [apply IH|]. reflexivity. }
  destruct (sp_cls s) as [|lo hi sd [|]|d lo hi sd poly kd [|]]; try reflexivity;
    (rewrite view_get, nearest_view; apply bind_ext; [reflexivity|]; intros j t; apply B).
Qed.
Lemma rbind_ext {A B} (m : res A) (f f' : A -> res B) : (forall a, f a = f' a) -> rbind m f = rbind m f'.
Proof. intros E. destruct m; cbn; auto. Qed.
Lemma rbind_state_at {B} o i (f : psstate -> res B) :
  rbind (state_at (option_map view_value o) i) f = rbind (state_at o i) (fun p => f (view p)).
Proof. rewrite state_at_view. now destruct (state_at o i). Qed.
Lemma lpd_view s : forall old new, log_prob_death_ps_state s (view old) (view new) = log_prob_death_ps_state s old new.
Proof.
  induction s as [s IH] using space_ind'. intros old new. destruct s as [nm fx mi ma rg cls params]. rewrite !dp_eq.
  rewrite view_get, positions_view. apply rbind_ext. intros ps.
  generalize (combine (seq 0 (length ps)) ps), (Fin 0). intros is.
  induction is as [|[i x] more IHi]; intros acc; [reflexivity|]. cbn [dp_points].
  rewrite view_get, nearest_view. apply rbind_ext. intros j.
  assert (G : forall l, incl l params -> forall acc, dp_each log_prob_death_ps_state (view old) (view new) i x j l acc =
     dp_each log_prob_death_ps_state old new i x j l acc).
  { induction l as [|[k [pr|s']] l IHl]; intros Hl acc1; [reflexivity| |]; cbn [dp_each]; rewrite !view_get.
    - rewrite !num_at_view. do 5 (apply rbind_ext; intros ?). apply IHl. intros z Hz. apply Hl. now right.
    - destruct (is_disc s'); [|apply IHl; intros z Hz; apply Hl; now right]. rewrite rbind_state_at.
      apply rbind_ext. intros o. rewrite rbind_state_at. apply rbind_ext. intros n.
      rewrite (IH k s') by (apply Hl; now left). apply rbind_ext. intros l'. apply IHl. intros z Hz. apply Hl. now right. }
  rewrite G by (intros z Hz; exact Hz). apply rbind_ext. intros a2. apply IHi.
Qed.
Lemma death_view s old new i : log_prob_death_parameters s (view old) (view new) i = log_prob_death_parameters s old new i.
Proof.
  unfold log_prob_death_parameters. rewrite !view_get.
  assert (B : forall x j ps acc, log_prob_death_loop ps x i j (view old) (view new) acc = log_prob_death_loop ps x i j old new acc).
  { intros x j. induction ps as [|[k [pr|s']] t IH]; intros acc; [reflexivity| |]; cbn [log_prob_death_loop]; rewrite !view_get.
    - rewrite !num_at_view. do 5 (apply rbind_ext; intros ?). apply IH.
    - rewrite rbind_state_at. apply rbind_ext. intros o. rewrite rbind_state_at. apply rbind_ext. intros n.
      destruct (is_disc s'); [rewrite lpd_view; apply rbind_ext; intros ?|]; apply IH. }
  destruct (sp_cls s) as [|lo hi sd [|]|d lo hi sd poly kd [|]]; try reflexivity;
    (rewrite site_at_view; apply rbind_ext; intros x; rewrite nearest_view; apply rbind_ext; intros j; apply B).
Qed.
