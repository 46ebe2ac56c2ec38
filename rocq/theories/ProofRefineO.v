(** Samplers in memory and samplers of values: single chains. *)
From Verif Require Import Base ModelUtils1D ModelPrior ModelState ModelSpace ModelChain ModelSampler ModelPerturb ModelLikelihood ModelHeap
  ModelHeapSampler SpecState SpecSpace SpecChain SpecRun SpecHeap SpecRefine SpecRefineChain SpecRefineSampler ProofState ProofSpace ProofChain
  ProofRun ProofRunB ProofRunC ProofHeap ProofHeapB ProofRefine ProofRefineB ProofRefineF ProofRefineK ProofRefineL ProofRefineM ProofRefineN.
Local Open Scope R_scope.

(** * Both runs, and what changes *)
Definition simo {A B} (S : loc -> Prop) (h : heap) (m : HM A) (v : M B) (R : heap -> A -> B -> Prop) : Prop :=
  forall tr, only S h (snd (m h tr)) /\ agree R (m h tr) (v tr).
Definition plus (S : loc -> Prop) (h : heap) (l : loc) : Prop := S l \/ (length h <= l)%nat.
Lemma simo_bind {A B A' B'} S h (m : HM A) (v : M B) R (f : A -> HM A') (g : B -> M B') T :
  simo S h m v R -> (forall h' a b, only S h h' -> R h' a b -> simo (plus S h) h' (f a) (g b) T) ->
  simo S h (hbind m f) (bind v g) T.
Proof.
  intros H K tr. destruct (H tr) as [U H1]. unfold hbind, bind, agree in *.
  destruct (m h tr) as [[a t|e t| |] h1]; destruct (v tr) as [b t'|e' t'| |]; cbn in *; try tauto.
  destruct H1 as (-> & Hr). destruct (K h1 a b U Hr t') as [U2 K2]. split; auto.
  eapply only_trans; [exact U|exact U2|]. unfold plus. intros x L [?|?]; [auto|lia].
Qed.
Lemma simo_ret {A B} S h (a : A) (b : B) (R : heap -> A -> B -> Prop) : R h a b -> simo S h (hret a) (ret b) R.
Proof. intros H tr. split; [apply only_refl|]. cbn. auto. Qed.
Lemma simo_do {A} S h (m : M A) : simo S h (hdo m) m (fun h' a b => a = b /\ h' = h).
Proof. intros tr. split; [apply only_refl|]. unfold agree, hdo. cbn. destruct (m tr); cbn; auto. Qed.
Lemma simo_weaken {A B} (S S' : loc -> Prop) h (m : HM A) (v : M B) (R R' : heap -> A -> B -> Prop) :
  simo S h m v R -> (forall a, (a < length h)%nat -> S a -> S' a) -> (forall h' a b, only S h h' -> R h' a b -> R' h' a b) -> simo S' h m v R'.
Proof.
  intros H W1 W2 tr. destruct (H tr) as [U H1]. split; [eapply only_mono; eauto|]. unfold agree in *.
  destruct (m h tr) as [[a t|e t| |] h1]; destruct (v tr) as [b t'|e' t'| |]; cbn in *; auto. destruct H1 as (-> & H1). auto.
Qed.
Lemma simo_ext {A B} S h (m : HM A) (v v' : M B) R : (forall tr, v tr = v' tr) -> simo S h m v' R -> simo S h m v R.
Proof. intros E H tr. rewrite E. apply H. Qed.
Lemma simo_undef {A B} S h R : simo S h (hdo (@ubeh A)) (@ubeh B) R.
Proof. intros tr. split; [apply only_refl|]. exact I. Qed.
Lemma simo_of {A B} S h (m : HM A) (v : M B) R Q : sim h m v R -> fr S h m Q -> simo S h m v (fun h' a b => R h' a b /\ Q a).
Proof.
  intros H F tr. specialize (H tr). destruct (F tr) as [U F1]. split; auto. unfold agree in *.
  destruct (m h tr) as [[a t|e t| |] h1]; destruct (v tr) as [b t'|e' t'| |]; cbn in *; auto. destruct H as (-> & _ & H). eauto.
Qed.
Lemma simo_fr {A B} S S' h (m : HM A) (v : M B) R Q : simo S h m v R -> fr S' h m Q -> simo S' h m v (fun h' a b => R h' a b /\ Q a).
Proof.
  intros H F tr. destruct (H tr) as [_ H1]. destruct (F tr) as [U F1]. split; auto. unfold agree in *.
  destruct (m h tr) as [[a t|e t| |] h1]; destruct (v tr) as [b t'|e' t'| |]; cbn in *; auto. destruct H1 as (-> & H1). eauto.
Qed.
Lemma simo_with {A B} S h (m : HM A) (v : M B) R : simo S h m v R ->
  simo S h m v (fun h' a b => R h' a b /\ exists tr tr', v tr = Ret b tr').
Proof.
  intros H tr. destruct (H tr) as [U H1]. split; auto. unfold agree in *. destruct (m h tr) as [[a t|e t| |] h1]; destruct (v tr) eqn:Ev; cbn in *; auto.
  destruct H1 as (-> & Hr). eauto 8.
Qed.

(** * One pass *)
Lemma fr_try_pfunc S h f a : fr S h (htry (h_pfunc f a)) (fun r => match r with inl x => (length h <= fst x)%nat | inr _ => True end).
Proof.
  apply fr_try with (Q := fun x => (length h <= fst x)%nat). intros tr. destruct (ok_pfunc f (length h) h a (le_n _) tr) as [V Q].
  split; [eapply ev_only; eauto|]. intros x t Hx. now destruct (Q x t Hx).
Qed.
Lemma fr_attempt (S : loc -> Prop) h E c : (forall ty f, In (ty, f) (he_funcs E) -> exists g, f = h_pfunc g) ->
  S (c_cur c) -> fr S h (h_attempt E c) (same_or_new h c).
Proof.
  intros Hf Sc. unfold h_attempt. eapply fr_bind; [apply fr_do|]. intros h1 oi U1 _. pose proof (only_length _ _ _ U1) as L1.
  destruct oi as [i|e]; [|apply fr_ret; now left].
  destruct (nth_error (he_funcs E) i) as [[ty f]|] eqn:Ef; [|apply fr_ret; now left].
  destruct (Hf ty f (nth_error_In _ _ Ef)) as [g ->].
  eapply fr_bind; [apply fr_try_pfunc|]. intros h2 r U2 Hr. pose proof (only_length _ _ _ U2) as L2.
  destruct r as [[new lpr]|e]; [|destruct e; apply fr_ret; now left]. cbn [fst] in Hr.
  assert (Hd : forall S h3 llr, fr S h3 (h_decide E ty new lpr llr c) (same_or_new h c)) by (intros; apply fr_decide; lia).
  destruct (eisinf lpr); [apply Hd|].
  eapply fr_bind; [apply fr_h_like; [left; now left|right; exact Hr]|]. intros h3 l _ _.
  destruct l as [llr|e]; [apply Hd|]. destruct e; apply fr_ret; now left.
Qed.
Lemma same_or_new_trans {A B} h h1 c (x : chain loc hout * A) (y : chain loc hout * B) : (length h <= length h1)%nat ->
  same_or_new h c x -> same_or_new h1 (fst x) y -> same_or_new h c y.
Proof.
  unfold same_or_new. intros L [H|H] [K|K]; [left|right|right|right]; try congruence; try (rewrite K; exact H); unfold loc in *; lia.
Qed.

(** * Setting a temperature *)
Lemma run_set_temp h c d at_ t ca x T tr : nth_error h (c_cur c) = Some (HState d at_ t ca x) ->
  h_set_temperature T c h tr = (Ret (with_temp T c) tr, set_nth h (c_cur c) (HState d at_ T ca x)).
Proof.
  intros Ea. unfold h_set_temperature, hbind at 1. rewrite (run_load_state _ _ _ _ _ _ _ _ Ea). cbn beta iota.
  unfold hbind. rewrite run_store; [reflexivity|]. now apply lt_of_nth in Ea.
Qed.

Section Chains.
Variables (spaces : list space) (ll : loglike) (save : bool).
Variable like : heap -> loc -> loc -> R -> M ((dict centry * dict ovalue) * (dict centry * dict ovalue) * (ext + exn)).
Hypothesis Hlike : likelihood_reads ll like.
Hypothesis Hset : setup_ok spaces (ll_targets ll).
Hypothesis Hhier : ll_hier ll = hier_of (ll_targets ll).
Let E := h_inversion_env spaces ll save like.
Let E' := inversion_env spaces ll save.
Let P := good spaces (ll_targets ll).

Lemma funcs_are ty f : In (ty, f) (he_funcs E) -> exists g, f = h_pfunc g.
Proof. cbn. intros H. apply in_map_iff in H. destruct H as ([g w] & [= _ <-] & _). eauto. Qed.

Definition crel {A} (h0 : heap) (c : hchain) (h : heap) (x : hchain * A) (y : chain state ovalue * A) : Prop :=
  chain_stands h (fst x) (fst y) /\ snd x = snd y /\ P (c_cur (fst y)) /\ same_or_new h0 c x.
Definition hook_ok {A} (f : hchain -> HM (hchain * A)) (f' : chain state ovalue -> M (chain state ovalue * A)) : Prop :=
  forall (S : loc -> Prop) h c c', S (c_cur c) -> chain_stands h c c' -> P (c_cur c') -> simo S h (f c) (f' c') (crel h c).
Lemma crel_trans {A B} S h h1 c (x : hchain * A) y (x2 : hchain * B) y2 h2 : only S h h1 ->
  crel h c h1 x y -> crel h1 (fst x) h2 x2 y2 -> crel h c h2 x2 y2.
Proof.
  intros U (H1 & H2 & H3 & H4) (K1 & K2 & K3 & K4). split; [auto|split; [auto|split; auto]]. exact (same_or_new_trans h h1 c x x2 (only_length _ _ _ U) H4 K4).
Qed.
(** One hook after another. *)
Lemma hook_bind {A B} (S : loc -> Prop) h c c' (f : hchain -> HM (hchain * A)) f' (g : hchain -> A -> HM (hchain * B)) g' :
  hook_ok f f' -> (forall a, hook_ok (fun c => g c a) (fun c => g' c a)) -> S (c_cur c) -> chain_stands h c c' -> P (c_cur c') ->
  simo S h (hbind (f c) (fun x => g (fst x) (snd x))) (bind (f' c') (fun y => g' (fst y) (snd y))) (crel h c).
Proof.
  intros Hf Hg Sc H Hp. eapply simo_bind; [apply Hf; eauto|].
  intros h1 x y U K. pose proof K as (K1 & K2 & K3 & K4). rewrite K2. assert (Sx : plus S h (c_cur (fst x))) by (destruct K4 as [E1|L1]; [left; exact (eq_ind_r S Sc E1)|right; exact L1]).
  eapply simo_weaken; [exact (Hg (snd y) (plus S h) h1 (fst x) (fst y) Sx K1 K3)|auto|].
  intros h2 x2 y2 U2 C. eapply crel_trans; eauto.
Qed.
Lemma hook_ret {A} (a : A) : hook_ok (fun c => hret (c, a)) (fun c => ret (c, a)).
Proof. intros S h c c' Sc H Hp. apply simo_ret. split; [auto|split; [auto|split; auto]]. now left. Qed.
Lemma hook_undef {A} : hook_ok (fun c => hdo (@ubeh (hchain * A))) (fun c => ubeh).
Proof. intros S h c c' Sc H Hp. apply simo_undef. Qed.
Lemma hook_attempt : hook_ok (h_attempt E) (attempt E').
Proof.
  intros S h c c' Sc H Hp. eapply simo_weaken.
  - apply simo_with. apply simo_of; [eapply sim_attempt; eauto|]. apply fr_attempt; [apply funcs_are|exact Sc].
  - auto.
  - intros h1 x y U [[[K1 K2] K3] (t & t' & Ea)]. split; [exact K1|]. split; [exact K2|]. split; [|exact K3]. destruct y as [c1 v].
    eapply attempt_cur; eauto. now apply HPres.
Qed.
Lemma hook_tries k : hook_ok (h_tries E k) (tries E' k).
Proof.
  induction k as [|k IH]; [apply hook_ret|]. intros S h c c' Sc H Hp. cbn [h_tries tries].
  eapply simo_bind; [apply hook_attempt; eauto|]. intros h1 [c1 v] [c1' v'] U K. pose proof K as (K1 & K2 & K3 & K4).
  cbn [fst snd] in K1, K2, K3. subst v'.
  assert (Sc1 : plus S h (c_cur c1)) by (destruct K4 as [E1|L1]; [left; exact (eq_ind_r S Sc E1)|right; exact L1]).
  assert (W : forall (m : HM (hchain * option exn)) m', simo (plus S h) h1 m m' (crel h1 c1) -> simo (plus S h) h1 m m' (crel h c)).
  { intros m m' G. eapply simo_weaken; [exact G|auto|]. intros h2 x2 y2 U2 C. eapply crel_trans; eauto. }
  destruct v; apply W; [apply IH; auto|apply hook_ret; auto..].
Qed.
Lemma hook_set_temp T : hook_ok (fun c => hbind (h_set_temperature T c) (fun c' => hret (c', @None exn))) (fun c => ret (set_temperature E' T c, None)).
Proof.
  intros S h c c' Sc H Hp tr. pose proof (cs_cur _ _ _ H) as R. pose proof R as (d & al & dl & Ea & Ed & D & G).
  unfold hbind at 1 2. rewrite (run_set_temp _ _ _ _ _ _ _ _ _ Ea). cbn [hret fst snd].
  assert (U : only S h (set_nth h (c_cur c) (HState d al T (st_cache (c_cur c')) (st_extra (c_cur c'))))) by (eapply only_set; eauto).
  split; [exact U|]. unfold agree. cbn. split; auto. split; [|split; [auto|split]].
  - cbn [fst]. destruct H. constructor; cbn; auto; [|eapply saved_only; eauto].
    destruct (U _ _ Ed) as (o & E3 & So). cbn in So. subst o. 
    eapply rep_state_mk; cbn.
    + apply nth_set_eq. now apply lt_of_nth in Ea.
    + exact E3.
    + eapply drel_mono; [|exact D]. intros. eapply rep_entry_only; eauto.
    + eapply arel_mono; [|exact G]. intros. eapply rep_entry_only; eauto.
  - cbn. exact (pr_temp _ _ (HPres spaces ll save Hset Hhier) T (c_cur c') Hp).
  - now left.
Qed.

(** * Iterations *)
Lemma hook_flag {A} b (f : hchain -> HM (hchain * A)) f' : hook_ok f f' -> hook_ok (fun c => f (set_flag b c)) (fun c => f' (set_flag b c)).
Proof. intros H S h c c' Sc K Hp. refine (H S h (set_flag b c) (set_flag b c') Sc _ Hp). now apply stands_flag. Qed.
Lemma hook_option {A} (o : option exn) (f : hchain -> HM (hchain * option A)) f' (g : exn -> option A) : hook_ok f f' ->
  hook_ok (fun c => match o with Some x => hret (c, g x) | None => f c end) (fun c => match o with Some x => ret (c, g x) | None => f' c end).
Proof. intros H. destruct o; [apply hook_ret|exact H]. Qed.
Lemma hook_then {A B} (f : hchain -> HM (hchain * A)) f' (g : hchain -> A -> HM (hchain * B)) g' :
  hook_ok f f' -> (forall a, hook_ok (fun c => g c a) (fun c => g' c a)) ->
  hook_ok (fun c => hbind (f c) (fun x => g (fst x) (snd x))) (fun c => bind (f' c) (fun y => g' (fst y) (snd y))).
Proof. intros Hf Hg S h c c' Sc H Hp. apply hook_bind; auto. Qed.
Lemma hook_print sc i : hook_ok
  (fun c => if sc_verbose sc then if (sc_print_every sc =? 0)%nat then hret (c, Some EZeroDiv)
     else if (i mod sc_print_every sc =? 0)%nat then match print_statistics c with Ok _ => hret (c, None) | Raise x => hret (c, Some x) | Undef => hdo ubeh end
     else hret (c, None) else hret (c, None))
  (fun c => if sc_verbose sc then if (sc_print_every sc =? 0)%nat then ret (c, Some EZeroDiv)
     else if (i mod sc_print_every sc =? 0)%nat then match print_statistics c with Ok _ => ret (c, None) | Raise x => ret (c, Some x) | Undef => ubeh end
     else ret (c, None) else ret (c, None)).
Proof.
  destruct (sc_verbose sc); [|apply hook_ret]. destruct (sc_print_every sc =? 0)%nat; [apply hook_ret|].
  destruct (i mod sc_print_every sc =? 0)%nat; [|apply hook_ret]. intros S h c c' Sc H Hp.
  unfold print_statistics. rewrite (cs_nprop_tot _ _ _ H), (cs_nprop _ _ _ H).
  destruct (c_nprop_tot c' =? 0)%nat; [now apply hook_ret|]. destruct (existsb _ _); now apply hook_ret.
Qed.
Lemma hook_ext {A} (f g : hchain -> HM (hchain * A)) f' g' : (forall c h tr, f c h tr = g c h tr) -> (forall c tr, f' c tr = g' c tr) ->
  hook_ok g g' -> hook_ok f f'.
Proof.
  intros H1 H2 K S h c c' Sc H Hp tr. rewrite H1, H2. apply K; auto.
Qed.
Lemma hbind_ext {A B} (m : HM A) (f g : A -> HM B) h tr : (forall a h tr, f a h tr = g a h tr) -> hbind m f h tr = hbind m g h tr.
Proof. intros H. unfold hbind. destruct (m h tr) as [[] ?]; auto. Qed.
Lemma bind_ext2 {A B} (m : M A) (f g : A -> M B) tr : (forall a tr, f a tr = g a tr) -> bind m f tr = bind m g tr.
Proof. intros H. unfold bind. destruct (m tr); auto. Qed.
Lemma hook_advance_one sc b e b' e' : hook_ok b b' -> hook_ok e e' ->
  hook_ok (h_advance_one E sc b e) (advance_one E' sc (Some b') (Some e')).
Proof.
  intros Hb He S h c c' Sc H Hp. unfold h_advance_one, advance_one. cbv zeta. rewrite (cs_nprop_tot _ _ _ H). set (i := Datatypes.S (c_nprop_tot c')).
  destruct (save_flag sc i) as [fl|x|]; [|now apply hook_ret|apply simo_undef]. cbn [call_hook]. unfold next_iteration.
  pose (p := fun c3 : hchain => if sc_verbose sc then if (sc_print_every sc =? 0)%nat then hret (c3, Some EZeroDiv)
     else if (i mod sc_print_every sc =? 0)%nat then match print_statistics c3 with Ok _ => hret (c3, None) | Raise x => hret (c3, Some x) | Undef => hdo ubeh end
     else hret (c3, None) else hret (c3, None)).
  pose (p' := fun c3 : chain state ovalue => if sc_verbose sc then if (sc_print_every sc =? 0)%nat then ret (c3, Some EZeroDiv)
     else if (i mod sc_print_every sc =? 0)%nat then match print_statistics c3 with Ok _ => ret (c3, None) | Raise x => ret (c3, Some x) | Undef => ubeh end
     else ret (c3, None) else ret (c3, None)).
  pose (q := fun c2 => hbind (e c2) (fun y => match snd y with Some x => hret (fst y, Some x) | None => p (fst y) end)).
  pose (q' := fun c2 => bind (e' c2) (fun y => match snd y with Some x => ret (fst y, Some x) | None => p' (fst y) end)).
  pose (r := fun c1 => hbind (h_tries E 500 c1) (fun y => match snd y with Some x => hret (fst y, Some x) | None => q (fst y) end)).
  pose (r' := fun c1 => bind (tries E' 500 c1) (fun y => match snd y with Some x => ret (fst y, Some x) | None => q' (fst y) end)).
  assert (K : hook_ok (fun c => hbind (b (set_flag fl c)) (fun y => match snd y with Some x => hret (fst y, Some x) | None => r (fst y) end))
                (fun c => bind (b' (set_flag fl c)) (fun y => match snd y with Some x => ret (fst y, Some x) | None => r' (fst y) end))).
  { apply (hook_then (fun c => b (set_flag fl c)) (fun c => b' (set_flag fl c)) (fun c o => match o with Some x => hret (c, Some x) | None => r c end)
      (fun c o => match o with Some x => ret (c, Some x) | None => r' c end)).
    - now apply hook_flag.
    - intros o. apply hook_option.
      apply (hook_then (h_tries E 500) (tries E' 500) (fun c o => match o with Some x => hret (c, Some x) | None => q c end)
        (fun c o => match o with Some x => ret (c, Some x) | None => q' c end)); [apply hook_tries|].
      intros o2. apply hook_option.
      apply (hook_then e e' (fun c o => match o with Some x => hret (c, Some x) | None => p c end)
        (fun c o => match o with Some x => ret (c, Some x) | None => p' c end)); [exact He|].
      intros o3. apply hook_option. apply hook_print. }
  intros tr. specialize (K S h c c' Sc H Hp tr). unfold r, r', q, q', p, p' in K.
  match goal with |- only _ _ (snd ?a) /\ agree _ ?a ?b => match type of K with only _ _ (snd ?a2) /\ agree _ ?a2 ?b2 =>
    replace a with a2; [replace b with b2; [exact K|]|] end end.
  - apply bind_ext2. intros [c1 [x|]] t; [reflexivity|]. cbn [fst snd]. apply bind_ext2. intros [c2 [x|]] t2; [reflexivity|]. cbn [fst snd].
    apply bind_ext2. intros [c3 [x|]] t3; reflexivity.
  - apply hbind_ext. intros [c1 [x|]] h1 t; [reflexivity|]. cbn [fst snd]. apply hbind_ext. intros [c2 [x|]] h2 t2; [reflexivity|]. cbn [fst snd].
    apply hbind_ext. intros [c3 [x|]] h3 t3; reflexivity.
Qed.
Lemma hook_advance n sc b e b' e' : hook_ok b b' -> hook_ok e e' ->
  hook_ok (h_advance_with E n sc b e) (advance E' n sc (Some b') (Some e')).
Proof.
  intros Hb He. induction n as [|n IH]; [apply hook_ret|]. 
  eapply (hook_ext _ (fun c => hbind (h_advance_one E sc b e c) (fun y => match snd y with Some x => hret (fst y, Some x) | None => h_advance_with E n sc b e (fst y) end))
    _ (fun c => bind (advance_one E' sc (Some b') (Some e') c) (fun y => match snd y with Some x => ret (fst y, Some x) | None => advance E' n sc (Some b') (Some e') (fst y) end))).
  - intros c h tr. cbn [h_advance_with]. apply hbind_ext. intros [c1 [x|]] h1 t; reflexivity.
  - intros c tr. cbn [advance]. apply bind_ext2. intros [c1 [x|]] t; reflexivity.
  - apply (hook_then (h_advance_one E sc b e) (advance_one E' sc (Some b') (Some e')) (fun c o => match o with Some x => hret (c, Some x) | None => h_advance_with E n sc b e c end)
      (fun c o => match o with Some x => ret (c, Some x) | None => advance E' n sc (Some b') (Some e') c end)).
    + now apply hook_advance_one.
    + intros o. now apply hook_option.
Qed.
Lemma hook_nothing : hook_ok h_nothing nothing.
Proof. exact (hook_ret None). Qed.
Lemma hook_sa_begin T0 burnin rate : hook_ok (h_sa_on_begin T0 burnin rate) (sa_on_begin E' T0 burnin rate).
Proof.
  intros S h c c' Sc H Hp. unfold h_sa_on_begin, sa_on_begin. cbv zeta. rewrite (cs_nprop_tot _ _ _ H).
  destruct (_ <? _)%nat; [now apply hook_set_temp|]. destruct (_ =? _)%nat; [now apply hook_set_temp|now apply hook_ret].
Qed.
Lemma hook_call_all f f' : hook_ok f f' -> hook_ok f (call_all [f']).
Proof.
  intros H. eapply hook_ext; [reflexivity| |exact H]. intros c tr. cbn. unfold bind, ret. destruct (f' c tr) as [[c1 [x|]] t|x t| |]; reflexivity.
Qed.
End Chains.
