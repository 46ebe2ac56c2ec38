(** Elementary moves with objects and with values. *)
From Verif Require Import Base ModelUtils1D ModelPrior ModelState ModelSpace ModelChain ModelPerturb ModelLikelihood ModelHeap
  SpecState SpecHeap SpecRefine ProofInversion ProofState ProofSpace ProofSpaceC ProofNested ProofStep ProofHeapB
  ProofRefine ProofRefineB ProofRefineC.
Local Open Scope R_scope.

Lemma sim_draw_from {A A' B'} h (m : M A) (f : A -> HM A') (g : A -> M B') S :
  (forall x, (exists tr tr', m tr = Ret x tr') -> sim h (f x) (g x) S) -> sim h (hbind (hdo m) f) (bind m g) S.
Proof.
  intros K tr. unfold hbind, hdo, bind. destruct (m tr) as [x t|e t| |] eqn:E; cbn; auto.
  apply (K x). eauto.
Qed.
Lemma sim_new_alloc {B} h p o (w : B) (R : heap -> loc -> B -> Prop) : in_step p ->
  (forall h' a, untouched h h' -> rep h' a p -> R (h' ++ [o a]) (length h') w) ->
  sim h (hbind (h_new p) (fun a => alloc (o a))) (ret w) R.
Proof. intros Hp K. apply sim_new; [exact Hp|]. intros h' a U Ra. apply sim_alloc_ret. auto. Qed.

(** * Lists *)
Lemma F2_app {A B} (R : A -> B -> Prop) l1 l1' l2 l2' : Forall2 R l1 l1' -> Forall2 R l2 l2' -> Forall2 R (l1 ++ l2) (l1' ++ l2').
Proof. intros F. induction F; cbn; auto. Qed.
Lemma F2_firstn {A B} (R : A -> B -> Prop) l l' : Forall2 R l l' -> forall i, Forall2 R (firstn i l) (firstn i l').
Proof. intros F. induction F; intros [|i]; cbn; constructor; auto. Qed.
Lemma F2_skipn {A B} (R : A -> B -> Prop) l l' : Forall2 R l l' -> forall i, Forall2 R (skipn i l) (skipn i l').
Proof. intros F. induction F; intros [|i]; cbn; try constructor; auto. Qed.
Lemma F2_insert {A B} (R : A -> B -> Prop) i x y l l' : R x y -> Forall2 R l l' -> Forall2 R (list_insert i x l) (list_insert i y l').
Proof. intros H F. unfold list_insert. apply F2_app; [now apply F2_firstn|]. constructor; [exact H|now apply F2_skipn]. Qed.
Lemma F2_delete {A B} (R : A -> B -> Prop) i l l' : Forall2 R l l' -> Forall2 R (list_delete i l) (list_delete i l').
Proof. intros F. unfold list_delete. apply F2_app; [now apply F2_firstn|now apply F2_skipn]. Qed.
Lemma F2_nth {A B} (R : A -> B -> Prop) l l' : Forall2 R l l' -> forall i,
  match nth_error l i, nth_error l' i with Some x, Some y => R x y | None, None => True | _, _ => False end.
Proof. intros F. induction F; intros [|i]; cbn; auto. apply IHF. Qed.
Lemma F2_pick {A B} (R : A -> B -> Prop) l l' is : Forall2 R l l' ->
  match pick l is, pick l' is with
  | Ok x, Ok y => Forall2 R x y
  | Raise e, Raise e' => e = e'
  | Undef, Undef => True
  | _, _ => False
  end.
Proof.
  intros F. unfold pick. induction is as [|i is IH]; cbn [rmap]; [constructor|].
  assert (N : match idx l i, idx l' i with Ok x, Ok y => R x y | Raise e, Raise e' => e = e' | _, _ => False end).
  { pose proof (F2_nth R l l' F i) as N. unfold idx. now destruct (nth_error l i), (nth_error l' i). }
  destruct (idx l i), (idx l' i); cbn [rbind]; try tauto.
  destruct (rmap (idx l) is), (rmap (idx l') is); cbn; auto.
Qed.

(** * Births *)
Lemma sim_insert h i x b v : repv h b v -> born_in_step x -> sim h (h_insert i x b) (lift (insert_value i x v)) repv.
Proof.
  intros Hv Hx. unfold h_insert.
  destruct Hv as [b l E|b l E|b ls ps E F|b ls ps E F]; (eapply sim_load; [exact E|]); destruct x as [r|p]; cbn [insert_value];
    try (intros tr; cbn; auto; fail).
  - apply sim_lift_res. intros l' _. apply sim_alloc_ret. constructor. apply nth_new.
  - apply sim_new_alloc; [exact Hx|]. intros h' a U Ra. econstructor; [apply nth_new|].
    apply F2_insert; [eapply rep_kept; [apply untouched_app|exact Ra]|].
    eapply reps_kept; [apply untouched_app|]. eapply reps_kept; eauto.
Qed.
Lemma sim_append h x b v : repv h b v -> born_in_step x -> sim h (h_append x b) (lift (append_value x (Some v))) repv.
Proof.
  intros Hv Hx. unfold h_append.
  destruct Hv as [b l E|b l E|b ls ps E F|b ls ps E F]; (eapply sim_load; [exact E|]); destruct x as [r|p]; cbn [append_value];
    try (intros tr; cbn; auto; fail).
  - apply sim_alloc_ret. constructor. apply nth_new.
  - apply sim_new_alloc; [exact Hx|]. intros h' a U Ra. econstructor; [apply nth_new|].
    apply F2_app; [|constructor; [eapply rep_kept; [apply untouched_app|exact Ra]|constructor]].
    eapply reps_kept; [apply untouched_app|]. eapply reps_kept; eauto.
Qed.
Lemma sim_plain_birth_vals params i dl vals : forall h, drel (repv h) dl vals ->
  sim h (h_plain_birth_vals params i dl) (plain_birth_vals params i vals) (fun h' x y => drel (repv h') x y).
Proof.
  revert vals. induction dl as [|[k b] dl IH]; intros vals h D.
  - inversion D; subst. cbn. apply sim_ret. constructor.
  - inversion D as [|x [k2 v] l l' [K1 K2] D']; subst. cbn in K1, K2. subst k2. cbn [h_plain_birth_vals plain_birth_vals].
    destruct (dget k params) as [pr|]; [|apply sim_err].
    apply sim_draw_from. intros x (t & t' & Ex). apply param_sample_step in Ex.
    eapply sim_bind; [apply sim_insert; eauto|]. intros h1 b' v' U1 R1. eapply sim_bind.
    + apply IH. eapply drel_kept; eauto.
    + cbn. intros h2 r r' U2 D2. apply sim_ret. constructor; [split; [reflexivity|eapply repv_kept; eauto]|exact D2].
Qed.
Definition rep2 (h : heap) (x : loc * ext) (y : psstate * ext) : Prop := rep h (fst x) (fst y) /\ snd x = snd y.
Lemma rep2_kept h h' x y : untouched h h' -> rep2 h x y -> rep2 h' x y.
Proof. intros U [A B]. split; [eapply rep_kept; eauto|auto]. Qed.
Lemma sim_plain_birth s h a p : rep h a p -> sim h (h_plain_birth s a) (plain_birth s p) rep2.
Proof.
  intros R. destruct (rep_inv _ _ _ R) as (d & al & cl & dl & E1 & E2 & D & G). unfold h_plain_birth, plain_birth.
  eapply sim_load_ps; [exact E1|]. destruct (ps_n p =? sp_max s)%nat; [apply sim_ret; now split|].
  apply sim_draw. intros i. eapply sim_load_dict; [exact E2|].
  eapply sim_bind; [apply sim_plain_birth_vals; exact D|]. cbn. intros h1 dl' vals' U1 D1.
  apply sim_mk; [exact D1|]. intros h2 q q' _ _ Rq. apply sim_ret. now split.
Qed.
Lemma sim_add_kdtree c h a p : rep h a p -> sim h (h_add_kdtree c a) (lift (add_kdtree c p)) rep.
Proof.
  intros R. unfold h_add_kdtree, add_kdtree.
  destruct c as [|lo0 hi0 sd0 fp0|dm0 lo0 hi0 sd0 po0 [|] fp0]; try (apply sim_ret; exact R).
  eapply sim_get; [exact R| |].
  - intros b w E Hw. rewrite E. destruct (rep_inv _ _ _ R) as (d & al & cl & dl & E1 & E2 & D & G).
    eapply sim_load_ps; [exact E1|].
    assert (La : (a < length h)%nat) by (apply nth_error_Some; congruence).
    assert (U : untouched h (set_nth h a (HPS (ps_n p) d al (dset "kdtree"%string b cl)))).
    { intros x o Ex. destruct (Nat.eq_dec x a) as [->|Hx].
      - exists (HPS (ps_n p) d al (dset "kdtree"%string b cl)). split.
        + rewrite nth_set_nth by auto. now rewrite Nat.eqb_refl.
        + rewrite E1 in Ex. injection Ex as <-. cbn. eauto.
      - exists o. split; [|apply same_data_refl]. rewrite nth_set_nth by auto. destruct (Nat.eqb_spec x a); [lia|auto]. }
    eapply sim_step; [intros tr; apply run_store; exact La|exact U|].
    apply sim_ret. apply (rep_kept _ _ _ _ U) in R. destruct (rep_inv _ _ _ R) as (d' & al' & cl' & dl' & E1' & E2' & D' & G').
    eapply rep_mk; eauto.
  - intros E. rewrite E. apply sim_err.
Qed.
Lemma sim_add_newborns a old (hput : newborn -> loc -> HM loc) (put : newborn -> option value -> res value) born :
  (forall x, put x None = Raise EType) ->
  (forall h x b v, repv h b v -> born_in_step x -> sim h (hput x b) (lift (put x (Some v))) repv) ->
  all_born born -> forall h dl vals, rep h a old -> drel (repv h) dl vals ->
  sim h (h_add_newborns hput a born dl) (lift (add_newborns put old born vals)) (fun h' x y => drel (repv h') x y).
Proof.
  intros Hn Hput. induction born as [|[k x] t IH]; intros Hb h dl vals R D.
  - cbn. now apply sim_ret.
  - cbn [h_add_newborns add_newborns]. eapply sim_ext; [intros tr; apply lift_bind|].
    assert (Hx : born_in_step x) by (eapply Hb; now left).
    assert (Ht : all_born t) by (intros k' x' Hi; eapply Hb; right; exact Hi).
    eapply sim_get; [exact R| |].
    + intros b w E Hw. rewrite E. eapply sim_bind; [apply Hput; eauto|].
      intros h1 b' v' U1 R1. apply IH; auto; [eapply rep_kept; eauto|]. apply drel_set; [eapply drel_kept; eauto|exact R1].
    + intros E. rewrite E, Hn. intros tr. cbn. auto.
Qed.
Lemma sim_vor_birth s h a p : rep h a p -> sim h (h_vor_birth s a) (vor_birth s p) rep2.
Proof.
  intros R. destruct (rep_inv _ _ _ R) as (d & al & cl & dl & E1 & E2 & D & G). unfold h_vor_birth, vor_birth.
  eapply sim_load_ps; [exact E1|]. eapply sim_bind with (R := rep2).
  - destruct (ps_n p =? sp_max s)%nat; [apply sim_ret; now split|].
    apply sim_draw. intros x. eapply sim_view; [exact R|].
    eapply sim_ext; [intros tr; eapply bind_ext; [symmetry; apply newborn_view|reflexivity]|].
    apply sim_draw_from. intros [born l] (t & t' & Eb). apply newborn_params_step in Eb.
    eapply sim_get; [exact R| |].
    + intros b w E Hw. rewrite E. eapply sim_bind with (R := fun h' x y => drel (repv h') x y).
      * destruct x as [y|y]; (destruct Hw as [b l0 Eo|b l0 Eo|b ls ps Eo F|b ls ps Eo F]; (eapply sim_load; [exact Eo|]);
          try (intros tr; cbn; exact I)).
        -- apply sim_lift_res. intros i _. apply sim_lift_res. intros st _. apply sim_alloc.
           apply sim_add_newborns with (put := insert_newborn i).
           ++ reflexivity.
           ++ intros h1 x b1 v Hv Hx. cbn [insert_newborn]. now apply sim_insert.
           ++ exact Eb.
           ++ eapply rep_kept; [apply untouched_app|exact R].
           ++ constructor; [|constructor]. split; [reflexivity|]. constructor. apply nth_new.
        -- apply sim_alloc. apply sim_add_newborns.
           ++ reflexivity.
           ++ intros h1 x b1 v Hv Hx. now apply sim_append.
           ++ exact Eb.
           ++ eapply rep_kept; [apply untouched_app|exact R].
           ++ constructor; [|constructor]. split; [reflexivity|]. constructor. apply nth_new.
      * cbn. intros h1 dl1 vals1 U1 D1. apply sim_mk; [exact D1|]. intros h2 q q' _ _ Rq. apply sim_ret. now split.
    + intros E. rewrite E. destruct x; intros tr; cbn; auto.
  - intros h1 [q l] [q' l'] U1 [Rq El]. cbn in Rq, El. subst l'. eapply sim_bind; [apply sim_add_kdtree; exact Rq|].
    intros h2 q2 q2' U2 R2. apply sim_ret. now split.
Qed.

(** * Deaths *)
Lemma sim_delete h i b v : repv h b v -> sim h (h_delete i b) (lift (delete_value i v)) repv.
Proof.
  intros Hv. unfold h_delete.
  destruct Hv as [b l E|b l E|b ls ps E F|b ls ps E F]; (eapply sim_load; [exact E|]); cbn [delete_value];
    try (intros tr; cbn; auto; fail).
  - apply sim_lift_res. intros l' _. apply sim_alloc_ret. constructor. apply nth_new.
  - apply sim_alloc_ret. econstructor; [apply nth_new|]. apply F2_delete. eapply reps_kept; [apply untouched_app|exact F].
Qed.
Lemma sim_vor_delete c h i b v : repv h b v -> sim h (h_vor_delete c i b) (lift (vor_delete_value c i v)) repv.
Proof.
  intros Hv. destruct c as [|lo0 hi0 sd0 fp0|dm0 lo0 hi0 sd0 po0 kd0 fp0]; try now apply sim_delete. unfold h_vor_delete, vor_delete_value.
  destruct Hv as [b l E|b l E|b ls ps E F|b ls ps E F]; (eapply sim_load; [exact E|]); cbv beta iota.
  - destruct (i <? length l)%nat; [|apply sim_err]. apply sim_alloc_ret. constructor. apply nth_new.
  - destruct (i <? length l)%nat; [|apply sim_err]. apply sim_alloc_ret. constructor. apply nth_new.
  - rewrite <- (Forall2_len _ _ _ F). destruct (i <? length ls)%nat; [|apply sim_err]. apply sim_alloc_ret.
    econstructor; [apply nth_new|]. apply F2_delete. eapply reps_kept; [apply untouched_app|exact F].
  - apply sim_alloc_ret. econstructor; [apply nth_new|]. apply F2_delete. eapply reps_kept; [apply untouched_app|exact F].
Qed.
Lemma sim_map_vals (hf : loc -> HM loc) (g : value -> res value) dl vals h :
  (forall h b v, repv h b v -> sim h (hf b) (lift (g v)) repv) -> drel (repv h) dl vals ->
  sim h (hmap (fun kb => hbind (hf (snd kb)) (fun b => hret (fst kb, b))) dl)
    (lift (rmap (fun kv => v <-? g (snd kv) ;; Ok (fst kv, v)) vals)) (fun h' x y => drel (repv h') x y).
Proof.
  intros Hf D. eapply (sim_hmap h _ _ _ (fun h' kb kv => fst kb = fst kv /\ repv h' (snd kb) (snd kv)) dl vals D).
  - intros h1 h2 c0 d0 U [K1 K2]. split; [auto|eapply repv_kept; eauto].
  - intros h' [k b] [k' v] Hin U [K1 K2]. cbn in K1, K2. subst k'. cbn [fst snd].
    eapply sim_ext; [intros tr; apply lift_bind|]. eapply sim_bind; [apply Hf; eapply repv_kept; eauto|].
    intros h2 b' v' U2 R2. apply sim_ret. now split.
Qed.
Lemma sim_plain_death s h a p : rep h a p -> sim h (h_plain_death s a) (plain_death s p) rep2.
Proof.
  intros R. destruct (rep_inv _ _ _ R) as (d & al & cl & dl & E1 & E2 & D & G). unfold h_plain_death, plain_death.
  eapply sim_load_ps; [exact E1|]. destruct (ps_n p =? sp_min s)%nat; [apply sim_ret; now split|].
  apply sim_draw. intros i. eapply sim_load_dict; [exact E2|].
  eapply sim_bind; [apply (sim_map_vals (h_delete i)); [intros; now apply sim_delete|exact D]|]. cbn. intros h1 dl' vals' U1 D1.
  apply sim_mk; [exact D1|]. intros h2 q q' _ _ Rq. apply sim_ret. now split.
Qed.
Lemma sim_vor_death s h a p : rep h a p -> sim h (h_vor_death s a) (vor_death s p) rep2.
Proof.
  intros R. destruct (rep_inv _ _ _ R) as (d & al & cl & dl & E1 & E2 & D & G). unfold h_vor_death, vor_death.
  eapply sim_load_ps; [exact E1|]. eapply sim_bind with (R := rep2).
  - destruct (ps_n p =? sp_min s)%nat; [apply sim_ret; now split|].
    apply sim_draw. intros i. eapply sim_load_dict; [exact E2|].
    eapply sim_bind; [apply (sim_map_vals (h_vor_delete (sp_cls s) i)); [intros; now apply sim_vor_delete|exact D]|].
    cbn. intros h1 dl' vals' U1 D1. apply sim_mk; [exact D1|]. intros h2 q q' _ Bt Rq.
    eapply sim_view; [eapply rep_kept; [|exact R]; eapply untouched_trans; [exact U1|apply (built_rep _ _ _ _ Bt)]|].
    eapply sim_view; [exact Rq|]. rewrite death_view. apply sim_lift. intros l _. apply sim_ret. now split.
  - intros h1 [q l] [q' l'] U1 [Rq El]. cbn in Rq, El. subst l'. eapply sim_bind; [apply sim_add_kdtree; exact Rq|].
    intros h2 q2 q2' U2 R2. apply sim_ret. now split.
Qed.
Lemma sim_birth s h a p : rep h a p -> sim h (h_birth s a) (birth s p) rep2.
Proof. intros R. unfold h_birth, birth. destruct (is_disc s); [now apply sim_vor_birth|now apply sim_plain_birth]. Qed.
Lemma sim_death s h a p : rep h a p -> sim h (h_death s a) (death s p) rep2.
Proof. intros R. unfold h_death, death. destruct (is_disc s); [now apply sim_vor_death|now apply sim_plain_death]. Qed.
