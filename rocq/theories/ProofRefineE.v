(** Moves of sites and values with objects and with values. *)
From Verif Require Import Base ModelUtils1D ModelPrior ModelState ModelSpace ModelChain ModelPerturb ModelLikelihood ModelHeap
  SpecState SpecHeap SpecRefine ProofInversion ProofState ProofSpace ProofSpaceC ProofNested ProofStep ProofHeapB
  ProofRefine ProofRefineB ProofRefineC ProofRefineD.
Local Open Scope R_scope.

(** * Changes of objects that did not exist in [h0] *)
Definition simb {A B} (h0 h : heap) (m : HM A) (v : M B) (R : heap -> A -> B -> Prop) : Prop :=
  forall tr, agree (fun h' a b => untouched h0 h' /\ R h' a b) (m h tr) (v tr).
Lemma sim_b {A B} h (m : HM A) (v : M B) R : simb h h m v R -> sim h m v R.
Proof. intros H. exact H. Qed.
Lemma simb_sim {A B} h0 h (m : HM A) (v : M B) R : untouched h0 h -> sim h m v R -> simb h0 h m v R.
Proof.
  intros U H tr. specialize (H tr). unfold agree in *. destruct (m h tr) as [[a t|e t| |] h1]; destruct (v tr); cbn in *; auto.
  destruct H as (-> & U1 & Hr). repeat split; auto. eapply untouched_trans; eauto.
Qed.
Lemma simb_step {A A' B} h0 h h1 (m : HM A) a (f : A -> HM A') (v : M B) R :
  (forall tr, m h tr = (Ret a tr, h1)) -> simb h0 h1 (f a) v R -> simb h0 h (hbind m f) v R.
Proof. intros E H tr. unfold hbind. rewrite E. apply H. Qed.
Lemma simb_lift {A A' B'} h0 h (r : res A) (f : A -> HM A') (g : A -> M B') S :
  (forall x, r = Ok x -> simb h0 h (f x) (g x) S) -> simb h0 h (hbind (hlift r) f) (bind (lift r) g) S.
Proof.
  intros K. destruct r as [x|e|]; intros tr.
  - apply (K x eq_refl).
  - cbn. auto.
  - exact I.
Qed.
Lemma simb_draw {A A' B'} h0 h (m : M A) (f : A -> HM A') (g : A -> M B') S :
  (forall x, simb h0 h (f x) (g x) S) -> simb h0 h (hbind (hdo m) f) (bind m g) S.
Proof. intros K tr. unfold hbind, hdo, bind. destruct (m tr) as [x t|e t| |]; cbn; auto. apply K. Qed.
Lemma simb_ret {A B} h0 h (a : A) (b : B) (R : heap -> A -> B -> Prop) : untouched h0 h -> R h a b -> simb h0 h (hret a) (ret b) R.
Proof. intros U H tr. cbn. repeat split; auto. Qed.
Lemma simb_bind {A B A' B'} h0 h (m : HM A) (v : M B) R (f : A -> HM A') (g : B -> M B') S :
  sim h m v R -> (forall h' a b, untouched h h' -> R h' a b -> simb h0 h' (f a) (g b) S) ->
  simb h0 h (hbind m f) (bind v g) S.
Proof.
  intros H K tr. specialize (H tr). unfold hbind, bind, agree in *.
  destruct (m h tr) as [[a t|e t| |] h1]; destruct (v tr) as [b t'|e' t'| |]; cbn in *; try tauto.
  destruct H as (-> & U & Hr). exact (K h1 a b U Hr t').
Qed.
Lemma set_last {A} (l : list A) x y : set_nth (l ++ [x]) (length l) y = l ++ [y].
Proof.
  unfold set_nth. rewrite firstn_app, Nat.sub_diag, firstn_all, app_nil_r. rewrite skipn_all2; [reflexivity|].
  rewrite app_length. cbn. lia.
Qed.

Lemma nth_error_in_len {A} (l : list A) i x : nth_error l i = Some x -> (i < length l)%nat.
Proof. intros H. apply nth_error_Some. now rewrite H. Qed.

(** * Moves of sites *)
Lemma sim_reorder is h b v : repv h b v -> sim h (h_reorder is b) (lift (reorder is v)) repv.
Proof.
  intros Hv. unfold h_reorder.
  destruct Hv as [b l E|b l E|b ls ps E F|b ls ps E F]; (eapply sim_load; [exact E|]); cbn [reorder]; cbv beta iota.
  - apply sim_lift_res. intros l' _. apply sim_alloc_ret. constructor. apply nth_new.
  - apply sim_lift_res. intros l' _. apply sim_alloc_ret. constructor. apply nth_new.
  - pose proof (F2_pick _ _ _ is F) as P. destruct (pick ls is), (pick ps is); try tauto; intros tr; cbn; subst; auto.
    repeat split; [apply untouched_app|]. econstructor; [apply nth_new|]. eapply reps_kept; [apply untouched_app|exact P].
  - pose proof (F2_pick _ _ _ is F) as P. destruct (pick ls is), (pick ps is); try tauto; intros tr; cbn; subst; auto.
    repeat split; [apply untouched_app|]. econstructor; [apply nth_new|]. eapply reps_kept; [apply untouched_app|exact P].
Qed.
Definition drel2 (h : heap) (x : dict loc * ext) (y : dict value * ext) : Prop := drel (repv h) (fst x) (fst y) /\ snd x = snd y.
Lemma sim_pv_loop a old i x x' hput put params :
  (forall h b v, repv h b v -> sim h (hput b) (lift (put v)) repv) ->
  forall h dl vals acc, rep h a old -> drel (repv h) dl vals ->
  sim h (h_perturb_value_loop params a i x x' hput dl acc) (lift (perturb_value_loop params old i x x' put vals acc)) drel2.
Proof.
  intros Hput. induction params as [|[k pr] t IH]; intros h dl vals acc R D.
  - cbn. now apply sim_ret.
  - cbn [h_perturb_value_loop perturb_value_loop].
    assert (S1 : sim h (match pr with
              | PPrior p =>
                  if p_pos p then
                    old <~ view_ps a ;;
                    v <~ hlift (num_at (ps_get k old) i) ;;
                    lo <~ hlift (p_log_prior p v (Some x)) ;;
                    ln_ <~ hlift (p_log_prior p v (Some x')) ;;
                    hret (eadd acc (esub ln_ lo))
                  else hret acc
              | PSpace _ => hret acc
              end) (lift (match pr with
               | PPrior p =>
                   if p_pos p then
                     v <-? num_at (ps_get k old) i ;;
                     lo <-? p_log_prior p v (Some x) ;;
                     ln_ <-? p_log_prior p v (Some x') ;;
                     Ok (eadd acc (esub ln_ lo))
                   else Ok acc
               | PSpace _ => Ok acc
               end)) (fun h' c e => h' = h /\ c = e)).
    { destruct pr as [p|s']; [|now apply sim_ret]. destruct (p_pos p); [|now apply sim_ret].
      eapply sim_view; [exact R|]. rewrite view_get, num_at_view. do 3 (apply sim_lift_res; intros ? _). now apply sim_ret. }
    eapply sim_ext; [intros tr; apply lift_bind|].
    eapply sim_get; [exact R| |].
    + intros b w E Hw. eapply sim_bind; [exact S1|]. cbn beta. intros h1 c e _ [-> ->]. rewrite E.
      eapply sim_ext; [intros tr; apply lift_bind|]. eapply sim_bind; [apply Hput; exact Hw|].
      intros h2 b' v' U2 R2. apply IH; [eapply rep_kept; eauto|]. apply drel_set; [eapply drel_kept; eauto|exact R2].
    + intros E. eapply sim_bind; [exact S1|]. cbn beta. intros h1 c e _ [-> ->]. rewrite E. intros tr. cbn. auto.
Qed.
Lemma sim_perturb_value s h a p i : rep h a p -> sim h (h_perturb_value s a i) (perturb_value s p i) rep2.
Proof.
  intros R. destruct (rep_inv _ _ _ R) as (d & al & cl & dl & E1 & E2 & D & G). unfold h_perturb_value, perturb_value.
  eapply sim_load_ps; [exact E1|]. eapply sim_view; [exact R|]. rewrite view_get, site_at_view.
  apply sim_lift. intros x Ex. apply sim_draw. intros x'.
  eapply sim_get; [exact R| |].
  2:{ intros E. rewrite E in Ex. discriminate. }
  intros b w E Hw. rewrite E in *. eapply sim_bind with (R := drel2).
  - destruct Hw as [b l Eo|b l Eo|b ls ps Eo F|b ls ps Eo F]; try discriminate.
    + assert (Hi : (i < length l)%nat).
      { unfold site_at in Ex. cbn in Ex. unfold idx in Ex. destruct (nth_error (map P1 l) i) eqn:En; [|discriminate].
        apply nth_error_in_len in En. now rewrite map_length in En. }
      apply sim_b. apply simb_step with (h1 := h ++ [HArr l]) (a := length h).
      { intros tr. unfold h_copy_arr, hbind, load. rewrite Eo. reflexivity. }
      destruct x' as [y|y].
      * apply simb_step with (h1 := h ++ [HArr (set_nth l i y)]) (a := tt).
        { intros tr. unfold h_put_num, hbind, load. rewrite nth_new. destruct (Nat.ltb_spec i (length l)); [|lia].
          rewrite run_store by (rewrite app_length; cbn; lia). now rewrite set_last. }
        apply simb_sim; [apply untouched_app|]. eapply sim_load; [apply nth_new|]. cbv beta iota zeta.
        assert (R1 : repv (h ++ [HArr (set_nth l i y)]) (length h) (Arr (set_nth l i y))) by (constructor; apply nth_new).
        pose proof (sim_reorder (argsort (set_nth l i y)) _ _ _ R1) as S1. cbn [reorder] in S1.
        assert (EX : forall tr, lift (sites2 <-? pick (set_nth l i y) (argsort (set_nth l i y)) ;;
            perturb_value_loop (sp_params s) p i x (P1 y) (reorder (argsort (set_nth l i y))) [(disc_key, Arr sites2)] (Fin 0)) tr =
          bind (lift (l' <-? pick (set_nth l i y) (argsort (set_nth l i y)) ;; Ok (Arr l'))) (fun v =>
            lift (perturb_value_loop (sp_params s) p i x (P1 y) (reorder (argsort (set_nth l i y))) [(disc_key, v)] (Fin 0))) tr).
        { intros tr. now destruct (pick (set_nth l i y) (argsort (set_nth l i y))). }
        eapply sim_ext; [exact EX|]. eapply sim_bind; [exact S1|].
        intros h2 e2 v U2 R2. apply sim_pv_loop.
        -- intros. now apply sim_reorder.
        -- eapply rep_kept; [exact U2|]. eapply rep_kept; [apply untouched_app|exact R].
        -- constructor; [split; [reflexivity|exact R2]|constructor].
      * apply simb_sim; [apply untouched_app|]. intros tr. unfold h_put_row, hbind, load. rewrite nth_new. exact I.
    + assert (Hi : (i < length l)%nat).
      { unfold site_at in Ex. cbn in Ex. unfold idx in Ex. destruct (nth_error (map PN l) i) eqn:En; [|discriminate].
        apply nth_error_in_len in En. now rewrite map_length in En. }
      apply sim_b. apply simb_step with (h1 := h ++ [HArrN l]) (a := length h).
      { intros tr. unfold h_copy_arr, hbind, load. rewrite Eo. reflexivity. }
      destruct x' as [y|y].
      * apply simb_sim; [apply untouched_app|]. intros tr. unfold h_put_num, hbind, load. rewrite nth_new. exact I.
      * apply simb_step with (h1 := h ++ [HArrN (set_nth l i y)]) (a := tt).
        { intros tr. unfold h_put_row, hbind, load. rewrite nth_new. destruct (Nat.ltb_spec i (length l)); [|lia].
          rewrite run_store by (rewrite app_length; cbn; lia). now rewrite set_last. }
        apply simb_sim; [apply untouched_app|]. apply sim_pv_loop.
        -- intros h1 b1 v1 H1. now apply sim_ret.
        -- eapply rep_kept; [apply untouched_app|exact R].
        -- constructor; [split; [reflexivity|constructor; apply nth_new]|constructor].
  - intros h1 [dl1 l1] [vals1 l2] U1 [D1 El]. cbn in D1, El. subst l2. apply sim_mk; [exact D1|].
    intros h2 q q' _ _ Rq. eapply sim_bind; [apply sim_add_kdtree; exact Rq|].
    intros h3 q2 q2' U2 R2. apply sim_ret. now split.
Qed.

(** * Moves of values *)
Lemma sim_perturb_params i l : forall h a p newl newv acc, rep h a p -> drel (repv h) newl newv ->
  sim h (h_perturb_params l a i newl acc) (perturb_params l p i newv acc) rep2.
Proof.
  induction l as [|[pr|s] t IH]; intros h a p newl newv acc R N.
  - cbn [h_perturb_params perturb_params]. apply sim_b. eapply simb_bind; [apply sim_copy_ps; exact R|].
    intros h' c q U (h1 & dl & al & cl & -> & -> & U1 & D & G).
    pose proof (nth_two h1 (HDict dl) (HPS (ps_n q) (length h1) al cl)) as [N1 N2].
    eapply simb_step; [intros tr; apply run_load_ps; exact N2|].
    eapply simb_step; [intros tr; apply run_load_dict; exact N1|].
    apply simb_step with (h1 := h1 ++ [HDict (dupdate dl newl); HPS (ps_n q) (length h1) al cl]) (a := tt).
    { intros tr. rewrite run_store by (rewrite app_length; cbn; lia). now rewrite (proj1 (set_two h1 _ _ _)). }
    apply simb_ret; [eapply untouched_trans; [exact U1|apply untouched_app]|]. split; [|reflexivity]. cbn [fst].
    pose proof (nth_two h1 (HDict (dupdate dl newl)) (HPS (ps_n q) (length h1) al cl)) as [N3 N4].
    eapply rep_mk; [exact N4|exact N3| |].
    + cbn. eapply drel_kept; [apply untouched_app|]. apply drel_update; [eapply drel_kept; eauto|exact D].
    + cbn. eapply arel_kept; [apply untouched_app|exact G].
  - cbn [h_perturb_params perturb_params]. eapply sim_get; [exact R| |].
    2:{ intros E. rewrite E. apply sim_err. }
    intros b w E Hw. rewrite E. eapply sim_view; [exact R|]. rewrite !view_get, num_at_view, E.
    apply sim_lift. intros old Eold.
    destruct Hw as [b l Eo|b l Eo|b ls ps Eo F|b ls ps Eo F]; try discriminate.
    assert (Hi : (i < length l)%nat).
    { cbn in Eold. unfold idx in Eold. destruct (nth_error l i) eqn:En; [|discriminate]. eapply nth_error_in_len; exact En. }
    apply sim_b. apply simb_step with (h1 := h ++ [HArr l]) (a := length h).
    { intros tr. unfold h_copy_arr, hbind, load. rewrite Eo. reflexivity. }
    assert (EX : match option_map view_value (ps_get disc_key p) with
                 | None => Ok None | Some d => x <-? site_at (Some d) i ;; Ok (Some x) end =
                 match ps_get disc_key p with
                 | None => Ok None | Some d => x <-? site_at (Some d) i ;; Ok (Some x) end).
    { destruct (ps_get disc_key p) as [d|]; [|reflexivity]. cbn [option_map]. change (Some (view_value d)) with (option_map view_value (Some d)).
      now rewrite site_at_view. }
    rewrite EX. apply simb_lift. intros at_ _. apply simb_draw. intros [nv r].
    apply simb_step with (h1 := h ++ [HArr (set_nth l i nv)]) (a := tt).
    { intros tr. unfold h_put_num, hbind, load. rewrite nth_new. destruct (Nat.ltb_spec i (length l)); [|lia].
      rewrite run_store by (rewrite app_length; cbn; lia). now rewrite set_last. }
    cbn [set_num]. destruct (Nat.ltb_spec i (length l)); [|lia].
    apply simb_sim; [apply untouched_app|]. apply IH.
    + eapply rep_kept; [apply untouched_app|exact R].
    + apply drel_set; [eapply drel_kept; [apply untouched_app|exact N]|]. constructor. apply nth_new.
  - cbn [h_perturb_params perturb_params]. destruct (is_disc s); [now apply sim_perturb_value|apply sim_err].
Qed.
Lemma sim_elem e h a p : rep h a p -> sim h (h_elem_perturb e a) (elem_perturb e p) rep2.
Proof.
  intros R. destruct e as [s|s|n l]; cbn [h_elem_perturb elem_perturb]; [now apply sim_birth|now apply sim_death|].
  unfold h_param_perturb, param_perturb. destruct (rep_inv _ _ _ R) as (d & al & cl & dl & E1 & E2 & D & G).
  eapply sim_load_ps; [exact E1|]. apply sim_draw. intros i. apply sim_perturb_params; [exact R|constructor].
Qed.
