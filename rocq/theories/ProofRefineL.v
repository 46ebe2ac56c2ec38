(** Chains in memory and chains of values: what is saved. *)
From Verif Require Import Base ModelUtils1D ModelPrior ModelState ModelSpace ModelChain ModelPerturb ModelLikelihood ModelHeap
  SpecState SpecHeap SpecRefine SpecRefineChain ProofState ProofSpace ProofRunC ProofHeap ProofHeapB ProofRefine ProofRefineB ProofRefineF.
Local Open Scope R_scope.

(** * Related dictionaries *)
Definition dr {A B} (R : A -> B -> Prop) (d : dict A) (d' : dict B) : Prop :=
  Forall2 (fun x y => fst x = fst y /\ R (snd x) (snd y)) d d'.
Lemma dr_mono {A B} (R R' : A -> B -> Prop) d d' : (forall a b, R a b -> R' a b) -> dr R d d' -> dr R' d d'.
Proof. intros H. apply Forall2_mono. intros a b [? ?]. auto. Qed.
Lemma dr_get {A B} (R : A -> B -> Prop) d d' k : dr R d d' ->
  match dget k d, dget k d' with Some a, Some b => R a b | None, None => True | _, _ => False end.
Proof.
  intros F. induction F as [|[k1 a] [k2 b] l l' [K1 K2] F IH]; cbn [dget]; [exact I|]. cbn in K1, K2. subst k2.
  destruct (k =? k1)%string; auto.
Qed.
Lemma dr_set {A B} (R : A -> B -> Prop) d d' k a b : dr R d d' -> R a b -> dr R (dset k a d) (dset k b d').
Proof.
  intros F Hv. induction F as [|[k1 b1] [k2 v1] l l' [K1 K2] F IH]; cbn [dset].
  - repeat constructor; auto.
  - cbn in K1, K2. subst k2. destruct (k =? k1)%string; constructor; auto.
Qed.
Lemma dr_update {A B} (R : A -> B -> Prop) n n' : dr R n n' -> forall d d', dr R d d' -> dr R (dupdate d n) (dupdate d' n').
Proof.
  intros F. unfold dupdate. induction F as [|[k1 b1] [k2 v1] l l' [K1 K2] F IH]; intros d d' D; cbn; [exact D|].
  cbn in K1, K2. subst k2. apply IH. apply dr_set; auto.
Qed.
Lemma dr_fold {A B} (R : A -> B -> Prop) its its' : dr R its its' -> forall d d', dr R d d' ->
  dr R (fold_left (fun acc ko => dset (fst ko) (snd ko) acc) its d) (fold_left (fun acc ko => dset (fst ko) (snd ko) acc) its' d').
Proof. exact (dr_update R its its'). Qed.

(** * Saved items *)
Fixpoint stands_kept h h' (U : untouched h h') x y (H : stands h x y) {struct H} : stands h' x y.
Proof.
  destruct H as [n|r|b v Rv Nv|l ds F|o|d|n|l]; try (constructor; fail).
  - constructor; auto. eapply repv_kept; eauto.
  - constructor. induction F as [|q q' l l' G F IH]; constructor; [|exact IH].
    clear F IH. induction G as [|e e' m m' [K1 K2] G IH]; constructor; [|exact IH].
    split; [exact K1|]. exact (stands_kept h h' U _ _ K2).
Qed.
Lemma saved_kept h h' x y : untouched h h' -> saved_stands h x y -> saved_stands h' x y.
Proof.
  intros U. destruct x as [d|], y as [d'|]; cbn; auto. apply Forall2_mono. intros a b [K1 K2]. split; auto.
  eapply Forall2_mono; [|exact K2]. intros. eapply stands_kept; eauto.
Qed.

Lemma omap_rel {A B C} (R : A -> C -> Prop) (S : B -> C -> Prop) (f : A -> option B) l l' :
  Forall2 R l l' -> (forall a c, In c l' -> R a c -> exists b, f a = Some b /\ S b c) ->
  exists bs, omap f l = Some bs /\ Forall2 S bs l'.
Proof.
  intros F. induction F as [|a c l l' K F IH]; intros H; cbn [omap].
  - exists []. split; auto.
  - destruct (H a c (or_introl eq_refl) K) as (b & -> & Sb). destruct IH as (bs & -> & Sbs); [intros; apply H; cbn; auto|].
    exists (b :: bs). split; auto.
Qed.
Lemma fold_map {A B C} (g : A -> B) (f : C -> B -> C) l : forall acc,
  fold_left (fun acc a => f acc (g a)) l acc = fold_left f (map g l) acc.
Proof. induction l as [|a l IH]; intros acc; cbn; auto. Qed.
Lemma todict_rep f : forall h a p name, deep f p -> rep h a p ->
  exists d, h_todict f h name a = Some d /\ dr (stands h) d (ps_todict name p).
Proof.
  induction f as [|f IH]; intros h a p name Dp Rp; [inversion Dp|].
  destruct Rp as [a n d al cl dl vals attrs cache E1 E2 F G]. inversion Dp as [? ? ? ? ? Hd]; subst.
  cbn [h_todict]. rewrite E1, E2. rewrite todict_eq.
  destruct (omap_rel _ (fun ko kv => fst ko = (name ++ "." ++ fst kv)%string /\ stands h (snd ko) (show_value (name ++ "." ++ fst kv) (snd kv)))
    (fun kb =>
                   let key := (name ++ "." ++ fst kb)%string in
                   match nth_error h (snd kb) with
                   | Some (HLst l) =>
                       option_map (fun ds => (key, QList ds)) (omap (h_todict f h key) l)
                   | Some (HArr _) | Some (HArrN _) | Some (HObj _) => Some (key, QArr (snd kb))
                   | _ => None
                   end) dl vals F) as (its & Ei & Fi).
  { intros [k b] [k' v] Hin [K1 K2]. cbn [fst snd] in *. subst k'. cbv zeta.
    pose proof K2 as K3.
    destruct K2 as [b l E|b l E|b ls ps E Fl|b ls ps E Fl]; rewrite E.
    - eexists. split; [reflexivity|]. cbn. split; auto. constructor; [exact K3|discriminate].
    - eexists. split; [reflexivity|]. cbn. split; auto. constructor; [exact K3|discriminate].
    - eexists. split; [reflexivity|]. cbn. split; auto. constructor; [exact K3|discriminate].
    - destruct (omap_rel _ (fun d p => dr (stands h) d (ps_todict (name ++ "." ++ k) p)) (h_todict f h (name ++ "." ++ k)) ls ps Fl) as (ds & -> & Fd).
      { intros x p Hp Rx. apply IH; auto. eapply Hd; eauto. }
      cbn [option_map]. eexists. split; [reflexivity|]. cbn [fst snd show_value]. split; auto. constructor.
      clear - Fd. induction Fd; constructor; auto. }
  cbv zeta in Ei. rewrite Ei. cbn [option_map]. eexists. split; [reflexivity|].
  rewrite (fold_map (fun kv => ((name ++ "." ++ fst kv)%string, show_value (name ++ "." ++ fst kv) (snd kv)))
             (fun acc ko => dset (fst ko) (snd ko) acc)).
  apply dr_fold.
  - clear - Fi. induction Fi as [|x y l l' [K1 K2] Fi IH]; constructor; auto.
  - repeat constructor.
Qed.
Lemma items_rep h a s : rep_state h a s -> exists d, h_items h a = Some d /\ dr (stands h) d (st_items s).
Proof.
  intros (d & al & dl & E1 & E2 & D & G). unfold h_items. rewrite E1, E2.
  destruct (omap_rel _ (fun x ke => dr (stands h) x match snd ke with EPS p => ps_todict (fst ke) p | ENoise d => noise_todict (fst ke) d end)
    (fun kb =>
               match nth_error h (snd kb) with
               | Some (HPS _ _ _ _) => h_todict (length h) h (fst kb) (snd kb)
               | Some (HNoise d) => Some (h_noise_todict (fst kb) d)
               | _ => None
               end) dl (st_vals s) D) as (ds & Ed & Fd).
  { intros [k b] [k' e] _ [K1 K2]. cbn [fst snd] in *. subst k'. destruct K2 as [b p R|b nd E].
    - destruct (rep_inv _ _ _ R) as (? & ? & ? & ? & E & _). rewrite E. apply todict_rep; auto. eapply rep_deep; eauto.
    - rewrite E. eexists. split; [reflexivity|]. unfold h_noise_todict, noise_todict. destruct (dn_corr nd); repeat constructor. }
  rewrite Ed. cbn [option_map]. eexists. split; [reflexivity|]. unfold st_items.
  apply dr_update.
  - generalize (st_extra s). intros l. induction l as [|[k o] l IH]; constructor; auto. split; [reflexivity|constructor].
  - rewrite (fold_map (fun ke => match snd ke with EPS p => ps_todict (fst ke) p | ENoise d => noise_todict (fst ke) d end) dupdate).
    assert (B : dr (stands h) [] []) by constructor. revert B. generalize (@nil (string * hout)), (@nil (string * ovalue)).
    clear - Fd. induction Fd as [|x y l l' K Fd IH]; intros u w B; cbn [fold_left map]; auto. apply IH. apply dr_update; auto.
Qed.
Lemma cache_rep h c : dr (stands h) (map (fun kc => (fst kc, QPred (snd kc))) c) (map (fun kc => (fst kc, cache_value (snd kc))) c).
Proof. induction c as [|[k [d|l|n]] c IH]; constructor; auto; (split; [reflexivity|constructor]). Qed.

(** * Saving *)
Section Saving.
Variables (h : heap) (E : env loc hout) (E' : env state ovalue).
Hypothesis Htd : e_transd E = e_transd E'.
Let R := Forall2 (stands h).
Lemma append_rep k x y d d' : stands h x y -> dr R d d' -> dr R (append_saved k x d) (append_saved k y d').
Proof.
  intros Hx D. unfold append_saved. apply dr_set; auto. pose proof (dr_get _ _ _ k D) as G.
  destruct (dget k d), (dget k d'); try contradiction; unfold R.
  - apply Forall2_app; auto.
  - cbn. auto.
Qed.
Lemma save_items_rep its its' : dr (stands h) its its' -> forall d d', dr R d d' ->
  dr R (fst (save_items E its d)) (fst (save_items E' its' d')) /\ snd (save_items E its d) = snd (save_items E' its' d').
Proof.
  assert (Hsk : forall k, skip_key E k = skip_key E' k) by (intros k; unfold skip_key; now rewrite Htd).
  intros F. induction F as [|[k x] [k' y] l l' [K1 K2] F IH]; intros d d' D; cbn [save_items]; auto. cbn [fst snd] in *. subst k'.
  rewrite Hsk. destruct (skip_key E' k) as [[|]|e|]; cbn; auto. apply IH. now apply append_rep.
Qed.
Lemma save_preds_rep cs cs' : dr (stands h) cs cs' -> forall d d', dr R d d' -> dr R (save_preds cs d) (save_preds cs' d').
Proof.
  intros F. induction F as [|[k x] [k' y] l l' [K1 K2] F IH]; intros d d' D; cbn [save_preds]; auto. cbn [fst snd] in *. subst k'.
  apply IH. destruct (contains "dpred" k); auto. now apply append_rep.
Qed.
End Saving.
