(** C74: log_prior of a parameter space is the logarithm of the joint prior density, and the ratio that
    moves report is its difference. *)
From Verif Require Import Base ModelPrior ModelState ModelSpace ModelPerturb SpecUtils1D SpecPrior SpecState SpecSpace SpecPerturb SpecBirth
  ProofUtils1D ProofChain ProofState ProofSpace ProofSpaceB ProofSpaceC ProofSpaceD ProofPerturb PropPrior PropSpace PropNeighbour ProofInversion ProofBirth PropBirth
  PropMoves ExampleRun ExampleSpace.
Local Open Scope R_scope.
Local Open Scope string_scope.

(** * Specification *)
(** The joint density of the numbers of a state: all are independent. *)
Definition values_density (d : ModelPrior.dist) (vs : list R) (f : R) : Prop :=
  exists fs, Forall2 (has_density d None) vs fs /\ f = fold_right Rmult 1 fs.
Inductive joint_density (p : psstate) : list (string * param) -> R -> Prop :=
| JD_nil : joint_density p [] 1
| JD_next k pr vs f t D : ps_get k p = Some (Arr vs) -> values_density (p_dist pr) vs f -> joint_density p t D ->
    joint_density p ((k, PPrior pr) :: t) (f * D).

(** * log_prior *)
Lemma log_esum F acc fs ls : log_density F acc -> Forall2 log_density fs ls -> log_density (F * fold_right Rmult 1 fs) (esum acc ls).
Proof.
  intros HF H. revert F acc HF. induction H as [|f l fs ls Hf H IH]; intros F acc HF; cbn [fold_right esum].
  - now rewrite Rmult_1_r.
  - rewrite <- Rmult_assoc. apply IH. now apply log_mul.
Qed.
Lemma log_prior_joint l : forall p D, (forall k pr, In (k, PPrior pr) l -> dist_ok (p_dist pr)) ->
  joint_density p l D -> forall F acc, log_density F acc -> exists r, log_prior_loop l p acc = Ok r /\ log_density (F * D) r.
Proof.
  intros p D Hok H. induction H as [|k pr vs f t D Hg (fs & Hfs & ->) H IH]; intros F acc HF; cbn [log_prior_loop].
  - exists acc. split; auto. now rewrite Rmult_1_r.
  - rewrite Hg. assert (Hd : dist_ok (p_dist pr)) by (eapply Hok; now left).
    assert (E : exists ls, rmap (fun v => p_log_prior pr v None) vs = Ok ls /\ Forall2 log_density fs ls).
    { clear - Hfs Hd. induction Hfs as [|v f vs fs Hv H IH]; [exists []; split; [reflexivity|constructor]|].
      destruct (C12_log_prior pr v None f Hd Hv) as (l & El & Hl). destruct IH as (ls & Els & Hls).
      exists (l :: ls). cbn [rmap]. rewrite El. cbn [rbind]. rewrite Els. split; [reflexivity|]. now constructor. }
    destruct E as (ls & -> & Hls). cbn [rbind].
    destruct (IH (fun k pr H => Hok k pr (or_intror H)) (F * (1 * fold_right Rmult 1 fs)) (eadd acc (esum (Fin 0) ls))) as (r & Er & Hr).
    + apply log_mul; auto. apply log_esum; auto. apply log_one.
    + exists r. split; auto. now rewrite Rmult_1_l, Rmult_assoc in Hr.
Qed.
(** log_prior of a state is the logarithm of the joint density, -inf where it is zero. *)
Theorem C74_log_prior s p D : (forall k pr, In (k, PPrior pr) (sp_params s) -> dist_ok (p_dist pr)) ->
  joint_density p (sp_params s) D ->
  exists l, plain_log_prior s p = Ok l /\ log_density D l.
Proof.
  intros Hok H. destruct (log_prior_joint _ _ _ Hok H 1 (Fin 0) log_one) as (r & Er & Hr). exists r. split; auto. now rewrite Rmult_1_l in Hr.
Qed.
(** With nested spaces there is none: a tessellation raises NotImplementedError, a ParameterSpace
    TypeError. *)
Theorem C74_nested_refuted s k s' a p D l : sp_params s = (l ++ [(k, PSpace s')])%list ->
  (forall k pr, In (k, PPrior pr) l -> dist_ok (p_dist pr)) -> joint_density p l D ->
  ps_get k p = Some (Lst a) -> a <> [] ->
  plain_log_prior s p = Raise (if is_disc s' then ENotImpl else EType).
Proof.
  intros E Hok H Hg Ha. unfold plain_log_prior. rewrite E. clear E.
  assert (G : forall acc, log_prior_loop (l ++ [(k, PSpace s')]) p acc =
    match log_prior_loop l p acc with Ok r => log_prior_loop [(k, PSpace s')] p r | e => e end).
  { clear. induction l as [|[k0 [pr|s0]] l IH]; intros acc; cbn [app log_prior_loop]; auto.
    - destruct (ps_get k0 p) as [v|]; auto. destruct v as [vs| | |]; auto. destruct (rmap _ vs); cbn [rbind]; auto.
    - destruct (ps_get k0 p) as [v|]; auto. destruct (value_len v =? 0)%nat; auto. }
  rewrite G. destruct (log_prior_joint l p D Hok H 1 (Fin 0) log_one) as (r & -> & _). cbn [log_prior_loop]. rewrite Hg.
  destruct a; [congruence|]. reflexivity.
Qed.

(** * Moves *)
Lemma log_density_fun f f' l : log_density f l -> log_density f' l -> f = f'.
Proof.
  intros [[-> ->]|[H ->]] [[-> E]|[H' E]]; try discriminate; auto. injection E as E. now apply ln_inv.
Qed.
Lemma density_fun pr v f f' : dist_ok (p_dist pr) -> has_density (p_dist pr) None v f -> has_density (p_dist pr) None v f' -> f = f'.
Proof.
  intros Hok H H'. destruct (C12_log_prior pr v None f Hok H) as (l & E & Hl), (C12_log_prior pr v None f' Hok H') as (l' & E' & Hl').
  rewrite E in E'. injection E' as <-. eapply log_density_fun; eauto.
Qed.
Lemma values_set pr a : dist_ok (p_dist pr) -> forall f0 i v nv f f', values_density (p_dist pr) a f0 -> nth_error a i = Some v ->
  has_density (p_dist pr) None v f -> 0 < f -> has_density (p_dist pr) None nv f' ->
  values_density (p_dist pr) (set_nth a i nv) (f0 * (f' / f)).
Proof.
  intros Hok. induction a as [|x a IH]; intros f0 i v nv f f' (fs & Hfs & ->) Hv Hf H0 Hf'; [destruct i; discriminate|].
  inversion Hfs as [|? g ? gs Hg Hgs]; subst. destruct i as [|i]; cbn [nth_error] in Hv.
  - injection Hv as ->. rewrite (density_fun pr v g f Hok Hg Hf). exists (f' :: gs). split; [constructor; auto|]. cbn [fold_right]. field. lra.
  - destruct (IH (fold_right Rmult 1 gs) i v nv f f') as (hs & Hhs & E); auto; [exists gs; auto|].
    exists (g :: hs). split; [constructor; auto|]. cbn [fold_right]. rewrite <- E. ring.
Qed.
Lemma joint_ext p p' l D : (forall k vs, In k (dkeys l) -> ps_get k p = Some (Arr vs) -> ps_get k p' = Some (Arr vs)) ->
  joint_density p l D -> joint_density p' l D.
Proof.
  intros He H. induction H as [|k pr vs f t D Hg Hv H IH]; [constructor|]. econstructor; eauto.
  - apply He; auto. now left.
  - apply IH. intros k' vs' Hk. apply He. now right.
Qed.
Lemma joint_set p p' l D k pr a i v nv f f' : (forall k pr, In (k, PPrior pr) l -> dist_ok (p_dist pr)) -> NoDup (dkeys l) -> joint_density p l D ->
  In (k, PPrior pr) l -> ps_get k p = Some (Arr a) -> nth_error a i = Some v ->
  has_density (p_dist pr) None v f -> 0 < f -> has_density (p_dist pr) None nv f' ->
  ps_get k p' = Some (Arr (set_nth a i nv)) -> (forall k', k' <> k -> ps_get k' p' = ps_get k' p) ->
  joint_density p' l (D * (f' / f)).
Proof.
  intros Hok Hn H Hin Hg Hv Hf H0 Hf' Hg' Ho. induction H as [|k0 pr0 vs g t D Hg0 Hvs H IH]; [destruct Hin|].
  cbn in Hn. inversion Hn as [|? ? N1 N2]; subst. destruct Hin as [E|Hin].
  - injection E as -> ->. rewrite Hg in Hg0. injection Hg0 as <-. replace (g * D * (f' / f)) with (g * (f' / f) * D) by ring. econstructor; eauto.
    + eapply values_set; eauto. eapply Hok. now left.
    + eapply joint_ext; [|exact H]. intros k' vs' Hk. rewrite Ho; auto. intros ->. contradiction.
  - rewrite Rmult_assoc. econstructor; eauto.
    + rewrite Ho; auto. intros ->. apply N1. apply (in_map fst) in Hin. exact Hin.
    + apply IH; auto. intros. eapply Hok. right. eauto.
Qed.
Definition updated (p : psstate) (new : dict value) : psstate := PS (ps_n p) (dupdate (ps_vals p) new) [] [].
Lemma updated_get p new k : NoDup (dkeys new) -> ps_get k (updated p new) = match dget k new with Some v => Some v | None => ps_get k p end.
Proof. intros H. unfold updated, ps_get. cbn [ps_vals]. now apply dget_dupdate. Qed.
Lemma perturb_joint s p i : valid s -> is_disc s = false -> wf s p -> forall ps new acc F D tr q r tr',
  (forall k pr, In (k, PPrior pr) (sp_params s) -> dist_ok (p_dist pr)) ->
  (forall pr, In pr ps -> In (p_name pr, PPrior pr) (sp_params s) /\ movable pr) -> NoDup (map p_name ps) ->
  (forall k, In k (map p_name ps) -> dget k new = None) -> NoDup (dkeys new) -> log_density F acc -> joint_density (updated p new) (sp_params s) D ->
  site_of p i = Ok None ->
  perturb_params (map PPrior ps) p i new acc tr = Ret (q, r) tr' ->
  exists f, log_density (F * f) r /\ joint_density q (sp_params s) (D * f).
Proof.
  intros Hv Hd Hwf. pose proof (valid_here _ Hv) as Hok. pose proof Hok as (Hmm & _ & Hc & Hnd & Hdk & _).
  destruct (wf_inv _ _ Hnd Hwf) as (Hdim & Hsites & Hk & Hdl & Hf).
  induction ps as [|pr ps IH]; intros new acc F D tr q r tr' Hdo Hps Hn Hfr Hnw HF HD Hat H; cbn [map perturb_params] in H.
  - mb H as c Ec. mr H. injection H as <- <-. exists 1. rewrite !Rmult_1_r. split; auto. eapply joint_ext; [|exact HD].
    intros k vs _. rewrite updated_get by auto. unfold ps_get. cbn [ps_vals]. rewrite dget_dupdate by auto.
    destruct (dget k new); auto. destruct (ps_copy_ok _ _ (wf_sane s Hv p Hwf) Ec) as (V & _). intros E.
    destruct (same_get c p k (Arr vs) V E) as (w & Ew & Vw). destruct w; try discriminate Vw. injection Vw as <-. exact Ew.
  - pose proof (site_of_spec s p i None Hv Hwf Hat) as Hpos.
    destruct (Hps pr (or_introl eq_refl)) as [Hin Hm]. destruct (Hf _ _ Hin) as (v & Ev & Hfit). cbn in Hfit. destruct Hfit as (a & -> & La & Hsup).
    rewrite Ev in H. mb H as old Eold. mb H as at' Eat. mb H as [nv r1] Ep. mb H as v' Ev'.
    change (site_of p i = Ok at') in Eat. assert (at' = None) by congruence. subst at'.
    unfold set_num in Ev'. destruct (Nat.ltb_spec i (length a)) as [Hi|]; [|discriminate]. injection Ev' as <-.
    apply num_at_is in Eold. destruct Eold as (a' & [= <-] & Ha).
    destruct (move_draw _ _ _ _ _ _ _ Hm (Hsup _ _ _ Ha Hpos) Ep) as (z & sd & f & f' & Htr & Hsd & -> & Hde & Hd0 & Hd' & Hl).
    cbn [map] in Hn, Hfr. inversion Hn as [|? ? Hn1 Hn2]; subst.
    assert (Hnk : dget (p_name pr) new = None) by (apply Hfr; now left).
    destruct IH with (new := dset (p_name pr) (Arr (set_nth a i (old + z * sd))) new) (D := D * (f' / f)) (F := F * (f' / f)) (9 := H) as (b & Hb1 & Hb2); auto.
    + intros x Hx. apply Hps. now right.
    + intros k Hk'. rewrite dget_dset_other by (intros ->; contradiction). apply Hfr. now right.
    + now apply dset_nodup.
    + now apply log_mul.
    + assert (Hnw' := dset_nodup (p_name pr) (Arr (set_nth a i (old + z * sd))) new Hnw).
      eapply joint_set with (p := updated p new); eauto.
      * rewrite updated_get by auto. now rewrite Hnk.
      * rewrite updated_get by auto. now rewrite dget_dset_same.
      * intros k' Hk'. rewrite !updated_get by auto. now rewrite dget_dset_other.
    + exists (f' / f * b). now rewrite <- !Rmult_assoc.
Qed.
(** A move of the numbers of one dimension reports the difference of log_prior. *)
Theorem C74_move s n ps p D tr q r tr' : valid s -> is_disc s = false -> wf s p ->
  (forall k pr, In (k, PPrior pr) (sp_params s) -> dist_ok (p_dist pr)) -> joint_density p (sp_params s) D -> 0 < D ->
  (forall pr, In pr ps -> In (p_name pr, PPrior pr) (sp_params s) /\ movable pr) -> NoDup (map p_name ps) ->
  elem_perturb (EParam n (map PPrior ps)) p tr = Ret (q, r) tr' ->
  exists l l', plain_log_prior s p = Ok (Fin l) /\ plain_log_prior s q = Ok l' /\ r = esub l' (Fin l).
Proof.
  intros Hv Hd Hwf Hdo HD H0 Hps Hn H. cbn [elem_perturb] in H. unfold param_perturb in H. mb H as i Ei.
  assert (Hat : site_of p i = Ok None).
  { pose proof (valid_here _ Hv) as (_ & _ & _ & Hnd & Hdk & _). destruct (wf_inv _ _ Hnd Hwf) as (_ & _ & Hk & _).
    assert (E : ps_get disc_key p = None) by (unfold ps_get; apply dget_none_keys; rewrite Hk; unfold names; rewrite Hd; exact Hdk).
    unfold site_of. now rewrite E. }
  destruct (perturb_joint s p i Hv Hd Hwf ps [] (Fin 0) 1 D t q r tr') as (f & Hf & Hq); auto.
  - constructor.
  - apply log_one.
  - eapply joint_ext; [|exact HD]. intros k vs _ E. rewrite updated_get by constructor. exact E.
  - rewrite Rmult_1_l in Hf. destruct (C74_log_prior s p D Hdo HD) as (l & El & Hl). destruct (C74_log_prior s q _ Hdo Hq) as (l' & El' & Hl').
    destruct Hl as [[E _]|[_ ->]]; [lra|]. exists (ln D), l'. split; auto. split; auto.
    destruct Hf as [[-> ->]|[Hp ->]].
    + destruct Hl' as [[_ ->]|[X _]]; [reflexivity|]. rewrite Rmult_0_r in X. lra.
    + destruct Hl' as [[X _]|[_ ->]]; [exfalso; nra|]. cbn. f_equal. rewrite ln_mult by auto. lra.
Qed.

(** * Cases *)
Lemma ex_two_dists k pr : In (k, PPrior pr) (sp_params ex_two) -> dist_ok (p_dist pr).
Proof. intros [E|[E|[]]]; injection E as <- <-; split; exact I. Qed.
Example C74_log_prior_case : (forall k pr, In (k, PPrior pr) (sp_params ex_two) -> dist_ok (p_dist pr)) /\
  exists D, joint_density ex_two0 (sp_params ex_two) D /\ D = / 2 * gauss_pdf 0 1 0.
Proof.
  split; [apply ex_two_dists|]. eexists. split.
  - eapply (JD_next _ "v" ex_v [2]); [reflexivity| |eapply (JD_next _ "w" ex_w [0]); [reflexivity| |constructor]].
    + eexists [_]. split; [|reflexivity]. constructor; [|constructor]. eapply HD_in; try reflexivity; unfold in_interval; lra.
    + eexists [_]. split; [|reflexivity]. constructor; [|constructor]. eapply HD_gauss; try reflexivity. lra.
  - cbn [fold_right]. replace (3 - 1) with 2 by lra. ring.
Qed.
Example C74_nested_case : plain_log_prior (Space "o" (Some 1%nat) 1 1 0 Plain [("v", PPrior ex_v); ("in", PSpace ex_in)])
  (PS 1 [("v", Arr [2]); ("in", Lst [PS 1 [("w", Arr [0])] [] []])] [] []) = Raise EType.
Proof.
  eapply (C74_nested_refuted _ "in" ex_in [PS 1 [("w", Arr [0])] [] []] _ _ [("v", PPrior ex_v)]); try reflexivity; [| |discriminate].
  - intros k pr [E|[]]. injection E as <- <-. split; exact I.
  - eapply (JD_next _ "v" ex_v [2]); [reflexivity| |constructor].
    eexists [_]. split; [|reflexivity]. constructor; [|constructor]. eapply HD_in; try reflexivity; unfold in_interval; lra.
Qed.
Example C74_move_case : valid ex_two /\ is_disc ex_two = false /\ wf ex_two ex_two0 /\
  (exists D, joint_density ex_two0 (sp_params ex_two) D /\ 0 < D) /\
  exists q r, elem_perturb (EParam "two" (map PPrior [ex_v; ex_w])) ex_two0 [DInt 0; DZ 2; DZ 3] = Ret (q, Fin r) [].
Proof.
  destruct C12_move_case as (A & B & _ & _ & q & r & H & _). destruct C74_log_prior_case as (_ & D & HD & E).
  split; auto. split; [reflexivity|]. split; auto. split; [|eauto]. exists D. split; auto. subst D.
  assert (0 < gauss_pdf 0 1 0) by (apply gauss_pos; lra). lra.
Qed.
