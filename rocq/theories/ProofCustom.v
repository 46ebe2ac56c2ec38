(** Proofs about custom initialization. *)
From Verif Require Import Base ModelUtils1D ModelPrior ModelState ModelSpace ModelPerturb ModelChain ModelSampler ModelLikelihood ModelCustom
  SpecUtils1D SpecPrior SpecState SpecSpace SpecPerturb SpecChain SpecRun SpecCustom
  ProofUtils1D ProofUtils1DB ProofChain ProofChainB ProofChainC ProofSampler ProofInversion ProofState PropPrior ProofSpace ProofSpaceB ProofSpaceC ProofSpaceD ProofSpaceE ProofPerturb ProofTree ProofRun ProofRunB ProofRunC.
Local Open Scope R_scope.

Section Custom.
Context (own : inits).

(** The loops over the parameters, with what is known of each value. *)
Lemma plain_loop_with (Q : param -> value -> Prop) n params :
  (forall k p g t a t', In (k, PPrior p) params -> length g = n -> p_initialize_with own p (map P1 g) t = Ret a t' -> Q (PPrior p) (Arr a)) ->
  (forall k s' t a t', In (k, PSpace s') params -> repeatM n (initialize_with own s') t = Ret a t' -> Q (PSpace s') (Lst a)) ->
  forall tr vals tr',
  (fix go (l : list (string * param)) : M (dict value) :=
     match l with
     | [] => ret []
     | (k, PPrior p) :: t =>
         g <- repeatM n drawVal ;;
         a <- p_initialize_with own p (map P1 g) ;;
         r <- go t ;; ret ((k, Arr a) :: r)
     | (k, PSpace s') :: t =>
         a <- repeatM n (initialize_with own s') ;;
         r <- go t ;; ret ((k, Lst a) :: r)
     end) params tr = Ret vals tr' ->
  keyed Q params vals.
Proof.
  intros Hp Hs. induction params as [|[k [pr|s']] t IH]; intros tr vals tr' H.
  - mr H. constructor.
  - mb H as g Eg. mb H as a Ea. mb H as r Er. mr H. constructor.
    + split; auto. apply (repeatM_inv (fun _ => True)) in Eg; auto. destruct Eg as [L0 _]. eapply Hp; [left; reflexivity|exact L0|exact Ea].
    + eapply IH; [intros; eapply Hp; [right|..]; eauto|intros; eapply Hs; [right|]; eauto|exact Er].
  - mb H as a Ea. mb H as r Er. mr H. constructor.
    + split; auto. eapply Hs; [left; reflexivity|exact Ea].
    + eapply IH; [intros; eapply Hp; [right|..]; eauto|intros; eapply Hs; [right|]; eauto|exact Er].
Qed.
Lemma disc_loop_with (Q : param -> value -> Prop) positions params :
  (forall k p t a t', In (k, PPrior p) params -> p_initialize_with own p positions t = Ret a t' -> Q (PPrior p) (Arr a)) ->
  (forall k s' t a t', In (k, PSpace s') params -> repeatM (length positions) (initialize_with own s') t = Ret a t' -> Q (PSpace s') (Lst a)) ->
  forall acc tr vals tr', NoDup (dkeys acc ++ dkeys params) ->
  (fix go (l : list (string * param)) (acc : dict value) : M (dict value) :=
     match l with
     | [] => ret acc
     | (k, PPrior p) :: t =>
         a <- p_initialize_with own p positions ;; go t (dset k (Arr a) acc)
     | (k, PSpace s') :: t =>
         a <- repeatM (length positions) (initialize_with own s') ;;
         go t (dset k (Lst a) acc)
     end) params acc tr = Ret vals tr' ->
  exists new, vals = acc ++ new /\ keyed Q params new.
Proof.
  intros Hp Hs. induction params as [|[k par] t IH]; intros acc tr vals tr' Hnd H.
  - mr H. exists []. rewrite app_nil_r. split; auto. constructor.
  - assert (Hk : ~ In k (dkeys acc)).
    { intros Hin. apply NoDup_remove_2 in Hnd. apply Hnd. apply in_or_app. auto. }
    assert (Hnd' : forall v : value, NoDup (dkeys (dset k v acc) ++ dkeys t)).
    { intros v. rewrite dset_fresh by auto. unfold dkeys in *. rewrite map_app, <- app_assoc. exact Hnd. }
    assert (IH' : forall v tr vals tr', _) by (intros v; exact (fun tr0 vals0 tr1 =>
      IH (fun k p t0 a t' Hin => Hp k p t0 a t' (or_intror Hin))
         (fun k s' t0 a t' Hin => Hs k s' t0 a t' (or_intror Hin)) (dset k v acc) tr0 vals0 tr1 (Hnd' v))).
    clear IH. destruct par as [pr|s']; mb H as a Ea; destruct (IH' _ _ _ _ H) as (new & -> & Hnew);
      rewrite dset_fresh by auto; rewrite <- app_assoc; eexists; (split; [reflexivity|]);
      (constructor; [|exact Hnew]); split; auto; cbn [snd].
    + eapply Hp; [left; reflexivity|exact Ea].
    + eapply Hs; [left; reflexivity|exact Ea].
Qed.

(** What is known of the values before their number is checked. *)
Definition fit_if (n : nat) (P : nat -> option pos -> Prop) (par : param) (v : value) : Prop :=
  match par with
  | PPrior pr => exists l, v = Arr l /\
      (length l = n -> forall i x at_, nth_error l i = Some x -> P i at_ -> in_support pr at_ x)
  | PSpace s' => exists l, v = Lst l /\ Forall (wf s') l
  end.
Lemma keyed_fits n P params vals : keyed (fit_if n P) params vals -> (forall k v, In (k, v) vals -> value_len v = n) ->
  keyed (fits n P) params vals.
Proof.
  intros H Hl. induction H as [|[k par] [k' v] params vals [E Hf] H IH]; constructor.
  - split; auto. cbn [snd] in *. pose proof (Hl k' v (or_introl eq_refl)) as Hv. destruct par as [pr|s']; cbn in *.
    + destruct Hf as (l & -> & Hx). cbn in Hv. exists l. split; [reflexivity|]. split; [exact Hv|exact (Hx Hv)].
    + destruct Hf as (l & -> & Hx). cbn in Hv. exists l. auto.
  - apply IH. intros. eapply Hl. right. eauto.
Qed.

Lemma values_supported (Hown : supported own) p ps tr l tr' : prior_ok p -> p_initialize_with own p ps tr = Ret l tr' -> length l = length ps ->
  forall i x v, nth_error ps i = Some x -> nth_error l i = Some v -> in_support p (Some x) v.
Proof.
  intros Hp. unfold p_initialize_with. destruct (own p) as [f|] eqn:E; [intros; eapply Hown; eauto|].
  intros H _. apply p_initialize_inv in H; auto. apply H.
Qed.
Lemma initialize_with_wf (Hown : supported own) s : valid s -> forall tr p tr', initialize_with own s tr = Ret p tr' -> wf s p.
Proof.
  induction s as [s IH] using space_ind'. intros Hv tr p tr' H.
  pose proof (valid_here _ Hv) as Hok.
  assert (HIH : forall k s' t q t', In (k, PSpace s') (sp_params s) ->
                initialize_with own s' t = Ret q t' -> wf s' q).
  { intros k s' t q t' Hin. eapply IH; eauto. eapply valid_in; eauto. }
  assert (HP : forall k p, In (k, PPrior p) (sp_params s) -> prior_ok p).
  { intros k q. now apply prior_of. }
  assert (HL : forall k s' n t a t', In (k, PSpace s') (sp_params s) -> repeatM n (initialize_with own s') t = Ret a t' -> exists l, Lst a = Lst l /\ Forall (wf s') l).
  { intros k s' n t a t' Hin Ha. exists a. split; auto. apply (repeatM_inv (wf s')) in Ha; [apply Ha|]. intros; eapply HIH; eauto. }
  assert (Hkey : NoDup (dkeys (sp_params s)) /\ ~ In disc_key (dkeys (sp_params s))) by (destruct Hok as (_ & _ & _ & A & B & _); auto).
  destruct s as [nm fx mi ma rg cls params]. cbn [initialize_with] in H. cbn [sp_params] in *.
  mb H as n En. apply init_n_inv in En; [|exact Hok].
  destruct cls as [|lo hi sd fp|d lo hi sd poly kd fp].
  - mb H as vals Ev. mr H.
    assert (K : keyed (fit_if n (fun _ at_ => at_ = None)) params vals).
    { eapply plain_loop_with; [|intros; eapply HL; eauto|exact Ev].
      intros k q g t1 a t2 Hin Hg Ha. exists a. split; auto. intros La i x at_ Hx ->.
      assert (Lm : length a = length (map P1 g)) by (rewrite map_length; congruence).
      destruct (nth_error_lt (map P1 g) i) as (y & Hy); [rewrite <- Lm; eapply nth_error_some_lt; eauto|].
      eapply support_none. eapply (values_supported Hown q (map P1 g) t1 a t2); eauto. }
    assert (Hnd : NoDup (dkeys vals)) by (rewrite (keyed_keys _ _ _ K); apply Hkey).
    destruct (mk_ps_ok _ _ _ Hnd H) as [_ Hlen].
    eapply build_plain; [exact Hok|reflexivity|exact En| |exact H]. apply keyed_fits; auto. intros k v Hin. now apply (Hlen k v).
  - mb H as sites Es. mb H as positions Ep. mb H as vals Ev. mb H as p0 E0. mr H.
    set (s := Space nm fx mi ma rg (Vor1 lo hi sd fp) params) in *.
    apply (repeatM_inv (good_site (sp_cls s))) in Es; [|intros; eapply sample_site_inv; [apply Hok|eauto]].
    destruct Es as [Els Hgs].
    set (pz := PS n [(disc_key, sites_value (sp_cls s) sites)] [] []).
    destruct (sites_value_ok s n pz sites) as [Hsk Hlen]; [apply Hok|reflexivity|auto..].
    destruct (positions_spec s pz positions eq_refl Hsk Ep) as [Hpos Hpl].
    assert (EL : length positions = n) by (rewrite <- (Hpl _ eq_refl); exact Hlen).
    assert (H1 : forall k q t a t', In (k, PPrior q) params -> p_initialize_with own q positions t = Ret a t' -> fit_if n (pos_in positions) (PPrior q) (Arr a)).
    { intros k q t1 a t2 Hin Ha. exists a. split; auto. intros La i x at_ Hx (y & Hy & ->). eapply (values_supported Hown q positions t1 a t2); eauto. congruence. }
    destruct (disc_loop_with (fit_if n (pos_in positions)) positions params H1 (fun k s' t a t' Hin Ha => HL k s' (length positions) t a t' Hin Ha) _ _ _ _
      (disc_first s _ (proj1 Hkey) (proj2 Hkey)) Ev) as (new & -> & Hnew).
    assert (Hnd2 : NoDup (dkeys ([(disc_key, sites_value (sp_cls s) sites)] ++ new))).
    { unfold dkeys. rewrite map_app. cbn. constructor; change (map fst new) with (dkeys new); rewrite (keyed_keys _ _ _ Hnew); apply Hkey. }
    destruct (mk_ps_ok _ _ _ Hnd2 E0) as [-> Hlens].
    eapply (build_disc s n); [exact Hok|reflexivity|exact En|exact Hlen|exact Hsk| |reflexivity|reflexivity].
    eapply keyed_impl; [|apply (keyed_fits n (pos_in positions)); [exact Hnew|]].
    + intros a b. apply fits_impl. intros i at_ Hi. apply Hpos. exact Hi.
    + intros k v Hin. apply (Hlens k v). apply in_or_app. now right.
  - mb H as sites Es. mb H as positions Ep. mb H as vals Ev. mb H as p0 E0. mr H.
    set (s := Space nm fx mi ma rg (VorN d lo hi sd poly kd fp) params) in *.
    apply (repeatM_inv (good_site (sp_cls s))) in Es; [|intros; eapply sample_site_inv; [apply Hok|eauto]].
    destruct Es as [Els Hgs].
    set (pz := PS n [(disc_key, sites_value (sp_cls s) sites)] [] []).
    destruct (sites_value_ok s n pz sites) as [Hsk Hlen]; [apply Hok|reflexivity|auto..].
    destruct (positions_spec s pz positions eq_refl Hsk Ep) as [Hpos Hpl].
    assert (EL : length positions = n) by (rewrite <- (Hpl _ eq_refl); exact Hlen).
    assert (H1 : forall k q t a t', In (k, PPrior q) params -> p_initialize_with own q positions t = Ret a t' -> fit_if n (pos_in positions) (PPrior q) (Arr a)).
    { intros k q t1 a t2 Hin Ha. exists a. split; auto. intros La i x at_ Hx (y & Hy & ->). eapply (values_supported Hown q positions t1 a t2); eauto. congruence. }
    destruct (disc_loop_with (fit_if n (pos_in positions)) positions params H1 (fun k s' t a t' Hin Ha => HL k s' (length positions) t a t' Hin Ha) _ _ _ _
      (disc_first s _ (proj1 Hkey) (proj2 Hkey)) Ev) as (new & -> & Hnew).
    assert (Hnd2 : NoDup (dkeys ([(disc_key, sites_value (sp_cls s) sites)] ++ new))).
    { unfold dkeys. rewrite map_app. cbn. constructor; change (map fst new) with (dkeys new); rewrite (keyed_keys _ _ _ Hnew); apply Hkey. }
    destruct (mk_ps_ok _ _ _ Hnd2 E0) as [-> Hlens].
    apply add_kdtree_ok in H. destruct H as (K1 & K2 & _).
    eapply (build_disc s n); [exact Hok|reflexivity|exact En|exact Hlen|exact Hsk| |exact K1|exact K2].
    eapply keyed_impl; [|apply (keyed_fits n (pos_in positions)); [exact Hnew|]].
    + intros a b. apply fits_impl. intros i at_ Hi. apply Hpos. exact Hi.
    + intros k v Hin. apply (Hlens k v). apply in_or_app. now right.
Qed.
(** Whatever the custom functions return: as many values as dimensions. *)
Lemma initialize_with_lengths s : valid s -> forall tr p tr', initialize_with own s tr = Ret p tr' ->
  forall k v, ps_get k p = Some v -> value_len v = ps_n p.
Proof.
  intros Hv tr p tr' H. pose proof (valid_here _ Hv) as Hok.
  assert (Hkey : NoDup (dkeys (sp_params s)) /\ ~ In disc_key (dkeys (sp_params s))) by (destruct Hok as (_ & _ & _ & A & B & _); auto).
  destruct s as [nm fx mi ma rg cls params]. cbn [initialize_with] in H. cbn [sp_params] in *.
  assert (Hget : forall n vals q, NoDup (dkeys vals) -> mk_ps n vals = Ok q -> forall k v, dget k (ps_vals q) = Some v -> value_len v = ps_n q).
  { intros n vals q Hnd Hq k v Hg. destruct (mk_ps_ok _ _ _ Hnd Hq) as [-> Hl]. cbn in *. apply dget_some_in in Hg. now apply (Hl k v). }
  mb H as n En. destruct cls as [|lo hi sd fp|d lo hi sd poly kd fp].
  - mb H as vals Ev. mr H.
    assert (K : keyed (fun _ _ => True) params vals) by (eapply plain_loop_with; [| |exact Ev]; auto).
    unfold ps_get. eapply Hget; [|exact H]. rewrite (keyed_keys _ _ _ K). apply Hkey.
  - mb H as sites Es. mb H as positions Ep. mb H as vals Ev. mb H as p0 E0. mr H.
    destruct (disc_loop_with (fun _ _ => True) positions params (fun _ _ _ _ _ _ _ => I) (fun _ _ _ _ _ _ _ => I) _ _ _ _
      (disc_first (Space nm fx mi ma rg (Vor1 lo hi sd fp) params) _ (proj1 Hkey) (proj2 Hkey)) Ev) as (new & -> & Hnew).
    unfold ps_get. eapply Hget; [|exact E0]. unfold dkeys. rewrite map_app. cbn. constructor; change (map fst new) with (dkeys new); rewrite (keyed_keys _ _ _ Hnew); apply Hkey.
  - mb H as sites Es. mb H as positions Ep. mb H as vals Ev. mb H as p0 E0. mr H.
    destruct (disc_loop_with (fun _ _ => True) positions params (fun _ _ _ _ _ _ _ => I) (fun _ _ _ _ _ _ _ => I) _ _ _ _
      (disc_first (Space nm fx mi ma rg (VorN d lo hi sd poly kd fp) params) _ (proj1 Hkey) (proj2 Hkey)) Ev) as (new & -> & Hnew).
    apply add_kdtree_ok in H. destruct H as (K1 & K2 & _).
    unfold ps_get. rewrite K1, K2. eapply Hget; [|exact E0]. unfold dkeys. rewrite map_app. cbn. constructor; change (map fst new) with (dkeys new); rewrite (keyed_keys _ _ _ Hnew); apply Hkey.
Qed.
(** The values are what the functions return for the positions, and the states of nested spaces what their
    initialization returns. *)
Definition made (ps : list pos) (par : param) (v : value) : Prop :=
  match par with
  | PPrior q => exists a t1 t2, v = Arr a /\ p_initialize_with own q ps t1 = Ret a t2
  | PSpace s' => exists l, v = Lst l /\ Forall (fun q => exists t1 t2, initialize_with own s' t1 = Ret q t2) l
  end.
Lemma made_space n s' t a t' ps : repeatM n (initialize_with own s') t = Ret a t' -> made ps (PSpace s') (Lst a).
Proof. intros H. exists a. split; auto. apply (repeatM_inv (fun q => exists t1 t2, initialize_with own s' t1 = Ret q t2)) in H; [apply H|]. eauto. Qed.
Lemma initialize_with_made s : valid s -> forall tr p tr', initialize_with own s tr = Ret p tr' ->
  forall k par, In (k, par) (sp_params s) -> exists v ps, ps_get k p = Some v /\ made ps par v /\
    length ps = ps_n p /\ (is_disc s = true -> forall i x, nth_error ps i = Some x -> position_of s p i (Some x)).
Proof.
  intros Hv tr p tr' H k par Hin. pose proof (valid_here _ Hv) as Hok.
  assert (Hkey : NoDup (dkeys (sp_params s)) /\ ~ In disc_key (dkeys (sp_params s))) by (destruct Hok as (_ & _ & _ & A & B & _); auto).
  destruct s as [nm fx mi ma rg cls params]. cbn [initialize_with] in H. cbn [sp_params] in *.
  mb H as n En. destruct cls as [|lo hi sd fp|d lo hi sd poly kd fp].
  - mb H as vals Ev. mr H.
    assert (K : keyed (fun par v => exists g, length g = n /\ made (map P1 g) par v) params vals).
    { eapply plain_loop_with; [| |exact Ev].
      - intros k0 q g t1 a t2 _ Hg Ha. exists g. split; auto. exists a, t1, t2. auto.
      - intros k0 s' t1 a t2 _ Ha. exists (repeat 0 n). split; [apply repeat_length|]. eapply made_space; eauto. }
    destruct (keyed_get _ _ _ _ _ (proj1 Hkey) K Hin) as (v & Hg & g & Lg & Ha).
    destruct (mk_ps_ok _ _ _ ltac:(rewrite (keyed_keys _ _ _ K); apply Hkey) H) as [-> _].
    exists v, (map P1 g). unfold ps_get in *. cbn [ps_vals ps_n] in *. split; auto. split; auto. split; [now rewrite map_length|discriminate].
  - mb H as sites Es. mb H as positions Ep. mb H as vals Ev. mb H as p0 E0. mr H.
    set (s := Space nm fx mi ma rg (Vor1 lo hi sd fp) params) in *.
    apply (repeatM_inv (good_site (sp_cls s))) in Es; [|intros; eapply sample_site_inv; [apply Hok|eauto]].
    destruct Es as [Els Hgs].
    set (pz := PS n [(disc_key, sites_value (sp_cls s) sites)] [] []).
    destruct (sites_value_ok s n pz sites) as [Hsk Hl]; [apply Hok|reflexivity|auto..].
    destruct (positions_spec s pz positions eq_refl Hsk Ep) as [Hpos Hpl].
    assert (EL : length positions = n) by (rewrite <- (Hpl _ eq_refl); exact Hl).
    destruct (disc_loop_with (made positions) positions params (fun _ q t1 a t2 _ Ha => ex_intro _ a (ex_intro _ t1 (ex_intro _ t2 (conj eq_refl Ha))))
      (fun _ s' t1 a t2 _ Ha => made_space _ s' t1 a t2 positions Ha) _ _ _ _ (disc_first s _ (proj1 Hkey) (proj2 Hkey)) Ev) as (new & -> & Hnew).
    assert (Hnd2 : NoDup (dkeys ([(disc_key, sites_value (sp_cls s) sites)] ++ new))).
    { unfold dkeys. rewrite map_app. cbn. constructor; change (map fst new) with (dkeys new); rewrite (keyed_keys _ _ _ Hnew); apply Hkey. }
    destruct (mk_ps_ok _ _ _ Hnd2 E0) as [-> _].
    destruct (keyed_get _ _ _ _ _ (proj1 Hkey) Hnew Hin) as (v & Hg & Ha).
    assert (Hg' : dget k ([(disc_key, sites_value (sp_cls s) sites)] ++ new) = Some v).
    { cbn [app dget]. destruct (String.eqb_spec k disc_key) as [->|_]; auto. exfalso. apply (proj2 Hkey). eapply in_dkeys; eauto. }
    exists v, positions. split; [exact Hg'|]. split; auto. split; [auto|].
    intros _ i x Hx. eapply position_disc; [|apply Hpos; exists x; split; [exact Hx|reflexivity]]. reflexivity.
  - mb H as sites Es. mb H as positions Ep. mb H as vals Ev. mb H as p0 E0. mr H.
    set (s := Space nm fx mi ma rg (VorN d lo hi sd poly kd fp) params) in *.
    apply (repeatM_inv (good_site (sp_cls s))) in Es; [|intros; eapply sample_site_inv; [apply Hok|eauto]].
    destruct Es as [Els Hgs].
    set (pz := PS n [(disc_key, sites_value (sp_cls s) sites)] [] []).
    destruct (sites_value_ok s n pz sites) as [Hsk Hl]; [apply Hok|reflexivity|auto..].
    destruct (positions_spec s pz positions eq_refl Hsk Ep) as [Hpos Hpl].
    assert (EL : length positions = n) by (rewrite <- (Hpl _ eq_refl); exact Hl).
    destruct (disc_loop_with (made positions) positions params (fun _ q t1 a t2 _ Ha => ex_intro _ a (ex_intro _ t1 (ex_intro _ t2 (conj eq_refl Ha))))
      (fun _ s' t1 a t2 _ Ha => made_space _ s' t1 a t2 positions Ha) _ _ _ _ (disc_first s _ (proj1 Hkey) (proj2 Hkey)) Ev) as (new & -> & Hnew).
    assert (Hnd2 : NoDup (dkeys ([(disc_key, sites_value (sp_cls s) sites)] ++ new))).
    { unfold dkeys. rewrite map_app. cbn. constructor; change (map fst new) with (dkeys new); rewrite (keyed_keys _ _ _ Hnew); apply Hkey. }
    destruct (mk_ps_ok _ _ _ Hnd2 E0) as [-> _].
    destruct (keyed_get _ _ _ _ _ (proj1 Hkey) Hnew Hin) as (v & Hg & Ha).
    apply add_kdtree_ok in H. destruct H as (K1 & K2 & _). cbn [ps_vals ps_n] in K1, K2.
    assert (Hg' : dget k (ps_vals p) = Some v).
    { rewrite K2. cbn [app dget]. destruct (String.eqb_spec k disc_key) as [->|_]; auto. exfalso. apply (proj2 Hkey). eapply in_dkeys; eauto. }
    exists v, positions. split; [exact Hg'|]. split; auto. split; [congruence|].
    intros _ i x Hx. eapply position_disc; [|apply Hpos; exists x; split; [exact Hx|reflexivity]]. unfold ps_get. rewrite K2. reflexivity.
Qed.
Lemma initialize_with_parts s p s' p' : part s p s' p' -> valid s -> (exists tr tr', initialize_with own s tr = Ret p tr') ->
  valid s' /\ exists tr tr', initialize_with own s' tr = Ret p' tr'.
Proof.
  induction 1 as [|s p k s1 v0 q s' p' Hin Hl Hq Hp IH]; intros Hv (tr & tr' & H); [eauto|].
  apply IH; [eapply valid_in; eauto|]. destruct (initialize_with_made s Hv tr p tr' H _ _ Hin) as (v & ps & A & (l' & -> & C) & _).
  rewrite Hl in A. injection A as ->. rewrite Forall_forall in C. auto.
Qed.
Lemma initialize_all_with_ok (Hown : supported own) spaces : (forall s, In s spaces -> valid s) -> NoDup (map sp_name spaces) ->
  forall tr s tr', initialize_all_with own spaces tr = Ret s tr' ->
  dkeys (st_vals s) = map sp_name spaces /\ st_extra s = [] /\ st_cache s = [] /\ st_temp s = 1 /\
  (forall sp, In sp spaces -> exists p, st_get (sp_name sp) s = Some (EPS p) /\ wf sp p).
Proof.
  intros Hv Hnd tr s tr' H. unfold initialize_all_with in H. mb H as vals Ev. mr H.
  assert (K : dkeys vals = map sp_name spaces /\
    forall sp, In sp spaces -> exists p, In (sp_name sp, EPS p) vals /\ wf sp p).
  { clear Hnd. remember tr' as t0 eqn:Et0. clear Et0. revert tr vals t0 Ev. induction spaces as [|s l IH]; intros tr vals t Ev; cbn [mapM] in Ev.
    - mr Ev. subst. split; auto. intros ? [].
    - mb Ev as y Ey. mb Ey as p Ep. mr Ey. mb Ev as ys Eys. mr Ev.
      apply IH in Eys; [|intros; apply Hv; now right]. destruct Eys as [A B]. split.
      + unfold dkeys in *. cbn. now rewrite A.
      + intros sp [<-|Hin].
        * exists p. split; [now left|]. eapply initialize_with_wf; eauto. apply Hv. now left.
        * destruct (B _ Hin) as (q & Hq & Hwf). exists q. split; auto. now right. }
  destruct K as [A B]. rewrite mk_state_spec by (now rewrite A). cbn. repeat split; auto.
  intros sp Hsp. destruct (B sp Hsp) as (p & Hp & Hwf). exists p. split; auto.
  unfold st_get. cbn [st_vals]. apply dget_in_nodup; auto. now rewrite A.
Qed.
Lemma starting_with_ok (Hown : supported own) spaces ll tr s tr' : setup_ok spaces (ll_targets ll) ->
  starting_with own spaces ll tr = Ret s tr' -> good spaces (ll_targets ll) s.
Proof.
  intros Hset H. destruct (setup_parts _ _ Hset) as [N1 N2]. unfold starting_with in H. mb H as s0 E0.
  apply initialize_all_with_ok in E0; auto; [|apply (se_valid _ _ Hset)].
  destruct E0 as (A & B & _ & _ & C). unfold ll_initialize in H.
  apply targets_initialize_spec in H; auto; [| |now rewrite A].
  2:{ apply (se_targets _ _ Hset). }
  destruct H as (D & F & G & I & J & _). split; [|congruence]. split; auto.
  - intros k. rewrite F, A. split; (intros [H|H]; [left|right; exact H]).
    + apply in_map_iff in H. destruct H as (sp & <- & Hsp). eauto.
    + destruct H as (sp & Hsp & ->). now apply in_map.
  - intros sp Hsp. destruct (C sp Hsp) as (p & E & Hwf). exists p. split; auto.
    rewrite G; auto. intros Hin. apply in_map_iff in Hin. destruct Hin as (tg & Et & Ht).
    symmetry in Et. revert Et. eapply names_apart; eauto.
Qed.
Lemma chains_with_ok (Hown : supported own) spaces ll save n tr cs tr' : setup_ok spaces (ll_targets ll) ->
  chains_with own spaces ll save n tr = Ret cs tr' ->
  Forall (chain_ok (inversion_env spaces ll save) (good spaces (ll_targets ll))) cs.
Proof.
  intros Hset. unfold chains_with. revert tr cs tr'.
  induction n as [|n IH]; intros tr cs tr' H; cbn [repeatM] in H.
  - mr H. subst. constructor.
  - mb H as c Ec. mb Ec as s Es. mr Ec. mb H as cs' Ecs. mr H. constructor; eauto.
    apply new_chain_ok. eapply starting_with_ok; eauto.
Qed.
End Custom.

(** Without custom functions. *)
Lemma bind_ext {A B} (m : M A) (f g : A -> M B) : (forall a tr, f a tr = g a tr) -> forall tr, bind m f tr = bind m g tr.
Proof. intros H tr. unfold bind. destruct (m tr); auto. Qed.
Lemma bind_ext2 {A B} (m m' : M A) (f g : A -> M B) : (forall tr, m tr = m' tr) -> (forall a tr, f a tr = g a tr) -> forall tr, bind m f tr = bind m' g tr.
Proof. intros Hm H tr. unfold bind. rewrite Hm. destruct (m' tr); auto. Qed.
Lemma repeatM_ext {A} n (m m' : M A) : (forall tr, m tr = m' tr) -> forall tr, repeatM n m tr = repeatM n m' tr.
Proof. intros H. induction n as [|n IH]; intros tr; cbn [repeatM]; auto. apply bind_ext2; auto. intros a. apply bind_ext2; auto. Qed.
Lemma initialize_default s : forall tr, initialize_with (fun _ => None) s tr = ModelSpace.initialize s tr.
Proof.
  induction s as [s IH] using space_ind'. destruct s as [nm fx mi ma rg cls params]. cbn [sp_params] in IH. intros tr. cbn [initialize_with ModelSpace.initialize].
  apply bind_ext. intros n. 
  assert (Hd : forall positions l, (forall k s', In (k, PSpace s') l -> forall tr, initialize_with (fun _ => None) s' tr = ModelSpace.initialize s' tr) -> forall acc tr,
    (fix go (l : list (string * param)) (acc : dict value) : M (dict value) :=
       match l with
       | [] => ret acc
       | (k, PPrior p) :: t => a <- p_initialize_with (fun _ => None) p positions ;; go t (dset k (Arr a) acc)
       | (k, PSpace s') :: t => a <- repeatM (length positions) (initialize_with (fun _ => None) s') ;; go t (dset k (Lst a) acc)
       end) l acc tr =
    (fix go (l : list (string * param)) (acc : dict value) : M (dict value) :=
       match l with
       | [] => ret acc
       | (k, PPrior p) :: t => a <- p_initialize p positions ;; go t (dset k (Arr a) acc)
       | (k, PSpace s') :: t => a <- repeatM (length positions) (ModelSpace.initialize s') ;; go t (dset k (Lst a) acc)
       end) l acc tr).
  { intros positions. induction l as [|[k [p|s']] l IHl]; intros Hin acc tr'; auto.
    - apply bind_ext2; auto. intros a. apply IHl. intros. eapply Hin. right. eauto.
    - apply bind_ext2; [apply repeatM_ext; eapply Hin; left; reflexivity|]. intros a. apply IHl. intros. eapply Hin. right. eauto. }
  destruct cls as [|lo hi sd fp|d lo hi sd poly kd fp].
  - apply bind_ext2; auto. clear Hd. revert IH. induction params as [|[k [p|s']] l IHl]; intros IH tr'; auto.
    + apply bind_ext. intros g. apply bind_ext2; auto. intros a. apply bind_ext2; auto. apply IHl. intros. eapply IH. right. eauto.
    + apply bind_ext2; [apply repeatM_ext; eapply IH; left; reflexivity|]. intros a. apply bind_ext2; auto. apply IHl. intros. eapply IH. right. eauto.
  - apply bind_ext. intros sites. apply bind_ext. intros positions. apply bind_ext2; auto.
  - apply bind_ext. intros sites. apply bind_ext. intros positions. apply bind_ext2; auto.
Qed.
Lemma mapM_ext {A B} (f g : A -> M B) l : (forall a tr, f a tr = g a tr) -> forall tr, mapM f l tr = mapM g l tr.
Proof. intros H. induction l as [|a l IH]; intros tr; cbn [mapM]; auto. apply bind_ext2; auto. intros b. apply bind_ext2; auto. Qed.
Lemma chains_default spaces ll save n tr : chains_with (fun _ => None) spaces ll save n tr = inversion_chains spaces ll save n tr.
Proof.
  unfold chains_with, inversion_chains. apply repeatM_ext. intros tr1. apply bind_ext2; auto.
  unfold starting_with, starting_state. intros tr2. apply bind_ext2; auto. unfold initialize_all_with, initialize_all. intros tr3.
  apply bind_ext2; auto. intros tr4. apply mapM_ext. intros s tr5. apply bind_ext2; auto. apply initialize_default.
Qed.
