(** Properties of the moves of parameter spaces, continued: C11 and C39. *)
From Coq Require Import Permutation.
From Verif Require Import Base ModelUtils1D ModelPrior ModelState ModelSpace ModelPerturb ModelChain ModelSampler
  ModelLikelihood SpecUtils1D SpecPrior SpecState SpecSpace SpecPerturb SpecChain SpecRun SpecMoves
  ProofUtils1D ProofChain ProofChainB ProofChainC ProofSampler ProofInversion
  ProofState ProofSpace ProofSpaceB ProofSpaceC ProofSpaceD ProofSpaceE ProofPerturb ProofTree ProofRun
  ProofRunB ProofRunC PropChain ExampleRun ExampleSpace PropSpace.
Local Open Scope R_scope.
Local Open Scope string_scope.

(** * C11: births and deaths in a plain space are in detailed balance *)
Definition newborn_item (b : newborn) : item := match b with NNum r => INum r | NState p => IState p end.
(** The values of a new dimension: every parameter is sampled from its prior, in turn. *)
Definition sample_each (s : space) : M (list (string * newborn)) :=
  mapM (fun kp => b <- param_sample (snd kp) None ;; ret (fst kp, b)) (sp_params s).
Definition as_cell (bs : list (string * newborn)) : list (string * option item) :=
  map (fun kb => (fst kb, Some (newborn_item (snd kb)))) bs.

Lemma Forall2_in_r {A B} (P : A -> B -> Prop) l l' b : Forall2 P l l' -> In b l' -> exists a, In a l /\ P a b.
Proof.
  intros HF. induction HF; intros []; subst; [eexists; split; [now left|eauto]|].
  destruct IHHF as (a & H1 & H2); auto. exists a. split; auto. now right.
Qed.
Lemma grown_item i b v v' j : put_at i b v v' -> item_at v' j =
  if (j <? i)%nat then item_at v j else if (j =? i)%nat then Some (newborn_item b) else item_at v (j - 1).
Proof.
  intros [Hi H]. destruct b, v; try contradiction; subst v'; cbn [item_at value_len] in *;
    rewrite nth_error_insert_at by auto; destruct (j <? i)%nat; auto; destruct (j =? i)%nat; auto.
Qed.
Lemma cut_item i v v' j : cut_at i v v' -> item_at v' j = item_at v (if (j <? i)%nat then j else S j).
Proof.
  intros [Hi H]. destruct v; subst v'; cbn [item_at value_len] in *; rewrite nth_error_delete_at by auto;
    destruct (j <? i)%nat; auto.
Qed.
(** Removing dimension [i] removes its cell. *)
Lemma cut_cells i old q : NoDup (dkeys (ps_vals old)) -> cut_state i old q -> cells q = delete_at i (cells old).
Proof.
  intros Hnd (Hi & Hn & Hk & _ & Hv). unfold cells. rewrite Hn.
  assert (Hc : forall j, cell q j = cell old (if (j <? i)%nat then j else S j)).
  { intros j. unfold cell. apply (reorder_items _ _ (fun _ v => item_at v (if (j <? i)%nat then j else S j))); auto.
    intros k v Ev. destruct (Hv k v Ev) as (v' & E & Hcut). exists v'. split; auto. now apply cut_item. }
  apply nth_error_ext. intros j.
  rewrite nth_error_delete_at by (rewrite map_length, seq_length; auto).
  rewrite !nth_error_map.
  destruct (lt_dec j (ps_n old - 1)) as [Hj|Hj].
  - rewrite seq_nth_error by auto. cbn [option_map Nat.add]. rewrite Hc.
    destruct (j <? i)%nat eqn:E; rewrite seq_nth_error by lia; reflexivity.
  - rewrite (proj2 (nth_error_None _ _)) by (rewrite seq_length; lia).
    destruct (j <? i)%nat eqn:E; [apply Nat.ltb_lt in E; lia|].
    rewrite (proj2 (nth_error_None _ _)) by (rewrite seq_length; lia). reflexivity.
Qed.
Lemma rprod_app l l' : rprod (l ++ l') = rprod l * rprod l'.
Proof. induction l as [|x l IH]; cbn; [ring|]. rewrite IH. ring. Qed.
Lemma rprod_delete i l a : nth_error l i = Some a -> rprod l = a * rprod (delete_at i l).
Proof.
  intros H. rewrite <- (insert_delete i a l H) at 1. unfold insert_at.
  rewrite rprod_app. cbn [rprod]. rewrite <- (firstn_skipn i (delete_at i l)) at 3. rewrite rprod_app. ring.
Qed.
Lemma map_delete {A B} (f : A -> B) i l : map f (delete_at i l) = delete_at i (map f l).
Proof. unfold delete_at. now rewrite map_app, <- firstn_map, <- skipn_map. Qed.
Lemma density_cut f i old q : NoDup (dkeys (ps_vals old)) -> cut_state i old q ->
  state_density f old = cell_density f (cell old i) * state_density f q.
Proof.
  intros Hnd Hc. unfold state_density. rewrite (cut_cells i old q) by auto. rewrite map_delete.
  apply rprod_delete. rewrite nth_error_map. unfold cells. rewrite nth_error_map.
  destruct Hc as (Hi & _). rewrite seq_nth_error by auto. reflexivity.
Qed.
(** Deaths, exactly: any index below the number of dimensions can be drawn, and each removes its
    dimension. *)
Lemma plain_death_total s old i tr : valid s -> is_disc s = false -> wf s old -> (sp_min s < ps_n old)%nat ->
  (i < ps_n old)%nat -> (forall k l, ps_get k old <> Some (AObj l)) ->
  exists q, plain_death s old (DInt i :: tr) = Ret (q, Fin 0) tr /\ cut_state i old q.
Proof.
  intros Hv Hd Hwf Hn Hi Ho.
  destruct (wf_local _ _ Hwf) as (_ & (Hk & Hl & _) & _).
  assert (Hcls : sp_cls s = Plain) by (unfold is_disc in Hd; destruct (sp_cls s); congruence).
  assert (Hnd : NoDup (dkeys (ps_vals old))) by (rewrite Hk; now apply names_nodup).
  assert (Hr : exists vals, rmap (fun kv => v <-? delete_value i (snd kv) ;; Ok (fst kv, v)) (ps_vals old) = Ok vals).
  { assert (Hall : forall k v, In (k, v) (ps_vals old) -> exists v', delete_value i v = Ok v').
    { intros k v Hin. apply (dget_in_nodup k v) in Hin; auto.
      pose proof (Hl k v Hin) as Hlen.
      destruct v as [l|l|l|l]; cbn in *.
      - rewrite delete_1d_spec by lia. cbn. eauto.
      - exfalso. destruct (wf_local _ _ Hwf) as (_ & (_ & _ & Hp & Hs) & _).
        assert (Hkin : In k (names s)) by (rewrite <- Hk; eapply dget_in_keys; eauto).
        unfold names in Hkin. rewrite Hd in Hkin. cbn in Hkin. apply in_map_iff in Hkin.
        destruct Hkin as ([k0 [pr|s']] & <- & Hkin); cbn [fst] in *.
        + destruct (Hp _ _ Hkin) as (l0 & E). unfold ps_get in E. congruence.
        + destruct (Hs _ _ Hkin) as (l0 & [E|E]); unfold ps_get in E; congruence.
      - exfalso. apply (Ho k l). exact Hin.
      - eauto. }
    clear - Hall. induction (ps_vals old) as [|[k v] t IH]; [eexists; reflexivity|].
    destruct (Hall k v) as (v' & E); [now left|]. destruct IH as (vals & E2).
    { intros. eapply Hall. right. eauto. }
    cbn [rmap snd fst]. rewrite E. cbn [rbind]. rewrite E2. eexists. reflexivity. }
  destruct Hr as (vals & Hr).
  destruct (valid_here _ Hv) as (Hmm & _).
  assert (Hq : mk_ps (ps_n old - 1) vals = Ok (PS (ps_n old - 1) vals vals [])).
  { pose proof (proj1 (rmap_ok _ _ _) Hr) as HF.
    assert (Hkv : dkeys vals = dkeys (ps_vals old)).
    { clear - HF. induction HF as [|[k v] [k' v'] a b H1 HF IH]; auto. cbn in *.
      apply rbind_ok in H1. destruct H1 as (w & _ & [= -> ->]). now f_equal. }
    apply mk_ps_complete; [now rewrite Hkv|].
    intros k v' Hin. destruct (Forall2_in_r _ _ _ _ HF Hin) as ([k0 v0] & Hin0 & E).
    cbn [fst snd] in E. apply rbind_ok in E. destruct E as (w & E & [= -> ->]).
    apply (dget_in_nodup k v0) in Hin0; auto. apply Hl in Hin0.
    apply delete_value_ok in E; [|lia]. pose proof (cut_len _ _ _ E) as HL. split; [lia|].
    intros ->. cbn in HL. lia. }
  exists (PS (ps_n old - 1) vals vals []). split.
  - unfold plain_death. rewrite (proj2 (Nat.eqb_neq _ _)) by lia. unfold randint_below.
    destruct (ps_n old) as [|m]; [lia|]. unfold bind at 1. unfold randint. cbn [Nat.ltb Nat.leb].
    rewrite (proj2 (Nat.leb_le i m)) by lia. cbn [andb]. rewrite Hr. unfold lift at 1, bind at 1, ret at 1.
    rewrite Hq. reflexivity.
  - destruct (cut_vals s old i (delete_value i) vals (PS (ps_n old - 1) vals vals [])) as [H _]; auto.
    + destruct (valid_here _ Hv) as (_ & _ & _ & H & _); auto.
    + destruct (valid_here _ Hv) as (_ & _ & _ & _ & H & _); auto.
    + intros. apply delete_value_ok; auto. lia.
Qed.

(** Births, exactly: the values are inserted at the drawn index. *)
Lemma birth_vals_each params i d : NoDup (dkeys params) -> forall tr new tr',
  (forall k v, In (k, v) d -> (i <= value_len v)%nat) ->
  plain_birth_vals params i d tr = Ret new tr' ->
  (forall k v, In (k, v) d -> In k (dkeys params)) ->
  exists bs, mapM (fun k => match dget k params with
                            | Some par => b <- param_sample par None ;; ret (k, b) | None => err EKey end)
               (dkeys d) tr = Ret bs tr' /\
    Forall2 (fun kv kb => fst kv = fst kb) d bs /\
    Forall2 (fun kvb kv' => fst (fst kvb) = fst kv' /\ put_at i (snd (snd kvb)) (snd (fst kvb)) (snd kv'))
      (combine d bs) new.
Proof.
  intros Hnd. induction d as [|[k v] d IH]; intros tr new tr' Hlen H Hk; cbn [plain_birth_vals dkeys map fst mapM] in *.
  - mr H. exists []. repeat split; constructor.
  - destruct (dget k params) as [par|] eqn:E; [|discriminate].
    mb H as b Eb. mb H as v' Ev. mb H as r Er. mr H.
    destruct (IH _ _ _ (fun k0 v0 Hin => Hlen k0 v0 (or_intror Hin)) Er (fun k0 v0 Hin => Hk k0 v0 (or_intror Hin)))
      as (bs & E1 & E2 & E3).
    exists ((k, b) :: bs). split; [|split].
    + unfold bind at 1 2. rewrite Eb. unfold ret at 1. unfold bind at 1. unfold dkeys in E1. rewrite E1. reflexivity.
    + constructor; auto.
    + cbn [combine]. constructor; auto. cbn. split; auto. apply insert_value_ok; auto. eapply Hlen. now left.
Qed.
Lemma birth_vals_total params i d : forall tr bs tr',
  (forall k v, In (k, v) d -> (i <= value_len v)%nat) ->
  (forall k v par, In (k, v) d -> dget k params = Some par ->
     match par, v with PPrior _, Arr _ => True | PSpace _, Lst _ => True | _, _ => False end) ->
  mapM (fun k => match dget k params with
                 | Some par => b <- param_sample par None ;; ret (k, b) | None => err EKey end)
       (dkeys d) tr = Ret bs tr' ->
  exists new, plain_birth_vals params i d tr = Ret new tr' /\
    Forall2 (fun kvb kv' => fst (fst kvb) = fst kv' /\ put_at i (snd (snd kvb)) (snd (fst kvb)) (snd kv'))
      (combine d bs) new.
Proof.
  induction d as [|[k v] d IH]; intros tr bs tr' Hlen Hkind H; cbn [plain_birth_vals dkeys map fst mapM] in *.
  - mr H. exists []. repeat split; constructor.
  - destruct (dget k params) as [par|] eqn:E; [|unfold bind in H; discriminate].
    mb H as kb Ekb. mb Ekb as b Eb. mr Ekb. mb H as r Er. mr H.
    destruct (IH _ _ _ (fun k0 v0 Hin => Hlen k0 v0 (or_intror Hin))
      (fun k0 v0 p0 Hin => Hkind k0 v0 p0 (or_intror Hin)) Er) as (new & E1 & E2).
    assert (Hb : exists v', insert_value i b v = Ok v' /\ put_at i b v v').
    { pose proof (Hlen k v (or_introl eq_refl)) as Hl.
      pose proof (Hkind k v par (or_introl eq_refl) E) as Hp.
      assert (Hi : exists v', insert_value i b v = Ok v').
      { destruct par as [p|s']; cbn [param_sample] in Eb; mb Eb as z Ez; mr Eb;
          destruct v as [l|l|l|l]; try contradiction; cbn [insert_value].
        - cbn in Hl. rewrite insert_1d_spec by auto. cbn. eauto.
        - eauto. }
      destruct Hi as (v' & Hi). exists v'. split; auto. now apply insert_value_ok. }
    destruct Hb as (v' & Hv1 & Hv2). exists ((k, v') :: new). split.
    + unfold bind at 1. rewrite Eb. unfold bind at 1. rewrite Hv1. unfold lift at 1, ret at 1. unfold bind at 1.
      rewrite E1. reflexivity.
    + cbn [combine]. constructor; auto.
Qed.
Lemma mapM_names params : NoDup (dkeys params) -> forall tr,
  mapM (fun k => match dget k params with
                 | Some par => b <- param_sample par None ;; ret (k, b) | None => err EKey end) (dkeys params) tr =
  mapM (fun kp => b <- param_sample (snd kp) None ;; ret (fst kp, b)) params tr.
Proof.
  intros Hnd.
  assert (G : forall l, (forall k par, In (k, par) l -> dget k params = Some par) -> forall tr,
    mapM (fun k => match dget k params with
                 | Some par => b <- param_sample par None ;; ret (k, b) | None => err EKey end) (dkeys l) tr =
    mapM (fun kp => b <- param_sample (snd kp) None ;; ret (fst kp, b)) l tr).
  { induction l as [|[k par] l IH]; intros Hl tr; [reflexivity|]. cbn [dkeys map mapM fst snd].
    rewrite (Hl k par) by (now left). specialize (IH (fun k0 p0 Hin => Hl k0 p0 (or_intror Hin))).
    unfold bind, dkeys in *. destruct (param_sample par None tr) as [x t|e t| |]; auto. unfold ret at 1 4.
    rewrite IH. reflexivity. }
  apply G. intros. now apply dget_in_nodup.
Qed.
Lemma put_cells i d bs new j : Forall2 (fun kv kb => fst kv = fst kb) d bs ->
  Forall2 (fun kvb kv' => fst (fst kvb) = fst kv' /\ put_at i (snd (snd kvb)) (snd (fst kvb)) (snd kv'))
    (combine d bs) new ->
  map (fun kv => (fst kv, item_at (snd kv) j)) new =
  if (j <? i)%nat then map (fun kv => (fst kv, item_at (snd kv) j)) d
  else if (j =? i)%nat then as_cell bs else map (fun kv => (fst kv, item_at (snd kv) (j - 1))) d.
Proof.
  intros H1. revert new. induction H1 as [|[k v] [k' b] d bs E H1 IH]; intros new H2; inversion H2 as [|? [k2 v'] ? new' [E1 E2] H3]; subst.
  - cbn [map as_cell]. destruct (j <? i)%nat, (j =? i)%nat; reflexivity.
  - cbn [fst snd] in *. subst k' k2. cbn [map fst snd as_cell]. rewrite (IH _ H3), (grown_item _ _ _ _ j E2).
    destruct (j <? i)%nat; auto. destruct (j =? i)%nat; auto.
Qed.
Lemma insert_cells i old q bs : (i <= ps_n old)%nat -> ps_n q = S (ps_n old) ->
  Forall2 (fun kv kb => fst kv = fst kb) (ps_vals old) bs ->
  Forall2 (fun kvb kv' => fst (fst kvb) = fst kv' /\ put_at i (snd (snd kvb)) (snd (fst kvb)) (snd kv'))
    (combine (ps_vals old) bs) (ps_vals q) ->
  cells q = insert_at i (as_cell bs) (cells old).
Proof.
  intros Hi Hn H1 H2. unfold cells. rewrite Hn. apply nth_error_ext. intros j.
  rewrite nth_error_insert_at by (rewrite map_length, seq_length; auto).
  rewrite !nth_error_map. pose proof (put_cells i _ _ _ j H1 H2) as Hc.
  destruct (le_dec j (ps_n old)) as [Hj|Hj].
  - rewrite (seq_nth_error 0 (S (ps_n old))) by lia. cbn [option_map Nat.add]. unfold cell at 1. rewrite Hc.
    destruct (j <? i)%nat eqn:E; [apply Nat.ltb_lt in E; now rewrite seq_nth_error by lia|].
    destruct (j =? i)%nat eqn:E2; [reflexivity|]. apply Nat.ltb_ge in E. apply Nat.eqb_neq in E2.
    now rewrite seq_nth_error by lia.
  - rewrite (proj2 (nth_error_None _ j)) by (rewrite seq_length; lia).
    destruct (j <? i)%nat eqn:E; [apply Nat.ltb_lt in E; lia|].
    destruct (j =? i)%nat eqn:E2; [apply Nat.eqb_eq in E2; lia|].
    rewrite (proj2 (nth_error_None _ _)) by (rewrite seq_length; lia). reflexivity.
Qed.

(** Attention: a state with an array of objects (made by sample, C55) cannot be moved at all. *)
Definition no_objects (p : psstate) : Prop := forall k l, ps_get k p <> Some (AObj l).

Lemma sample_each_keys s tr bs tr' : sample_each s tr = Ret bs tr' -> map fst bs = dkeys (sp_params s).
Proof.
  unfold sample_each. generalize (sp_params s) as l. intros l. revert tr bs. induction l as [|[k par] l IH]; intros tr bs H; cbn [mapM] in H.
  - mr H. reflexivity.
  - mb H as kb Ekb. cbn [fst snd] in *. mb H as r Er. mr H. cbn. 
    mb Ekb as b Eb. mr Ekb. cbn. f_equal. eauto.
Qed.
(** All births: an index among [n + 1], then a sample of every parameter. *)
Theorem C11_births s m tr0 q r tr' : valid s -> is_disc s = false -> wf s m -> (ps_n m < sp_max s)%nat ->
  birth s m tr0 = Ret (q, r) tr' ->
  r = Fin 0 /\ exists i tr bs, tr0 = DInt i :: tr /\ (i <= ps_n m)%nat /\
    sample_each s tr = Ret bs tr' /\ cells q = insert_at i (as_cell bs) (cells m).
Proof.
  intros Hv Hd Hwf Hn H. unfold birth in H. rewrite Hd in H. unfold plain_birth in H.
  rewrite (proj2 (Nat.eqb_neq _ _)) in H by lia.
  mb H as i Ei. mb H as vals Evals. mb H as q1 Eq. mr H. inj H. split; auto.
  destruct (wf_local _ _ Hwf) as (_ & (Hk & Hl & _) & _).
  assert (Hnd : NoDup (dkeys (ps_vals m))) by (rewrite Hk; now apply names_nodup).
  assert (Hnames : dkeys (ps_vals m) = dkeys (sp_params s)) by (rewrite Hk; unfold names; now rewrite Hd).
  unfold randint in Ei. destruct (ps_n m <? 0)%nat; [discriminate|].
  destruct tr0 as [|[|k| | | |]]; try discriminate.
  destruct (_ && _)%bool eqn:E; [|discriminate]. apply andb_true_iff in E. destruct E as [_ E].
  apply Nat.leb_le in E. injection Ei as <- <-.
  destruct (birth_vals_each (sp_params s) k (ps_vals m)) with (2 := fun k0 v0 Hin =>
     eq_ind_r (fun x => (k <= x)%nat) E (Hl k0 v0 (dget_in_nodup k0 v0 _ Hnd Hin))) (3 := Evals)
    as (bs & E1 & E2 & E3).
  - now rewrite <- Hnames.
  - intros k0 v0 Hin. rewrite <- Hnames. eapply in_dkeys; eauto.
  - exists k. do 2 eexists. split; [reflexivity|]. split; auto. split.
    + unfold sample_each. rewrite <- mapM_names by (now rewrite <- Hnames). rewrite <- Hnames. exact E1.
    + assert (Hkn : dkeys vals = dkeys (ps_vals m)).
      { clear - E2 E3. revert vals E3. induction E2 as [|[k1 v1] [k2 b] a c Hx _ IH]; intros vals E3; inversion E3 as [|? [k3 v3] ? ? [H1 _] H2]; subst; auto.
        cbn in *. subst. f_equal. now apply IH. }
      apply mk_ps_ok in Eq; [|now rewrite Hkn]. destruct Eq as [-> _].
      apply insert_cells; auto.
Qed.
Theorem C11_births_all s m i tr bs tr' : valid s -> is_disc s = false -> wf s m -> no_objects m ->
  (ps_n m < sp_max s)%nat -> (i <= ps_n m)%nat -> sample_each s tr = Ret bs tr' ->
  exists q, birth s m (DInt i :: tr) = Ret (q, Fin 0) tr' /\ cells q = insert_at i (as_cell bs) (cells m).
Proof.
  intros Hv Hd Hwf Ho Hn Hi Hs. unfold birth. rewrite Hd.
  destruct (wf_local _ _ Hwf) as (_ & (Hk & Hl & Hpr & Hsp) & _).
  assert (Hnd : NoDup (dkeys (ps_vals m))) by (rewrite Hk; now apply names_nodup).
  assert (Hnames : dkeys (ps_vals m) = dkeys (sp_params s)) by (rewrite Hk; unfold names; now rewrite Hd).
  assert (Hndp : NoDup (dkeys (sp_params s))) by (now rewrite <- Hnames).
  pose proof (sample_each_keys _ _ _ _ Hs) as Hkb.
  unfold sample_each in Hs. rewrite <- mapM_names in Hs by auto. rewrite <- Hnames in Hs.
  destruct (birth_vals_total (sp_params s) i (ps_vals m) tr bs tr') as (new & E1 & E2); auto.
  - intros k v Hin. rewrite (Hl k v); auto. now apply dget_in_nodup.
  - intros k v par Hin Hp. apply dget_some_in in Hp. apply (dget_in_nodup _ _ _ Hnd) in Hin.
    destruct par as [p|s'].
    + destruct (Hpr _ _ Hp) as (l & E). unfold ps_get in E. rewrite Hin in E. injection E as ->. exact I.
    + destruct (Hsp _ _ Hp) as (l & [E|E]); unfold ps_get in E; rewrite Hin in E; injection E as ->; [exact I|].
      now apply (Ho k l).
  - assert (Hkey : Forall2 (fun kv kb => fst kv = fst kb) (ps_vals m) bs).
    { assert (G : forall (d : dict value) (bs : list (string * newborn)), map fst bs = dkeys d ->
        Forall2 (fun kv kb => fst kv = fst kb) d bs).
      { induction d as [|[k v] d IH]; intros [|[k' b] l] Hm; try discriminate; constructor.
        - cbn in *. congruence.
        - apply IH. cbn in Hm. injection Hm. auto. }
      apply G. congruence. }
    assert (Hkn : dkeys new = dkeys (ps_vals m)).
    { clear - Hkey E2. revert new E2. induction Hkey as [|[k1 v1] [k2 b] a c Hx _ IH]; intros vals E3; inversion E3 as [|? [k3 v3] ? ? [H1 _] H2]; subst; auto.
      cbn in *. subst. f_equal. now apply IH. }
    assert (Hq : mk_ps (S (ps_n m)) new = Ok (PS (S (ps_n m)) new new [])).
    { apply mk_ps_complete; [now rewrite Hkn|]. intros k v Hin.
      destruct (Forall2_in_r _ _ _ _ E2 Hin) as ([[k0 v0] [k1 b]] & Hin0 & _ & Hput). cbn [fst snd] in *.
      apply in_combine_l in Hin0. apply (dget_in_nodup _ _ _ Hnd) in Hin0. apply Hl in Hin0.
      pose proof (put_len _ _ _ _ Hput) as HL. split; [lia|]. intros ->. cbn in HL. lia. }
    exists (PS (S (ps_n m)) new new []). split; [|now apply insert_cells].
    unfold plain_birth. rewrite (proj2 (Nat.eqb_neq _ _)) by lia. unfold bind at 1, randint.
    cbn [Nat.ltb Nat.leb]. destruct (ps_n m <? 0)%nat eqn:E0; [apply Nat.ltb_lt in E0; lia|].
    rewrite (proj2 (Nat.leb_le i (ps_n m))) by auto. cbn [andb].
    unfold bind at 1. rewrite E1. rewrite Hq. reflexivity.
Qed.
(** All deaths: an index among [n]. *)
Theorem C11_deaths s m tr0 q r tr' : valid s -> is_disc s = false -> wf s m -> (sp_min s < ps_n m)%nat ->
  death s m tr0 = Ret (q, r) tr' ->
  r = Fin 0 /\ exists i, tr0 = DInt i :: tr' /\ (i < ps_n m)%nat /\ cells q = delete_at i (cells m).
Proof.
  intros Hv Hd Hwf Hn H. unfold death in H. rewrite Hd in H.
  destruct (plain_death_spec s m tr0 q r tr' Hv Hwf H) as [(E & _)|(_ & -> & i & -> & Hc & _)]; [lia|].
  split; auto. exists i. split; auto. split; [apply Hc|]. apply cut_cells; auto.
  destruct (wf_local _ _ Hwf) as (_ & (Hk & _) & _). rewrite Hk. now apply names_nodup.
Qed.
Theorem C11_deaths_all s m i tr : valid s -> is_disc s = false -> wf s m -> no_objects m ->
  (sp_min s < ps_n m)%nat -> (i < ps_n m)%nat ->
  exists q, death s m (DInt i :: tr) = Ret (q, Fin 0) tr /\ cells q = delete_at i (cells m).
Proof.
  intros Hv Hd Hwf Ho Hn Hi. unfold death. rewrite Hd.
  destruct (plain_death_total s m i tr) as (q & E & Hc); auto. exists q. split; auto. apply cut_cells; auto.
  destruct (wf_local _ _ Hwf) as (_ & (Hk & _) & _). rewrite Hk. now apply names_nodup.
Qed.

Lemma cells_nth m i : (i < ps_n m)%nat -> nth_error (cells m) i = Some (cell m i).
Proof. intros. unfold cells. rewrite nth_error_map, seq_nth_error by auto. reflexivity. Qed.
Lemma cells_length m : length (cells m) = ps_n m.
Proof. unfold cells. now rewrite map_length, seq_length. Qed.
(** Detailed balance.  [f]: the prior densities of the values.  [I]: the indices whose removal takes [m'] to
    [m].  The births from [m] to [m'] are exactly those at an index in [I] with the values of that dimension, so
    their density is the left sum; the right sum is the probability of the deaths from [m'] to [m].  Both
    log ratios are 0 (C11_births, C11_deaths), and births and deaths are tried equally often
    (C39_births_and_deaths). *)
Theorem C11_detailed_balance s m m' I f : valid s -> is_disc s = false -> wf s m -> wf s m' ->
  no_objects m' -> (sp_min s <= ps_n m < sp_max s)%nat -> ps_n m' = S (ps_n m) -> NoDup I ->
  (forall i, In i I <-> exists q, death s m' [DInt i] = Ret (q, Fin 0) [] /\ cells q = cells m) ->
  (forall i tr q r tr', birth s m (DInt i :: tr) = Ret (q, r) tr' ->
     (cells q = cells m' <->
      In i I /\ exists bs, sample_each s tr = Ret bs tr' /\ as_cell bs = cell m' i)) /\
  state_density f m * rsum (map (fun i => 1 / INR (S (ps_n m)) * cell_density f (cell m' i)) I) =
  state_density f m' * rsum (map (fun i => 1 / INR (ps_n m')) I).
Proof.
  intros Hv Hd Hwf Hwf' Ho Hn Hn' Hnd HI.
  assert (HI' : forall i, In i I <-> (i < ps_n m')%nat /\ cells m = delete_at i (cells m')).
  { intros i. rewrite HI. split.
    - intros (q & E & Hq). apply C11_deaths in E; auto; [|lia]. destruct E as (_ & j & [= <-] & Hj & E).
      split; auto. congruence.
    - intros [Hi E]. destruct (C11_deaths_all s m' i []) as (q & E1 & E2); auto; [lia|]. exists q. split; auto.
      congruence. }
  split.
  - intros i tr q r tr' H. apply C11_births in H; auto; [|lia].
    destruct H as (-> & j & tr1 & bs & [= <- <-] & Hi & Hbs & Hq). rewrite Hq. split.
    + intros E. split.
      * apply HI'. split; [lia|]. rewrite <- E. symmetry. apply delete_insert. rewrite cells_length. lia.
      * exists bs. split; auto. assert (Hi' : (i < ps_n m')%nat) by lia.
        pose proof (cells_nth m' i Hi') as Hc. rewrite <- E in Hc.
        rewrite nth_error_insert_at in Hc by (rewrite cells_length; lia).
        rewrite Nat.ltb_irrefl, Nat.eqb_refl in Hc. congruence.
    + intros (Hin & bs' & E1 & E2). apply HI' in Hin. destruct Hin as [Hi' E].
      assert (bs' = bs) by congruence. subst bs'. rewrite E, E2. apply insert_delete. now apply cells_nth.
  - rewrite Hn'.
    assert (Hf : forall i, In i I -> state_density f m' = cell_density f (cell m' i) * state_density f m).
    { intros i Hin. apply HI' in Hin. destruct Hin as [Hi E]. unfold state_density. rewrite E, map_delete.
      apply rprod_delete. rewrite nth_error_map, cells_nth by auto. reflexivity. }
    clear - Hf. generalize (1 / INR (S (ps_n m))) as w. intros w. induction I as [|i I IH]; [cbn; ring|].
    change (state_density f m * (w * cell_density f (cell m' i) +
              rsum (map (fun i0 => w * cell_density f (cell m' i0)) I)) =
            state_density f m' * (w + rsum (map (fun _ => w) I))).
    rewrite !Rmult_plus_distr_l. rewrite IH by (intros; apply Hf; now right).
    rewrite (Hf i) at 2 by (now left). ring.
Qed.

(** A space of one uniform parameter.  Two equal values: both deaths lead to the same state. *)
Definition ex_pl : space := Space "pl" None 1 4 1 Plain [("v", PPrior ex_v)].
Definition ex_q (l : list R) : psstate := PS (length l) [("v", Arr l)] [("v", Arr l)] [].
Lemma ex_pl_valid : valid ex_pl.
Proof.
  intros s' H. inversion H as [|? k s1 ? Hin _]; subst.
  2:{ cbn in Hin. destruct Hin as [E|[]]. discriminate E. }
  split; [cbn; lia|]. split; [cbn; lra|]. split; [exact I|]. split; [|split; [|split]].
  - cbn. repeat constructor; cbn; intuition discriminate.
  - cbn. intuition discriminate.
  - cbn. intros k p [E|[]]. injection E as <- <-. split; auto. apply ex_prior_v.
  - cbn. intros k p [E|[]]. discriminate E.
Qed.
Local Opaque Rleb Rltb Reqb py_int.
Lemma ex_q1 tr : ModelSpace.initialize ex_pl (DInt 1 :: DVal 0 :: DU (1/2) :: tr) = Ret (ex_q [2]) tr.
Proof. run. same. Qed.
Lemma ex_q2 tr : birth ex_pl (ex_q [2]) (DInt 1 :: DU (1/2) :: tr) = Ret (ex_q [2; 2], Fin 0) tr.
Proof. run. same. Qed.
Lemma ex_q1_wf : wf ex_pl (ex_q [2]).
Proof. eapply initialize_wf; [apply ex_pl_valid|apply (ex_q1 [])]. Qed.
Lemma ex_q2_wf : wf ex_pl (ex_q [2; 2]).
Proof. eapply birth_wf; [apply ex_pl_valid|apply ex_q1_wf|apply (ex_q2 [])|exact I]. Qed.
Example C11_case :
  valid ex_pl /\ is_disc ex_pl = false /\ wf ex_pl (ex_q [2]) /\ wf ex_pl (ex_q [2; 2]) /\
  no_objects (ex_q [2; 2]) /\ (sp_min ex_pl <= ps_n (ex_q [2%R]) < sp_max ex_pl)%nat /\
  NoDup [0%nat; 1%nat] /\
  (forall i, In i [0%nat; 1%nat] <->
     exists q, death ex_pl (ex_q [2; 2]) [DInt i] = Ret (q, Fin 0) [] /\ cells q = cells (ex_q [2])) /\
  birth ex_pl (ex_q [2]) [DInt 1; DU (1/2)] = Ret (ex_q [2; 2], Fin 0) [].
Proof.
  split; [apply ex_pl_valid|]. split; [reflexivity|]. split; [apply ex_q1_wf|]. split; [apply ex_q2_wf|].
  assert (Ho : no_objects (ex_q [2; 2])).
  { intros k l. cbn. destruct (k =? "v")%string; discriminate. }
  split; [exact Ho|]. split; [cbn; lia|]. split; [repeat constructor; cbn; intuition discriminate|].
  split; [|apply ex_q2].
  intros i. split.
  - intros [<-|[<-|[]]]; (eexists; split; [reflexivity|reflexivity]).
  - intros (q & H & _). 
    destruct (C11_deaths _ _ _ _ _ _ ex_pl_valid eq_refl ex_q2_wf (ltac:(cbn; lia)) H) as (_ & j & [= <-] & Hj & _).
    cbn in Hj. cbn. lia.
Qed.

(** * C39: the chance of each elementary move *)
Lemma own_elems_of s e w : In (e, w) (own_elems s) <-> move_of s e w.
Proof.
  unfold own_elems, sp_transd, is_disc. rewrite !in_app_iff. split.
  - intros [H|[H|H]].
    + destruct (sp_fixed s) eqn:E; [destruct H|]. destruct H as [H|[H|[]]]; injection H as <- <-; now constructor.
    + destruct (priors_of (sp_params s)) as [|x l] eqn:E; [destruct H|]. destruct H as [H|[]].
      injection H as <- <-. constructor; [discriminate|]. symmetry. exact E.
    + destruct (sp_cls s) eqn:E; [destruct H|..]; (destruct H as [H|[]]; injection H as <- <-; constructor; congruence).
  - intros H. destruct H as [H|H|l Hl ->|H].
    + left. rewrite H. now left.
    + left. rewrite H. right. now left.
    + right. left. change (filter is_prior (map snd (sp_params s))) with (priors_of (sp_params s)) in *.
      destruct (priors_of (sp_params s)); [congruence|]. now left.
    + right. right. destruct (sp_cls s); [congruence|..]; now left.
Qed.
Lemma own_weight_sum s : rsum (map snd (own_elems s)) = own_weight s.
Proof.
  unfold own_elems, own_weight. rewrite !map_app, !ProofUtils1DB.rsum_app. unfold sp_transd, is_disc.
  assert (Hp : forall l : list param, existsb is_prior l = match filter is_prior l with [] => false | _ => true end).
  { induction l as [|x l IH]; auto. cbn. destruct (is_prior x); auto. }
  rewrite Hp. change (filter is_prior (map snd (sp_params s))) with (priors_of (sp_params s)).
  destruct (sp_fixed s), (priors_of (sp_params s)), (sp_cls s); cbn; ring.
Qed.
Lemma space_funcs_all s s' : sub_space s s' -> In (own_psp s') (space_funcs s).
Proof.
  induction 1 as [s|s k s1 s' Hin Hs IH]; destruct s as [name fixed nmin nmax range cls params];
    cbn [space_funcs]; apply in_or_app; [right; now left|left].
  cbn in Hin. induction params as [|[k' [pr|s2]] t IHt]; [destruct Hin| |].
  - destruct Hin as [E|Hin]; [discriminate E|auto].
  - apply in_or_app. destruct Hin as [E|Hin]; [injection E as <- <-; auto|auto].
Qed.
Lemma space_funcs_weight s : rsum (map snd (space_funcs s)) = tree_weight s.
Proof.
  revert s. fix IH 1. intros [name fixed nmin nmax range cls params].
  cbn [space_funcs tree_weight]. rewrite map_app, ProofUtils1DB.rsum_app. cbn [map snd own_psp].
  rewrite own_weight_sum. rewrite Rplus_comm. f_equal; [cbn; ring|].
  induction params as [|[k [pr|s1]] t IHt]; [reflexivity|exact IHt|].
  rewrite map_app, ProofUtils1DB.rsum_app, IH. f_equal. exact IHt.
Qed.
(** The perturbations of an inversion: one for every space at every nesting level, each with exactly the
    elementary moves of that space. *)
Theorem C39_perturbations spaces q W :
  (In (q, W) (all_funcs spaces) ->
   exists s s', In s spaces /\ sub_space s s' /\ psp_space q = sp_name s' /\ W = own_weight s' /\
     forall e w, In (e, w) (psp_funcs q) <-> move_of s' e w) /\
  (forall s s', In s spaces -> sub_space s s' -> exists q W, In (q, W) (all_funcs spaces) /\
     psp_space q = sp_name s' /\ forall e w, In (e, w) (psp_funcs q) <-> move_of s' e w).
Proof.
  split.
  - intros H. destruct (all_funcs_in _ _ _ H) as (s & s' & H1 & H2 & E). injection E as -> ->.
    exists s, s'. repeat (split; auto); [now rewrite own_weight_sum|apply own_elems_of..].
  - intros s s' H1 H2. exists (fst (own_psp s')), (snd (own_psp s')). split.
    + unfold all_funcs. rewrite in_flat_map. exists s. split; auto. now apply space_funcs_all.
    + split; auto. intros e w. apply own_elems_of.
Qed.
Lemma chance_nth ws i w : nth_error ws i = Some w -> chance ws i = w / rsum ws.
Proof.
  intros H. unfold chance, weight_before. rewrite (ProofUtils1DB.rsum_firstn_S ws i w H). f_equal. ring.
Qed.
(** Each elementary move is chosen, by the chain and then by the perturbation of its space, with its own
    weight over the sum of the weights of all elementary moves. *)
Definition total_weight (spaces : list space) (ll : loglike) : R :=
  rsum (map tree_weight spaces) + match ll_hier ll with [] => 0 | _ => 1 end.
Lemma total_weight_sum spaces ll save : rsum (e_weights (inversion_env spaces ll save)) = total_weight spaces ll.
Proof.
  unfold total_weight. cbn [inversion_env chain_env e_weights]. unfold inv_pfuncs. rewrite map_app, ProofUtils1DB.rsum_app. f_equal.
  - rewrite map_map. cbn [snd]. unfold all_funcs. induction spaces as [|s t IH]; [reflexivity|].
    cbn [flat_map map]. rewrite map_app, ProofUtils1DB.rsum_app, IH. cbn [rsum fold_right]. f_equal. apply space_funcs_weight.
  - unfold ll_pfuncs. destruct (ll_hier ll); cbn; ring.
Qed.
Theorem C39_elementary spaces ll save i j q W e w :
  nth_error (inv_pfuncs spaces ll) i = Some (FSpace q, W) -> nth_error (psp_funcs q) j = Some (e, w) ->
  chance (e_weights (inversion_env spaces ll save)) i * chance (map snd (psp_funcs q)) j =
  w / total_weight spaces ll.
Proof.
  intros Hi Hj. rewrite <- (total_weight_sum spaces ll save).
  assert (Hin : In (q, W) (all_funcs spaces)).
  { apply nth_error_In in Hi. unfold inv_pfuncs in Hi. apply in_app_or in Hi. destruct Hi as [Hi|Hi].
    - apply in_map_iff in Hi. destruct Hi as ([q' W'] & [= <- <-] & Hi). exact Hi.
    - unfold ll_pfuncs in Hi. destruct (ll_hier ll); [destruct Hi|]. destruct Hi as [E|[]]. discriminate E. }
  destruct (all_funcs_in _ _ _ Hin) as (s & s' & H1 & H2 & E). injection E as -> ->.
  rewrite (chance_nth _ i (rsum (map snd (own_elems s')))).
  2:{ cbn [inversion_env chain_env e_weights]. rewrite nth_error_map, Hi. reflexivity. }
  cbn [own_psp psp_funcs] in *. rewrite (chance_nth _ j w) by (now rewrite nth_error_map, Hj).
  assert (Hpos : 0 < rsum (map snd (own_elems s'))).
  { apply nth_error_In in Hj. apply own_elems_of in Hj. rewrite own_weight_sum. unfold own_weight.
    assert (A : 0 <= match sp_fixed s' with None => 2 | Some _ => 0 end) by (destruct (sp_fixed s'); lra).
    assert (B : 0 <= if existsb is_prior (map snd (sp_params s')) then 3 else 0) by (destruct (existsb _ _); lra).
    assert (C : 0 <= match sp_cls s' with Plain => 0 | _ => 1 end) by (destruct (sp_cls s'); lra).
    destruct Hj as [H|H|l Hl ->|H].
    - rewrite H in *. lra.
    - rewrite H in *. lra.
    - destruct (existsb is_prior (map snd (sp_params s'))) eqn:Ex; [lra|]. exfalso. apply Hl.
      clear - Ex. induction (map snd (sp_params s')) as [|x t IH]; auto. cbn in *. apply orb_false_iff in Ex.
      destruct Ex as [-> Ex]. auto.
    - destruct (sp_cls s'); [congruence|lra..]. }
  unfold Rdiv. rewrite (Rmult_comm w). rewrite Rmult_assoc, (Rmult_comm (/ rsum (e_weights _))).
  rewrite <- !Rmult_assoc. rewrite Rinv_r by lra. ring.
Qed.
(** Births and deaths of a space are equally likely. *)
Theorem C39_births_and_deaths spaces q W s w :
  In (q, W) (all_funcs spaces) -> In (EBirth s, w) (psp_funcs q) <-> In (EDeath s, w) (psp_funcs q).
Proof.
  intros H. destruct (all_funcs_in _ _ _ H) as (s0 & s' & _ & _ & E). injection E as -> ->.
  cbn [psp_funcs]. rewrite !own_elems_of. split; intros M; inversion M; subst; constructor; auto.
Qed.
(** The inversion of ExampleRun.v: the birth of its tessellation has weight 1 of 10. *)
Example C39_case_elementary save :
  nth_error (inv_pfuncs [ex_vor] ex_ll) 1 = Some (FSpace ex_own, own_weight ex_vor) /\
  nth_error (psp_funcs ex_own) 0 = Some (EBirth ex_vor, 1) /\
  total_weight [ex_vor] ex_ll = 10 /\
  chance (e_weights (inversion_env [ex_vor] ex_ll save)) 1 * chance (map snd (psp_funcs ex_own)) 0 = 1 / 10.
Proof.
  assert (H1 : nth_error (inv_pfuncs [ex_vor] ex_ll) 1 = Some (FSpace ex_own, own_weight ex_vor)).
  { cbn -[Rplus]. rewrite <- own_weight_sum. reflexivity. }
  assert (H3 : total_weight [ex_vor] ex_ll = 10).
  { unfold total_weight. cbn. unfold own_weight. cbn. ring. }
  split; [exact H1|]. split; [reflexivity|]. split; [exact H3|].
  rewrite (C39_elementary _ _ _ _ 0 _ _ (EBirth ex_vor) 1 H1 eq_refl). now rewrite H3.
Qed.
