(** Samplers in memory and samplers of values: lists of chains, and processes. *)
From Verif Require Import Base ModelUtils1D ModelPrior ModelState ModelSpace ModelChain ModelSampler ModelPerturb ModelLikelihood ModelHeap
  ModelHeapSampler SpecState SpecSpace SpecChain SpecRun SpecHeap SpecRefine SpecRefineChain SpecRefineSampler ProofState ProofSpace ProofChain
  ProofRun ProofRunB ProofRunC ProofHeap ProofHeapB ProofRefine ProofRefineB ProofRefineF ProofRefineK ProofRefineL ProofRefineM ProofRefineN
  ProofRefineO.
Local Open Scope R_scope.

(** * Copies of all objects behind others *)
Section Move.
Variables h h1 : heap.
Let n := length h.
Let h2 := h ++ map (move_obj n) h1.
Lemma move_nth a o : nth_error h1 a = Some o -> nth_error h2 (n + a) = Some (move_obj n o).
Proof.
  intros Ea. unfold h2. rewrite nth_error_app2 by (unfold n; lia). replace (n + a - length h)%nat with a by (unfold n; lia).
  rewrite nth_error_map, Ea. reflexivity.
Qed.
Definition mvd (d : dict loc) : dict loc := map (fun ka : string * loc => (fst ka, (n + snd ka)%nat)) d.
Lemma drel_mv {B} (R R' : loc -> B -> Prop) d vals : (forall b v, R b v -> R' (n + b)%nat v) -> drel R d vals -> drel R' (mvd d) vals.
Proof. intros H D. induction D as [|[k b] [k' v] d vals [K1 K2] D IH]; cbn; constructor; auto. split; cbn in *; auto. Qed.
Lemma dget_mv k d : dget k (mvd d) = option_map (Nat.add n) (dget k d).
Proof. induction d as [|[k' b] d IH]; cbn; auto. destruct (String.eqb k k'); auto. Qed.
Lemma arel_mv {B} (R R' : loc -> B -> Prop) al attrs : (forall b v, R b v -> R' (n + b)%nat v) -> arel R al attrs -> arel R' (mvd al) attrs.
Proof.
  intros H G k b Hk. rewrite dget_mv in Hk. destruct (dget k al) as [b0|] eqn:E0; [|discriminate]. injection Hk as <-.
  destruct (G k b0 E0) as (v & E1 & E2). eauto.
Qed.
Lemma Forall2_mv {B} (R R' : loc -> B -> Prop) ls ps : (forall b v, R b v -> R' (n + b)%nat v) -> Forall2 R ls ps -> Forall2 R' (map (Nat.add n) ls) ps.
Proof. intros H F. induction F; cbn; constructor; auto. Qed.
Lemma rep_move a p : rep h1 a p -> rep h2 (n + a)%nat p.
Proof.
  apply (rep_ind2 h1 (fun a p => rep h2 (n + a)%nat p) (fun b v => repv h2 (n + b)%nat v)).
  - intros a0 k d al cl dl vals attrs cache E1 E2 F G. apply move_nth in E1, E2. cbn in E1, E2.
    eapply rep_ps; [exact E1|exact E2| |].
    + apply (drel_mv (fun b v => repv h2 (n + b)%nat v) (repv h2)); auto.
    + apply (arel_mv (fun b v => repv h2 (n + b)%nat v) (repv h2)); auto.
  - intros b l E. apply move_nth in E. now constructor.
  - intros b l E. apply move_nth in E. now constructor.
  - intros b l ps E F. apply move_nth in E. cbn in E. econstructor; [exact E|]. now apply (Forall2_mv (fun a p => rep h2 (n + a)%nat p)).
  - intros b l ps E F. apply move_nth in E. cbn in E. econstructor; [exact E|]. now apply (Forall2_mv (fun a p => rep h2 (n + a)%nat p)).
Qed.
Lemma repv_move b v : repv h1 b v -> repv h2 (n + b)%nat v.
Proof.
  intros H. destruct H as [b l E|b l E|b ls ps E F|b ls ps E F]; apply move_nth in E; cbn in E; econstructor; try exact E;
    apply (Forall2_mv (rep h1)); auto using rep_move.
Qed.
Lemma rep_entry_move b e : rep_entry h1 b e -> rep_entry h2 (n + b)%nat e.
Proof. intros [b0 p H|b0 d E]; constructor; [now apply rep_move|]. now apply move_nth in E. Qed.
Lemma rep_state_move a s : rep_state h1 a s -> rep_state h2 (n + a)%nat s.
Proof.
  intros (d & al & dl & E1 & E2 & D & G). apply move_nth in E1, E2. cbn in E1, E2. eapply rep_state_mk; [exact E1|exact E2| |].
  - eapply drel_mv; [|exact D]. apply rep_entry_move.
  - eapply arel_mv; [|exact G]. apply rep_entry_move.
Qed.
Fixpoint stands_move x y (H : stands h1 x y) {struct H} : stands h2 (move_out n x) y.
Proof.
  destruct H as [k|r|b v Rv Nv|l ds F|o|d|k|l]; cbn [move_out]; try (constructor; fail).
  - constructor; auto. now apply repv_move.
  - constructor. induction F as [|q q' l l' G F IH]; cbn [map]; constructor; [|exact IH].
    clear F IH. induction G as [|e e' m m' [K1 K2] G IH]; cbn [map]; constructor; [|exact IH].
    split; [exact K1|]. exact (stands_move _ _ K2).
Qed.
Lemma chain_move c c' : chain_stands h1 c c' -> chain_stands h2 (move_chain n c) c'.
Proof.
  intros []. constructor; cbn; auto; [now apply rep_state_move|].
  destruct (c_saved c) as [d|l], (c_saved c') as [d'|l']; cbn in *; auto.
  clear - cs_saved. induction cs_saved as [|[k x] [k' y] d d' [K1 K2] D IH]; cbn; constructor; auto. split; auto. cbn in *.
  clear - K2. induction K2; cbn; constructor; auto. now apply stands_move.
Qed.
Lemma move_only S : only S h h2.
Proof.
  intros a o Ea. exists o. split; [unfold h2; rewrite nth_error_app1; auto; now apply lt_of_nth in Ea|].
  destruct o; try apply same_data_refl. eauto.
Qed.
End Move.
Lemma fr_worker S h f c : fr S h (h_worker f c) (fun x => (length h <= c_cur (fst x))%nat).
Proof.
  intros tr. unfold h_worker. destruct (f c h tr) as [[[c1 o] t|e t| |] h1]; cbn [fst snd]; (split; [|try discriminate]); try apply only_refl.
  - apply move_only.
  - intros a tr' [= <- _]. cbn. lia.
Qed.

(** * Lists of chains *)
Lemma Forall2_nth {A B} (R : A -> B -> Prop) l l' : length l = length l' ->
  (forall i x y, nth_error l i = Some x -> nth_error l' i = Some y -> R x y) -> Forall2 R l l'.
Proof.
  revert l'. induction l as [|x l IH]; intros [|y l'] L H; try discriminate; constructor.
  - now apply (H 0%nat).
  - apply IH; [now injection L|]. intros i. apply (H (S i)).
Qed.
Lemma nth_Forall2 {A B} (R : A -> B -> Prop) l l' i x : Forall2 R l l' -> nth_error l i = Some x -> exists y, nth_error l' i = Some y /\ R x y.
Proof.
  intros F. revert i. induction F as [|a b l l' H F IH]; intros [|i] E; try discriminate; cbn in *.
  - injection E as <-. eauto.
  - now apply IH.
Qed.
Lemma Forall2_len {A B} (R : A -> B -> Prop) l l' : Forall2 R l l' -> length l = length l'.
Proof. intros F. induction F; cbn; auto. Qed.
Lemma map_set_nth {A B} (f : A -> B) l i x : map f (set_nth l i x) = set_nth (map f l) i (f x).
Proof. unfold set_nth. now rewrite map_app, firstn_map, map_cons, skipn_map. Qed.
Lemma set_nth_id {A} (l : list A) i x : nth_error l i = Some x -> set_nth l i x = l.
Proof. revert i. induction l as [|a l IH]; intros [|i] E; try discriminate; cbn in *; [congruence|]. f_equal. now apply IH. Qed.
Lemma in_set_nth {A} (l : list A) i x y : In y (set_nth l i x) -> y = x \/ In y l.
Proof.
  revert i. induction l as [|a l IH]; intros [|i].
  - cbn. intros [->|[]]; auto.
  - cbn. intros [->|[]]; auto.
  - cbn. intros [->|H]; auto.
  - change (set_nth (a :: l) (S i) x) with (a :: set_nth l i x). intros [->|H]; [right; now left|]. destruct (IH _ H); [auto|right; now right].
Qed.
Lemma NoDup_set_nth {A} (l : list A) i x : NoDup l -> ~ In x l -> NoDup (set_nth l i x).
Proof.
  intros H. revert i. induction H as [|a l Ha H IH]; intros [|i] N.
  - cbn. constructor; auto. constructor.
  - cbn. constructor; auto. constructor.
  - cbn. cbn in N. constructor; auto.
  - change (set_nth (a :: l) (S i) x) with (a :: set_nth l i x). cbn in N.
    constructor; auto. intros K. apply in_set_nth in K. destruct K; [subst; tauto|auto].
Qed.
Lemma length_set_nth2 {A} (l : list A) i x : (i < length l)%nat -> length (set_nth l i x) = length l.
Proof.
  revert i. induction l as [|a l IH]; intros [|i] L; cbn in L; try lia; auto.
  change (set_nth (a :: l) (S i) x) with (a :: set_nth l i x). cbn. rewrite IH; auto. lia.
Qed.
Lemma nth_error_set {A} (l : list A) i j x y : (i < length l)%nat -> nth_error (set_nth l i x) j = Some y ->
  (i = j /\ y = x) \/ (i <> j /\ nth_error l j = Some y).
Proof.
  revert i j. induction l as [|a l IH]; intros [|i] [|j] L E; cbn in L; try lia.
  - cbn in E. injection E as <-. auto.
  - cbn in E. right. split; auto.
  - cbn in E. injection E as <-. right. split; auto.
  - change (set_nth (a :: l) (S i) x) with (a :: set_nth l i x) in E. cbn in E.
    destruct (IH i j) as [[-> ->]|[N K]]; auto. lia.
Qed.
Lemma NoDup_nth {A} (l : list A) i j x : NoDup l -> nth_error l i = Some x -> nth_error l j = Some x -> i = j.
Proof.
  intros H E1 E2. rewrite NoDup_nth_error in H. apply H; [now apply lt_of_nth in E1|congruence].
Qed.

(** One chain of the list changes. *)
Lemma chains_upd h h' cs cs' i c c' x y : chains_stand h cs cs' -> nth_error cs i = Some c -> nth_error cs' i = Some c' ->
  only (fun l => l = c_cur c) h h' -> chain_stands h' x y -> (c_cur x = c_cur c \/ (length h <= c_cur x)%nat) ->
  chains_stand h' (set_nth cs i x) (set_nth cs' i y).
Proof.
  intros [F N] Ec Ec' U H Hn. split.
  - pose proof (lt_of_nth _ _ _ Ec) as L1. pose proof (lt_of_nth _ _ _ Ec') as L2.
    apply Forall2_nth; [rewrite !length_set_nth2 by auto; eapply Forall2_len; eauto|]. intros j u w Eu Ew.
    apply nth_error_set in Eu; auto. apply nth_error_set in Ew; auto. destruct Eu as [[-> ->]|[Nj Eu]], Ew as [[K1 K2]|[K1 Ew]]; try congruence.
    destruct (nth_Forall2 _ _ _ _ _ F Eu) as (w2 & Ew2 & Hw). assert (w2 = w) by congruence. subst w2.
    eapply chain_stands_only; eauto. intros E1. apply Nj. eapply (NoDup_nth (map c_cur cs)); eauto.
    + rewrite nth_error_map, Ec. reflexivity.
    + rewrite nth_error_map, Eu. cbn. now rewrite E1.
  - rewrite map_set_nth. destruct Hn as [->|L].
    + rewrite set_nth_id; auto. rewrite nth_error_map, Ec. reflexivity.
    + apply NoDup_set_nth; auto. intros K. apply in_map_iff in K. destruct K as (u & Eu & Hu). apply In_nth_error in Hu. destruct Hu as [k Hk].
      destruct (nth_Forall2 _ _ _ _ _ F Hk) as (w & _ & Hw). apply chain_cur_lt in Hw. unfold loc in *. lia.
Qed.
Lemma chains_only S h h' cs cs' : only S h h' -> (forall a, current cs a -> ~ S a) -> chains_stand h cs cs' -> chains_stand h' cs cs'.
Proof.
  intros U D [F N]. split; auto. unfold current in D. clear N. induction F as [|c c' cs cs' H F IH]; constructor.
  - eapply chain_stands_only; eauto. apply D. now left.
  - apply IH. intros a Ha. apply D. now right.
Qed.
Lemma chains_tail h c c' cs cs' : chains_stand h (c :: cs) (c' :: cs') -> chain_stands h c c' /\ chains_stand h cs cs' /\ ~ current cs (c_cur c).
Proof. intros [F N]. inversion F; subst. cbn in N. inversion N; subst. repeat split; auto; apply H2. Qed.
Lemma chains_cur_lt h cs cs' a : chains_stand h cs cs' -> current cs a -> (a < length h)%nat.
Proof.
  intros [F _] Ha. unfold current in Ha. induction F as [|c c' cs cs' H F IH]; [destruct Ha|]. destruct Ha as [<-|Ha]; auto. eapply chain_cur_lt; eauto.
Qed.
Lemma chains_cons h c c' cs cs' : chain_stands h c c' -> chains_stand h cs cs' -> ~ current cs (c_cur c) -> chains_stand h (c :: cs) (c' :: cs').
Proof. intros H [F N] K. split; [now constructor|]. cbn. now constructor. Qed.
Lemma fr_each_worker f : forall cs S h, fr S h (h_each_chain (h_worker f) cs)
  (fun x => snd x = None -> forall a, current (fst x) a -> (length h <= a)%nat).
Proof.
  induction cs as [|c cs IH]; intros S h; cbn [h_each_chain].
  - apply fr_ret. intros _ a [].
  - eapply fr_bind; [apply fr_worker|]. intros h1 [c1 [e|]] U Hc; [apply fr_ret; discriminate|].
    pose proof (only_length _ _ _ U) as L.
    eapply fr_bind; [apply IH|]. intros h2 [t o] U2 Ht. apply fr_ret. cbn in *. intros -> a [<-|Ha]; auto.
    specialize (Ht eq_refl a Ha). lia.
Qed.

Section Lists.
Variables (spaces : list space) (ll : loglike) (save : bool).
Variable like : heap -> loc -> loc -> R -> M ((dict centry * dict ovalue) * (dict centry * dict ovalue) * (ext + exn)).
Hypothesis Hlike : likelihood_reads ll like.
Hypothesis Hset : setup_ok spaces (ll_targets ll).
Hypothesis Hhier : ll_hier ll = hier_of (ll_targets ll).
Let E := h_inversion_env spaces ll save like.
Let E' := inversion_env spaces ll save.
Let P := good spaces (ll_targets ll).
Let hook_ok f f' := @hook_ok spaces ll (option exn) f f'.
Definition Ps (cs : list (chain state ovalue)) : Prop := forall c, In c cs -> P (c_cur c).
Definition lrel (h0 : heap) (cs : list hchain) (h : heap) (x : list hchain * option exn) (y : list (chain state ovalue) * option exn) : Prop :=
  chains_stand h (fst x) (fst y) /\ snd x = snd y /\ Ps (fst y) /\ forall a, current (fst x) a -> current cs a \/ (length h0 <= a)%nat.
(** [par]: none of the objects that there were changes. *)
Definition list_ok (par : bool) (f : hlhook) (f' : lhook state ovalue) : Prop :=
  forall (S : loc -> Prop) h cs cs', (par = false -> forall a, current cs a -> S a) -> chains_stand h cs cs' -> Ps cs' ->
  simo S h (f cs) (f' cs') (lrel h cs).
Lemma hook_worker f f' : hook_ok f f' -> hook_ok (h_worker f) f'.
Proof.
  intros H S h c c' Sc K Hp tr. destruct (fr_worker S h f c tr) as [U Q]. split; auto.
  destruct (H (fun _ => True) h c c' I K Hp tr) as [_ A]. unfold agree, h_worker in *.
  destruct (f c h tr) as [[[c1 o] t|e t| |] h1]; destruct (f' c' tr) as [[c2 o'] t'|e' t'| |]; cbn [fst snd] in *; auto.
  destruct A as (-> & A1 & A2 & A3 & A4). cbn [fst snd] in *. split; auto. split; [now apply chain_move|]. split; auto. split; auto. right. cbn. lia.
Qed.
Lemma each_ok f f' : hook_ok f f' -> list_ok false (h_each_chain f) (each_chain f').
Proof.
  intros Hf S h cs. revert S h. induction cs as [|c cs IH]; intros S h cs' HS H Hp.
  - destruct H as [F N]. inversion F; subst. apply simo_ret. split; [split; auto|]. split; auto.
  - assert (exists c' t', cs' = c' :: t') as (c' & t' & ->) by (destruct H as [F _]; inversion F; subst; eauto).
    destruct (chains_tail _ _ _ _ _ H) as (H1 & H2 & H3). cbn [h_each_chain each_chain].
    eapply simo_bind.
    + eapply simo_weaken with (S := fun l => l = c_cur c) (R := fun h' x y => crel spaces ll h c h' x y /\ only (fun l => l = c_cur c) h h').
      * intros tr. destruct (Hf (fun l => l = c_cur c) h c c' eq_refl H1 (Hp c' (or_introl eq_refl)) tr) as [U A]. split; auto.
        unfold agree in *. destruct (f c h tr) as [[x t|e t| |] h1]; destruct (f' c' tr) as [y t2|e' t2| |]; cbn [fst snd] in *; auto. tauto.
      * intros a _ ->. apply HS; auto. now left.
      * intros h' a b _ K. exact K.
    + cbv beta. intros h1 [c1 o] [c1' o'] U [(K1 & K2 & K3 & K4) U1]. cbn [fst snd] in *. subst o'. unfold same_or_new in K4. cbn [fst] in K4.
      pose proof (only_length _ _ _ U) as L.
      assert (H2' : chains_stand h1 cs t') by (eapply chains_only; eauto; intros a Ha ->; auto).
      assert (N1 : ~ current cs (c_cur c1)).
      { destruct K4 as [->|L1]; auto. intros Ha. pose proof (chains_cur_lt _ _ _ _ H2 Ha). unfold loc in *. lia. }
      destruct o as [e|].
      * apply simo_ret. split; [apply chains_cons; auto|]. split; auto. split.
        { intros u [<-|Hu]; auto. apply Hp. now right. }
        intros a [<-|Ha]; [destruct K4 as [->|]; auto; left; now left|left; now right].
      * eapply simo_bind.
        { eapply simo_weaken with (S := current cs) (R := fun h' x y => lrel h1 cs h' x y /\ only (current cs) h1 h').
          - intros tr. assert (Hp2 : Ps t') by (intros u Hu; apply Hp; now right).
            destruct (IH (current cs) h1 t' (fun _ a Ha => Ha) H2' Hp2 tr) as [U2 A]. split; auto.
            unfold agree in *. destruct (h_each_chain f cs h1 tr) as [[x t|e t| |] h2]; destruct (each_chain f' t' tr) as [y t2|e' t2| |]; cbn [fst snd] in *; auto. tauto.
          - intros a La Ha. left. apply HS; auto. now right.
          - intros h' a b _ K. exact K. }
        cbv beta. intros h2 [t1 o] [t1' o'] U2 [(J1 & J2 & J3 & J4) U3]. cbn [fst snd] in *. subst o'. apply simo_ret.
        split; [|split; [auto|split]].
        { apply chains_cons; auto; [eapply chain_stands_only; eauto|]. intros Ha. destruct (J4 _ Ha) as [|L2]; auto.
          apply chain_cur_lt in K1. unfold loc in *. lia. }
        { intros u [<-|Hu]; auto. }
        cbn [fst]. intros a [<-|Ha]; [destruct K4 as [->|]; auto; left; now left|]. destruct (J4 _ Ha) as [|L2]; [left; now right|].
        right. lia.
Qed.
Lemma par_ok f f' : list_ok true f f' -> list_ok false f f'.
Proof. intros H S h cs cs' HS. apply H. discriminate. Qed.
Lemma simo_only {A B} S h (m : HM A) (v : M B) R : simo S h m v R -> simo S h m v (fun h' a b => R h' a b /\ only S h h').
Proof.
  intros H tr. destruct (H tr) as [U A1]. split; auto. unfold agree in *. destruct (m h tr) as [[x t|e t| |] h1]; destruct (v tr) as [y t2|e' t2| |]; cbn [fst snd] in *; auto. tauto.
Qed.
Lemma no_change h cs cs' h' : only (fun _ => False) h h' -> chains_stand h cs cs' -> chains_stand h' cs cs'.
Proof. intros U. eapply chains_only; eauto. Qed.
Lemma lrel_same h cs cs' h' o : chains_stand h' cs cs' -> Ps cs' -> lrel h cs h' (cs, o) (cs', o).
Proof. intros H Hp. split; auto. Qed.
Lemma lrel_trans S h cs h1 x y h2 x2 y2 : only S h h1 -> lrel h cs h1 x y -> lrel h1 (fst x) h2 x2 y2 -> lrel h cs h2 x2 y2.
Proof.
  intros U (H1 & H2 & H3 & H4) (K1 & K2 & K3 & K4). split; auto. split; auto. split; auto. intros a Ha.
  pose proof (only_length _ _ _ U). destruct (K4 a Ha) as [K|]; auto. right. lia.
Qed.
Lemma advance_chain_ok b e fin b' e' fin' s jobs n sc : hook_ok b b' -> hook_ok e e' -> list_ok false fin fin' ->
  begin_iteration s = call_all [b'] -> end_iteration s = call_all [e'] -> sm_on_end_advance s = fin' ->
  list_ok (1 <? jobs)%Z (h_advance_chain E b e fin (Some jobs) n sc) (advance_chain E' s (Some jobs) n sc).
Proof.
  intros Hb He Hfin Es1 Es2 Es3 S h cs cs' HS H Hp. unfold h_advance_chain, advance_chain. rewrite Es1, Es2, Es3. cbv zeta.
  pose proof (hook_advance spaces ll save like Hlike Hset Hhier n sc b e (call_all [b']) (call_all [e'])
    (hook_call_all spaces ll b b' Hb) (hook_call_all spaces ll e e' He)) as Hf.
  fold E E' in Hf. destruct (1 <? jobs)%Z.
  - pose proof (each_ok _ _ (hook_worker _ _ Hf)) as Hw.
    specialize (Hw (current cs) h cs cs' (fun _ a Ha => Ha) H Hp).
    pose proof (simo_only _ _ _ _ _ (simo_fr _ _ _ _ _ _ _ Hw (fr_each_worker (h_advance_with E n sc b e) cs (fun _ => False) h))) as Hw2.
    eapply simo_bind; [eapply simo_weaken; [exact Hw2|intros ? ? []|intros h' a c _ K; exact K]|].
    cbv beta. intros h1 [cs1 o] [cs1' o'] U [[K Kn] U1]. pose proof K as (K1 & K2 & K3 & K4). cbn [fst snd] in *. subst o'. destruct o as [x|].
    + apply simo_ret. apply lrel_same; auto. eapply no_change; eauto.
    + eapply simo_weaken; [apply (Hfin (plus S h) h1 cs1 cs1'); auto|auto|].
      * intros _ a Ha. right. now apply Kn.
      * intros h2 x2 y2 U2 C. eapply lrel_trans; eauto.
  - eapply simo_bind; [apply (each_ok _ _ Hf S h cs cs'); auto|].
    intros h1 [cs1 o] [cs1' o'] U K. pose proof K as (K1 & K2 & K3 & K4). cbn [fst snd] in *. subst o'. destruct o as [x|].
    + apply simo_ret. split; auto.
    + eapply simo_weaken; [apply (Hfin (plus S h) h1 cs1 cs1'); auto|auto|].
      * intros _ a Ha. destruct (K4 a Ha); [left; auto|right; auto].
      * intros h2 x2 y2 U2 C. eapply lrel_trans; eauto.
Qed.
Lemma nothing_l_ok : list_ok false h_nothing_l nothing_l.
Proof. intros S h cs cs' HS H Hp. apply simo_ret. now apply lrel_same. Qed.
End Lists.
