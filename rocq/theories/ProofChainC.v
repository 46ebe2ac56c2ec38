(** Proofs about the chain: statistics, infinite ratios, temperature. *)
From Verif Require Import Base ModelChain SpecChain SpecUtils1D ProofUtils1D ProofUtils1DB ProofChain ProofChainB.
Local Open Scope R_scope.

(** * Statistics *)
Definition stat_value (s : stat) : R :=
  match s with Cnt n => INR n | Sub d => dict_total (fun x => x) d end.
Definition sub_value (k : string) (d : dict R) : R :=
  match dget k d with Some x => x | None => 0 end.

Lemma dict_total_dset {A} (f : A -> R) k v (d : dict A) :
  dict_total f (dset k v d) =
  dict_total f d - match dget k d with Some x => f x | None => 0 end + f v.
Proof.
  unfold dict_total. induction d as [|[k' v'] d IH]; cbn.
  - lra.
  - destruct (String.eqb k k'); cbn; [lra|].
    unfold rsum in IH. rewrite IH. lra.
Qed.

Lemma dset_keys {A} k (v : A) d x : In x (map fst (dset k v d)) -> x = k \/ In x (map fst d).
Proof.
  induction d as [|[k' v'] d IH]; cbn.
  - intros [->|[]]. auto.
  - destruct (String.eqb k k') eqn:E; cbn.
    + intros [->|H]; auto.
    + intros [->|H]; auto. destruct (IH H); auto.
Qed.
Lemma dset_nodup {A} k (v : A) d : NoDup (map fst d) -> NoDup (map fst (dset k v d)).
Proof.
  induction d as [|[k' v'] d IH]; cbn; intros H.
  - constructor; [easy|constructor].
  - inversion H as [|? ? Hn Hd]; subst. destruct (String.eqb k k') eqn:E; cbn.
    + apply String.eqb_eq in E. subst. now constructor.
    + constructor; auto. intros HI. apply dset_keys in HI. destruct HI as [->|HI]; auto.
      now rewrite String.eqb_refl in E.
Qed.
Lemma dget_in {A} k (v : A) d : NoDup (map fst d) -> In (k, v) d -> dget k d = Some v.
Proof.
  induction d as [|[k' v'] d IH]; cbn; intros H Hi; [destruct Hi|].
  inversion H; subst. destruct Hi as [Hi|Hi].
  - injection Hi as -> ->. now rewrite String.eqb_refl.
  - destruct (String.eqb k k') eqn:E; auto. apply String.eqb_eq in E. subst.
    exfalso. apply H2. apply in_map_iff. exists (k', v). auto.
Qed.
Lemma dset_forall {A} (P : A -> Prop) k v d :
  P v -> Forall (fun kv : string * A => P (snd kv)) d -> Forall (fun kv => P (snd kv)) (dset k v d).
Proof.
  intros Hv. induction 1 as [|[k' v'] d Hd Hf IH]; cbn.
  - constructor; auto.
  - destruct (String.eqb k k'); constructor; auto.
Qed.
Lemma sub_value_nonneg k d : Forall (fun kv : string * R => 0 < snd kv) d -> 0 <= sub_value k d.
Proof.
  unfold sub_value. induction 1 as [|[k' v'] d Hd Hf IH]; cbn; [lra|].
  cbn in Hd. destruct (String.eqb k k'); auto. lra.
Qed.
Lemma sub_value_dadd k k' v d :
  sub_value k (dadd k' v d) = sub_value k d + if String.eqb k' k then v else 0.
Proof.
  unfold sub_value, dadd. destruct (String.eqb k' k) eqn:E.
  - apply String.eqb_eq in E. subst. rewrite dget_dset_same. reflexivity.
  - apply String.eqb_neq in E. rewrite dget_dset_other by auto. lra.
Qed.

(** Accepted versus proposed for one perturbation type. *)
Definition entry_ok (p a : option stat) (sub : bool) : Prop :=
  match p, a with
  | None, None => True
  | Some (Cnt p), Some (Cnt q) => sub = false /\ (q <= p)%nat /\ (0 < p)%nat
  | Some (Sub p), Some (Sub q) =>
      sub = true /\ Forall (fun kv => 0 < snd kv) p /\
      forall k, 0 <= sub_value k q <= sub_value k p
  | _, _ => False
  end.

Record stats_consistent (np na : dict stat) : Prop := {
  sc_nodup : NoDup (map fst np);
  sc_entry : forall ty, entry_ok (dget ty np) (dget ty na) (String.prefix psp_prefix ty)
}.

Lemma add_cnt_ok ty acc np na np' na' :
  String.prefix psp_prefix ty = false ->
  stats_consistent np na -> add_cnt_stats ty acc np na = (np', na') ->
  stats_consistent np' na' /\
  dict_total stat_value np' = dict_total stat_value np + 1 /\
  dict_total stat_value na' = dict_total stat_value na + if acc then 1 else 0.
Proof.
  intros Hp [H1 H2] H. unfold add_cnt_stats in H.
  pose proof (H2 ty) as Hty. rewrite Hp in Hty.
  assert (HS : forall a b, entry_ok (Some a) (Some b) false ->
     stats_consistent (dset ty a np) (dset ty b na)).
  { intros a b Hab. constructor; [now apply dset_nodup|]. intros ty'.
    destruct (string_dec ty' ty) as [->|Hne].
    - rewrite !dget_dset_same, Hp. exact Hab.
    - rewrite !dget_dset_other by auto. apply H2. }
  destruct (dget ty np) as [[p|p]|] eqn:E1, (dget ty na) as [[q|q]|] eqn:E2;
    cbn in Hty; try easy; injection H as <- <-.
  - split; [apply HS; cbn; destruct acc; lia|].
    rewrite !dict_total_dset, E1, E2. cbn [stat_value]. rewrite !plus_INR.
    destruct acc; cbn; lra.
  - split; [apply HS; cbn; destruct acc; lia|].
    rewrite !dict_total_dset, E1, E2. cbn [stat_value]. destruct acc; cbn; lra.
Qed.

Lemma add_sub_ok ty acc vs : forall np na np' na',
  String.prefix psp_prefix ty = true ->
  Forall (fun kv => 0 < snd kv) vs ->
  stats_consistent np na -> add_sub_stats ty acc vs np na = (np', na') ->
  stats_consistent np' na' /\
  dict_total stat_value np' = dict_total stat_value np + dict_total (fun x => x) vs /\
  dict_total stat_value na' =
    dict_total stat_value na + if acc then dict_total (fun x => x) vs else 0.
Proof.
  induction vs as [|[k v] vs IH]; intros np na np' na' Hp Hv [H1 H2] H; cbn [add_sub_stats] in H.
  - injection H as <- <-. split; [now constructor|].
    unfold dict_total at 3 6. cbn. destruct acc; split; lra.
  - inversion Hv as [|? ? Hv1 Hv2]; subst. cbn in Hv1.
    pose proof (H2 ty) as Hty. rewrite Hp in Hty.
    assert (HQ : Forall (fun kv => 0 < snd kv) (get_sub ty np) /\
       (forall k, 0 <= sub_value k (get_sub ty na) <= sub_value k (get_sub ty np)) /\
       match dget ty np with Some s => stat_value s | None => 0 end =
         dict_total (fun x => x) (get_sub ty np) /\
       match dget ty na with Some s => stat_value s | None => 0 end =
         dict_total (fun x => x) (get_sub ty na)).
    { unfold get_sub. destruct (dget ty np) as [[p|p]|], (dget ty na) as [[q|q]|];
        cbn in Hty; try easy.
      split; [constructor|]. split; [intros k0; cbn; lra|]. split; reflexivity. }
    destruct HQ as (Q1 & Q2 & Q3 & Q4).
    apply IH in H; auto.
    + destruct H as (S1 & S2 & S3). split; auto.
      rewrite S2, S3. rewrite !dict_total_dset, Q3, Q4. cbn [stat_value]. unfold dadd.
      rewrite !dict_total_dset.
      change (dict_total (fun x => x) ((k, v) :: vs)) with (v + dict_total (fun x => x) vs).
      destruct (dget k (get_sub ty np)), (dget k (get_sub ty na)), acc; lra.
    + constructor; [now apply dset_nodup|]. intros ty'.
      destruct (string_dec ty' ty) as [->|Hne].
      * rewrite !dget_dset_same, Hp. cbn. split; auto. split.
        -- unfold dadd. apply (dset_forall (fun x => 0 < x)); auto.
           pose proof (sub_value_nonneg k _ Q1) as Hn. unfold sub_value in Hn.
           destruct (dget k (get_sub ty np)); lra.
        -- intros k'. rewrite !sub_value_dadd. specialize (Q2 k').
           destruct (String.eqb k k'), acc; lra.
      * rewrite !dget_dset_other by auto. apply H2.
Qed.

Section Stats.
Context {St V : Type}.
Variable E : env St V.
Notation chain := (chain St V).

(** The whole of the statistics. *)
Definition stats_ok (c : chain) : Prop :=
  stats_consistent (c_nprop c) (c_nacc c) /\
  (c_nacc_tot c <= c_nprop_tot c)%nat /\
  dict_total stat_value (c_nprop c) = INR (c_nprop_tot c) /\
  dict_total stat_value (c_nacc c) = INR (c_nacc_tot c).

(** The statistics that composite perturbations report are positive shares adding up
    to one. *)
Definition shares : Prop := forall s vs, s_pstats (e_ops E) s = inl vs ->
  Forall (fun kv => 0 < snd kv) vs /\ dict_total (fun x => x) vs = 1.

Lemma save_statistics_ok ty acc s c c' :
  shares -> stats_ok c -> save_statistics E ty acc s c = inl c' -> stats_ok c'.
Proof.
  intros Hsh (H1 & H2 & H3 & H4). unfold save_statistics.
  assert (Hfin : forall np na, stats_consistent np na ->
    dict_total stat_value np = dict_total stat_value (c_nprop c) + 1 ->
    dict_total stat_value na = dict_total stat_value (c_nacc c) + (if acc then 1 else 0) ->
    stats_ok (put_stats (np, na) acc c)).
  { intros np na A B C. unfold stats_ok.
    cbn [put_stats set_stats c_nprop c_nacc c_nprop_tot c_nacc_tot fst snd].
    split; auto. rewrite B, C, H3, H4.
    split; [destruct acc; lia|]. split.
    - rewrite S_INR. lra.
    - destruct acc; rewrite plus_INR; cbn; lra. }
  destruct (prefix psp_prefix ty) eqn:Hp.
  - destruct (s_pstats (e_ops E) s) as [vs|x] eqn:Hps; [|discriminate]. intros [= <-].
    destruct (Hsh _ _ Hps) as [Hpos Hsum].
    destruct (add_sub_stats ty acc vs _ _) as [np na] eqn:Ha.
    apply add_sub_ok in Ha; auto. destruct Ha as (A & B & C).
    apply Hfin; auto; [rewrite B|rewrite C; destruct acc]; lra.
  - intros [= <-]. destruct (add_cnt_stats ty acc _ _) as [np na] eqn:Ha.
    apply add_cnt_ok in Ha; auto. destruct Ha as (A & B & C). now apply Hfin.
Qed.

Lemma stats_ok_ext c c' : c_nprop c' = c_nprop c -> c_nacc c' = c_nacc c ->
  c_nprop_tot c' = c_nprop_tot c -> c_nacc_tot c' = c_nacc_tot c -> stats_ok c -> stats_ok c'.
Proof. unfold stats_ok. intros -> -> -> ->. auto. Qed.

Lemma finish_stats ty acc new c c' v :
  shares -> stats_ok c -> finish E ty acc new c = (c', v) -> stats_ok c'.
Proof.
  intros Hsh Hok. unfold finish.
  set (c1 := if acc then set_cur new c else c).
  assert (Hok1 : stats_ok c1) by (unfold c1; destruct acc; [destruct c|]; exact Hok).
  destruct (save_statistics E ty acc new c1) as [c2|e] eqn:Hs.
  2:{ now intros [= <- <-]. }
  apply save_statistics_ok in Hs; auto.
  destruct (c_flag c2); [|now intros [= <- <-]].
  destruct (_ && _)%bool; [|now intros [= <- <-]].
  destruct (save_state E c2) as [c3 o] eqn:Hsv. intros [= <- <-].
  apply save_state_frame in Hsv. destruct Hsv as [sv ->]. destruct c2; exact Hs.
Qed.

Lemma set_cur_stats s c : stats_ok c -> stats_ok (set_cur s c).
Proof. now destruct c. Qed.
Lemma count_exc_stats x c : stats_ok c -> stats_ok (count_exc x c).
Proof. now destruct c. Qed.

Lemma attempt_stats c tr c' v tr' :
  shares -> stats_ok c -> attempt E c tr = Ret (c', v) tr' -> stats_ok c'.
Proof.
  intros Hsh Hok H. apply attempt_cases in H.
  destruct H as [(e & s & _ & _ & ->)|[(e & _ & ->)|[(e & ? & ? & ? & ? & ? & ? & _ & _ & _ & _ & _ & ->)|
    (ty & new & lpr & tr1 & old' & new' & llr & u & _ & _ & _ & [(_ & _ & ->)|(_ & acc & _ & Hf)])]]];
    auto using set_cur_stats, count_exc_stats.
  eapply finish_stats; [| |exact Hf]; auto using set_cur_stats.
Qed.

Lemma tries_stats k : forall c tr c' o tr',
  shares -> stats_ok c -> tries E k c tr = Ret (c', o) tr' -> stats_ok c'.
Proof.
  induction k as [|k IH]; intros c tr c' o tr' Hsh Hok H; cbn [tries] in H; minv; subst; auto.
  destruct a as [c1 v]. apply attempt_stats in H0; auto.
  destruct v; minv; subst; eauto.
Qed.

Lemma advance_one_stats sc b e c tr c' o tr' :
  shares -> leaves_records b -> leaves_records e -> stats_ok c ->
  advance_one E sc b e c tr = Ret (c', o) tr' -> stats_ok c'.
Proof.
  intros Hsh Hb He Hok. unfold advance_one.
  destruct (save_flag sc _) as [flag|x|]; [| |discriminate].
  2:{ intros H. minv. subst. auto. }
  intros H. minv. destruct a as [c1 o1].
  pose proof (Hb _ _ _ _ _ H0) as (_ & _ & B3 & B4 & B5 & B6).
  assert (Hok1 : stats_ok c1) by (eapply stats_ok_ext; [| | | |exact Hok]; assumption).
  destruct o1 as [x|]; minv; subst; auto.
  destruct a as [c2 o2]. apply tries_stats in H; auto.
  destruct o2 as [x|]; minv; subst; auto.
  destruct a as [c3 o3]. pose proof (He _ _ _ _ _ H1) as (_ & _ & G3 & G4 & G5 & G6).
  assert (Hok3 : stats_ok c3) by (eapply stats_ok_ext; [| | | |exact H]; assumption).
  destruct o3 as [x|]; minv; subst; auto.
  destruct (sc_verbose sc); minv; subst; auto.
  destruct (sc_print_every sc =? 0)%nat; minv; subst; auto.
  destruct (_ mod _ =? 0)%nat; minv; subst; auto.
  destruct (print_statistics c3); minv; subst; auto.
Qed.

Lemma advance_stats sc b e n : forall c tr c' o tr',
  shares -> leaves_records b -> leaves_records e -> stats_ok c ->
  advance E n sc b e c tr = Ret (c', o) tr' -> stats_ok c'.
Proof.
  induction n as [|n IH]; intros c tr c' o tr' Hsh Hb He Hok H; cbn [advance] in H; minv; subst; auto.
  destruct a as [c1 [x|]]; apply advance_one_stats in H0; auto; minv; subst; auto.
  eapply IH; [| | | |exact H1]; auto.
Qed.

Lemma new_chain_stats s : stats_ok (new_chain E s).
Proof.
  unfold stats_ok, new_chain. cbn. repeat split; try constructor; try lia.
Qed.

Lemma print_ok c : stats_ok c -> (0 < c_nprop_tot c)%nat -> print_statistics c = Ok tt.
Proof.
  intros ((Hnd & He) & _ & _ & _) Hn. unfold print_statistics.
  destruct (c_nprop_tot c =? 0)%nat eqn:Hz; [apply Nat.eqb_eq in Hz; lia|].
  destruct (existsb _ (c_nprop c)) eqn:Hx; auto. exfalso.
  apply existsb_exists in Hx. destruct Hx as ((ty & s) & Hin & Hs). cbn in Hs.
  pose proof (He ty) as Hty. rewrite (dget_in _ _ _ Hnd Hin) in Hty.
  destruct s as [p|p]; cbn in Hs, Hty.
  - apply Nat.eqb_eq in Hs. destruct (dget ty (c_nacc c)) as [[]|]; try easy. lia.
  - destruct (dget ty (c_nacc c)) as [[]|]; try easy. destruct Hty as (_ & Hpos & _).
    apply existsb_exists in Hs. destruct Hs as (kv & Hk & Hkv).
    rewrite Forall_forall in Hpos. specialize (Hpos _ Hk).
    unfold Reqb in Hkv. destruct (Req_EM_T (snd kv) 0); [lra|discriminate].
Qed.

(** * Infinite ratios *)
Definition with_like (L : St -> St -> R -> M (St * St * (ext + exn))) : env St V :=
  {| e_ops := e_ops E; e_funcs := e_funcs E; e_weights := e_weights E; e_like := L;
     e_savedpred := e_savedpred E; e_transd := e_transd E |}.

Lemma infinite_attempt L c tr ty new lpr tr1 :
  proposes E c tr ty new lpr tr1 -> eisinf lpr = true ->
  attempt (with_like L) c tr = attempt E c tr.
Proof.
  intros (i & f & tr0 & H1 & H2 & H3) Hinf.
  unfold attempt, bind, try. cbn [e_funcs e_weights with_like].
  rewrite H1, H2, H3, Hinf. reflexivity.
Qed.

Lemma infinite_verdict c tr ty new lpr tr1 c' v tr' :
  proposes E c tr ty new lpr tr1 -> eisinf lpr = true ->
  attempt E c tr = Ret (c', v) tr' -> v <> Retry /\ c_exc c' = c_exc c.
Proof.
  intros (i & f & tr0 & H1 & H2 & H3) Hinf.
  unfold attempt, bind, try. rewrite H1, H2, H3, Hinf. intros H.
  apply decide_ret in H. destruct H as (u & -> & Hu & [(_ & -> & ->)|(_ & acc & _ & Hf)]).
  - split; [easy|auto].
  - split.
    + intros ->. eapply finish_not_retry; eauto.
    + revert Hf. unfold finish.
      set (c1 := if acc then set_cur new c else c).
      assert (Hc1 : c_exc c1 = c_exc c) by (unfold c1; destruct acc; auto).
      destruct (save_statistics E ty acc new c1) as [c2|e] eqn:Hs; [|now intros [= <- <-]].
      assert (Hc2 : c_exc c2 = c_exc c).
      { rewrite <- Hc1. revert Hs. unfold save_statistics.
        destruct (prefix _ _); [destruct (s_pstats _ _)|]; intros [= <-]; reflexivity. }
      destruct (c_flag c2); [|now intros [= <- <-]].
      destruct (_ && _)%bool; [|now intros [= <- <-]].
      destruct (save_state E c2) as [c3 o] eqn:Hsv. intros [= <- <-].
      apply save_state_frame in Hsv. destruct Hsv as [sv ->]. exact Hc2.
Qed.

Lemma infinite_next L c tr ty new lpr tr1 :
  proposes E c tr ty new lpr tr1 -> eisinf lpr = true ->
  next_iteration (with_like L) c tr = next_iteration E c tr.
Proof.
  intros Hp Hinf. unfold next_iteration. change 500%nat with (S 499).
  generalize 499%nat. intros k. cbn [tries]. unfold bind.
  rewrite (infinite_attempt L _ _ _ _ _ _ Hp Hinf).
  destruct (attempt E c tr) as [[c' v] t|x t| |] eqn:Ha; auto.
  destruct (infinite_verdict _ _ _ _ _ _ _ _ _ Hp Hinf Ha) as [Hv _].
  now destruct v.
Qed.

(** * Temperature *)
(** [temp_of] reads state.temperature. *)
Variable temp_of : St -> R.
Hypothesis settemp_temp : forall t s, temp_of (s_settemp (e_ops E) t s) = t.
Hypothesis all_states : forall s, s_kind (e_ops E) s = KState.
Hypothesis funcs_temp : forall ty f s new lpr tr tr',
  In (ty, f) (e_funcs E) -> f s tr = Ret (new, lpr) tr' -> temp_of new = temp_of s.
Hypothesis like_temp : forall old new t tr old' new' r tr',
  e_like E old new t tr = Ret (old', new', r) tr' ->
  temp_of old' = temp_of old /\ temp_of new' = temp_of new.

Definition temp_agrees (c : chain) : Prop := temp_of (c_cur c) = c_temp c.
Definition keeps_temp (h : option (hook St V)) : Prop :=
  forall c tr c' o tr', call_hook h c tr = Ret (c', o) tr' -> temp_agrees c -> temp_agrees c'.

Lemma set_temperature_agrees t c : temp_agrees (set_temperature E t c).
Proof. unfold temp_agrees, set_temperature. cbn. rewrite all_states. cbn. apply settemp_temp. Qed.

Lemma finish_temp ty acc new c c' v :
  temp_of new = c_temp c -> temp_agrees c ->
  finish E ty acc new c = (c', v) -> temp_agrees c'.
Proof.
  intros Hn Hok. unfold finish.
  set (c1 := if acc then set_cur new c else c).
  assert (Hok1 : temp_agrees c1) by (unfold c1; destruct acc; auto).
  destruct (save_statistics E ty acc new c1) as [c2|e] eqn:Hs.
  2:{ now intros [= <- <-]. }
  assert (Hc2 : temp_agrees c2).
  { revert Hs. unfold save_statistics.
    destruct (prefix _ _); [destruct (s_pstats _ _)|]; intros [= <-]; exact Hok1. }
  destruct (c_flag c2); [|now intros [= <- <-]].
  destruct (_ && _)%bool; [|now intros [= <- <-]].
  destruct (save_state E c2) as [c3 o] eqn:Hsv. intros [= <- <-].
  apply save_state_frame in Hsv. destruct Hsv as [sv ->]. exact Hc2.
Qed.

Lemma attempt_temp c tr c' v tr' :
  temp_agrees c -> attempt E c tr = Ret (c', v) tr' -> temp_agrees c'.
Proof.
  intros Hok H. apply attempt_cases in H.
  destruct H as [(e & s & _ & Hu & ->)|[(e & _ & ->)|[(e & ty & new & lpr & tr1 & old' & new' & _ & _ & Hl & _ & _ & ->)|
    (ty & new & lpr & tr1 & old' & new' & llr & u & Hp & He & _ & Hc)]]]; auto.
  - unfold temp_agrees in *. cbn. destruct Hu; auto.
    apply like_temp in H1. destruct H1 as [-> _]. auto.
  - unfold temp_agrees in *. cbn. apply like_temp in Hl. destruct Hl as [-> _]. auto.
  - assert (Ht : temp_of old' = c_temp c /\ temp_of new' = c_temp c).
    { destruct Hp as (i & f & tr0 & _ & H2 & H3). apply nth_error_In in H2.
      pose proof (funcs_temp _ _ _ _ _ _ _ H2 H3) as Hn. unfold temp_agrees in Hok.
      destruct He as [|? ? ? ? ? ? Hl]; [split; congruence|].
      apply like_temp in Hl. destruct Hl as [-> ->]. split; congruence. }
    destruct Ht as [Ho Hn].
    destruct Hc as [(_ & _ & ->)|(_ & acc & _ & Hf)]; [exact Ho|].
    eapply finish_temp; [| |exact Hf]; auto.
Qed.

Lemma tries_temp k : forall c tr c' o tr',
  temp_agrees c -> tries E k c tr = Ret (c', o) tr' -> temp_agrees c'.
Proof.
  induction k as [|k IH]; intros c tr c' o tr' Hok H; cbn [tries] in H; minv; subst; auto.
  destruct a as [c1 v]. apply attempt_temp in H0; auto.
  destruct v; minv; subst; eauto.
Qed.

Lemma advance_one_temp sc b e c tr c' o tr' :
  keeps_temp b -> keeps_temp e -> temp_agrees c ->
  advance_one E sc b e c tr = Ret (c', o) tr' -> temp_agrees c'.
Proof.
  intros Hb He Hok. unfold advance_one.
  destruct (save_flag sc _) as [flag|x|]; [| |discriminate].
  2:{ intros H. minv. subst. auto. }
  intros H. minv. destruct a as [c1 o1].
  assert (Hok1 : temp_agrees c1) by (eapply Hb; eauto).
  destruct o1 as [x|]; minv; subst; auto.
  destruct a as [c2 o2]. apply tries_temp in H; auto.
  destruct o2 as [x|]; minv; subst; auto.
  destruct a as [c3 o3]. assert (Hok3 : temp_agrees c3) by (eapply He; eauto).
  destruct o3 as [x|]; minv; subst; auto.
  destruct (sc_verbose sc); minv; subst; auto.
  destruct (sc_print_every sc =? 0)%nat; minv; subst; auto.
  destruct (_ mod _ =? 0)%nat; minv; subst; auto.
  destruct (print_statistics c3); minv; subst; auto.
Qed.

Lemma advance_temp sc b e n : forall c tr c' o tr',
  keeps_temp b -> keeps_temp e -> temp_agrees c ->
  advance E n sc b e c tr = Ret (c', o) tr' -> temp_agrees c'.
Proof.
  induction n as [|n IH]; intros c tr c' o tr' Hb He Hok H; cbn [advance] in H; minv; subst; auto.
  destruct a as [c1 [x|]]; apply advance_one_temp in H0; auto; minv; subst; auto.
  eapply IH; [| | |exact H1]; auto.
Qed.

End Stats.
