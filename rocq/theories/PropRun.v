(** Properties of everything that an inversion holds and saves: C01 - C06. *)
From Verif Require Import Base ModelPrior ModelState ModelSpace ModelPerturb ModelChain ModelSampler
  ModelLikelihood SpecUtils1D SpecPrior SpecState SpecSpace SpecPerturb SpecChain SpecRun
  ProofUtils1D ProofChain ProofChainB ProofChainC ProofSampler ProofInversion
  ProofState ProofSpace ProofSpaceB ProofSpaceC ProofSpaceD ProofSpaceE ProofPerturb ProofTree ProofRun
  ProofRunB ProofRunC PropChain ExampleRun.
Local Open Scope R_scope.
Local Open Scope string_scope.

Lemma observes_keeps {St V} (E : env St V) P h : observes h -> keeps E P h.
Proof.
  intros H c tr c' o tr' Hh [A B]. destruct (H _ _ _ _ _ Hh) as [E1 E2]. split; congruence.
Qed.
Lemma observes_all_keeps {St V} (E : env St V) P h : observes_all h -> lkeeps E P h.
Proof.
  intros H cs tr cs' o tr' Hh HF. apply H in Hh. eapply Forall2_impl_ok; [|exact HF].
  clear - Hh. induction Hh as [|c c' l l' [E1 E2]]; constructor; auto. intros [A B]. split; congruence.
Qed.
Lemma callbacks_keep {St V} (E : env St V) P xi xb xe : callbacks_ok xi xb xe -> extras_keep E P xi xb xe.
Proof.
  intros [A B C]. split.
  - revert A. apply Forall_impl. intros h. apply observes_all_keeps.
  - revert B. apply Forall_impl. intros h. apply observes_keeps.
  - revert C. apply Forall_impl. intros h. apply observes_keeps.
Qed.
Lemma one_run_ok {St V} (E : env St V) P cs cs' : preserving E P -> one_run E cs cs' ->
  Forall (chain_ok E P) cs -> Forall (chain_ok E P) cs'.
Proof.
  intros HP H. destruct H as [? ? ? ? ? ? ? ? ? ? ? ? ? Hx H|? ? ? ? ? ? ? ? ? ? ? ? ? ? ? ? ? Hx H|
    ? ? ? ? ? ? ? ? ? ? ? ? ? ? ? Hx H];
    apply (callbacks_keep E P) in Hx; revert H; apply inversion_run_ok; auto.
  - now apply vanilla_keeps.
  - apply advance_chain_ok; auto. now apply vanilla_keeps.
  - now apply pt_keeps.
  - apply pt_loop_ok; auto. now apply pt_keeps.
  - now apply sa_keeps.
  - now apply sa_run_ok.
Qed.
Lemma many_runs_ok {St V} (E : env St V) P cs cs' : preserving E P -> many_runs E cs cs' ->
  Forall (chain_ok E P) cs -> Forall (chain_ok E P) cs'.
Proof. intros HP H HF. induction H as [|cs1 cs2 _ IH H1]; auto. eapply one_run_ok; eauto. Qed.
Lemma extend_hier ts fs ll ll' : extend_targets ts fs ll = (ll', None) -> ll_hier ll' = hier_of (ll_targets ll').
Proof.
  unfold extend_targets. destruct (match ts with None => _ | Some l => _ end) as [nt|]; [|discriminate].
  destruct (match fs with None => _ | Some l => _ end) as [nf|]; [|discriminate].
  cbn zeta. destruct (dup_name _); [discriminate|]. intros [= <-]. reflexivity.
Qed.
Lemma init_hier ts fs ratio func ll : loglike_init ts fs ratio func = Ok ll ->
  ll_hier ll = hier_of (ll_targets ll).
Proof.
  unfold loglike_init. destruct (extend_targets ts fs _) as [l [e|]] eqn:E; [discriminate|].
  apply extend_hier in E. destruct (ll_targets l) as [|t tl] eqn:Et.
  - destruct ratio, func; try discriminate; intros [= <-]; cbn [ll_hier ll_targets]; rewrite E, ?Et; reflexivity.
  - destruct (ll_fwds l) as [|f fl].
    + destruct ratio, func; try discriminate; intros [= <-]; cbn [ll_hier ll_targets]; rewrite E, ?Et; reflexivity.
    + destruct (_ =? _)%nat; [|discriminate]. intros [= <-]. cbn [ll_hier ll_targets]. rewrite E, ?Et; reflexivity.
Qed.
Lemma chain_of_ok spaces ts fs ratio func ll save c : loglike_init ts fs ratio func = Ok ll ->
  setup_ok spaces (ll_targets ll) -> chain_of spaces ll save c ->
  chain_ok (inversion_env spaces ll save) (good spaces (ll_targets ll)) c.
Proof.
  intros Hll Hset (n & tr & cs0 & tr' & cs & H0 & Hr & Hc).
  assert (HF : Forall (chain_ok (inversion_env spaces ll save) (good spaces (ll_targets ll))) cs).
  { eapply many_runs_ok; eauto.
    - apply inversion_preserving; auto. eapply init_hier; eauto.
    - eapply chains_ok; eauto. }
  rewrite Forall_forall in HF. auto.
Qed.
Lemma chain_of_everywhere spaces ts fs ratio func ll save c (Q : space -> psstate -> Prop) :
  loglike_init ts fs ratio func = Ok ll ->
  setup_ok spaces (ll_targets ll) -> chain_of spaces ll save c ->
  (forall s p, local_ok s p -> Q s p) -> everywhere spaces (ll_targets ll) Q c.
Proof.
  intros Hll Hset Hc HQ. pose proof (chain_of_ok _ _ _ _ _ _ _ _ Hll Hset Hc) as [Hg Hs]. split.
  - intros sp Hsp. destruct (so_spaces _ _ _ (proj1 Hg) sp Hsp) as (p & E & Hwf). exists p. split; auto.
  - intros k v Hv. unfold saved_under in Hv. destruct (c_saved c) as [d|l]; [|contradiction].
    cbn in Hs. apply Hs in Hv. apply saved_value_shows in Hv; auto.
    destruct Hv as [(sp & p & A & B & C)|[(t & d0 & A & B & C & D)|Hv]]; auto.
    + left. exists sp, p. repeat split; auto. 
    + right. left. eauto 6.
Qed.

(** * C01: the number of dimensions stays within its limits
    Every state held or saved by a chain, whatever the likelihood (also a failing one), the
    sampler, the number of runs and iterations, and for nested spaces too. *)
Theorem C01_dimensions spaces ts fs ratio func ll save c :
  loglike_init ts fs ratio func = Ok ll -> setup_ok spaces (ll_targets ll) ->
  chain_of spaces ll save c ->
  everywhere spaces (ll_targets ll)
    (fun s p => (sp_min s <= ps_n p <= sp_max s)%nat /\ forall n, sp_fixed s = Some n -> ps_n p = n) c.
Proof.
  intros Hll Hset Hc. eapply chain_of_everywhere; eauto. intros s p (Hd & _). split; [exact Hd|].
  intros n Hf. unfold dims_ok in Hd. destruct s. cbn in *. subst. lia.
Qed.
(** The hypotheses hold of the chain of ExampleRun.v: a tessellation with two cells after an
    accepted birth, a nested space in each cell, one saved sample. *)
Example C01_case : exists c,
  loglike_init (Some [ATarget ex_t]) (Some [AFwd (mkFwd ex_fwd true)]) None None = Ok ex_ll /\
  setup_ok [ex_vor] (ll_targets ex_ll) /\ chain_of [ex_vor] ex_ll true c /\
  st_get "vor" (c_cur c) = Some (EPS ex_p1) /\ ps_n ex_p1 = 2%nat /\
  part ex_vor ex_p1 ex_in (ex_inner 1).
Proof.
  destruct ex_chain as (c & H & H1 & H2). exists c. split; [apply ex_init|]. split; [apply ex_setup|].
  split; [exact H|]. rewrite H1. split; [reflexivity|]. split; [reflexivity|].
  eapply (part_in _ _ "in"); [right; left; reflexivity|reflexivity|right; left; reflexivity|constructor].
Qed.
Lemma append_cancel a b c : a ++ c = b ++ c -> a = b.
Proof.
  intros H. assert (L : String.length a = String.length b).
  { apply (f_equal String.length) in H. revert H. clear. 
    assert (G : forall x y, String.length (x ++ y) = (String.length x + String.length y)%nat).
    { induction x; cbn; auto. }
    rewrite !G. lia. }
  revert b H L. induction a as [|x a IH]; intros [|y b] H L; cbn in *; try discriminate; auto.
  injection H as -> H. f_equal. apply IH; auto.
Qed.
(** The numbers saved under "name.n_dimensions". *)
Theorem C01_saved_numbers spaces ts fs ratio func ll save c sp n :
  loglike_init ts fs ratio func = Ok ll -> setup_ok spaces (ll_targets ll) ->
  chain_of spaces ll save c -> In sp spaces ->
  saved_under c (sp_name sp ++ ".n_dimensions") (OInt n) -> (sp_min sp <= n <= sp_max sp)%nat.
Proof.
  intros Hll Hset Hc Hsp Hs. destruct (C01_dimensions _ _ _ _ _ _ _ _ Hll Hset Hc) as [_ H].
  apply H in Hs. destruct Hs as [(sp' & p & Hsp' & Hs & Hp)|[(t & d & _ & _ & Hs)|(_ & [(d & Hd)|(m & Hm)])]];
    try discriminate; inversion Hs; subst.
  assert (sp' = sp). { eapply space_name_inj; eauto. eapply append_cancel; eauto. }
  subst sp'. apply (Hp sp p). constructor.
Qed.
Example C01_saved_case : exists c, chain_of [ex_vor] ex_ll true c /\
  saved_under c (sp_name ex_vor ++ ".n_dimensions") (OInt 2).
Proof.
  destruct ex_chain as (c & H & H1 & H2). exists c. split; auto. unfold saved_under. rewrite H2. now left.
Qed.

(** * C02: one value per dimension, exactly the configured names *)
Theorem C02_one_value_per_dimension spaces ts fs ratio func ll save c :
  loglike_init ts fs ratio func = Ok ll -> setup_ok spaces (ll_targets ll) ->
  chain_of spaces ll save c ->
  everywhere spaces (ll_targets ll)
    (fun s p =>
       dkeys (ps_vals p) = (match sp_cls s with Plain => [] | _ => [disc_key] end) ++ map fst (sp_params s) /\
       (forall k v, ps_get k p = Some v -> value_len v = ps_n p) /\
       (forall k pr, In (k, PPrior pr) (sp_params s) -> exists l, ps_get k p = Some (Arr l)) /\
       (forall k s', In (k, PSpace s') (sp_params s) ->
          exists l, ps_get k p = Some (Lst l) \/ ps_get k p = Some (AObj l)))%list c.
Proof.
  intros Hll Hset Hc. eapply chain_of_everywhere; eauto. intros s p (_ & (A & B & C & D) & _).
  split; auto. rewrite A. unfold names, is_disc, dkeys. destruct (sp_cls s); auto.
Qed.
Example C02_case : exists c, chain_of [ex_vor] ex_ll true c /\
  st_get "vor" (c_cur c) = Some (EPS ex_p1) /\
  dkeys (ps_vals ex_p1) = ["discretization"; "v"; "in"] /\ ps_get "v" ex_p1 = Some (Arr [2; 5/2]).
Proof. destruct ex_chain as (c & H & H1 & H2). exists c. rewrite H1. repeat split; auto. Qed.
(** Besides the spaces a state has an entry for each target with unknown noise, and no other. *)
Theorem C02_entries spaces ts fs ratio func ll save c :
  loglike_init ts fs ratio func = Ok ll -> setup_ok spaces (ll_targets ll) ->
  chain_of spaces ll save c ->
  NoDup (dkeys (st_vals (c_cur c))) /\
  forall k, In k (dkeys (st_vals (c_cur c))) <->
    (exists sp, In sp spaces /\ k = sp_name sp) \/
    (exists t, In t (ll_targets ll) /\ t_cov t = None /\ k = t_name t).
Proof.
  intros Hll Hset Hc. pose proof (chain_of_ok _ _ _ _ _ _ _ _ Hll Hset Hc) as [[[A B _ _] _] _]. auto.
Qed.
Example C02_entries_case : exists c, chain_of [ex_vor] ex_ll true c /\
  dkeys (st_vals (c_cur c)) = ["vor"; "d"].
Proof. destruct ex_chain as (c & H & H1 & H2). exists c. rewrite H1. split; auto. Qed.

(** * C03: sites of one-dimensional tessellations *)
Theorem C03_sites_sorted spaces ts fs ratio func ll save c :
  loglike_init ts fs ratio func = Ok ll -> setup_ok spaces (ll_targets ll) ->
  chain_of spaces ll save c ->
  everywhere spaces (ll_targets ll)
    (fun s p => forall lo hi sd fp, sp_cls s = Vor1 lo hi sd fp ->
       exists l, ps_get "discretization" p = Some (Arr l) /\
         (forall i j x y, (i < j)%nat -> nth_error l i = Some x -> nth_error l j = Some y -> x <= y) /\
         (forall x, In x l -> lo <= x <= hi)) c.
Proof.
  intros Hll Hset Hc. eapply chain_of_everywhere; eauto. intros s p (_ & _ & Hs & _) lo hi sd fp Ec.
  unfold sites_ok in Hs. rewrite Ec in Hs. destruct Hs as (l & E & Hsrt & Hin). exists l. split; auto.
  split.
  - intros i j x y Hij Hx Hy. apply (Hsrt i j x y); auto. lia.
  - now apply Forall_forall.
Qed.
Example C03_case : exists c, chain_of [ex_vor] ex_ll true c /\
  st_get "vor" (c_cur c) = Some (EPS ex_p1) /\ sp_cls ex_vor = Vor1 0 10 1 true /\
  ps_get "discretization" ex_p1 = Some (Arr [5; 8]).
Proof. destruct ex_chain as (c & H & H1 & H2). exists c. rewrite H1. repeat split; auto. Qed.

(** * C04: sites in more dimensions *)
Theorem C04_sites_inside spaces ts fs ratio func ll save c :
  loglike_init ts fs ratio func = Ok ll -> setup_ok spaces (ll_targets ll) ->
  chain_of spaces ll save c ->
  everywhere spaces (ll_targets ll)
    (fun s p => forall d lo hi sd poly kd fp, sp_cls s = VorN d lo hi sd poly kd fp ->
       exists l, ps_get "discretization" p = Some (ArrN l) /\
         forall x, In x l -> length x = d /\
           (forall i a b y, nth_error lo i = Some a -> nth_error hi i = Some b ->
              nth_error x i = Some y -> a <= y <= b) /\
           (forall inside, poly = Some inside -> inside x = true)) c.
Proof.
  intros Hll Hset Hc. eapply chain_of_everywhere; eauto. intros s p (_ & _ & Hs & _) d lo hi sd poly kd fp Ec.
  unfold sites_ok in Hs. rewrite Ec in Hs. destruct Hs as (l & E & Hin). exists l. split; auto.
  rewrite Forall_forall in Hin. intros x Hx. destruct (Hin x Hx) as (A & B & C). split; auto. split; auto.
  intros inside ->. exact C.
Qed.
(** The first candidate site of this starting state was outside the triangle. *)
Example C04_case : exists c, loglike_init None None None (Some (fun _ => ret (Fin 0))) = Ok ex_2d_ll /\
  setup_ok [ex_2d] (ll_targets ex_2d_ll) /\ chain_of [ex_2d] ex_2d_ll true c /\
  st_get "map" (c_cur c) = Some (EPS ex_2d_state) /\
  sp_cls ex_2d = VorN 2 [0; 0] [1; 1] [1; 1] (Some ex_triangle) true false /\
  ps_get "discretization" ex_2d_state = Some (ArrN [[1/4; 1/2]]).
Proof.
  destruct ex_2d_chain as (c & H & H1). exists c. split; [reflexivity|]. split; [apply ex_2d_setup|]. auto.
Qed.

(** * C05: uniform priors *)
Theorem C05_support spaces ts fs ratio func ll save c :
  loglike_init ts fs ratio func = Ok ll -> setup_ok spaces (ll_targets ll) ->
  chain_of spaces ll save c ->
  everywhere spaces (ll_targets ll)
    (fun s p => forall k pr l i v at_ a b lo hi,
       In (k, PPrior pr) (sp_params s) -> p_dist pr = Uniform a b ->
       ps_get k p = Some (Arr l) -> nth_error l i = Some v ->
       position_of s p i at_ -> hyper_is a at_ lo -> hyper_is b at_ hi -> lo <= v <= hi) c.
Proof.
  intros Hll Hset Hc. eapply chain_of_everywhere; eauto. intros s p (_ & _ & _ & Hs).
  intros k pr l i v at_ a b lo hi Hin Hd Hg Hn Hp Ha Hb.
  specialize (Hs k pr l i v at_ Hin Hg Hn Hp). unfold in_support in Hs. rewrite Hd in Hs. auto.
Qed.
Example C05_case : exists c, chain_of [ex_vor] ex_ll true c /\
  st_get "vor" (c_cur c) = Some (EPS ex_p1) /\ In ("v", PPrior ex_v) (sp_params ex_vor) /\
  p_dist ex_v = Uniform (HS 1) (HS 3) /\
  ps_get "v" ex_p1 = Some (Arr [2; 5/2]) /\ position_of ex_vor ex_p1 1 (Some (P1 8)) /\
  hyper_is (HS 1) (Some (P1 8)) 1 /\ hyper_is (HS 3) (Some (P1 8)) 3.
Proof.
  destruct ex_chain as (c & H & H1 & H2). exists c. rewrite H1.
  split; [exact H|]. split; [reflexivity|]. split; [now left|]. split; [reflexivity|]. split; [reflexivity|].
  split; [exists [5; 8], 8; auto|]. split; constructor.
Qed.
(** A proposal with ratio minus infinity is not accepted: the chain keeps its state. *)
Theorem C05_never_accepted {St V} (E : env St V) c tr c' o tr' ty new tr1 :
  proposes E c tr ty new MInf tr1 -> attempt E c tr = Ret (c', o) tr' -> c_cur c' = c_cur c.
Proof.
  intros (i & f & tr0 & H1 & H2 & H3).
  unfold attempt, bind, try. rewrite H1, H2, H3. cbn [eisinf]. intros H.
  apply decide_ret in H. destruct H as (u & -> & Hu & [(_ & -> & _)|(_ & acc & Ha & Hf)]); auto.
  destruct acc; [exfalso; now apply Ha|].
  revert Hf. unfold finish. destruct (save_statistics E ty false new c) as [c2|e] eqn:Hs.
  2:{ now intros [= <- <-]. }
  assert (Hc2 : c_cur c2 = c_cur c).
  { revert Hs. unfold save_statistics.
    destruct (prefix _ _); [destruct (s_pstats _ _)|]; intros [= <-]; reflexivity. }
  destruct (c_flag c2); [|now intros [= <- <-]].
  destruct (_ && _)%bool; [|now intros [= <- <-]].
  destruct (save_state E c2) as [c3 x] eqn:Hsv. intros [= <- <-].
  apply save_state_frame in Hsv. destruct Hsv as [sv ->]. exact Hc2.
Qed.
Example C05_never_case : exists c', let E := toy KOther false MInf (Fin 0) in
  proposes E (new_chain E 5%nat) [DU (1/2); DU (1/2)] "move" 6%nat MInf [DU (1/2)] /\
  attempt E (new_chain E 5%nat) [DU (1/2); DU (1/2)] = Ret (c', Stop EAttr) [].
Proof.
  eexists. cbn zeta. split.
  - exists 0%nat, (fun s => ret (S s, MInf)), [DU (1/2)].
    split; [apply choices_one; lra|]. split; reflexivity.
  - unfold attempt, bind at 1, try at 1. cbn [e_funcs toy length e_weights]. rewrite choices_one by lra.
    cbn [nth_error]. unfold bind at 1, try at 1, ret at 1. cbn [eisinf].
    unfold decide, bind at 1. rewrite drawU_ok by lra.
    assert (H : py_log (1/2) = Ok (ln (1/2))). { unfold py_log. now rewrite Rltb_t by lra. }
    rewrite H. reflexivity.
Qed.

(** * C06: noise within its limits *)
Theorem C06_noise spaces ts fs ratio func ll save c t :
  loglike_init ts fs ratio func = Ok ll -> setup_ok spaces (ll_targets ll) ->
  chain_of spaces ll save c -> In t (ll_targets ll) -> t_cov t = None ->
  exists d, st_get (t_name t) (c_cur c) = Some (ENoise d) /\
    t_std_min t <= dn_std d <= t_std_max t /\
    (t_corr t = true -> exists r, dn_corr d = Some r /\ t_cor_min t <= r <= t_cor_max t) /\
    (t_corr t = false -> dn_corr d = None).
Proof.
  intros Hll Hset Hc Ht Hu. pose proof (chain_of_ok _ _ _ _ _ _ _ _ Hll Hset Hc) as [[[_ _ _ D] _] _].
  destruct (D t Ht Hu) as (d & E & A & B). exists d. split; auto. split; auto.
  destruct (t_corr t); split; intros; auto; discriminate.
Qed.
Example C06_case : exists c, chain_of [ex_vor] ex_ll true c /\ In ex_t (ll_targets ex_ll) /\ t_cov ex_t = None /\
  t_corr ex_t = true /\ st_get (t_name ex_t) (c_cur c) = Some (ENoise (mkNoise 1 (Some 0))).
Proof. destruct ex_chain as (c & H & H1 & H2). exists c. rewrite H1. repeat split; auto. now left. Qed.
Lemma append_same a b c : a ++ b = a ++ c -> b = c.
Proof. induction a as [|x a IH]; cbn; auto. intros H. injection H as H. auto. Qed.
Lemma chars_append a b : list_ascii_of_string (a ++ b) = (list_ascii_of_string a ++ list_ascii_of_string b)%list.
Proof. induction a; cbn; congruence. Qed.
Lemma std_not_correlation a b : a ++ ".std" <> b ++ ".correlation".
Proof.
  intros H. apply (f_equal (fun s => List.rev (list_ascii_of_string s))) in H.
  rewrite !chars_append, !rev_app_distr in H. cbn in H. discriminate.
Qed.
(** The saved values. *)
Theorem C06_saved_noise spaces ts fs ratio func ll save c t x :
  loglike_init ts fs ratio func = Ok ll -> setup_ok spaces (ll_targets ll) ->
  chain_of spaces ll save c -> In t (ll_targets ll) -> t_cov t = None ->
  (saved_under c (t_name t ++ ".std") (ONum x) -> t_std_min t <= x <= t_std_max t) /\
  (saved_under c (t_name t ++ ".correlation") (ONum x) -> t_corr t = true /\ t_cor_min t <= x <= t_cor_max t).
Proof.
  intros Hll Hset Hc Ht Hu. pose proof (chain_of_ok _ _ _ _ _ _ _ _ Hll Hset Hc) as [_ Hs].
  assert (Hname : forall t' suffix, In t' (ll_targets ll) -> t_name t' ++ suffix = t_name t ++ suffix -> t' = t).
  { intros t' suf Ht' E. apply append_cancel in E. destruct (setup_parts _ _ Hset) as [_ Hn].
    clear - Ht Ht' E Hn. induction (ll_targets ll) as [|a l IH]; [destruct Ht|].
    inversion Hn as [|? ? H1 H2]; subst. destruct Ht as [->|Ht], Ht' as [->|Ht']; auto.
    - exfalso. apply H1. rewrite <- E. now apply in_map.
    - exfalso. apply H1. rewrite E. now apply in_map. }
  assert (K : forall k, saved_under c k (ONum x) -> exists t' d, In t' (ll_targets ll) /\ noise_ok t' d /\
    shows_noise (t_name t') d k (ONum x)).
  { intros k Hk. unfold saved_under in Hk. destruct (c_saved c) as [dd|]; [|destruct Hk].
    apply Hs in Hk. apply saved_value_shows in Hk; auto.
    destruct Hk as [(sp & p & _ & _ & B)|[(t' & d & A & _ & B & C)|(_ & [(d & B)|(m & B)])]]; try discriminate.
    - inversion B.
    - eauto. }
  split; intros H; apply K in H; destruct H as (t' & d & Ht' & [A B] & C).
  - inversion C; subst;
      match goal with H : _ ++ ".std" = _ |- _ => rename H into Ek | H : _ ++ ".correlation" = _ |- _ => rename H into Ek end.
    + apply Hname in Ek; auto. now subst t'.
    + symmetry in Ek. now apply std_not_correlation in Ek.
  - inversion C as [|? ? ? Ed]; subst;
      match goal with H : _ ++ ".std" = _ |- _ => rename H into Ek | H : _ ++ ".correlation" = _ |- _ => rename H into Ek end.
    + now apply std_not_correlation in Ek.
    + apply Hname in Ek; auto. subst t'. destruct (t_corr t); [|congruence].
      destruct B as (r & Er & B). split; auto. congruence.
Qed.
Example C06_saved_case : exists c, chain_of [ex_vor] ex_ll true c /\
  saved_under c (t_name ex_t ++ ".std") (ONum 1) /\ saved_under c (t_name ex_t ++ ".correlation") (ONum 0).
Proof.
  destruct ex_chain as (c & H & H1 & H2). exists c. split; auto. unfold saved_under. rewrite H2.
  split; now left.
Qed.
