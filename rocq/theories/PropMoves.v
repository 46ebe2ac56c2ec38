(** Moves of several numbers at once: C12 and C53, continued; and what the constructors of targets and
    parameterizations accept (C06, C63). *)
From Verif Require Import Base ModelPrior ModelState ModelSpace ModelPerturb ModelChain ModelSampler
  ModelLikelihood SpecUtils1D SpecPrior SpecState SpecSpace SpecPerturb SpecEnsemble SpecBirth SpecWalk SpecChain SpecRun
  ProofUtils1D ProofChain ProofState ProofSpace ProofSpaceB ProofSpaceC ProofSpaceD ProofPerturb PropPrior PropSpace PropNeighbour
  ProofInversion ProofBirth PropBirth PropWalk ProofChainB ProofRun ProofRunB ProofRunC PropRun PropState PropSaving ExampleRun ExampleSpace.
Local Open Scope R_scope.
Local Open Scope string_scope.

(** * C12: the move of the numbers of one dimension *)
(** Each number [v] of dimension [i] moves by [z] standard deviations of its prior at the position; [f]
    is the product of the densities of the new numbers over those of the old ones. *)
Inductive steps (old new : psstate) (at_ : option pos) (i : nat) : list prior -> list R -> R -> Prop :=
| ST_nil : steps old new at_ i [] [] 1
| ST_next p ps v sd z zs f f' b : number_is (ps_get (p_name p) old) i v -> hyper_is (p_std p) at_ sd ->
    number_is (ps_get (p_name p) new) i (v + z * sd) ->
    has_density (p_dist p) at_ v f -> 0 < f -> has_density (p_dist p) at_ (v + z * sd) f' ->
    steps old new at_ i ps zs b -> steps old new at_ i (p :: ps) (z :: zs) (f' / f * b).

(** Priors with a density everywhere, and a standard deviation of moves everywhere. *)
Definition movable (p : prior) : Prop :=
  proper p /\ hyper_ok (p_std p) /\
  match p_dist p with Laplace _ b => forall at_ sc, hyper_is b at_ sc -> 0 < sc | _ => True end.
Lemma move_draw p v at_ tr nv r tr' : movable p -> in_support p at_ v ->
  p_perturb p v at_ false tr = Ret (nv, r) tr' ->
  exists z sd f f', tr = DZ z :: tr' /\ hyper_is (p_std p) at_ sd /\ nv = v + z * sd /\
    has_density (p_dist p) at_ v f /\ 0 < f /\ has_density (p_dist p) at_ nv f' /\ log_density (f' / f) r.
Proof.
  intros ((_ & Hok & Hp) & Hs & Hl) Hin H.
  assert (G : exists z sd, tr = DZ z :: tr' /\ get_hyper (p_std p) at_ = Ok sd /\ nv = v + z * sd /\
     (forall x, exists f, has_density (p_dist p) at_ x f) /\ (forall f, has_density (p_dist p) at_ v f -> 0 < f)).
  { unfold p_perturb, in_support in *. destruct (p_dist p) as [a b|m s|m b|g1 g2 g3] eqn:Ed; [| | |contradiction]; destruct Hok as [Ha Hb].
    - mb H as sd E1. mb H as lo E2. mb H as hi E3. mb H as d E4. mr H. injection H as <- <-.
      apply normal_inv in E4. destruct E4 as (z & -> & ->). exists z, sd. split; auto. split; [exact E1|]. split; auto.
      apply (C12_hyper_parameters a at_ lo Ha) in E2. apply (C12_hyper_parameters b at_ hi Hb) in E3.
      split.
      + intros x. destruct (Rle_dec lo x) as [L1|L1]; [destruct (Rle_dec x hi) as [L2|L2]|].
        * eexists. eapply HD_in; eauto. now split.
        * eexists. eapply HD_out; eauto. intros [? ?]; lra.
        * eexists. eapply HD_out; eauto. intros [? ?]; lra.
      + intros f Hf. inversion Hf as [a' b' lo' hi' E A B C D|a' b' lo' hi' E A B C D|m s mu s1 E|m s mu s1 E]; try discriminate.
        * apply Rinv_0_lt_compat. lra.
        * exfalso. apply D. injection E as <- <-. exact (Hin lo' hi' A B).
    - mb H as sd E1. mb H as d E4. mb H as mu E2. mb H as s0 E3. mb H as q E5. mr H. injection H as <- <-.
      apply normal_inv in E4. destruct E4 as (z & -> & ->). exists z, sd. split; auto. split; [exact E1|]. split; auto.
      apply (C12_hyper_parameters m at_ mu Ha) in E2. apply (C12_hyper_parameters s at_ s0 Hb) in E3.
      split.
      + intros x. eexists. eapply HD_gauss; eauto.
      + intros f Hf. inversion Hf; try discriminate. now apply gauss_pos.
    - mb H as sd E1. mb H as d E4. mb H as mu E2. mb H as s0 E3. mb H as q E5. mr H. injection H as <- <-.
      apply normal_inv in E4. destruct E4 as (z & -> & ->). exists z, sd. split; auto. split; [exact E1|]. split; auto.
      apply (C12_hyper_parameters m at_ mu Ha) in E2. apply (C12_hyper_parameters b at_ s0 Hb) in E3.
      split.
      + intros x. eexists. eapply HD_laplace; eauto.
      + intros f Hf. inversion Hf; try discriminate. now apply laplace_pos. }
  destruct G as (z & sd & -> & Esd & -> & G1 & G2). destruct (G1 v) as [f Hf]. destruct (G1 (v + z * sd)) as [f' Hf'].
  destruct (C12_value_ratio p v at_ false z tr' sd f f' Hok Esd Hf (G2 _ Hf) Hf') as (r' & E & Hr & _).
  rewrite E in H. injection H as <-. exists z, sd, f, f'. split; auto. split; [now apply C12_hyper_parameters|]. auto.
Qed.
Lemma perturb_steps s p i at_ : valid s -> wf s p -> site_of p i = Ok at_ -> forall ps new acc F tr q r tr',
  (forall pr, In pr ps -> In (p_name pr, PPrior pr) (sp_params s) /\ movable pr) -> NoDup (map p_name ps) ->
  (forall k, In k (map p_name ps) -> ~ In k (dkeys new)) -> NoDup (dkeys new) -> log_density F acc ->
  perturb_params (map PPrior ps) p i new acc tr = Ret (q, r) tr' ->
  exists zs f, tr = (map DZ zs ++ tr')%list /\ steps p q at_ i ps zs f /\ log_density (F * f) r /\
    (forall k v, dget k new = Some v -> ps_get k q = Some v).
Proof.
  intros Hv Hwf Hat. pose proof (valid_here _ Hv) as Hok. pose proof Hok as (Hmm & _ & Hc & Hnd & Hdk & _).
  destruct (wf_inv _ _ Hnd Hwf) as (Hdim & Hsites & Hk & Hdl & Hf).
  pose proof (site_of_spec s p i at_ Hv Hwf Hat) as Hpos.
  induction ps as [|pr ps IH]; intros new acc F tr q r tr' Hps Hn Hfr Hnew HF H; cbn [map perturb_params] in H.
  - mb H as c Ec. mr H. injection H as <- <-. exists [], 1. split; auto. split; [constructor|]. split; [now rewrite Rmult_1_r|].
    intros k v E. unfold ps_get. cbn [ps_vals]. now rewrite dget_dupdate, E.
  - destruct (Hps pr (or_introl eq_refl)) as [Hin Hm]. destruct (Hf _ _ Hin) as (v & Ev & Hfit). cbn in Hfit. destruct Hfit as (a & -> & La & Hsup).
    rewrite Ev in H. mb H as old Eold. mb H as at' Eat. mb H as [nv r1] Ep. mb H as v' Ev'.
    change (site_of p i = Ok at') in Eat. assert (at' = at_) by congruence. subst at'.
    unfold set_num in Ev'. destruct (Nat.ltb_spec i (length a)) as [Hi|]; [|discriminate]. injection Ev' as <-.
    apply num_at_is in Eold. destruct Eold as (a' & [= <-] & Ha).
    destruct (move_draw _ _ _ _ _ _ _ Hm (Hsup _ _ _ Ha Hpos) Ep) as (z & sd & f & f' & Htr & Hsd & -> & Hd & Hd0 & Hd' & Hl).
    cbn [map] in Hn, Hfr. inversion Hn as [|? ? Hn1 Hn2]; subst.
    destruct IH with (6 := H) (F := F * (f' / f)) as (zs & b & Et & Hs & Hb & Hg).
    + intros x Hx. apply Hps. now right.
    + exact Hn2.
    + intros k Hin' Hd2. apply in_dset_keys in Hd2. destruct Hd2 as [->|Hd2]; [contradiction|]. eapply Hfr; [right; exact Hin'|exact Hd2].
    + now apply dset_nodup.
    + now apply log_mul.
    + exists (z :: zs), (f' / f * b). split; [subst; reflexivity|]. split.
      * econstructor; eauto; [exists a; auto|]. exists (set_nth a i (old + z * sd)). split; [apply Hg, dget_dset_same|].
        rewrite nth_set_nth by auto. now rewrite Nat.eqb_refl.
      * split; [now rewrite <- Rmult_assoc|]. intros k v E. apply Hg. rewrite dget_dset_other; auto.
        intros ->. apply (Hfr (p_name pr)); [now left|]. eapply dget_in_keys. exact E.
Qed.
(** Moving all given numbers of one dimension: the log ratio is the logarithm of the product of the ratios
    of all the densities; -inf when and only when one of the new numbers is where its prior is 0. *)
Theorem C12_move s n ps p tr q r tr' : valid s -> wf s p ->
  (forall pr, In pr ps -> In (p_name pr, PPrior pr) (sp_params s) /\ movable pr) -> NoDup (map p_name ps) ->
  elem_perturb (EParam n (map PPrior ps)) p tr = Ret (q, r) tr' -> ps <> [] ->
  exists i at_ zs f, (i < ps_n p)%nat /\ position_of s p i at_ /\ tr = (DInt i :: map DZ zs ++ tr')%list /\
    steps p q at_ i ps zs f /\ log_density f r.
Proof.
  intros Hv Hwf Hps Hn H Hne. cbn [elem_perturb] in H. unfold param_perturb in H. mb H as i Ei.
  apply randint_below_inv in Ei. destruct Ei as [Hi ->].
  assert (Hat : exists at_, site_of p i = Ok at_).
  { destruct ps as [|pr ps]; [congruence|]. cbn [map perturb_params] in H.
    destruct (ps_get (p_name pr) p); [|discriminate]. mb H as old Eold. mb H as at_ Eat. exists at_. exact Eat. }
  destruct Hat as [at_ Hat].
  destruct (perturb_steps s p i at_ Hv Hwf Hat ps [] (Fin 0) 1 t q r tr' Hps Hn) as (zs & f & Et & Hs & Hf & _); auto.
  - constructor.
  - apply log_one.
  - exists i, at_, zs, f. split; auto. split; [eapply site_of_spec; eauto|]. split; [now rewrite Et|]. split; auto. now rewrite Rmult_1_l in Hf.
Qed.
(** Two numbers: a uniform prior between 1 and 3, and a normal one. *)
Definition ex_two : space := Space "two" (Some 1%nat) 1 1 0 Plain [("v", PPrior ex_v); ("w", PPrior ex_w)].
Definition ex_two0 : psstate := PS 1 [("v", Arr [2]); ("w", Arr [0])] [("v", Arr [2]); ("w", Arr [0])] [].
Local Opaque Rleb Rltb Reqb py_int.
Lemma ex_two_valid : valid ex_two.
Proof.
  assert (ES : forall s', sub_space ex_two s' -> s' = ex_two).
  { intros s' H. inversion H as [|? ? s1 ? Hin]; subst; auto. cbn in Hin. destruct Hin as [E|[E|[]]]; discriminate E. }
  intros s' H. rewrite (ES _ H). split; [cbn; lia|]. split; [cbn; lra|]. split; [exact I|]. split; [|split; [|split]].
  - cbn. repeat constructor; cbn; intuition discriminate.
  - cbn. intuition discriminate.
  - cbn. intros k p [E|[E|[]]]; injection E as <- <-; split; auto; [apply ex_prior_v|apply ex_prior_w].
  - cbn. intros k p [E|[E|[]]]; discriminate E.
Qed.
Lemma ex_two_init tr : ModelSpace.initialize ex_two (DVal 0 :: DU (1/2) :: DVal 0 :: DZ 0 :: tr) = Ret ex_two0 tr.
Proof. run. same. Qed.
Lemma ex_two_move tr : exists q r, elem_perturb (EParam "two" (map PPrior [ex_v; ex_w])) ex_two0 (DInt 0 :: DZ 2 :: DZ 3 :: tr) = Ret (q, Fin r) tr.
Proof. eexists _, _. run. reflexivity. Qed.
Example C12_move_case : valid ex_two /\ wf ex_two ex_two0 /\
  (forall pr, In pr [ex_v; ex_w] -> In (p_name pr, PPrior pr) (sp_params ex_two) /\ movable pr) /\ NoDup (map p_name [ex_v; ex_w]) /\
  exists q r, elem_perturb (EParam "two" (map PPrior [ex_v; ex_w])) ex_two0 [DInt 0; DZ 2; DZ 3] = Ret (q, Fin r) [] /\
    exists f, steps ex_two0 q None 0 [ex_v; ex_w] [2; 3] f /\ r = ln f.
Proof.
  assert (Hw : wf ex_two ex_two0) by (eapply initialize_wf; [apply ex_two_valid|apply (ex_two_init [])]).
  assert (Hm : forall pr, In pr [ex_v; ex_w] -> In (p_name pr, PPrior pr) (sp_params ex_two) /\ movable pr).
  { intros pr [<-|[<-|[]]]; (split; [cbn; auto|]); (split; [split; [exact I|split; [split; exact I|]]|split; exact I]).
    - intros at_ lo hi -> ->. lra.
    - intros at_ sd ->. lra. }
  assert (Hn : NoDup (map p_name [ex_v; ex_w])) by (cbn; repeat constructor; cbn; intuition discriminate).
  split; [apply ex_two_valid|]. split; auto. split; auto. split; auto.
  destruct (ex_two_move []) as (q & r & H). exists q, r. split; auto.
  destruct (C12_move ex_two "two" [ex_v; ex_w] ex_two0 _ q (Fin r) [] ex_two_valid Hw Hm Hn H) as (i & at_ & zs & f & Hi & Hp & E & Hs & Hl); [discriminate|].
  cbn in Hp. subst at_. injection E as <- E. assert (zs = [2; 3]) as ->.
  { destruct zs as [|a [|b [|c zs]]]; try discriminate; cbn in E; congruence. }
  exists f. split; auto. destruct Hl as [[_ ?]|[_ Hl]]; [discriminate|]. now injection Hl.
Qed.

Local Transparent Rleb Rltb Reqb py_int.

(** * C53: standard deviation and correlation *)
(** A target whose noise is correlated: both numbers are drawn until they are within their own limits,
    with their own steps, one after the other. *)
Theorem C53_correlation_draws t d tr d' tr' : t_corr t = true ->
  (perturb_target t d tr = Ret d' tr' <->
   exists zs z ys y c c', dn_corr d = Some c /\ dn_corr d' = Some c' /\
     tr = (map DZ zs ++ DZ z :: map DZ ys ++ DZ y :: tr')%list /\
     first_try (t_std_min t) (t_std_max t) (t_std_step t) (dn_std d) zs z (dn_std d') /\
     first_try (t_cor_min t) (t_cor_max t) (t_cor_step t) c ys y c').
Proof.
  intros Hc. unfold perturb_target. rewrite Hc. split.
  - intros H. mb H as std Es. destruct (dn_corr d) as [c|] eqn:Ed.
    + mb H as cor Ec. mr H. apply C53_noise_draws in Es. apply C53_noise_draws in Ec.
      destruct Es as (zs & z & -> & H1). destruct Ec as (ys & y & -> & H2). exists zs, z, ys, y, c, cor. auto.
    + mb H as z Ez. discriminate.
  - intros (zs & z & ys & y & c & c' & E1 & E2 & -> & H1 & H2). unfold bind.
    rewrite (proj2 (C53_noise_draws _ _ _ _ (map DZ zs ++ DZ z :: map DZ ys ++ DZ y :: tr')%list (dn_std d') (map DZ ys ++ DZ y :: tr')%list)) by eauto.
    rewrite E1. rewrite (proj2 (C53_noise_draws _ _ _ _ (map DZ ys ++ DZ y :: tr')%list c' tr')) by eauto.
    unfold ret. destruct d' as [s0 o0]. cbn in *. now subst o0.
Qed.
(** Several targets: one after the other, each from its own noise in the old state. *)
Inductive noise_moves (s s' : state) : list target -> trace -> trace -> Prop :=
| NM_nil tr : noise_moves s s' [] tr tr
| NM_next t ts d d' tr tr1 tr2 : st_get (t_name t) s = Some (ENoise d) -> st_get (t_name t) s' = Some (ENoise d') ->
    perturb_target t d tr = Ret d' tr1 -> noise_moves s s' ts tr1 tr2 -> noise_moves s s' (t :: ts) tr tr2.
Theorem C53_joint_draws ts s tr s' r tr' : NoDup (map t_name ts) -> noise_perturb ts s tr = Ret (s', r) tr' ->
  r = Fin 0 /\ noise_moves s s' ts tr tr'.
Proof.
  intros Hn H. unfold noise_perturb in H. mb H as new En. mb H as s1 Ec. mr H. injection H as <- <-. split; auto.
  assert (G : forall ts tr new0 new tr1, NoDup (map t_name ts) -> NoDup (dkeys new0) -> (forall k, In k (map t_name ts) -> ~ In k (dkeys new0)) ->
    perturb_targets ts s new0 tr = Ret new tr1 ->
    NoDup (dkeys new) /\ (forall k v, dget k new0 = Some v -> dget k new = Some v) /\
    ((forall k v, dget k new = Some v -> st_get k (st_update_vals new s1) = Some v) -> noise_moves s (st_update_vals new s1) ts tr tr1)).
  { clear. induction ts as [|t ts IH]; intros tr new0 new tr1 Hn H0 Hf H; cbn [perturb_targets] in H.
    - mr H. subst. split; auto. split; auto. constructor.
    - mb H as d Ed. mb H as d' Ed'. cbn [map] in Hn, Hf. inversion Hn as [|? ? N1 N2]; subst.
      apply IH in H; auto.
      + destruct H as (G1 & G2 & G3). split; auto. split.
        * intros k v E. apply G2. rewrite dget_dset_other; auto. intros ->. apply (Hf (t_name t)); [now left|]. eapply dget_in_keys. exact E.
        * intros HS. econstructor; [| |exact Ed'|apply G3; exact HS].
          -- unfold noise_of in Ed. destruct (st_get (t_name t) s) as [[]|]; try discriminate. congruence.
          -- apply HS, G2, dget_dset_same.
      + now apply dset_nodup.
      + intros k Hk Hd. apply in_dset_keys in Hd. destruct Hd as [->|Hd]; [contradiction|]. apply (Hf k); auto. now right. }
  destruct (G ts tr [] new tr' Hn) as (G1 & _ & G3); auto; [constructor|]. apply G3. intros k v E.
  unfold st_get, st_update_vals. cbn [st_vals]. now rewrite dget_dupdate, E.
Qed.

Example C53_joint_case : NoDup (map t_name [ex_t]) /\
  perturb_target ex_t (mkNoise (3/2) (Some (1/4))) [DZ 6; DZ 2; DZ (-1)] = Ret (mkNoise (17/10) (Some (3/20))) [].
Proof.
  split; [cbn; repeat constructor; cbn; tauto|]. apply C53_correlation_draws; [reflexivity|].
  exists [6], 2, [], (-1), (1/4), (3/20). split; [reflexivity|]. split; [reflexivity|]. split; [reflexivity|].
  unfold first_try. cbn. split; (split; [lra|]); (split; [lra|]); repeat constructor; lra.
Qed.

(** * C06: which limits the constructor of Target accepts *)
Theorem C06_limits t : (exists t', target_init t = Ok t') <->
  0 <= t_std_min t <= t_std_max t /\ 0 <= t_cor_min t <= t_cor_max t /\ t_cor_max t <= 1.
Proof.
  unfold target_init, Rleb. split.
  - intros [t' H]. destruct (Rle_dec (t_std_min t) (t_std_max t)); [|discriminate].
    destruct (Rle_dec 0 (t_std_min t)); [|discriminate]. destruct (Rle_dec (t_cor_min t) (t_cor_max t)); [|discriminate].
    destruct (Rle_dec 0 (t_cor_min t)); [|discriminate]. destruct (Rle_dec (t_cor_max t) 1); [|discriminate]. lra.
  - intros H. exists t. destruct (Rle_dec (t_std_min t) (t_std_max t)); [|lra]. destruct (Rle_dec 0 (t_std_min t)); [|lra].
    destruct (Rle_dec (t_cor_min t) (t_cor_max t)); [|lra]. destruct (Rle_dec 0 (t_cor_min t)); [|lra].
    destruct (Rle_dec (t_cor_max t) 1); [|lra]. reflexivity.
Qed.
(** What is accepted is the target as given, with sensible limits; everything else is an AssertionError. *)
Theorem C06_accepted t : (forall t', target_init t = Ok t' -> t' = t /\ target_ok t') /\
  ((forall t', target_init t <> Ok t') -> target_init t = Raise EAssert).
Proof.
  split.
  - intros t' H. assert (t' = t).
    { unfold target_init in H. repeat (destruct (negb _); [discriminate|]). congruence. }
    subst t'. split; auto. destruct (proj1 (C06_limits t)) as (A & B & C); [eauto|]. unfold target_ok. lra.
  - intros H. unfold target_init in *. repeat (destruct (negb _); [reflexivity|]). exfalso. now apply (H t).
Qed.
Example C06_limits_case : (exists t', target_init ex_t = Ok t') /\
  target_init (mkTarget "d" [1] None true 1 2 (1/10) 0 (3/2) (1/10)) = Raise EAssert.
Proof.
  split.
  - apply C06_limits. cbn. lra.
  - apply (proj2 (C06_accepted _)). intros t' H. assert (X : exists t', target_init (mkTarget "d" [1] None true 1 2 (1/10) 0 (3/2) (1/10)) = Ok t') by eauto.
    apply C06_limits in X. cbn in X. lra.
Qed.

(** * C63: names of parameter spaces must be distinct *)
Lemma dup_name_spec l : dup_name l = false <-> NoDup l.
Proof.
  induction l as [|x l IH]; cbn [dup_name]; [split; [constructor|reflexivity]|].
  rewrite Bool.orb_false_iff, IH. split.
  - intros [H1 H2]. constructor; auto. intros Hin. assert (existsb (String.eqb x) l = true); [|congruence].
    apply existsb_exists. exists x. split; auto. apply String.eqb_refl.
  - intros H. inversion H as [|? ? H1 H2]; subst. split; auto. apply Bool.not_true_is_false. intros E.
    apply existsb_exists in E. destruct E as (y & Hy & E). apply String.eqb_eq in E. now subst y.
Qed.
Theorem C63_distinct spaces : (forall s, In s spaces -> NoDup (dkeys (sp_params s))) ->
  (NoDup (map sp_name spaces) -> mk_parameterization spaces = Ok spaces) /\
  (~ NoDup (map sp_name spaces) -> mk_parameterization spaces = Raise EValue).
Proof.
  intros Hs. unfold mk_parameterization. split; intros H.
  - apply dup_name_spec in H. rewrite H. destruct (existsb _ spaces) eqn:E; auto. apply existsb_exists in E.
    destruct E as (s & Hin & E). apply Hs, dup_name_spec in Hin. congruence.
  - destruct (dup_name (map sp_name spaces)) eqn:E; auto. apply dup_name_spec in E. contradiction.
Qed.
Example C63_distinct_case : mk_parameterization [ex_two; ex_nb] = Ok [ex_two; ex_nb] /\
  mk_parameterization [ex_two; ex_nb; ex_two] = Raise EValue.
Proof. split; reflexivity. Qed.

(** * C19: elementary moves, called on their own, start with an empty cache *)
Theorem C19_elementary e s tr s' r tr' : elem_perturb_state e s tr = Ret (s', r) tr' ->
  st_cache s' = [] /\ st_temp s' = st_temp s.
Proof.
  intros H. unfold elem_perturb_state in H. destruct (st_get _ s) as [[p|d]|]; try discriminate.
  mb H as [p' r0] Ep. mb H as new En. mr H. injection H as <- <-.
  unfold st_copy in En. apply rbind_ok in En. destruct En as (v & _ & En). injection En as <-.
  assert (G : forall l s0, st_cache (fold_left (fun s ke => st_set (fst ke) (snd ke) s) l s0) = st_cache s0 /\
     st_temp (fold_left (fun s ke => st_set (fst ke) (snd ke) s) l s0) = st_temp s0).
  { induction l as [|ke l IH]; intros s0; cbn [fold_left]; auto. apply (IH (st_set (fst ke) (snd ke) s0)). }
  destruct (G v (mkState v [] (st_temp s) [] [])) as [G1 G2]. split; [exact G1|exact G2].
Qed.

(** * C63, C01: which numbers of dimensions are saved *)
Lemma values_once {A} (l : list (string * A)) k v : NoDup (map fst l) -> In (k, v) l -> values_of k l = [v].
Proof.
  unfold values_of. induction l as [|[k0 v0] l IH]; intros Hn Hin; [destruct Hin|]. cbn [map fst] in Hn. inversion Hn as [|? ? N1 N2]; subst.
  cbn [filter fst]. destruct Hin as [[= -> ->]|Hin].
  - rewrite String.eqb_refl. cbn [map snd]. f_equal.
    destruct (filter (fun kv => String.eqb (fst kv) k) l) as [|[k1 v1] l1] eqn:E; [reflexivity|]. exfalso. apply N1.
    assert (Hx : In (k1, v1) (filter (fun kv => String.eqb (fst kv) k) l)) by (rewrite E; now left).
    apply filter_In in Hx. destruct Hx as [Hx Ek]. apply String.eqb_eq in Ek. cbn in Ek. subst k1. apply in_map_iff. exists (k, v1). auto.
  - destruct (String.eqb_spec k0 k) as [->|]; auto. exfalso. apply N1. apply in_map_iff. exists (k, v). auto.
Qed.
(** Saving the current state of a chain of an inversion: for a trans-dimensional space its number of
    dimensions is added under "<space>.n_dimensions", for a space of fixed dimension nothing is. *)
Theorem C63_saved_dimensions spaces ts fs ratio func ll save c d sp :
  loglike_init ts fs ratio func = Ok ll -> setup_ok spaces (ll_targets ll) ->
  quiet_names spaces (ll_targets ll) -> chain_of spaces ll save c -> c_saved c = SDict d ->
  (forall k, In k (dkeys (st_vals (c_cur c))) -> dotless k) ->
  (forall k p, In (k, EPS p) (st_vals (c_cur c)) -> plain_names p) ->
  In sp spaces -> contains "dpred" (sp_name sp) = false ->
  exists d' p, save_state (inversion_env spaces ll save) c = (set_saved (SDict d') c, None) /\
    st_get (sp_name sp) (c_cur c) = Some (EPS p) /\
    stored (sp_name sp ++ ".n_dimensions") d' =
      (stored (sp_name sp ++ ".n_dimensions") d ++ (if sp_transd sp then [OInt (ps_n p)] else []))%list.
Proof.
  intros Hll Hset Hq Hc Hd Hdot Hpl Hsp Hdp.
  destruct (C63_saving_partial _ _ _ _ _ _ _ _ _ Hll Hset Hq Hc Hd) as (d' & Hs & Hst).
  pose proof (chain_of_ok _ _ _ _ _ _ _ _ Hll Hset Hc) as [[Hg Hx] _].
  destruct (so_spaces _ _ _ Hg sp Hsp) as (p & Ep & Hwf). exists d', p. split; auto. split; auto.
  rewrite Hst. f_equal. unfold ProofChainB.sample, sample_values, fixed_entry.
  change ".n_dimensions" with ("." ++ "n_dimensions").
  rewrite !contains_dot by (cbn; repeat split; discriminate). rewrite Hdp.
  change (contains "n_dimensions" "n_dimensions") with true. change (contains "dpred" "n_dimensions") with false.
  rewrite Bool.orb_true_r, Bool.andb_false_r, app_nil_r. cbn [andb e_transd inversion_env chain_env].
  change ("." ++ "n_dimensions") with ".n_dimensions". rewrite strip_dimensions.
  assert (En : space_named spaces (sp_name sp) = Some sp).
  { unfold space_named. destruct (find _ spaces) as [s0|] eqn:F.
    - apply find_some in F. destruct F as [Hin E]. apply String.eqb_eq in E. f_equal. eapply space_name_inj; eauto.
    - apply find_none with (x := sp) in F; auto. now rewrite String.eqb_refl in F. }
  rewrite En. cbn [option_map]. destruct (sp_transd sp); [|reflexivity].
  change (s_items _ (c_cur c)) with (st_items (c_cur c)).
  pose proof (state_ok_sane _ _ _ Hset Hg) as Hsane.
  destruct (C59_items _ Hsane Hx Hdot Hpl) as [E Hnd]. apply values_once; [exact Hnd|].
  rewrite E. apply in_flat_map. exists (sp_name sp, EPS p). assert (Hin : In (sp_name sp, EPS p) (st_vals (c_cur c))) by (now apply dget_in).
  split; auto. unfold entry_items. cbn [fst snd]. pose proof (Hpl _ _ Hin) as Hp. inversion Hp as [? D _]; subst.
  destruct (todict_flat (sp_name sp) p) as [-> _]; [|exact D|now left].
  destruct Hsane as [_ Hsn]. specialize (Hsn _ _ Hin). now inversion Hsn.
Qed.
Example C63_saved_dimensions_case : exists c d, chain_of [ex_vor] ex_ll true c /\ c_saved c = SDict d /\
  quiet_names [ex_vor] (ll_targets ex_ll) /\ (forall k, In k (dkeys (st_vals (c_cur c))) -> dotless k) /\
  (forall k p, In (k, EPS p) (st_vals (c_cur c)) -> plain_names p) /\
  contains "dpred" (sp_name ex_vor) = false /\ sp_transd ex_vor = true.
Proof.
  destruct C63_saving_case as (c & d & H1 & H2 & H3). destruct ex_chain as (c0 & H & Hc & Hs). 
  exists c0. eexists. split; [exact H|]. split; [exact Hs|]. split; [exact H3|]. rewrite Hc.
  assert (D : forall s, no_dot s -> dotless s).
  { induction s as [|x s IH]; intros Hn [|y a] b E; try discriminate; cbn in E; injection E as -> E.
    - now destruct Hn.
    - destruct Hn as [_ Hn]. exact (IH Hn a b E). }
  split; [|split; [|split; reflexivity]].
  - intros k Hk. apply D. cbn in Hk. destruct Hk as [<-|[<-|[]]]; cbn; repeat split; discriminate.
  - intros k p [E|[E|[]]]; [|discriminate E]. injection E as <- <-. constructor.
    + cbn. intuition discriminate.
    + intros k l x [E|[E|[E|[]]]] Hx; try discriminate E. injection E as <- <-.
      cbn in Hx. assert (G : forall i, plain_names (ex_inner i)).
      { intros i. constructor; [cbn; intuition discriminate|]. intros k l c1 [E|[]]. discriminate E. }
      destruct Hx as [<-|[<-|[]]]; apply G.
Qed.
Example C19_elementary_case : exists s' r,
  elem_perturb_state (EParam "two" (map PPrior [ex_v; ex_w])) (mk_state [("two", EPS ex_two0)] 1 [("d.dpred", CPred [1])]) [DInt 0; DZ 2; DZ 3] = Ret (s', r) [].
Proof.
  destruct (ex_two_move []) as (q & r & H). eexists. exists (Fin r). unfold elem_perturb_state.
  cbn [elem_space]. change (st_get "two" _) with (Some (EPS ex_two0)). cbn match. unfold bind at 1. rewrite H. reflexivity.
Qed.
