(** C72: births and deaths report the ratio of prior and proposal densities. *)
From Verif Require Import Base SpecUtils1D ModelUtils1D ModelPrior ModelState ModelSpace SpecPrior SpecSpace SpecEnsemble SpecBirth
  ProofUtils1D ProofState ProofSpace ProofSpaceB ProofSpaceC ProofSpaceD PropPrior ProofEnsemble ExampleRun ExampleSpace PropSpace PropNeighbour ProofBirth.
Local Open Scope R_scope.
Local Open Scope string_scope.

Lemma death_params_vals s old q q0 i : ps_vals q0 = ps_vals q ->
  log_prob_death_parameters s old q i = log_prob_death_parameters s old q0 i.
Proof.
  intros E. unfold log_prob_death_parameters, ps_get. rewrite E.
  assert (G : forall x j params acc, log_prob_death_loop params x i j old q acc = log_prob_death_loop params x i j old q0 acc).
  { intros x j params. induction params as [|[k [p|s']] t IH]; intros acc; cbn [log_prob_death_loop]; auto; unfold ps_get; rewrite E.
    - destruct (num_at _ i); cbn [rbind]; auto. destruct (num_at _ j); cbn [rbind]; auto.
      destruct (perturb_std_of _ _ _); cbn [rbind]; auto. destruct (p_log_prior _ _ _); cbn [rbind]; auto.
      destruct (log_proposal _ _ _); cbn [rbind]; auto.
    - destruct (state_at _ i); cbn [rbind]; auto. destruct (state_at _ j); cbn [rbind]; auto.
      destruct (is_disc s'); auto. destruct (log_prob_death_ps_state _ _ _); cbn [rbind]; auto. }
  destruct (sp_cls s) as [|lo hi sd [|]|d lo hi sd poly kd [|]]; auto;
    (destruct (site_at _ i) as [x|e|]; cbn [rbind]; auto; destruct (nearest_neighbour _ _); cbn [rbind]; auto).
Qed.
(** A birth from the neighbour: the newborn dimension [i] lies at a site [x], its values stem from a
    dimension of the old state that is closest to [x], and the log ratio is the logarithm of the product,
    over all numbers that are born (those of nested tessellations too), of prior over proposal density:
    -inf when and only when a number is where its prior is 0. *)
Theorem C72_birth s old tr q r tr' : valid s -> is_disc s = true -> from_neighbour s = true -> all_proper s ->
  wf s old -> (ps_n old < sp_max s)%nat -> vor_birth s old tr = Ret (q, r) tr' ->
  exists i x j f, (i <= ps_n old)%nat /\ all_vals (grown i) old q /\
    site_is (ps_get disc_key q) i x /\ closest (ps_get disc_key old) x j /\
    cell_ratio old q x i j (sp_params s) f /\ log_density f r.
Proof.
  intros Hv Hd Hf Hp Hwf Hn H.
  destruct (vor_birth_spec s old tr q r tr' Hv Hd Hwf H)
    as [(E & _)|(_ & x & i & born & Hx & Hi & Hq & Hk & Ha & Hsite & (t & t' & Hnb) & Hpar)]; [lia|].
  destruct (wf_local _ _ Hwf) as (Hdim & Hshape & _).
  destruct (delete_site s x i old q Hd Hx Hshape Hi Hsite) as (sv & sv' & Es1 & Es2 & Es3 & Es4).
  assert (Hrev : log_prob_death_parameters s q old i = Ok (eneg r)).
  { eapply (death_ratio_rev s x i old old q born); eauto. now rewrite Es2. }
  destruct (death_ratio s old q i (eneg r) Hv Hd Hf Hp Hwf Hrev) as (x' & j & f & H1 & H2 & H3 & H4).
  rewrite eneg_eneg in H4.
  exists i, x', j, f. split; auto. split; [|auto].
  apply (all_vals_intro s); auto.
  - intros _ v Ev. rewrite Es1 in Ev. injection Ev as <-. exists sv'. split; auto.
    destruct Hshape as (_ & Hlen & _). pose proof (Hlen _ _ Es1) as HL.
    destruct x as [y|y]; destruct Hsite as (l & E1 & E2 & E3); rewrite Es2 in E2; injection E2 as ->.
    + assert (sv = Arr l) as -> by congruence. exists y. split; [cbn in HL; lia|reflexivity].
    + assert (sv = ArrN l) as -> by congruence. exists y. split; [cbn in HL; lia|reflexivity].
  - intros k par Hin v Ev. destruct (Hpar k par Hin) as (v0 & b & v' & E1 & E2 & E3 & E4).
    rewrite Ev in E1. injection E1 as <-. exists v'. split; auto. eapply put_grown; eauto.
Qed.
(** A death with births from the neighbour: minus the log ratio of the birth that makes the removed
    dimension from what is left. *)
Theorem C72_death s old tr q r tr' : valid s -> is_disc s = true -> from_neighbour s = true -> all_proper s ->
  wf s old -> (sp_min s < ps_n old)%nat -> vor_death s old tr = Ret (q, r) tr' ->
  exists i x j f, tr = DInt i :: tr' /\ site_is (ps_get disc_key old) i x /\ closest (ps_get disc_key q) x j /\
    cell_ratio q old x i j (sp_params s) f /\ log_density f (eneg r).
Proof.
  intros Hv Hd Hf Hp Hwf Hn H.
  assert (Hq : wf s q) by (eapply (death_wf s old tr q r tr'); auto; unfold death; rewrite Hd; exact H).
  destruct (vor_death_spec s old tr q r tr' Hv Hwf H) as [(E & _)|(_ & i & q0 & Htr & _ & El & E1 & E2)]; [lia|].
  assert (El' : log_prob_death_parameters s old q i = Ok r) by (rewrite <- El; apply death_params_vals; auto).
  destruct (death_ratio s q old i r Hv Hd Hf Hp Hq El') as (x & j & f & H1 & H2 & H3 & H4).
  exists i, x, j, f. auto.
Qed.
Lemma normal_inv sd tr d tr' : normal 0 sd tr = Ret d tr' -> exists z, tr = DZ z :: tr' /\ d = z * sd.
Proof.
  unfold normal, bind, drawZ, ret. destruct tr as [|[| |z| | |] tr]; try discriminate. intros [= <- <-]. exists z. split; auto. lra.
Qed.
Lemma perturb_draw p nb at_ tr nv r tr' : p_perturb p nb at_ true tr = Ret (nv, r) tr' ->
  exists z sd, tr = DZ z :: tr' /\ perturb_std_of p true at_ = Ok sd /\ nv = nb + z * sd.
Proof.
  intros H. unfold p_perturb in H. destruct (p_dist p).
  - mb H as sd E1. mb H as lo E2. mb H as hi E3. mb H as d E4. mr H. injection H as <- <-. 
    apply normal_inv in E4. destruct E4 as (z & -> & ->). eauto.
  - mb H as sd E1. mb H as d E4. mb H as lo E2. mb H as hi E3. mb H as q E5. mr H. injection H as <- <-.
    apply normal_inv in E4. destruct E4 as (z & -> & ->). eauto.
  - mb H as sd E1. mb H as d E4. mb H as lo E2. mb H as hi E3. mb H as q E5. mr H. injection H as <- <-.
    apply normal_inv in E4. destruct E4 as (z & -> & ->). eauto.
  - mb H as sd E1. mb H as d E4. mb H as lo E2. mb H as hi E3. mr H. injection H as <- <-.
    apply normal_inv in E4. destruct E4 as (z & -> & ->). eauto.
Qed.
Lemma newborn_draws old x j l : (forall k par, In (k, par) l -> exists p, par = PPrior p /\ hyper_ok (p_stdb p)) ->
  forall acc tr born r tr', newborn_from_neighbour l x j old acc tr = Ret (born, r) tr' ->
  exists zs, tr = (map DZ zs ++ tr')%list /\ length zs = length born /\
    Forall2 (fun kp kb => exists p nb sd z, fst kp = fst (fst kb) /\ snd kp = PPrior p /\ snd kb = z /\
        number_is (ps_get (fst kp) old) j nb /\ hyper_is (p_stdb p) (Some x) sd /\ snd (fst kb) = NNum (nb + z * sd))
      l (combine born zs).
Proof.
  induction l as [|[k par] l IH]; intros Hl acc tr born r tr' H.
  - cbn in H. mr H. injection H as <- <-. exists []. split; auto. split; auto. constructor.
  - destruct (Hl k par (or_introl eq_refl)) as (p & -> & Hh). cbn [newborn_from_neighbour] in H.
    mb H as nb Enb. mb H as [nv r0] Ep. mb H as sd Esd. mb H as lp Elp. mb H as lq Elq. mb H as [b acc'] Er. mr H. injection H as <- <-.
    destruct (perturb_draw _ _ _ _ _ _ _ Ep) as (z & sd' & -> & Esd' & ->).
    destruct (IH (fun k0 par0 Hin => Hl k0 par0 (or_intror Hin)) _ _ _ _ _ Er) as (zs & -> & Hlen & HF).
    exists (z :: zs). split; auto. split; [cbn; now rewrite Hlen|]. cbn [combine]. constructor; auto.
    exists p, nb, sd', z. cbn [fst snd]. split; auto. split; auto. split; auto. split; [now apply num_at_is|].
    split; auto. now apply C12_hyper_parameters.
Qed.
(** The numbers come from the proposal whose density is in the ratio: the value of the closest dimension
    plus a normal step with the standard deviation for births. *)
Theorem C72_draws s x old tr born r tr' : is_disc s = true -> from_neighbour s = true -> sites_ok s old ->
  (forall k par, In (k, par) (sp_params s) -> exists p, par = PPrior p /\ hyper_ok (p_stdb p)) ->
  newborn_params s x old tr = Ret (born, r) tr' ->
  exists j zs, closest (ps_get disc_key old) x j /\ tr = (map DZ zs ++ tr')%list /\ length zs = length born /\
    Forall2 (fun kp kb => exists p nb sd z, fst kp = fst (fst kb) /\ snd kp = PPrior p /\ snd kb = z /\
        number_is (ps_get (fst kp) old) j nb /\ hyper_is (p_stdb p) (Some x) sd /\ snd (fst kb) = NNum (nb + z * sd))
      (sp_params s) (combine born zs).
Proof.
  intros Hd Hf Hs Hl H.
  assert (H' : (j <- lift (nearest_neighbour (ps_get disc_key old) x) ;;
     newborn_from_neighbour (sp_params s) x j old (Fin 0)) tr = Ret (born, r) tr').
  { unfold newborn_params, from_neighbour in *. destruct (sp_cls s) as [|lo hi sd [|]|d lo hi sd poly kd [|]]; try discriminate; exact H. }
  clear H. mb H' as j Ej. destruct (newborn_draws old x j _ Hl _ _ _ _ _ H') as (zs & H1 & H2 & H3).
  exists j, zs. split; [|auto]. eapply nearest_closest; eauto.
Qed.

(** * Detailed balance *)
Lemma ratio_split old new x i j l f : (forall k par, In (k, par) l -> exists p, par = PPrior p) ->
  cell_ratio old new x i j l f ->
  exists d h, params_density new x i l d /\ params_proposal old new x i j l h /\ 0 < h /\ f = d / h.
Proof.
  revert f. induction l as [|[k par] l IH]; intros f Hl H.
  - inversion H; subst. exists 1, 1. repeat split; try constructor; lra.
  - destruct (Hl k par (or_introl eq_refl)) as (p & ->). inversion H; subst.
    match goal with Hv : value_ratio _ _ _ _ _ |- _ => destruct Hv as [f0 sd0 Hf0 Hh0 Hs0] end.
    destruct (IH b) as (d & h & K1 & K2 & K3 & ->); auto; [intros k0 par0 Hin; apply (Hl k0 par0); now right|].
    pose proof (gauss_pos nb sd0 v Hs0) as G.
    do 2 eexists. split; [econstructor; eauto|]. split; [econstructor; eauto|]. split; [now apply Rmult_lt_0_compat|]. field. split; lra.
Qed.
Definition shift (i k : nat) : nat := if (k <? i)%nat then k else S k.
Lemma inserted_nth {A} i (x : A) l l' k y : inserted i x l l' -> nth_error l k = Some y -> nth_error l' (shift i k) = Some y.
Proof.
  intros [Hi ->] Hk. change (firstn i l ++ x :: skipn i l)%list with (insert_at i x l). rewrite nth_error_insert_at by exact Hi.
  unfold shift. destruct (Nat.ltb_spec k i) as [L|L].
  - rewrite (proj2 (Nat.ltb_lt k i)) by exact L. exact Hk.
  - rewrite (proj2 (Nat.ltb_ge (S k) i)), (proj2 (Nat.eqb_neq (S k) i)) by lia. now replace (S k - 1)%nat with k by lia.
Qed.
Lemma product_insert i d ds : (i <= length ds)%nat -> fold_right Rmult 1 (insert_at i d ds) = d * fold_right Rmult 1 ds.
Proof.
  intros H. unfold insert_at. rewrite <- (firstn_skipn i ds) at 3. generalize (skipn i ds) as b. generalize (firstn i ds) as a.
  intros a b. induction a as [|y a IH]; cbn; [reflexivity|]. rewrite IH. ring.
Qed.
Lemma grown_cell s i old q k d : all_vals (grown i) old q -> cell_density s old k d -> cell_density s q (shift i k) d.
Proof.
  intros Hg (x & Hx & Hd).
  assert (Hnum : forall key v, number_is (ps_get key old) k v -> number_is (ps_get key q) (shift i k) v).
  { intros key v (l & E & Hv). destruct (proj2 Hg key _ E) as (v' & E' & G). destruct v' as [l'|l'|l'|l']; try contradiction.
    destruct G as (y & G). exists l'. split; auto. eapply inserted_nth; eauto. }
  exists x. split.
  - destruct x as [y|y]; destruct Hx as (l & E & Hy); destruct (proj2 Hg disc_key _ E) as (v' & E' & G);
      destruct v' as [l'|l'|l'|l']; try contradiction; destruct G as (w & G); exists l'; (split; [auto|eapply inserted_nth; eauto]).
  - induction Hd as [|key p t v a b H1 H2 H3 IH]; [constructor|]. econstructor; eauto.
Qed.
Lemma grown_density s vol old q i x d D : 0 < vol -> (i <= ps_n old)%nat -> ps_n q = S (ps_n old) -> all_vals (grown i) old q ->
  site_is (ps_get disc_key q) i x -> params_density q x i (sp_params s) d -> state_density s vol old D ->
  exists D', state_density s vol q D' /\ D * (1 / vol * d) = D' * (1 / INR (ps_n q)).
Proof.
  intros Hvol Hi Hq Hg Hx Hd (ds & Hlen & Hds & ->).
  exists (INR (fact (ps_n q)) / vol ^ ps_n q * fold_right Rmult 1 (insert_at i d ds)). split.
  - exists (insert_at i d ds). split; [|split; [|reflexivity]].
    + unfold insert_at. rewrite app_length, firstn_length. cbn [length]. rewrite skipn_length. lia.
    + intros k c Hk. rewrite nth_error_insert_at in Hk by lia.
      destruct (Nat.ltb_spec k i) as [L|L]; [|destruct (Nat.eqb_spec k i) as [->|L2]].
      * replace k with (shift i k) by (unfold shift; now rewrite (proj2 (Nat.ltb_lt k i))). eapply grown_cell; eauto.
      * injection Hk as <-. exists x. auto.
      * replace k with (shift i (k - 1)) by (unfold shift; rewrite (proj2 (Nat.ltb_ge (k - 1) i)) by lia; lia). eapply grown_cell; eauto.
  - rewrite product_insert by lia. rewrite Hq.
    replace (INR (fact (S (ps_n old)))) with (INR (S (ps_n old)) * INR (fact (ps_n old))) by (rewrite <- mult_INR; reflexivity).
    cbn [pow]. assert (0 < INR (S (ps_n old))) by (apply lt_0_INR; lia).
    assert (0 < vol ^ ps_n old) by (now apply pow_lt). field. repeat split; lra.
Qed.
(** Birth and death of a cell of a tessellation without nested spaces are in balance: the prior of the old
    state, the density 1 / vol of the new site and that of the new numbers, times the exponential of the
    reported log ratio, is the prior of the new state times the probability of choosing that cell for a
    death. *)
Theorem C72_balance s vol old tr q r tr' D : valid s -> is_disc s = true -> from_neighbour s = true -> all_proper s ->
  (forall k par, In (k, par) (sp_params s) -> exists p, par = PPrior p) -> 0 < vol ->
  wf s old -> (ps_n old < sp_max s)%nat -> vor_birth s old tr = Ret (q, r) tr' -> state_density s vol old D ->
  exists i x j h f D', site_is (ps_get disc_key q) i x /\ closest (ps_get disc_key old) x j /\
    params_proposal old q x i j (sp_params s) h /\ 0 < h /\ log_density f r /\ state_density s vol q D' /\
    D * (1 / vol * h) * f = D' * (1 / INR (ps_n q)).
Proof.
  intros Hv Hd Hf Hp Hflat Hvol Hwf Hn H HD.
  destruct (C72_birth s old tr q r tr' Hv Hd Hf Hp Hwf Hn H) as (i & x & j & f & Hi & Hg & Hx & Hj & Hr & Hl).
  assert (Hq : ps_n q = S (ps_n old)).
  { destruct (vor_birth_spec s old tr q r tr' Hv Hd Hwf H) as [(E & _)|(_ & ? & ? & ? & _ & _ & E & _)]; [lia|exact E]. }
  destruct (ratio_split old q x i j (sp_params s) f Hflat Hr) as (d & h & Hd' & Hh & Ph & ->).
  destruct (grown_density s vol old q i x d D) as (D' & HD' & E); auto.
  exists i, x, j, h, (d / h), D'. do 6 (split; auto). rewrite <- E. field. lra.
Qed.
(** The same with births from the prior, whose log ratio is 0: [d] is the prior density of the numbers drawn. *)
Theorem C72_prior_balance s vol old tr q r tr' D : valid s -> is_disc s = true -> from_neighbour s = false ->
  0 < vol -> wf s old -> (ps_n old < sp_max s)%nat -> vor_birth s old tr = Ret (q, r) tr' -> state_density s vol old D ->
  r = Fin 0 /\ exists i x, site_is (ps_get disc_key q) i x /\
    forall d, params_density q x i (sp_params s) d ->
    exists D', state_density s vol q D' /\ D * (1 / vol * d) = D' * (1 / INR (ps_n q)).
Proof.
  intros Hv Hd Hf Hvol Hwf Hn H HD.
  destruct (vor_birth_spec s old tr q r tr' Hv Hd Hwf H)
    as [(E & _)|(_ & x & i & born & Hx & Hi & Hq & Hk & Ha & Hsite & (t & t' & Hnb) & Hpar)]; [lia|].
  destruct (wf_local _ _ Hwf) as (Hdim & Hshape & _).
  destruct (delete_site s x i old q Hd Hx Hshape Hi Hsite) as (sv & sv' & Es1 & Es2 & Es3 & Es4). split.
  - unfold newborn_params, from_neighbour, is_disc in *. destruct (sp_cls s) as [|lo hi sd [|]|dd lo hi sd poly kd [|]]; try discriminate;
      mb Hnb as a Ea; mr Hnb; injection Hnb as _ <-; reflexivity.
  - exists i, x. assert (Hxi : site_is (ps_get disc_key q) i x) by (apply site_at_is; now rewrite Es2).
    split; auto. intros d Hd'. eapply grown_density; eauto.
    apply (all_vals_intro s); auto.
    + intros _ v Ev. rewrite Es1 in Ev. injection Ev as <-. exists sv'. split; auto.
      destruct Hshape as (_ & Hlen & _). pose proof (Hlen _ _ Es1) as HL.
      destruct x as [y|y]; destruct Hsite as (l & E1 & E2 & E3); rewrite Es2 in E2; injection E2 as ->.
      * assert (sv = Arr l) as -> by congruence. exists y. split; [cbn in HL; lia|reflexivity].
      * assert (sv = ArrN l) as -> by congruence. exists y. split; [cbn in HL; lia|reflexivity].
    + intros k par Hin v Ev. destruct (Hpar k par Hin) as (v0 & b & v' & E1 & E2 & E3 & E4).
      rewrite Ev in E1. injection E1 as <-. exists v'. split; auto. eapply put_grown; eauto.
Qed.

(** A tessellation with a nested tessellation: the birth of C10_case. *)
Example C72_case : valid ex_nb /\ is_disc ex_nb = true /\ from_neighbour ex_nb = true /\ all_proper ex_nb /\ wf ex_nb ex_nb0 /\
  (ps_n ex_nb0 < sp_max ex_nb)%nat /\
  exists q r f, vor_birth ex_nb ex_nb0 [DU (8/10); DZ 1; DU (1/4); DVal 77; DZ 2] = Ret (q, Fin r) [] /\
    0 < f /\ r = ln f.
Proof.
  assert (Hp : all_proper ex_nb).
  { intros s' k p Hs Hin. apply ex_nb_is in Hs. destruct Hs as [->| ->]; cbn in Hin.
    - destruct Hin as [E|[E|[]]]; [|discriminate E]. injection E as <- <-. split; [exact I|]. split; [split; exact I|].
      intros at_ lo hi -> ->. lra.
    - destruct Hin as [E|[]]. injection E as <- <-. split; [exact I|]. split; [split; exact I|]. intros at_ sd ->. lra. }
  split; [apply ex_nb_valid|]. split; [reflexivity|]. split; [reflexivity|]. split; [exact Hp|]. split; [apply ex_nb_wf|]. split; [cbn; lia|].
  destruct (ex_nb_birth []) as (q & r & H & _).
  destruct (C72_birth ex_nb ex_nb0 _ q (Fin r) [] ex_nb_valid eq_refl eq_refl Hp ex_nb_wf ltac:(cbn; lia) H)
    as (i & x & j & f & _ & _ & _ & _ & _ & [[_ E]|[Hf E]]); [discriminate|].
  exists q, r, f. split; auto. split; auto. now injection E.
Qed.
