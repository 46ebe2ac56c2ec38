(** C92: custom initialization of the priors (Prior.set_custom_initialize). *)
From Verif Require Import Base ModelUtils1D ModelPrior ModelState ModelSpace ModelPerturb ModelChain ModelSampler ModelLikelihood ModelCustom
  SpecUtils1D SpecPrior SpecState SpecSpace SpecPerturb SpecChain SpecRun SpecCustom
  ProofUtils1D ProofChain ProofChainB ProofChainC ProofSampler ProofInversion ProofState ProofSpace ProofSpaceB ProofRun ProofRunB ProofRunC ProofCustom PropRun ExampleRun.
Local Open Scope R_scope.
Local Open Scope string_scope.

(** Only a callable is taken; it then is what initializes the prior. *)
Theorem C92_callable f : match set_custom_initialize f with
  | Ok g => exists h, f = Some h /\ g = Some h
  | Raise e => f = None /\ e = EValue
  | Undef => False
  end.
Proof. destruct f as [h|]; cbn; eauto. Qed.
Example C92_callable_case : set_custom_initialize (Some (fun ps => ret (map (fun _ => 1) ps))) = Ok (Some (fun ps => ret (map (fun _ => 1) ps))) /\
  set_custom_initialize None = Raise EValue.
Proof. split; reflexivity. Qed.
(** Without custom functions: the inversion of the other properties. *)
Theorem C92_default spaces ll save n tr : chains_with (fun _ => None) spaces ll save n tr = inversion_chains spaces ll save n tr.
Proof. apply chains_default. Qed.

(** In every part of the starting state (the space itself or one nested in it) the function is called with one position
    per dimension, the sites in a tessellation, and its values are the values there. *)
Theorem C92_taken own s tr p tr' s' p' k pr f : valid s -> initialize_with own s tr = Ret p tr' -> part s p s' p' ->
  In (k, PPrior pr) (sp_params s') -> own pr = Some f ->
  exists l ps t t', ps_get k p' = Some (Arr l) /\ f ps t = Ret l t' /\ length ps = ps_n p' /\ length l = ps_n p' /\
    (sp_cls s' <> Plain -> forall i x, nth_error ps i = Some x -> position_of s' p' i (Some x)).
Proof.
  intros Hv H Hp Hin Hf. destruct (initialize_with_parts own s p s' p' Hp Hv ltac:(eauto)) as (Hv' & tr1 & tr2 & H').
  destruct (initialize_with_made own s' Hv' tr1 p' tr2 H' k _ Hin) as (v & ps & A & (a & t & t' & -> & B) & C & D).
  exists a, ps, t, t'. unfold p_initialize_with in B. rewrite Hf in B. repeat split; auto.
  - change (length a) with (value_len (Arr a)). eapply initialize_with_lengths; eauto.
  - intros Hc. apply D. unfold is_disc. destruct (sp_cls s'); congruence.
Qed.
(** Every array of a starting state, also below a nested space, has one entry per dimension whatever the functions
    return, ... *)
Theorem C92_one_value_each own s tr p tr' s' p' : valid s -> initialize_with own s tr = Ret p tr' -> part s p s' p' ->
  forall k v, ps_get k p' = Some v -> value_len v = ps_n p'.
Proof.
  intros Hv H Hp. destruct (initialize_with_parts own s p s' p' Hp Hv ltac:(eauto)) as (Hv' & tr1 & tr2 & H').
  eapply initialize_with_lengths; eauto.
Qed.
(** ... so a function that returns another number of values never yields a starting state. *)
Theorem C92_wrong_number own s k pr f : valid s -> In (k, PPrior pr) (sp_params s) -> own pr = Some f ->
  (forall ps tr l tr', f ps tr = Ret l tr' -> length l <> length ps) ->
  forall tr p tr', initialize_with own s tr <> Ret p tr'.
Proof.
  intros Hv Hin Hf Hne tr p tr' H. destruct (C92_taken _ _ _ _ _ _ _ _ _ _ Hv H (part_here s p) Hin Hf) as (l & ps & t & t' & _ & A & B & C & _).
  apply Hne in A. congruence.
Qed.

Lemma chain_with_ok own spaces ts fs ratio func ll save c : supported own -> loglike_init ts fs ratio func = Ok ll ->
  setup_ok spaces (ll_targets ll) -> chain_of_with own spaces ll save c ->
  chain_ok (inversion_env spaces ll save) (good spaces (ll_targets ll)) c.
Proof.
  intros Hown Hll Hset (n & tr & cs0 & tr' & cs & H0 & Hr & Hc).
  assert (HF : Forall (chain_ok (inversion_env spaces ll save) (good spaces (ll_targets ll))) cs).
  { eapply many_runs_ok; [apply inversion_preserving; auto; eapply init_hier; eauto|exact Hr|]. eapply chains_with_ok; eauto. }
  rewrite Forall_forall in HF. auto.
Qed.
(** With functions that stay in the support of their priors, everything that the chains hold and save after any number
    of runs satisfies C01 - C05: the number of dimensions, one value per dimension and the configured names, sites
    inside the domain (and sorted in one dimension), values in the support. *)
Theorem C92_inversion own spaces ts fs ratio func ll save c : supported own -> loglike_init ts fs ratio func = Ok ll ->
  setup_ok spaces (ll_targets ll) -> chain_of_with own spaces ll save c ->
  everywhere spaces (ll_targets ll)
    (fun s p => (sp_min s <= ps_n p <= sp_max s)%nat /\
       dkeys (ps_vals p) = ((match sp_cls s with Plain => [] | _ => [disc_key] end) ++ map fst (sp_params s))%list /\
       (forall k v, ps_get k p = Some v -> value_len v = ps_n p) /\ sites_ok s p /\ support_ok s p) c.
Proof.
  intros Hown Hll Hset Hc. pose proof (chain_with_ok _ _ _ _ _ _ _ _ _ Hown Hll Hset Hc) as [Hg Hs].
  assert (HQ : forall s p, local_ok s p -> (sp_min s <= ps_n p <= sp_max s)%nat /\
       dkeys (ps_vals p) = ((match sp_cls s with Plain => [] | _ => [disc_key] end) ++ map fst (sp_params s))%list /\
       (forall k v, ps_get k p = Some v -> value_len v = ps_n p) /\ sites_ok s p /\ support_ok s p).
  { intros s p (A & (B & B' & _) & C & D). repeat split; auto; try apply A. rewrite B. unfold names, is_disc, dkeys. destruct (sp_cls s); auto. }
  split.
  - intros sp Hsp. destruct (so_spaces _ _ _ (proj1 Hg) sp Hsp) as (p & E & Hwf). exists p. split; auto.
  - intros k v Hv. unfold saved_under in Hv. destruct (c_saved c) as [d|l]; [|contradiction].
    cbn in Hs. apply Hs in Hv. apply saved_value_shows in Hv; auto.
    destruct Hv as [(sp & p & A & B & C)|[(t & d0 & A & B & C & D)|Hv]]; auto.
    + left. exists sp, p. repeat split; auto; apply (HQ s' p'); auto.
    + right. left. eauto 6.
Qed.

(** The tessellation of ExampleRun.v, whose values start at 2 when the range of the prior contains 2. *)
Definition twos : inits := fun p => match p_dist p with
  | Uniform (HS a) (HS b) => if Rleb a 2 then if Rleb 2 b then Some (fun ps => ret (map (fun _ => 2) ps)) else None else None
  | _ => None end.
Lemma twos_supported : supported twos.
Proof.
  intros p f Hf ps tr l tr' H _ i x v _ Hv. unfold in_support, twos in *.
  destruct (p_dist p) as [[a| |] [b| |]| | |] eqn:Ed; try discriminate.
  destruct (Rleb a 2) eqn:Ea; [|discriminate]. destruct (Rleb 2 b) eqn:Eb; [|discriminate]. injection Hf as <-. injection H as <- <-.
  apply Rleb_true in Ea, Eb. rewrite nth_error_map in Hv. destruct (nth_error ps i); [|discriminate]. injection Hv as <-.
  intros lo hi -> ->. auto.
Qed.
Local Opaque Rleb Rltb Reqb py_int.
Lemma twos_start tr : starting_with twos [ex_vor] ex_ll (DInt 1 :: DU (1/2) :: DVal 0 :: DZ (1/2) :: DU 0 :: DU 0 :: tr) = Ret ex_start tr.
Proof. run. same. Qed.
(** The hypotheses of C92_inversion hold of a chain with two cells after an accepted birth. *)
Example C92_inversion_case : exists c, supported twos /\ twos ex_v <> None /\
  loglike_init (Some [ATarget ex_t]) (Some [AFwd (mkFwd ex_fwd true)]) None None = Ok ex_ll /\ setup_ok [ex_vor] (ll_targets ex_ll) /\
  chain_of_with twos [ex_vor] ex_ll true c /\ st_get "vor" (c_cur c) = Some (EPS ex_p1).
Proof.
  destruct (ex_run []) as (c & o & tr' & H & H1 & H2). exists c. split; [apply twos_supported|]. split.
  { unfold twos, ex_v. cbn [p_dist]. rewrite !Rleb_t by lra. discriminate. }
  split; [apply ex_init|]. split; [apply ex_setup|]. split; [|rewrite H1; reflexivity].
  exists 1%nat. eexists. exists [ex_chain0], [], [c]. split.
  { apply repeatM_one. unfold bind. rewrite (twos_start []). reflexivity. }
  split; [|now left]. eapply runs_more; [apply runs_none|]. eapply run_vanilla; [|exact H]. split; constructor.
Qed.
Definition with_halves : inits := fun p => if String.eqb (p_name p) "w" then Some (fun ps => ret (map (fun _ => 1/2) ps)) else twos p.
Example C92_taken_case : valid ex_vor /\ In ("w", PPrior ex_w) (sp_params ex_in) /\ with_halves ex_w = Some (fun ps => ret (map (fun _ => 1/2) ps)) /\
  initialize_with with_halves ex_vor [DInt 1; DU (1/2); DVal 0] = Ret ex_p0 [] /\ part ex_vor ex_p0 ex_in (ex_inner (1/2)).
Proof.
  split; [apply (se_valid _ _ ex_setup); now left|]. split; [now left|]. split; [reflexivity|]. split.
  - run. same.
  - eapply (part_in _ _ "in"); [right; left; reflexivity|reflexivity|left; reflexivity|constructor].
Qed.
(** A function that forgets a cell. *)
Definition short : inits := fun _ => Some (fun ps => ret (map (fun _ => 2) (tl ps))).
Example C92_wrong_number_case : valid ex_vor /\ In ("v", PPrior ex_v) (sp_params ex_vor) /\
  initialize_with short ex_vor [DInt 1; DU (1/2); DVal 0] = Err EValue [].
Proof. split; [apply (se_valid _ _ ex_setup); now left|]. split; [now left|]. run. same. Qed.

(** Nothing checks the values themselves: a custom function can put a value that is impossible under the prior into
    the starting state, and so into the chain. *)
Definition nines : inits := fun p => if String.eqb (p_name p) "v" then Some (fun ps => ret (map (fun _ => 9) ps)) else None.
Theorem C92_support_refuted : exists own spaces ll save c s p,
  loglike_init (Some [ATarget ex_t]) (Some [AFwd (mkFwd ex_fwd true)]) None None = Ok ll /\ setup_ok spaces (ll_targets ll) /\
  chain_of_with own spaces ll save c /\ In s spaces /\ st_get (sp_name s) (c_cur c) = Some (EPS p) /\ ~ support_ok s p.
Proof.
  set (p9 := PS 1 [("discretization", Arr [5]); ("v", Arr [9]); ("in", Lst [ex_inner (1/2)])]
       [("discretization", Arr [5]); ("v", Arr [9]); ("in", Lst [ex_inner (1/2)])] []).
  set (s9 := mkState [("vor", EPS p9); ("d", ENoise (mkNoise 1 (Some 0)))] [("vor", EPS p9); ("d", ENoise (mkNoise 1 (Some 0)))] 1 [] []).
  assert (H : forall tr, starting_with nines [ex_vor] ex_ll (DInt 1 :: DU (1/2) :: DVal 0 :: DZ (1/2) :: DU 0 :: DU 0 :: tr) = Ret s9 tr).
  { intros tr. run. unfold s9, p9. same. }
  exists nines, [ex_vor], ex_ll, true, (new_chain ex_env s9), ex_vor, p9. split; [apply ex_init|]. split; [apply ex_setup|]. split.
  { exists 1%nat. eexists. exists [new_chain ex_env s9], [], [new_chain ex_env s9]. split; [|split; [apply runs_none|now left]].
    apply repeatM_one. unfold bind. rewrite (H []). reflexivity. }
  split; [now left|]. split; [reflexivity|]. intros Hs.
  specialize (Hs "v" ex_v [9] 0%nat 9 (Some (P1 5)) (or_introl eq_refl) eq_refl eq_refl).
  assert (Hp : position_of ex_vor p9 0 (Some (P1 5))) by (exists [5], 5; repeat split; reflexivity).
  specialize (Hs Hp 1 3 eq_refl eq_refl). lra.
Qed.
