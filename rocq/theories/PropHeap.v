(** C17: a proposal never changes the current state or samples that are already saved. *)
From Verif Require Import Base ModelUtils1D ModelPrior ModelState ModelSpace ModelChain ModelPerturb
  ModelLikelihood ModelHeap SpecHeap SpecChain ExampleRun ProofHeap ProofHeapB.
Local Open Scope R_scope.
Local Open Scope string_scope.
Local Opaque Rleb Rltb Reqb py_int.

(** A state with one parameter space "ps" that has two values "v", and an earlier state that
    shares the array with it. *)
Definition ex_heap : heap :=
  [ HArr [2; 5/2];
    HDict [("v", 0%nat)]; HPS 2 1%nat [("v", 0%nat)] [];
    HDict [("ps", 2%nat)]; HState 3%nat [("ps", 2%nat)] 1 [] [];
    HDict [("v", 0%nat)]; HPS 2 5%nat [("v", 0%nat)] [];
    HDict [("ps", 6%nat)]; HState 7%nat [("ps", 6%nat)] 1 [] [] ].
Definition ex_plain : space := Space "ps" (Some 2%nat) 2 2 0 Plain [("v", PPrior ex_v)].
Definition ex_move : elem := EParam "ps" [PPrior ex_v].


Lemma ex_v_moves tr : exists r, p_perturb ex_v (5/2) None false (DZ 2 :: tr) = Ret (27/10, r) tr /\ r = Fin 0.
Proof. exists (Fin 0). split; [run; same|reflexivity]. Qed.


Lemma hbind_ret {A B} (m : HM A) (f : A -> HM B) h tr a tr' h' :
  m h tr = (Ret a tr', h') -> hbind m f h tr = f a h' tr'.
Proof. intros E. unfold hbind. now rewrite E. Qed.
Definition ex_mid : heap :=
  (ex_heap ++ [HArr [2; 27/10]; HArr [2; 5/2]; HDict [("v", 9%nat)]; HPS 2 11%nat [("v", 10%nat)] []])%list.
Definition ex_after : heap :=
  (ex_mid ++ [HArr [2; 5/2]; HDict [("v", 13%nat)]; HPS 2 14%nat [("v", 13%nat)] [];
              HDict [("ps", 12%nat)]; HState 16%nat [("ps", 12%nat)] 1 [] []])%list.
Ltac hstep := erewrite hbind_ret by (lazy -[Rplus Rmult Ropp Rinv Rminus Rdiv IZR INR eadd]; reflexivity); cbv beta iota.
Lemma ex_heap_elem tr : exists r,
  h_elem_perturb ex_move 2%nat ex_heap (DInt 1 :: DZ 2 :: tr) = (Ret (12%nat, r) tr, ex_mid).
Proof.
  destruct (ex_v_moves tr) as (r & E & Ez). exists (eadd (Fin 0) r). unfold ex_move, h_elem_perturb, h_param_perturb.
  hstep. hstep. cbn [h_perturb_params]. hstep. cbn [p_name ex_v]. hstep. hstep. hstep. hstep.
  erewrite hbind_ret by (unfold hdo; rewrite E; reflexivity). cbv beta iota.
  hstep. lazy -[Rplus Rmult Ropp Rinv Rminus Rdiv IZR INR eadd]. reflexivity.
Qed.
Lemma ex_heap_move tr : exists r,
  h_elem_perturb_state ex_move 4%nat ex_heap (DInt 1 :: DZ 2 :: tr) = (Ret (17%nat, r) tr, ex_after).
Proof.
  destruct (ex_heap_elem tr) as [r E]. exists r. unfold h_elem_perturb_state.
  hstep. cbn [elem_space ex_move]. change (dget "ps" [("ps", 2%nat)]) with (Some 2%nat). cbv iota. hstep.
  erewrite hbind_ret by exact E.
  cbv beta iota. lazy -[Rplus Rmult Ropp Rinv Rminus Rdiv IZR INR eadd]. reflexivity.
Qed.

(** * One move
    Whatever the draws, and whether a state is returned or an exception raised: every object
    that existed has the same data as before; objects of class State are altogether the same
    (also their caches); and the state that is returned is a new object. *)
Theorem C17_move f h a tr :
  let h' := snd (h_pfunc f a h tr) in
  untouched h h' /\
  (forall b d at_ t c x, nth_error h b = Some (HState d at_ t c x) -> nth_error h' b = Some (HState d at_ t c x)) /\
  (forall a' r tr', fst (h_pfunc f a h tr) = Ret (a', r) tr' ->
     (length h <= a')%nat /\ exists d at_ t c x, nth_error h' a' = Some (HState d at_ t c x)).
Proof.
  destruct (ok_pfunc f (length h) h a (le_n _) tr) as [V Q]. cbv zeta. split; [eapply ev_untouched; eauto|]. split.
  - intros. eapply ev_state; eauto.
  - intros a' r tr' E. destruct (Q _ _ E) as (L & d & at_ & t & c & x & E' & _). cbn [fst] in *. eauto 8.
Qed.
(** The same for a move of one kind that is applied to a state directly. *)
Theorem C17_elementary e h a tr :
  let h' := snd (h_elem_perturb_state e a h tr) in
  untouched h h' /\
  (forall b d at_ t c x, nth_error h b = Some (HState d at_ t c x) -> nth_error h' b = Some (HState d at_ t c x)) /\
  (forall a' r tr', fst (h_elem_perturb_state e a h tr) = Ret (a', r) tr' ->
     (length h <= a')%nat /\ exists d at_ t c x, nth_error h' a' = Some (HState d at_ t c x)).
Proof.
  destruct (ok_elem_perturb_state (length h) h e a (le_n _) tr) as [V Q]. cbv zeta.
  split; [eapply ev_untouched; eauto|]. split.
  - intros. eapply ev_state; eauto.
  - intros a' r tr' E. destruct (Q _ _ E) as (L & d & at_ & t & c & x & E' & _). cbn [fst] in *. eauto 8.
Qed.
(** So the values of the old state, and of every other state, read the same afterwards. *)
Theorem C17_old_values f h a tr b s : read_state h b = Some s ->
  read_state (snd (h_pfunc f a h tr)) b = Some s.
Proof.
  intros E. destruct (C17_move f h a tr) as (U & S & _).
  destruct (read_state_kept _ _ _ _ U E) as (s' & E' & Ev & Et). rewrite E'. f_equal.
  revert E E'. unfold read_state. destruct (nth_error h b) as [[]|] eqn:Eb; try discriminate.
  rewrite (S _ _ _ _ _ _ Eb).
  destruct (nth_error h vals) as [[]|]; try discriminate. destruct (omap _ d); try discriminate. intros [= <-].
  destruct (nth_error _ vals) as [[]|]; try discriminate. destruct (omap _ d0); try discriminate. intros [= <-].
  cbn in Ev. now rewrite Ev.
Qed.
(** A move of the second value in a heap where another state shares the array: the new state
    has the new value, both old states have the old one. *)
Example C17_move_case tr :
  read_state ex_heap 4%nat = Some (mkState [("ps", EPS (PS 2 [("v", Arr [2; 5/2])] [] []))] [] 1 [] []) /\
  read_state ex_heap 8%nat = read_state ex_heap 4%nat /\
  exists r, let (o, h') := h_elem_perturb_state ex_move 4%nat ex_heap (DInt 1 :: DZ 2 :: tr) in
    o = Ret (17%nat, r) tr /\
    read_state h' 17%nat = Some (mkState [("ps", EPS (PS 2 [("v", Arr [2; 27/10])] [] []))] [] 1 [] []) /\
    read_state h' 4%nat = read_state ex_heap 4%nat /\ read_state h' 8%nat = read_state ex_heap 8%nat.
Proof.
  split; [reflexivity|]. split; [reflexivity|]. destruct (ex_heap_move tr) as [r E]. exists r. rewrite E.
  split; [reflexivity|]. split; [reflexivity|]. split; reflexivity.
Qed.

(** * Chains
    [like] stands for any likelihood that reads the objects and saves into cache and
    extra_storage of the two states. *)
Theorem C17_chain spaces ll save like n sc c h tr :
  untouched h (snd (h_advance (h_inversion_env spaces ll save like) n sc c h tr)).
Proof. apply keeps_advance, good_inversion. Qed.
Theorem C17_chain_values spaces ll save like n sc c h tr b s : read_state h b = Some s ->
  exists s', read_state (snd (h_advance (h_inversion_env spaces ll save like) n sc c h tr)) b = Some s' /\
    st_vals s' = st_vals s /\ st_temp s' = st_temp s.
Proof. apply read_state_kept, C17_chain. Qed.
(** What was saved stays where it is and shows the same. *)
Theorem C17_saved spaces ll save like n sc c h tr c' o tr' d k i x v :
  fst (h_advance (h_inversion_env spaces ll save like) n sc c h tr) = Ret (c', o) tr' ->
  c_saved c = SDict d -> nth_error (stored k d) i = Some x -> show h x = Some v ->
  exists d', c_saved c' = SDict d' /\ nth_error (stored k d') i = Some x /\
    show (snd (h_advance (h_inversion_env spaces ll save like) n sc c h tr)) x = Some v.
Proof.
  intros E Es Ei Ev.
  destruct (keeps_advance _ n sc c (good_inversion spaces ll save like) h tr) as [U G].
  specialize (G _ _ E). cbn [fst] in G. unfold grows in G. rewrite Es in G.
  destruct (c_saved c') as [d'|l'] eqn:Es'; [|contradiction]. exists d'. split; auto.
  destruct (G k) as (l & ->). split; [|eapply show_kept; eauto].
  rewrite nth_error_app1; auto. apply nth_error_Some. congruence.
Qed.
(** One iteration: the array of the current state, saved before, is shared with the starting
    state; the move is accepted and saved. *)
Definition ex_ll0 : loglike := mkLL [] [] None None MTargets [].
Definition ex_oracle (h : heap) (o n : loc) (T : R) :
    M ((dict centry * dict ovalue) * (dict centry * dict ovalue) * (ext + exn)) :=
  let cx := fun a => match nth_error h a with Some (HState _ _ _ c x) => (c, x) | _ => ([], []) end in
  ret (cx o, cx n, inl (Fin 0)).
Definition ex_henv : henv := h_inversion_env [ex_plain] ex_ll0 false ex_oracle.
Definition ex_hchain : chain loc hout :=
  mkChain 4%nat 1 [] [] 0 0 [] (SDict [("ps.v", [QArr 0%nat])]) None [].
Definition ex_hsched : sched := Build_sched 0 1 false 1.
Lemma ex_hchoose tr w : 0 < w -> choices 1 [w] (DU 0 :: tr) = Ret 0%nat tr.
Proof.
  intros Hw. unfold choices. cbn [accumulate length rev app Nat.eqb negb].
  rewrite Rleb_f by lra. unfold bind, drawU. rewrite Rleb_t, Rltb_t by lra. reflexivity.
Qed.

Definition ex_h1 : heap :=
  (ex_heap ++ [HArr [2; 5/2]; HDict [("v", 9%nat)]; HPS 2 10%nat [("v", 9%nat)] [];
               HDict [("ps", 11%nat)]; HState 12%nat [("ps", 11%nat)] 1 [] []])%list.
Definition ex_h2 : heap :=
  (ex_h1 ++ [HArr [2; 27/10]; HArr [2; 5/2]; HDict [("v", 14%nat)]; HPS 2 16%nat [("v", 15%nat)] []])%list.
Lemma ex_hps tr : exists r,
  h_psp_ps (mkPsp "ps" (own_elems ex_plain)) 2%nat ex_h1 (DU 0 :: DInt 1 :: DZ 2 :: tr) =
  (Ret (17%nat, r, "ParamPerturbation(ps.v)") tr, ex_h2) /\ r = Fin (0 + 0).
Proof.
  destruct (ex_v_moves tr) as (r & E & Ez). exists (eadd (Fin 0) r). split; [|subst r; reflexivity]. unfold h_psp_ps.
  erewrite hbind_ret by (unfold hdo; rewrite (ex_hchoose _ 3) by lra; reflexivity).
  hstep. cbn [fst h_elem_perturb]. unfold h_param_perturb.
  erewrite hbind_ret.
  2:{ hstep. hstep. cbn [h_perturb_params]. hstep. cbn [p_name ex_v]. hstep. hstep. hstep. hstep.
    erewrite hbind_ret by (apply (f_equal (fun z => (z, _)) E)). cbv beta iota.
    hstep. lazy -[Rplus Rmult Ropp Rinv Rminus Rdiv IZR INR eadd]. reflexivity. }
  cbv beta iota. lazy -[Rplus Rmult Ropp Rinv Rminus Rdiv IZR INR eadd]. reflexivity.
Qed.

Definition ex_h3 : heap :=
  (firstn 12 ex_h2 ++ [HDict [("ps", 17%nat)];
     HState 12%nat [("ps", 17%nat)] 1 [("perturb_stats", CStats [("ParamPerturbation(ps.v)", INR 1 / INR 1)])] []] ++
   skipn 14 ex_h2)%list.
Lemma ex_hmove tr : exists x, x = 0 /\
  h_psp_perturb (mkPsp "ps" (own_elems ex_plain)) 4%nat ex_heap (DInt 0 :: DU 0 :: DInt 1 :: DZ 2 :: tr) =
    (Ret (13%nat, Fin x) tr, ex_h3).
Proof.
  destruct (ex_hps tr) as (r & E & ->). exists (0 + (0 + 0))%R. split; [lra|]. unfold h_psp_perturb.
  hstep. hstep. hstep. hstep.
  erewrite hbind_ret.
  2:{ cbn [h_walk_loop hw_queue st_size]. cbn [hw_i Nat.leb]. hstep.
    erewrite hbind_ret.
    2:{ cbn [h_walk_node]. hstep. cbn [psp_space hw_i Nat.eqb]. change (String.eqb "ps" "ps") with true. cbv iota.
      erewrite hbind_ret by exact E. cbv beta iota. lazy -[Rplus Rmult Ropp Rinv Rminus Rdiv IZR INR eadd]. reflexivity. }
    lazy -[Rplus Rmult Ropp Rinv Rminus Rdiv IZR INR eadd]. reflexivity. }
  lazy -[Rplus Rmult Ropp Rinv Rminus Rdiv IZR INR]. reflexivity.
Qed.
Example C17_saved_case tr : exists o h' c',
  h_advance ex_henv 1 ex_hsched ex_hchain ex_heap
    (DU 0 :: DInt 0 :: DU 0 :: DInt 1 :: DZ 2 :: DU (1/2) :: tr) = (Ret (c', o) tr, h') /\ o = None /\
  c_cur c' = 13%nat /\ c_saved c' = SDict [("ps.v", [QArr 0%nat; QArr 14%nat])] /\
  show h' (QArr 0%nat) = Some (OArr (Arr [2; 5/2])) /\ show h' (QArr 14%nat) = Some (OArr (Arr [2; 27/10])).
Proof.
  destruct (ex_hmove (DU (1/2) :: tr)) as (x & -> & E).
  assert (A : egtb (eadd (Fin 0) (Fin 0)) (Fin (ln (1/2))) = true).
  { cbn. apply Rltb_t. assert (ln (1/2) < ln 1) by (apply ln_increasing; lra). rewrite ln_1 in *. lra. }
  assert (T : exists c', h_tries ex_henv 500 (set_flag true ex_hchain) ex_heap 
    (DU 0 :: DInt 0 :: DU 0 :: DInt 1 :: DZ 2 :: DU (1/2) :: tr) = (Ret (c', None) tr, ex_h3) /\
    c_cur c' = 13%nat /\ c_saved c' = SDict [("ps.v", [QArr 0%nat; QArr 14%nat])]).
  { eexists. change (h_tries ex_henv 500) with (h_tries ex_henv (S 499)). cbn [h_tries]. split.
    - erewrite hbind_ret.
      2:{ unfold h_attempt.
        erewrite hbind_ret.
        2:{ unfold hdo, try. change (choices (length (he_funcs ex_henv)) (he_weights ex_henv)) with (choices 1 [3 + 0]).
            rewrite ex_hchoose by lra. reflexivity. }
        cbv beta iota. match goal with |- context [nth_error ?a ?b] => change (nth_error a b) with
          (Some ("ParamSpacePerturbation(param_space_name=ps)", h_psp_perturb (mkPsp "ps" (own_elems ex_plain)))) end.
        cbv iota beta.
        erewrite hbind_ret.
        2:{ unfold htry. change (c_cur (set_flag true ex_hchain)) with 4%nat. rewrite E. reflexivity. }
        cbn [eisinf].
        hstep. unfold h_decide, decide, bind, drawU. rewrite Rleb_t, Rltb_t by lra. cbv beta iota delta [andb].
        unfold py_log. rewrite Rltb_t by lra. cbv beta iota. rewrite A. unfold finish.
        lazy -[Rplus Rmult Ropp Rinv Rminus Rdiv IZR INR Reqb]. rewrite Reqb_t by reflexivity. reflexivity. }
      lazy -[Rplus Rmult Ropp Rinv Rminus Rdiv IZR INR Reqb]. reflexivity.
    - split; reflexivity. }
  destruct T as (c' & T & Tc & Ts). exists None, ex_h3, c'. split.
  { cbn [h_advance]. change (save_flag ex_hsched (S (c_nprop_tot ex_hchain))) with (Ok true). cbv iota.
    rewrite (hbind_ret _ _ _ _ _ _ _ T). reflexivity. }
  split; [reflexivity|]. split; [exact Tc|]. split; [exact Ts|]. split; reflexivity.
Qed.
