(** Properties C35-C38 and C52: results, chains, perturbation functions, function
    specifications. *)
From Verif Require Import Base ModelChain ModelInversion SpecInversion ProofInversion.
Local Open Scope R_scope.

(** * C35: results are the concatenation of the chains' samples *)
Theorem C35_concatenated {St V} elements hash_of (ds : list (dict (list V))) keys :
  ds <> [] -> Forall (fun d => NoDup (dkeys d)) ds ->
  exists r, get_results (St:=St) elements hash_of (AList (map (fun d => OChain (SDict d)) ds)) keys true
              = Ok (RConcat r) /\
    NoDup (dkeys r) /\
    forall k vs, dget k r = Some vs <->
      requested keys k /\ (exists d, In d ds /\ In k (dkeys d)) /\
      vs = concat (map (fun d => match dget k d with Some l => l | None => [] end) ds).
Proof.
  intros Hne Hf. destruct (gather_get (St:=St) (fun vs => vs) keys ds [] Hf ltac:(constructor))
    as (r & E & Hn & Hg).
  exists r. split.
  { unfold get_results. assert (Hc : forallb (is_chain (V:=V)) (map (fun d => OChain (SDict (St:=St) d)) ds) = true).
    { apply forallb_forall. intros x Hx. apply in_map_iff in Hx. now destruct Hx as (? & <- & _). }
    rewrite Hc. cbn [negb]. destruct ds as [|d t]; [easy|]. cbn [map] in *. now rewrite E. }
  split; auto. intros k vs. rewrite Hg. cbn [dget app]. unfold gathered.
  destruct (wanted keys k) eqn:Ew; cbn [andb].
  - apply wanted_requested in Ew. destruct (existsb _ ds) eqn:Ex.
    + apply existsb_exists in Ex. destruct Ex as (d & Hd & Hk). split; [|intros (_ & _ & ->); auto].
      intros [= <-]. split; auto. split; auto. exists d. split; auto.
      unfold dmem in Hk. destruct (dget k d) eqn:Ek; [|discriminate].
      destruct (in_dec string_dec k (dkeys d)); auto. apply dget_none_keys in n. congruence.
    + split; [discriminate|]. intros (_ & (d & Hd & Hk) & _). exfalso.
      assert (existsb (fun d => dmem k d) ds = true); [|congruence].
      apply existsb_exists. exists d. split; auto. unfold dmem. destruct (dget k d) eqn:Ek; auto.
      now apply dget_none_keys in Ek.
  - split; [discriminate|]. intros (Hr & _). apply wanted_requested in Hr. congruence.
Qed.
(** With concatenate_chains=False: one list per chain that holds the key. *)
Theorem C35_separate {St V} elements hash_of (ds : list (dict (list V))) keys :
  ds <> [] -> Forall (fun d => NoDup (dkeys d)) ds ->
  exists r, get_results (St:=St) elements hash_of (AList (map (fun d => OChain (SDict d)) ds)) keys false
              = Ok (RSeparate r) /\
    NoDup (dkeys r) /\
    forall k vss, dget k r = Some vss <->
      requested keys k /\ (exists d, In d ds /\ In k (dkeys d)) /\
      vss = concat (map (fun d => match dget k d with Some l => [l] | None => [] end) ds).
Proof.
  intros Hne Hf. destruct (gather_get (St:=St) (fun vs => [vs]) keys ds [] Hf ltac:(constructor))
    as (r & E & Hn & Hg).
  exists r. split.
  { unfold get_results. assert (Hc : forallb (is_chain (V:=V)) (map (fun d => OChain (SDict (St:=St) d)) ds) = true).
    { apply forallb_forall. intros x Hx. apply in_map_iff in Hx. now destruct Hx as (? & <- & _). }
    rewrite Hc. cbn [negb]. destruct ds as [|d t]; [easy|]. cbn [map] in *. now rewrite E. }
  split; auto. intros k vs. rewrite Hg. cbn [dget app]. unfold gathered.
  destruct (wanted keys k) eqn:Ew; cbn [andb].
  - apply wanted_requested in Ew. destruct (existsb _ ds) eqn:Ex.
    + apply existsb_exists in Ex. destruct Ex as (d & Hd & Hk). split; [|intros (_ & _ & ->); auto].
      intros [= <-]. split; auto. split; auto. exists d. split; auto.
      unfold dmem in Hk. destruct (dget k d) eqn:Ek; [|discriminate].
      destruct (in_dec string_dec k (dkeys d)); auto. apply dget_none_keys in n. congruence.
    + split; [discriminate|]. intros (_ & (d & Hd & Hk) & _). exfalso.
      assert (existsb (fun d => dmem k d) ds = true); [|congruence].
      apply existsb_exists. exists d. split; auto. unfold dmem. destruct (dget k d) eqn:Ek; auto.
      now apply dget_none_keys in Ek.
  - split; [discriminate|]. intros (Hr & _). apply wanted_requested in Hr. congruence.
Qed.
(** A single chain stands for the list of that chain; anything but chains is refused. *)
Theorem C35_single {St V} elements hash_of (s : saved St V) keys conc :
  get_results elements hash_of (AOne (OChain s)) keys conc =
  get_results elements hash_of (AList [OChain s]) keys conc.
Proof. reflexivity. Qed.
Theorem C35_not_chains {St V} elements hash_of (l : list (obj St V)) keys conc :
  In ONot l -> get_results elements hash_of (AList l) keys conc = Raise EType.
Proof.
  intros H. unfold get_results. destruct (forallb is_chain l) eqn:E; auto.
  rewrite forallb_forall in E. now apply E in H.
Qed.
Theorem C35_no_chains {St V} elements hash_of keys conc :
  get_results (St:=St) (V:=V) elements hash_of (AList []) keys conc = Raise EIndex.
Proof. reflexivity. Qed.

Example C35_case : let ds := [[("a", [1; 2]); ("b", [3])]; [("a", [4]); ("c", [5])]]%string%nat in
  Forall (fun d => NoDup (dkeys d)) ds /\
  get_results (St:=unit) (fun _ => None) (fun _ => NoHash) (AList (map (fun d => OChain (SDict d)) ds))
    (Some ["c"; "a"]%string) true = Ok (RConcat [("a", [1; 2; 4]); ("c", [5])]%string%nat).
Proof.
  cbn zeta. split; [|reflexivity].
  repeat constructor; cbn; intuition discriminate.
Qed.

(** * C36: results of list-like states *)

(** The list is never returned: the result is always a dictionary or an exception. *)
Theorem C36_never_a_list_refuted {St V} elements hash_of (ls : list (list St)) keys conc r :
  get_results (V:=V) elements hash_of (AList (map (fun l => OChain (SList l)) ls)) keys conc = Ok r ->
  exists d, r = RPairs d.
Proof.
  unfold get_results. destruct (negb _); [discriminate|].
  destruct ls as [|l t]; cbn [map]; [discriminate|].
  destruct (gather_list _) as [ls'| |]; cbn [rbind]; try discriminate.
  destruct (py_dict _ _) as [d| |]; cbn [rbind]; try discriminate. intros [= <-]. eauto.
Qed.
(** With one saved sample that is a number (or any object without iterator) it raises. *)
Theorem C36_raises_refuted {St V} elements hash_of (x : St) (l : list St) ls keys :
  elements x = None ->
  get_results (V:=V) elements hash_of
    (AList (map (fun l => OChain (SList l)) ((x :: l) :: ls))) keys true = Raise EType.
Proof.
  intros Hx. unfold get_results. cbn [map].
  assert (Hc : forallb (is_chain (V:=V)) (OChain (SList (x :: l)) :: map (fun l => OChain (SList l)) ls) = true).
  { cbn. apply forallb_forall. intros y Hy. apply in_map_iff in Hy. now destruct Hy as (? & <- & _). }
  rewrite Hc. cbn [negb].
  assert (Hg : forall ls, gather_list (V:=V) (map (fun l : list St => OChain (SList l)) ls) = Ok ls).
  { induction ls0 as [|l0 t IH]; cbn; auto. now rewrite IH. }
  change (OChain (SList (x :: l)) :: map (fun l => OChain (V:=V) (SList l)) ls)
    with (map (fun l => OChain (V:=V) (SList l)) ((x :: l) :: ls)).
  rewrite Hg. cbn [rbind concat app map py_dict]. now rewrite Hx.
Qed.
(** States of two numbers are silently turned into entries "first number: second number", so
    that samples with the same first number are lost. *)
Theorem C36_samples_lost_refuted :
  exists (elements : nat * nat -> option (list hashed)) hash_of d,
    get_results (V:=unit) elements hash_of (AList [OChain (SList [(0, 1); (0, 2); (0, 3)]%nat)]) None true
      = Ok (RPairs d) /\ length d = 1%nat.
Proof.
  exists (fun p => Some [Hash (if (fst p =? 0)%nat then "0.0" else "1.0");
                         Hash (if (snd p =? 0)%nat then "0.0" else "1.0")])%string, (fun _ => NoHash).
  eexists. split; reflexivity.
Qed.

(** * C37: replacing the chains *)

(** Every list of chains is refused ... *)
Theorem C37_lists_of_chains_refuted {St V} (ss : list (saved St V)) :
  set_chains (AList (map OChain ss)) = Raise EType.
Proof.
  cbn [set_chains]. replace (forallb _ _) with true; auto. symmetry.
  apply forallb_forall. intros x Hx. apply in_map_iff in Hx. now destruct Hx as (? & <- & _).
Qed.
(** ... every list with something else is accepted ... *)
Theorem C37_other_lists_refuted {St V} (l : list (obj St V)) :
  In ONot l -> set_chains (AList l) = Ok (l, length l).
Proof.
  intros H. cbn [set_chains]. destruct (forallb is_chain l) eqn:E; auto.
  rewrite forallb_forall in E. now apply E in H.
Qed.
(** ... and only the refusal of what is not a list is as documented. *)
Theorem C37_not_a_list_partial {St V} (o : obj St V) : set_chains (AOne o) = Raise EType.
Proof. reflexivity. Qed.
Example C37_case : set_chains (AList [OChain (SList [1; 2]%nat) : obj nat nat]) = Raise EType.
Proof. exact (C37_lists_of_chains_refuted [SList [1; 2]%nat]). Qed.

(** * C38: validation of perturbation functions *)
Section C38.
Context {fn value : Type}.

(** Accepted exactly when the numbers match and births and deaths are paired (a None among
    the functions passes the validation and raises in the first chain). *)
Theorem C38_accepts (specs : list (spec fn value)) (fs : list (func fn value)) weights iv :
  Forall2 (fun s f => preprocess_func s = Ok f) specs fs ->
  snd (set_perturbation_funcs specs weights iv) = None <->
  (forall ws, weights = Some ws -> length ws = length specs) /\ paired fs /\
  (iv_chains iv = None \/ iv_chains iv = Some [] \/ ~ In FNone fs).
Proof.
  intros HF. assert (Hm : rmap preprocess_func specs = Ok fs).
  { induction HF as [|s f ss fs' H _ IH]; cbn; auto. now rewrite H, IH. }
  assert (Hlen : length specs = length fs) by (clear -HF; induction HF; cbn; auto).
  unfold set_perturbation_funcs. rewrite Hm.
  set (ws := match weights with None => repeat 1 (length fs) | Some w => w end).
  destruct (Nat.eqb_spec (length fs) (length ws)) as [El|El]; cbn [negb].
  - assert (Hw : forall ws0, weights = Some ws0 -> length ws0 = length specs).
    { intros ws0 E0. unfold ws in El. rewrite E0 in El. congruence. }
    pose proof (equalise_iff fs ws (eq_sym El)) as Heq.
    destruct (equalise fs _ ws) as [ws' [e|]] eqn:E; cbn [snd] in *.
    + split; [discriminate|]. intros (_ & Hp & _). now apply Heq in Hp.
    + assert (Hp : paired fs) by now apply Heq.
      destruct (iv_chains iv) as [cs|].
      * pose proof (chains_set_iff fs ws' cs) as Hc.
        destruct (chains_set fs ws' cs) as [cs' o]. cbn [snd] in *. rewrite Hc.
        split; intros H; [|destruct H as (_ & _ & [?|[[= ->]|?]]); auto; discriminate].
        split; auto. split; auto. destruct H as [-> |?]; auto.
      * split; auto.
  - split; [discriminate|]. intros (Hw & _). exfalso. apply El. unfold ws.
    destruct weights as [w|]; [now rewrite (Hw w)|now rewrite repeat_length].
Qed.

(** After success: the functions are the given ones, the weights are the given ones (or ones)
    with each death made equal to its birth, and all chains hold the same. *)
Theorem C38_result (specs : list (spec fn value)) weights iv iv' ws' :
  set_perturbation_funcs specs weights iv = (iv', ws', None) ->
  Forall2 (fun s f => preprocess_func s = Ok f) specs (iv_funcs iv') /\
  equalised (iv_funcs iv')
    (match weights with Some w => w | None => repeat 1 (length specs) end) (iv_weights iv') /\
  match iv_chains iv, iv_chains iv' with
  | Some cs, Some cs' =>
      length cs' = length cs /\
      Forall (fun c => cf_funcs c = iv_funcs iv' /\ cf_weights c = iv_weights iv') cs'
  | None, None => True
  | _, _ => False
  end.
Proof.
  unfold set_perturbation_funcs.
  destruct (rmap preprocess_func specs) as [fs| |] eqn:Hm; try discriminate.
  assert (HF : Forall2 (fun s f => preprocess_func s = Ok f) specs fs).
  { clear -Hm. revert fs Hm. induction specs as [|s t IH]; intros fs H; cbn in H.
    - injection H as <-. constructor.
    - destruct (preprocess_func s) as [f| |] eqn:E; try discriminate. cbn in H.
      destruct (rmap preprocess_func t) as [ft| |]; try discriminate. injection H as <-.
      constructor; auto. }
  assert (Hlen : length specs = length fs) by (clear -HF; induction HF; cbn; auto).
  rewrite <- Hlen.
  set (ws := match weights with None => repeat 1 (length specs) | Some w => w end).
  destruct (Nat.eqb_spec (length specs) (length ws)) as [El|El]; cbn [negb]; [|discriminate].
  destruct (equalise fs _ ws) as [w1 [e|]] eqn:E; [discriminate|].
  apply equalise_equalised in E; [|congruence].
  destruct (iv_chains iv) as [cs|] eqn:Ec.
  - destruct (chains_set fs w1 cs) as [cs' o] eqn:Ecs. intros [= <- <- ->]. cbn.
    split; auto. split; auto.
    destruct (existsb no_name fs) eqn:Ex.
    + destruct cs as [|c t]; cbn [chains_set] in Ecs; [injection Ecs as <-; split; auto|].
      unfold chain_set in Ecs. rewrite Ex in Ecs. discriminate.
    + rewrite chains_set_ok in Ecs by auto. injection Ecs as <-. rewrite map_length. split; auto.
      apply Forall_forall. intros c Hc. apply in_map_iff in Hc. destruct Hc as (? & <- & _). auto.
  - intros [= <- <-]. cbn. auto.
Qed.

(** A refused list changes nothing in the inversion and its chains. *)
Theorem C38_refused (specs : list (spec fn value)) weights iv iv' ws' e :
  set_perturbation_funcs specs weights iv = (iv', ws', Some e) ->
  ~ In SNone specs -> iv' = iv.
Proof.
  unfold set_perturbation_funcs.
  destruct (rmap preprocess_func specs) as [fs| |] eqn:Hm; try congruence.
  set (ws := match weights with None => _ | Some w => w end).
  destruct (negb _); [congruence|].
  destruct (equalise fs _ ws) as [w1 [e1|]] eqn:E; [congruence|].
  destruct (iv_chains iv) as [cs|] eqn:Ec; [|discriminate].
  destruct (chains_set fs w1 cs) as [cs' o] eqn:Ecs. intros [= <- <- ->] Hn. exfalso.
  pose proof (chains_set_iff fs w1 cs) as Hc. rewrite Ecs in Hc. cbn in Hc.
  assert (H : Some e = None); [|discriminate]. apply Hc. right. intros Hin.
  clear -Hm Hn Hin. revert fs Hm Hin. induction specs as [|s t IH]; intros fs H Hin; cbn in H.
  - injection H as <-. destruct Hin.
  - destruct (preprocess_func s) as [f| |] eqn:E; try discriminate. cbn in H.
    destruct (rmap preprocess_func t) as [ft| |]; try discriminate. injection H as <-.
    destruct Hin as [->|Hin].
    + apply Hn. left. destruct s as [|p|l|x]; auto; cbn in E; try discriminate.
      destruct l as [|i [|[] [|[] ?]]]; discriminate.
    + eapply IH; eauto. intros Hx. apply Hn. now right.
Qed.

(** The caller's list of weights is the one that is changed ... *)
Theorem C38_caller_list (specs : list (spec fn value)) ws iv iv' o :
  set_perturbation_funcs specs (Some ws) iv = (iv', o, None) -> o = Some (iv_weights iv').
Proof.
  unfold set_perturbation_funcs.
  destruct (rmap preprocess_func specs) as [fs| |] eqn:Hm; try discriminate.
  destruct (negb _); [discriminate|].
  destruct (equalise fs _ ws) as [w1 [e1|]] eqn:E; [discriminate|].
  destruct (iv_chains iv) as [cs|]; [|intros [= <- <-]; auto].
  destruct (chains_set fs w1 cs) as [cs' o']. intros [= <- <- _]. auto.
Qed.
End C38.

(** ... even when the functions are refused: the first space has been equalised already. *)
Theorem C38_caller_list_refuted :
  exists (specs : list (spec unit unit)) ws iv ws',
    set_perturbation_funcs specs (Some ws) iv = (iv, Some ws', Some EValue) /\ ws' <> ws.
Proof.
  exists [SPert (PBirth "a"); SPert (PDeath "a"); SPert (PBirth "b")], [2; 1; 1],
    {| iv_funcs := []; iv_weights := []; iv_chains := Some [] |}, [2; 2; 1].
  split.
  - unfold set_perturbation_funcs. cbn -[Reqb]. unfold Reqb.
    destruct (Req_EM_T 2 1); [lra|]. reflexivity.
  - intros [= H]. lra.
Qed.
Example C38_case : forall iv : inversion unit unit,
  let specs := [SPert (PDeath "a"); SItem (IFun tt); SPert (PBirth "a")]%string in
  let fs := [FPert (PDeath "a"); FWrap {| w_func := IFun tt; w_args := []; w_kwargs := [] |};
             FPert (PBirth "a")]%string in
  Forall2 (fun s f => preprocess_func s = Ok f) specs fs /\ paired fs /\
  iv_weights (fst (fst (set_perturbation_funcs specs (Some [1; 5; 3]) iv))) = [3; 5; 3].
Proof.
  intros iv specs fs. split; [repeat constructor|]. split.
  - assert (Hb : forall n i, birth_at fs n i <-> n = "a"%string /\ i = 2%nat).
    { intros n i. unfold birth_at, fs. split; [|now intros [-> ->]].
      destruct i as [|[|[|i]]]; cbn; try discriminate; [now intros [= <-]|].
      now destruct i. }
    assert (Hd : forall n i, death_at fs n i <-> n = "a"%string /\ i = 0%nat).
    { intros n i. unfold death_at, fs. split; [|now intros [-> ->]].
      destruct i as [|[|[|i]]]; cbn; try discriminate; [now intros [= <-]|].
      now destruct i. }
    intros n i Hi.
    assert (n = "a"%string) as -> by (destruct Hi as [Hi|Hi]; [apply Hb in Hi|apply Hd in Hi]; tauto).
    split; [exists 2%nat|exists 0%nat]; (split; [apply Hb || apply Hd; auto|]);
      intros y Hy; [apply Hb in Hy|apply Hd in Hy]; destruct Hy; auto.
  - unfold set_perturbation_funcs, specs. cbn -[Reqb]. unfold Reqb.
    destruct (Req_EM_T 3 1); [lra|]. cbn. destruct (iv_chains iv) as [cs|]; [|reflexivity].
    now destruct (chains_set _ _ cs).
Qed.

(** * C52: function specifications *)

(** The documented forms call the function with the state, then the arguments and keyword
    arguments; all exceptions of the function surface as UserFunctionException. *)
Theorem C52_documented {fn value} (call : fn -> list value -> dict value -> value + exn) s f a k :
  documented s f a k ->
  exists w, preprocess_func s = Ok (FWrap w) /\
    forall args,
      (forall v, call f (args ++ a) k = inl v -> wrapper_call call w args = Ok v) /\
      (forall e, call f (args ++ a) k = inr e -> wrapper_call call w args = Raise EUser).
Proof.
  intros H. destruct H; (eexists; split; [reflexivity|]); intros args; unfold wrapper_call; cbn;
    (split; [intros v Hv|intros e He]; [rewrite Hv|rewrite He]; reflexivity).
Qed.
Theorem C52_none {fn value} : @preprocess_func fn value SNone = Ok FNone.
Proof. reflexivity. Qed.
Theorem C52_perturbations {fn value} p : @preprocess_func fn value (SPert p) = Ok (FPert p).
Proof. reflexivity. Qed.
Theorem C52_other_arguments {fn value} (f : item fn value) x l :
  (forall a, x <> ISeq a) -> (forall k, x <> IDict k) ->
  preprocess_func (STuple (f :: x :: l)) = Raise EType.
Proof. intros H1 H2. destruct x; cbn; auto; [now destruct (H1 args)|now destruct (H2 kwargs)]. Qed.
(** Nothing but UserFunctionException comes out of a call, also when the object is not
    callable. *)
Theorem C52_only_user_exceptions {fn value} call (w : wrapper fn value) args e :
  wrapper_call call w args = Raise e -> e = EUser.
Proof.
  unfold wrapper_call. destruct (w_func w) as [f|a|k|]; try congruence.
  destruct (call _ _ _); congruence.
Qed.
(** Arguments in the reverse order, (function, kwargs, args), lose the args silently. *)
Theorem C52_dropped_arguments_refuted {fn value} (call : fn -> list value -> dict value -> value + exn) f k a :
  exists w, preprocess_func (STuple [IFun f; IDict k; ISeq a]) = Ok (FWrap w) /\
    forall args, wrapper_call call w args =
      match call f args k with inl v => Ok v | inr _ => Raise EUser end.
Proof.
  eexists. split; [reflexivity|]. intros args. unfold wrapper_call. cbn. now rewrite app_nil_r.
Qed.
Example C52_case : let call := fun (f : nat) args (kw : dict nat) =>
    if (f =? 0)%nat then inr EZeroDiv else inl (nsum args + length kw)%nat in
  documented (STuple [IFun 1%nat; ISeq [10%nat]; IDict [("k"%string, 5%nat)]]) 1%nat [10%nat] [("k"%string, 5%nat)] /\
  wrapper_call call {| w_func := IFun 1%nat; w_args := [10%nat]; w_kwargs := [("k"%string, 5%nat)] |} [7%nat]
    = Ok 18%nat /\
  wrapper_call call {| w_func := IFun 0%nat; w_args := [10%nat]; w_kwargs := [] |} [7%nat] = Raise EUser.
Proof. cbn zeta. split; [constructor|]. split; reflexivity. Qed.
