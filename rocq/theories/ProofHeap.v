(** Which objects the perturbations of ModelHeap.v change. *)
From Verif Require Import Base ModelUtils1D ModelPrior ModelState ModelSpace ModelChain ModelPerturb
  ModelLikelihood ModelHeap SpecHeap ProofState ProofInversion ProofNested.
Local Open Scope list_scope.

(** Objects below the address [b] keep everything except caches of parameter-space states;
    other objects keep their class and the dictionary they refer to, and dictionaries keep
    their entries except under the names in [N]. *)
Definition evo (N : string -> Prop) (b a : nat) (o o' : obj) : Prop :=
  match o with
  | HPS n d at_ c => exists at' c', o' = HPS n d at' c' /\ (a < b -> at' = at_)
  | HState d at_ t c x => exists at' c', o' = HState d at' t c' x /\ (a < b -> at' = at_ /\ c' = c)
  | HDict dl => exists dl', o' = HDict dl' /\ (a < b -> dl' = dl) /\
                  (forall k v, ~ N k -> In (k, v) dl' -> In (k, v) dl)
  | HArr l => exists l', o' = HArr l' /\ (a < b -> l' = l)
  | HArrN l => exists l', o' = HArrN l' /\ (a < b -> l' = l)
  | _ => o' = o
  end.
Definition ev (N : string -> Prop) (b : nat) (h h' : heap) : Prop :=
  forall a o, nth_error h a = Some o -> exists o', nth_error h' a = Some o' /\ evo N b a o o'.

Lemma evo_refl N b a o : evo N b a o o.
Proof. destruct o; cbn; eauto 6. Qed.
Lemma evo_trans N b a o1 o2 o3 : evo N b a o1 o2 -> evo N b a o2 o3 -> evo N b a o1 o3.
Proof.
  destruct o1; cbn; intros H1 H2;
    try (subst; exact H2).
  - destruct H1 as (l' & -> & E). destruct H2 as (l2 & -> & E2). exists l2; split; auto.
    intros Hb. rewrite E2, E; auto.
  - destruct H1 as (l' & -> & E). destruct H2 as (l2 & -> & E2). exists l2; split; auto.
    intros Hb. rewrite E2, E; auto.
  - destruct H1 as (l' & -> & E & F). destruct H2 as (l2 & -> & E2 & F2). exists l2. repeat split; auto.
    + intros Hb. rewrite E2, E; auto.
  - destruct H1 as (x & y & -> & E). destruct H2 as (x2 & y2 & -> & E2). exists x2, y2. split; auto.
    intros Hb. rewrite E2, E; auto.
  - destruct H1 as (x & y & -> & E). destruct H2 as (x2 & y2 & -> & E2). exists x2, y2. split; auto.
    intros Hb. destruct (E2 Hb), (E Hb). subst; auto.
Qed.
Lemma ev_refl N b h : ev N b h h.
Proof. intros a o H. exists o. split; auto. apply evo_refl. Qed.
Lemma ev_trans N b h1 h2 h3 : ev N b h1 h2 -> ev N b h2 h3 -> ev N b h1 h3.
Proof.
  intros H1 H2 a o E. destruct (H1 a o E) as (o2 & E2 & V2). destruct (H2 a o2 E2) as (o3 & E3 & V3).
  exists o3. split; auto. eapply evo_trans; eauto.
Qed.
Lemma ev_length N b h h' : ev N b h h' -> length h <= length h'.
Proof.
  intros H. destruct (Nat.le_gt_cases (length h) (length h')) as [|L]; auto. exfalso.
  destruct (nth_error h (length h')) as [o|] eqn:E.
  - destruct (H _ _ E) as (o' & E' & _).
    assert (nth_error h' (length h') <> None) by congruence. apply nth_error_Some in H0. lia.
  - apply nth_error_None in E. lia.
Qed.
(** An operation that keeps all existing objects is an evolution for every base. *)
Lemma evo_weaken N N' b a o o' c : a < c -> evo N c a o o' -> evo N' b a o o'.
Proof.
  intros La. destruct o; cbn; auto.
  - intros (l' & -> & E). eauto.
  - intros (l' & -> & E). eauto.
  - intros (l' & -> & E & _). exists l'. rewrite E by auto. auto.
  - intros (x & y & -> & E). eauto.
  - intros (x & y & -> & E). exists x, y. split; auto.
Qed.
Lemma ev_weaken N N' b h h' : ev N (length h) h h' -> ev N' b h h'.
Proof.
  intros H a o E. destruct (H a o E) as (o' & E' & V). exists o'. split; auto.
  eapply evo_weaken; [|exact V]. apply nth_error_Some. congruence.
Qed.

(** Triples: from the heap [h], whatever the draws. *)
Definition ok {A} (N : string -> Prop) (b : nat) (h : heap) (m : HM A) (Q : heap -> A -> Prop) : Prop :=
  b <= length h -> forall tr, ev N b h (snd (m h tr)) /\
    (forall a tr', fst (m h tr) = Ret a tr' -> Q (snd (m h tr)) a).

Lemma ok_weaken {A} N b h (m : HM A) (Q Q' : heap -> A -> Prop) :
  ok N b h m Q -> (forall h' a, ev N b h h' -> Q h' a -> Q' h' a) -> ok N b h m Q'.
Proof. intros H W L tr. destruct (H L tr) as [E F]. split; auto. intros a tr' R. apply W; eauto. Qed.
Lemma ok_base {A} N N' b h (m : HM A) Q : ok N (length h) h m Q -> ok N' b h m Q.
Proof. intros H L tr. destruct (H (le_n _) tr) as [E F]. split; auto. eapply ev_weaken; eauto. Qed.
Lemma evo_mono (N N' : string -> Prop) b a o o' : (forall k, N k -> N' k) -> evo N b a o o' -> evo N' b a o o'.
Proof.
  intros W. destruct o; cbn; auto. intros (dl' & -> & E & F). exists dl'. repeat split; auto.
Qed.
Lemma ok_mono {A} (N N' : string -> Prop) b h (m : HM A) Q : (forall k, N k -> N' k) -> ok N b h m Q -> ok N' b h m Q.
Proof.
  intros W H L tr. destruct (H L tr) as [E F]. split; auto. intros a o Ea. destruct (E a o Ea) as (o' & Eo & V).
  exists o'. split; auto. eapply evo_mono; eauto.
Qed.
Lemma ok_bind {A B} N b h (m : HM A) (f : A -> HM B) Q S :
  ok N b h m Q ->
  (forall h' a, ev N b h h' -> Q h' a -> ok N b h' (f a) S) ->
  ok N b h (hbind m f) S.
Proof.
  intros Hm Hf L tr. destruct (Hm L tr) as [E F]. unfold hbind.
  destruct (m h tr) as [[a tr'|e tr'| |] h'] eqn:R; cbn in *.
  - specialize (F a tr' eq_refl). pose proof (ev_length _ _ _ _ E).
    destruct (Hf h' a E F ltac:(lia) tr') as [E2 F2]. split; auto. eapply ev_trans; eauto.
  - split; auto. discriminate.
  - split; auto. discriminate.
  - split; auto. discriminate.
Qed.
Lemma ok_pre {A} N b h (m : HM A) Q : (b <= length h -> ok N b h m Q) -> ok N b h m Q.
Proof. intros H L. now apply H. Qed.
Lemma ok_ret {A} N b h (a : A) (Q : heap -> A -> Prop) : Q h a -> ok N b h (hret a) Q.
Proof. intros H L tr. cbn. split; [apply ev_refl|]. now intros a' tr' [= -> _]. Qed.
Lemma ok_do {A} N b h (m : M A) : ok N b h (hdo m) (fun h' _ => h' = h).
Proof. intros L tr. cbn. split; [apply ev_refl|auto]. Qed.
Lemma ok_load N b h a : ok N b h (load a) (fun h' o => h' = h /\ nth_error h a = Some o).
Proof.
  intros L tr. cbn. split; [apply ev_refl|]. intros o tr'. destruct (nth_error h a); [|discriminate].
  now intros [= -> _].
Qed.
Lemma ok_pure {A} N b h (f : heap -> trace -> out A) :
  ok N b h (fun h tr => (f h tr, h)) (fun h' _ => h' = h).
Proof. intros L tr. cbn. split; [apply ev_refl|auto]. Qed.
Lemma ev_app N b h o : b <= length h -> ev N b h (h ++ [o]).
Proof.
  intros L a x E. exists x. split; [|apply evo_refl]. rewrite nth_error_app1; auto.
  apply nth_error_Some. congruence.
Qed.
Lemma ok_alloc N b h o : ok N b h (alloc o) (fun h' a => b <= a /\ a = length h /\ h' = h ++ [o]).
Proof. intros L tr. cbn. split; [now apply ev_app|]. intros a tr' [= <- _]. auto. Qed.
Lemma ev_store N b h a o o' : nth_error h a = Some o -> evo N b a o o' -> ev N b h (set_nth h a o').
Proof.
  intros E V. assert (L : a < length h) by (apply nth_error_Some; congruence).
  intros x ox Ex. rewrite nth_set_nth by auto. destruct (Nat.eqb_spec x a) as [->|Hn].
  - rewrite E in Ex. injection Ex as <-. eauto.
  - exists ox. split; auto. apply evo_refl.
Qed.
Lemma ok_store N b h a o o' : nth_error h a = Some o -> evo N b a o o' ->
  ok N b h (store a o') (fun h' _ => h' = set_nth h a o').
Proof.
  intros E V L tr. unfold store. assert (La : a < length h) by (apply nth_error_Some; congruence).
  destruct (Nat.ltb_spec a (length h)); [|lia]. cbn. split; auto. now apply ev_store with o.
Qed.
Lemma ok_false {A} N b h (m : M A) Q : (forall tr a tr', m tr <> Ret a tr') -> ok N b h (hdo m) Q.
Proof. intros H L tr. cbn. split; [apply ev_refl|]. intros a tr' R. now apply H in R. Qed.
Lemma ok_ubeh {A} N b h Q : ok (A := A) N b h (hdo ubeh) Q.
Proof. apply ok_false. discriminate. Qed.
Lemma ok_err {A} N b h e Q : ok (A := A) N b h (hdo (err e)) Q.
Proof. apply ok_false. discriminate. Qed.

(** A state allocated by the code at hand, with its dictionary. *)
Definition own (b : nat) (h : heap) (a : loc) : Prop :=
  b <= a /\ exists n d at_ c, nth_error h a = Some (HPS n d at_ c) /\ b <= d.
Definition own_state (b : nat) (h : heap) (a : loc) : Prop :=
  b <= a /\ exists d at_ t c x, nth_error h a = Some (HState d at_ t c x) /\ b <= d.
Lemma own_ev N b h h' a : ev N b h h' -> own b h a -> own b h' a.
Proof.
  intros V (L & n & d & at_ & c & E & Ld). split; auto.
  destruct (V _ _ E) as (o' & E' & at' & c' & -> & _). eauto 8.
Qed.
Lemma own_state_ev N b h h' a : ev N b h h' -> own_state b h a -> own_state b h' a.
Proof.
  intros V (L & d & at_ & t & c & x & E & Ld). split; auto.
  destruct (V _ _ E) as (o' & E' & at' & c' & -> & _). exists d, at', t, c', x. auto.
Qed.

Tactic Notation "okb" tactic3(t) := eapply ok_bind; [t|let h' := fresh "h" in let x := fresh "x" in
  let V := fresh "V" in let Q := fresh "Q" in intros h' x V Q; cbn beta in Q].
Ltac okleaf := first
  [ apply ok_ubeh | apply ok_err | apply ok_load | apply ok_alloc | apply ok_do | apply ok_pure ].
(** Postconditions that say nothing. *)
Definition any {A} (_ : heap) (_ : A) : Prop := True.
Lemma ok_any {A} N b h (m : HM A) Q : ok N b h m Q -> ok N b h m any.
Proof. intros H. eapply ok_weaken; eauto. intros; exact I. Qed.
Lemma ok_hlift {A} N b h (r : res A) : ok N b h (hlift r) (fun h' _ => h' = h).
Proof. apply ok_do. Qed.
Lemma ok_load_ps N b h a : ok N b h (load_ps a)
  (fun h' x => h' = h /\ nth_error h a = Some (HPS (fst (fst (fst x))) (snd (fst (fst x))) (snd (fst x)) (snd x))).
Proof.
  unfold load_ps. okb (okleaf). destruct Q as [-> E]. destruct x; try apply ok_ubeh. now apply ok_ret.
Qed.
Lemma ok_load_dict N b h a : ok N b h (load_dict a) (fun h' d => h' = h /\ nth_error h a = Some (HDict d)).
Proof.
  unfold load_dict. okb (okleaf). destruct Q as [-> E]. destruct x; try apply ok_ubeh. now apply ok_ret.
Qed.
Lemma ok_load_state N b h a : ok N b h (load_state a)
  (fun h' x => h' = h /\ exists at_ d t c e, x = (d, at_, t, c, e) /\ nth_error h a = Some (HState d at_ t c e)).
Proof.
  unfold load_state. okb (okleaf). destruct Q as [-> E]. destruct x; try apply ok_ubeh. apply ok_ret.
  split; auto. eauto 8.
Qed.
Lemma ok_len N b h a : ok N b h (h_len a) (fun h' _ => h' = h).
Proof.
  unfold h_len. okb (okleaf). destruct Q as [-> E]. destruct x; try apply ok_ubeh; now apply ok_ret.
Qed.
Lemma ok_get N b h k a : ok N b h (h_get k a) (fun h' _ => h' = h).
Proof.
  unfold h_get. okb (apply ok_load_ps). destruct x as [[[n d] at_] c]. destruct Q as [-> E].
  okb (apply ok_load_dict). destruct Q as [-> E2]. now apply ok_ret.
Qed.
Lemma ok_view_ps N b h a : ok N b h (view_ps a) (fun h' _ => h' = h).
Proof. apply ok_pure. Qed.
Lemma ok_view_state N b h a : ok N b h (view_state a) (fun h' _ => h' = h).
Proof. apply ok_pure. Qed.

Lemma ok_set (N : string -> Prop) b h k v a : N k -> own b h a -> ok N b h (h_set k v a) any.
Proof.
  intros Nk (L & n & d & at_ & c & E & Ld). unfold h_set. okb (okleaf). destruct Q as [-> Ev].
  assert (G : ok N b h ('(n, d, at_, c) <~ load_ps a ;; dl <~ load_dict d ;;
      _ <~ store d (HDict (dset k v dl)) ;; store a (HPS n d (dset k v at_) c)) any).
  { clear x V Ev. okb (apply ok_load_ps). destruct x as [[[n' d'] at'] c']. destruct Q as [-> E']. cbn in E'.
    rewrite E in E'. injection E' as <- <- <- <-.
    okb (apply ok_load_dict). destruct Q as [-> Ed].
    okb (eapply ok_store; [exact Ed|]).
    { exists (dset k v x). split; auto. split; [lia|]. intros k' v' Hk Hin. apply in_dset in Hin.
      destruct Hin as [Hin|[-> _]]; [auto|contradiction]. }
    cbn beta in Q. subst h0. eapply ok_any, ok_store with (o := HPS n d at_ c).
    - rewrite nth_set_nth by (apply nth_error_Some; congruence).
      destruct (Nat.eqb_spec a d) as [->|]; [|exact E]. rewrite E in Ed. discriminate.
    - cbn. exists (dset k v at_), c. split; auto. lia. }
  destruct x; try apply ok_err; try exact G. destruct l; [apply ok_err|exact G].
Qed.
Definition all (_ : string) : Prop := True.
Lemma ok_post_init b h todo n a : own b h a -> ok all b h (h_post_init todo n a) any.
Proof.
  revert h. induction todo as [|[k v] t IH]; intros h Ho; [now apply ok_ret|]. cbn [h_post_init].
  okb (apply ok_len). subst h0. destruct (negb _); [apply ok_err|].
  okb (apply ok_set; [exact I|exact Ho]). apply IH. eapply own_ev; eauto.
Qed.
Lemma ok_mk_ps b h n d : b <= d -> ok all b h (h_mk_ps n d) (fun h' a => own b h' a).
Proof.
  intros Ld. unfold h_mk_ps. okb (apply ok_load_dict). destruct Q as [-> Ed].
  okb (okleaf). destruct Q as (L & -> & ->).
  assert (Ho : own b (h ++ [HPS n d [] []]) (length h)).
  { split; [exact L|]. exists n, d, [], []. split; auto. rewrite nth_error_app2, Nat.sub_diag by auto. reflexivity. }
  okb (now apply ok_post_init). apply ok_ret. eapply own_ev; eauto.
Qed.
Lemma ok_hmap {A B} N b (f : A -> HM B) l :
  (forall h x, ok N b h (f x) any) -> forall h, ok N b h (hmap f l) any.
Proof.
  intros Hf. induction l as [|x t IH]; intros h; [now apply ok_ret|]. cbn [hmap].
  okb (apply Hf). okb (apply IH). now apply ok_ret.
Qed.
Lemma ok_copy fuel : forall b h a, ok all b h (h_copy fuel a) (fun h' x => own b h' x).
Proof.
  induction fuel as [|f IH]; intros b h a; [apply ok_ubeh|]. cbn [h_copy].
  okb (apply ok_load_ps). destruct x as [[[n d] at_] c]. destruct Q as [-> E].
  okb (apply ok_load_dict). destruct Q as [-> Ed].
  okb (apply ok_hmap).
  { intros h1 [k v]. okb (okleaf). destruct Q as [-> Ev].
    okb idtac; [|now apply ok_ret]. instantiate (1 := any).
    destruct x0; try apply ok_ubeh; try (eapply ok_any; okleaf).
    okb (apply ok_hmap; intros; eapply ok_any, IH). eapply ok_any; okleaf. }
  okb (okleaf). destruct Q0 as (L & -> & ->).
  okb (now apply ok_mk_ps). rename Q0 into Ho. pose proof Ho as (L1 & n1 & d1 & at1 & c1 & E1 & Ld1).
  okb (apply ok_load_ps). destruct x2 as [[[n2 d2] at2] c2]. destruct Q0 as [-> E2]. cbn in E2.
  okb (eapply ok_store; [exact E2|]).
  { cbn. exists at2, c. auto. }
  subst. apply ok_ret. eapply own_ev; eauto.
Qed.
Lemma ok_copy_ps b h a : ok all b h (copy_ps a) (fun h' x => own b h' x).
Proof. intros L tr. exact (ok_copy (length h) b h a L tr). Qed.

Create HintDb okdb.
#[export] Hint Resolve ok_load ok_alloc ok_do ok_hlift ok_load_ps ok_load_dict ok_load_state ok_len
  ok_get ok_view_ps ok_view_state ok_copy_ps : okdb.
Ltac okc := cbn beta in * |-; unfold any in * |-;
  repeat match goal with
  | H : _ /\ _ |- _ => destruct H
  | H : exists _, _ |- _ => destruct H
  | H : ?h = _ |- _ => is_var h; subst h
  | x : _ * _ |- _ => destruct x
  end; cbn [fst snd] in *.
Ltac okstep := match goal with
  | |- ok _ _ _ (hret _) any => apply ok_ret; exact I
  | |- ok _ _ _ (hdo ubeh) _ => apply ok_ubeh
  | |- ok _ _ _ (hdo (err _)) _ => apply ok_err
  | |- ok _ _ _ (hbind (load _) _) _ => eapply ok_bind; [apply ok_load|intros ? ? ? ?; okc]
  | |- ok _ _ _ (hbind _ _) _ => eapply ok_bind; [solve [eauto with okdb]|intros ? ? ? ?; okc]
  | |- ok _ _ _ (hbind _ _) _ => eapply (ok_bind _ _ _ _ _ any); [|intros ? ? ? ?; okc]
  | |- ok _ _ _ (match ?x with _ => _ end) _ => destruct x
  | |- ok _ _ _ _ any => eapply ok_any; solve [eauto with okdb]
  end.
Ltac okgo := repeat okstep.

Lemma ok_new p : forall b h, ok all b h (h_new p) any.
Proof.
  induction p as [n vals attrs cache IH] using psstate_ind'. intros b h. cbn [h_new].
  assert (G : forall l, (forall x, In x l -> forall b h, ok all b h (h_new x) any) -> forall b h,
    ok all b h ((fix all (q : list psstate) : HM (list loc) := match q with
       | [] => hret [] | x :: r => y <~ h_new x ;; ys <~ all r ;; hret (y :: ys) end) l) any).
  { induction l as [|x r IHl]; intros Hl b0 h0; [now apply ok_ret|].
    okb (apply Hl; now left). okb (apply IHl; intros; apply Hl; now right). now apply ok_ret. }
  eapply (ok_bind _ _ _ _ _ any).
  - revert h. induction vals as [|[k v] t IHt]; intros h; [now apply ok_ret|].
    apply (ok_bind _ _ _ _ _ any).
    + destruct v; try (eapply ok_any; okleaf).
      * okb (apply G; intros x Hx; eapply IH; [left; reflexivity|exact Hx]). eapply ok_any; okleaf.
      * okb (apply G; intros x Hx; eapply IH; [left; reflexivity|exact Hx]). eapply ok_any; okleaf.
    + intros h1 x _ _. okb (apply IHt; intros; eapply IH; [right; eassumption|assumption]).
      now apply ok_ret.
  - intros h1 x _ _. okgo.
Qed.
#[export] Hint Resolve ok_new : okdb.
Lemma ok_add_kdtree N b h c a : ok N b h (h_add_kdtree c a) any.
Proof.
  unfold h_add_kdtree. destruct c as [| |? ? ? ? ? [] ?]; okgo.
  eapply ok_any, ok_store; [eassumption|cbn; eauto].
Qed.
Lemma ok_insert b h i x a : ok all b h (h_insert i x a) any.
Proof. unfold h_insert. okgo. Qed.
Lemma ok_delete b h i a : ok all b h (h_delete i a) any.
Proof. unfold h_delete. okgo. Qed.
Lemma ok_append b h x a : ok all b h (h_append x a) any.
Proof. unfold h_append. okgo. Qed.
Lemma ok_vor_delete b h c i a : ok all b h (h_vor_delete c i a) any.
Proof. unfold h_vor_delete. destruct c; try apply ok_delete. okgo. Qed.
Lemma ok_reorder b h is a : ok all b h (h_reorder is a) any.
Proof. unfold h_reorder. okgo. Qed.
#[export] Hint Resolve ok_add_kdtree ok_insert ok_delete ok_append ok_vor_delete ok_reorder ok_mk_ps : okdb.
Lemma ok_plain_birth_vals b params i l : forall h, ok all b h (h_plain_birth_vals params i l) any.
Proof.
  induction l as [|[k v] t IH]; intros h; [now apply ok_ret|]. cbn [h_plain_birth_vals]. okgo.
Qed.
#[export] Hint Resolve ok_plain_birth_vals : okdb.
Lemma ok_plain_birth b h s a : ok all b h (h_plain_birth s a) any.
Proof. unfold h_plain_birth. okgo. Qed.
Lemma ok_plain_death b h s a : ok all b h (h_plain_death s a) any.
Proof. unfold h_plain_death. okgo. apply ok_hmap. intros h1 [k v]. okgo. Qed.
Lemma ok_add_newborns b put a l : (forall h x v, ok all b h (put x v) any) ->
  forall acc h, ok all b h (h_add_newborns put a l acc) any.
Proof.
  intros Hp. induction l as [|[k x] t IH]; intros acc h; [now apply ok_ret|]. cbn [h_add_newborns].
  okb (apply ok_get). subst. okb idtac; [|apply IH]. instantiate (1 := any).
  destruct x0; [apply Hp|okgo].
Qed.
Lemma ok_vor_birth b h s a : ok all b h (h_vor_birth s a) any.
Proof.
  unfold h_vor_birth. okgo.
  - apply ok_add_newborns. intros. apply ok_insert.
  - apply ok_add_newborns. intros. apply ok_append.
Qed.
Lemma ok_vor_death b h s a : ok all b h (h_vor_death s a) any.
Proof. unfold h_vor_death. okgo. apply ok_hmap. intros h1 [k v]. okgo. Qed.
Lemma ok_copy_arr N b h a : ok N b h (h_copy_arr a)
  (fun h' e => b <= e /\ h' = h ++ [match nth_error h a with Some o => o | None => HArr [] end] /\ e = length h).
Proof.
  unfold h_copy_arr. okb (apply ok_load). destruct Q as [-> E].
  destruct x; try apply ok_ubeh; (eapply ok_weaken; [apply ok_alloc|]); rewrite E; cbn beta;
    intros h' a' _ (L & -> & ->); auto.
Qed.
Lemma ok_put_num N b h a i x : b <= a -> ok N b h (h_put_num a i x) any.
Proof.
  intros L. unfold h_put_num. okgo. eapply ok_any, ok_store; [eassumption|]. cbn. exists (set_nth l i x). split; auto. lia.
Qed.
Lemma ok_put_row N b h a i x : b <= a -> ok N b h (h_put_row a i x) any.
Proof.
  intros L. unfold h_put_row. okgo. eapply ok_any, ok_store; [eassumption|]. cbn. exists (set_nth l i x). split; auto. lia.
Qed.
#[export] Hint Resolve ok_copy_arr ok_put_num ok_put_row : okdb.
Lemma ok_perturb_value_loop b params a i x x' put : (forall h v, ok all b h (put v) any) ->
  forall vals acc h, ok all b h (h_perturb_value_loop params a i x x' put vals acc) any.
Proof.
  intros Hp. induction params as [|[k pr] t IH]; intros vals acc h; [now apply ok_ret|].
  cbn [h_perturb_value_loop]. okb (apply ok_get). subst.
  apply (ok_bind _ _ _ _ _ any); [okgo|]. intros h1 acc' _ _.
  apply (ok_bind _ _ _ _ _ any); [destruct x0; [apply Hp|okgo]|]. intros. apply IH.
Qed.
Lemma ok_perturb_value b h s a i : ok all b h (h_perturb_value s a i) any.
Proof.
  unfold h_perturb_value. okgo.
  - apply ok_perturb_value_loop. intros. apply ok_reorder.
  - apply ok_perturb_value_loop. intros. now apply ok_ret.
Qed.
#[export] Hint Resolve ok_plain_birth ok_plain_death ok_vor_birth ok_vor_death ok_perturb_value : okdb.
Lemma ok_perturb_params b l : forall a i new acc h, ok all b h (h_perturb_params l a i new acc) any.
Proof.
  induction l as [|[pr|s] t IH]; intros a i new acc h; cbn [h_perturb_params].
  - okb (apply ok_copy_ps). destruct Q as (L & n & d & at_ & c & E & Ld).
    okb (apply ok_load_ps). destruct x0 as [[[n' d'] at'] c']. destruct Q as [-> E']. cbn in E'.
    rewrite E in E'. injection E' as <- <- <- <-.
    okb (apply ok_load_dict). destruct Q as [-> Ed].
    okb (eapply ok_store; [exact Ed|]); [|okgo]. cbn. exists (dupdate x0 new). repeat split; auto; try lia.
    intros k v Hk. exfalso. apply Hk. exact I.
  - okb (apply ok_get). subst. destruct x as [v|]; [|okgo].
    okb (apply ok_view_ps). subst. okb (apply ok_hlift). subst.
    okb (apply ok_copy_arr). destruct Q as (Lb & -> & ->).
    okb (apply ok_hlift). subst. okb (apply ok_do). subst. destruct x2 as [nv r].
    okb (now apply ok_put_num). apply IH.
  - okgo.
Qed.
Lemma ok_elem b h e a : ok all b h (h_elem_perturb e a) any.
Proof.
  destruct e; cbn [h_elem_perturb].
  - unfold h_birth. destruct (is_disc s); okgo.
  - unfold h_death. destruct (is_disc s); okgo.
  - unfold h_param_perturb. okgo. apply ok_perturb_params.
Qed.
Lemma ok_psp_ps b h q a : ok all b h (h_psp_ps q a) any.
Proof. unfold h_psp_ps. pose proof ok_elem. okgo. Qed.

(** ** The copy that a walk changes *)
(** [a] and all states below it, reached through entries whose name is not in [N], were
    allocated by the code at hand. *)
Inductive spine (N : string -> Prop) (b : nat) (h : heap) : loc -> Prop :=
| spine_intro a d dl : b <= a -> b <= d ->
    match nth_error h a with
    | Some (HPS _ d' _ _) | Some (HState d' _ _ _ _) => d' = d
    | _ => False
    end ->
    nth_error h d = Some (HDict dl) ->
    (forall k v, ~ N k -> In (k, v) dl -> v < length h) ->
    (forall k v x, ~ N k -> In (k, v) dl ->
       match nth_error h v with
       | Some (HLst l) => In x l
       | Some (HPS _ _ _ _) | Some (HState _ _ _ _ _) => x = v
       | _ => False
       end -> spine N b h x) -> spine N b h a.
Lemma spine_ev N b h h' a : ev N b h h' -> spine N b h a -> spine N b h' a.
Proof.
  intros V S. induction S as [a d dl La Ld Ea Ed Hv _ IH].
  destruct (V _ _ Ed) as (od & Ed' & dl' & -> & _ & Hin).
  apply spine_intro with d dl'; auto.
  - destruct (nth_error h a) as [[]|] eqn:E; try contradiction; subst;
      destruct (V _ _ E) as (oa & Ea' & at' & c' & -> & _); now rewrite Ea'.
  - intros k v Hk H. apply Nat.lt_le_trans with (length h); [eapply Hv; eauto|]. eapply ev_length; eauto.
  - intros k v x Hk H Hx. apply (IH k v x); auto. apply Hin in H; auto. apply Hv in H; auto.
    destruct (nth_error h v) as [o|] eqn:E; [|apply nth_error_None in E; lia].
    destruct (V _ _ E) as (o' & E' & O). rewrite E' in Hx.
    destruct o; cbn in O;
      repeat match goal with H : exists _, _ |- _ => destruct H | H : _ /\ _ |- _ => destruct H end;
      subst; auto.
Qed.
Definition none (_ : string) : Prop := False.
Lemma spine_weaken (N N' : string -> Prop) b h a : (forall k, N k -> N' k) -> spine N b h a -> spine N' b h a.
Proof.
  intros W S. induction S as [a d dl La Ld Ea Ed Hv _ IH].
  apply spine_intro with d dl; auto.
  - intros k v Hk. apply Hv. auto.
  - intros k v x Hk. apply (IH k v x). auto.
Qed.
Lemma spine_own N b h a : spine N b h a -> own b h a \/ own_state b h a.
Proof.
  intros [a' d dl La Ld Ea Ed _ _]. destruct (nth_error h a') as [[]|] eqn:E; try contradiction; subst.
  - left. split; auto. eauto 8.
  - right. split; auto. exists d, attrs, temp, cache, extra. auto.
Qed.

(** A value of a copy. *)
Definition goodv (b : nat) (h : heap) (v : loc) : Prop :=
  v < length h /\ forall x, match nth_error h v with
       | Some (HLst l) => In x l
       | Some (HPS _ _ _ _) | Some (HState _ _ _ _ _) => x = v
       | _ => False
       end -> spine none b h x.
Lemma goodv_ev b h h' v : ev none b h h' -> goodv b h v -> goodv b h' v.
Proof.
  intros V [L G]. split; [apply ev_length in V; lia|]. intros x Hx. apply spine_ev with h; auto. apply G.
  destruct (nth_error h v) as [o|] eqn:E; [|apply nth_error_None in E; lia].
  destruct (V _ _ E) as (o' & E' & O). rewrite E' in Hx.
  destruct o; cbn in O;
    repeat match goal with H : exists _, _ |- _ => destruct H | H : _ /\ _ |- _ => destruct H end;
    subst; auto.
Qed.
Definition holds (b : nat) (h : heap) (a d : loc) (dl : dict loc) : Prop :=
  b <= a /\ b <= d /\ nth_error h d = Some (HDict dl) /\
  match nth_error h a with
  | Some (HPS _ d' _ _) | Some (HState d' _ _ _ _) => d' = d
  | _ => False
  end.
Lemma spine_holds b h a d dl : holds b h a d dl -> (forall k v, In (k, v) dl -> goodv b h v) ->
  spine none b h a.
Proof.
  intros (La & Ld & Ed & Ea) G. apply spine_intro with d dl; auto.
  - intros k v _ H. apply G in H. apply H.
  - intros k v x _ H. apply G in H. apply H.
Qed.
Lemma ok_set_dict b h k v a d dl : holds b h a d dl ->
  ok all b h (h_set k v a) (fun h' _ => holds b h' a d (dset k v dl)).
Proof.
  intros (La & Ld & Ed & Ea). unfold h_set. okb (apply ok_load). destruct Q as [-> Ev].
  assert (G : ok all b h ('(n, d, at_, c) <~ load_ps a ;; dl <~ load_dict d ;;
      _ <~ store d (HDict (dset k v dl)) ;; store a (HPS n d (dset k v at_) c))
      (fun h' _ => holds b h' a d (dset k v dl))).
  { clear x V Ev. okb (apply ok_load_ps). destruct x as [[[n' d'] at'] c']. destruct Q as [-> E']. cbn in E'.
    rewrite E' in Ea. subst d'.
    okb (apply ok_load_dict). destruct Q as [-> Ed']. rewrite Ed in Ed'. injection Ed' as <-.
    assert (L1 : d < length h) by (apply nth_error_Some; congruence).
    assert (L2 : a < length h) by (apply nth_error_Some; congruence).
    assert (Hn : a <> d) by congruence.
    okb (eapply ok_store; [exact Ed|]).
    { exists (dset k v dl). split; auto. split; [lia|]. intros ? ? Hk. now destruct Hk. }
    subst. eapply ok_weaken.
    - eapply ok_store with (o := HPS n' d at' c').
      + rewrite nth_set_nth by auto. destruct (Nat.eqb_spec a d); [congruence|exact E'].
      + cbn. exists (dset k v at'), c'. split; auto. lia.
    - cbn beta. intros h' _ _ ->. split; [auto|split; [auto|split]].
      + rewrite nth_set_nth by (rewrite set_nth_length; auto).
        destruct (Nat.eqb_spec d a); [congruence|]. rewrite nth_set_nth by auto. now rewrite Nat.eqb_refl.
      + rewrite nth_set_nth by (rewrite set_nth_length; auto). now rewrite Nat.eqb_refl. }
  destruct x; try apply ok_err; try exact G. destruct l; [apply ok_err|exact G].
Qed.
Lemma ok_post_init_dict b h todo n a d dl dl0 : holds b h a d dl -> incl dl dl0 -> incl todo dl0 ->
  ok all b h (h_post_init todo n a) (fun h' _ => exists dl', holds b h' a d dl' /\ incl dl' dl0).
Proof.
  revert h dl. induction todo as [|[k v] t IH]; intros h dl Hh H1 H2; [apply ok_ret; eauto|]. cbn [h_post_init].
  okb (apply ok_len). subst. destruct (negb _); [apply ok_err|].
  okb (apply ok_set_dict; exact Hh). eapply IH; [exact Q| |].
  - intros [k' v'] Hin. apply in_dset in Hin. destruct Hin as [Hin|[-> ->]]; auto. apply H2. now left.
  - intros y Hy. apply H2. now right.
Qed.
Lemma ok_mk_ps_dict b h n d dl : b <= d -> nth_error h d = Some (HDict dl) ->
  ok all b h (h_mk_ps n d) (fun h' a => exists dl', holds b h' a d dl' /\ incl dl' dl).
Proof.
  intros Ld Ed. unfold h_mk_ps. okb (apply ok_load_dict). destruct Q as [-> Ed']. rewrite Ed in Ed'. injection Ed' as <-.
  okb (apply ok_alloc). destruct Q as (L & -> & ->).
  okb (eapply ok_post_init_dict with (d := d) (dl := dl) (dl0 := dl)); [|apply incl_refl|apply incl_refl|].
  - split; [auto|split; [auto|split]].
    + rewrite nth_error_app1; auto. apply nth_error_Some. congruence.
    + rewrite nth_error_app2, Nat.sub_diag by auto. reflexivity.
  - apply ok_ret. exact Q.
Qed.
Lemma ok_hmap_all {A B} N b (f : A -> HM B) (G : heap -> B -> Prop) l :
  (forall h x, ok N b h (f x) G) -> (forall h h' y, ev N b h h' -> G h y -> G h' y) ->
  forall h, ok N b h (hmap f l) (fun h' ys => forall y, In y ys -> G h' y).
Proof.
  intros Hf Hs. induction l as [|x t IH]; intros h; [apply ok_ret; intros ? []|]. cbn [hmap].
  okb (apply Hf). okb (apply IH). apply ok_ret. intros y [->|Hy]; [|auto]. eapply Hs; eauto.
Qed.
(** Allocating an object whose content is good. *)
Lemma ok_alloc_good b h o :
  (forall x, match o with HLst l => In x l | _ => False end -> spine none b h x) ->
  match o with HPS _ _ _ _ | HState _ _ _ _ _ => False | _ => True end ->
  ok none b h (alloc o) (goodv b).
Proof.
  intros G Hn. eapply ok_weaken; [apply ok_alloc|]. cbn beta. intros h' a V (L & -> & ->). split.
  - rewrite app_length. cbn. lia.
  - intros x. rewrite nth_error_app2, Nat.sub_diag by auto. cbn [nth_error]. intros Hx.
    apply spine_ev with h; auto. apply G. destruct o; auto.
Qed.
Lemma ok_copy_spine fuel : forall b h a, ok none b h (h_copy fuel a) (spine none b).
Proof.
  induction fuel as [|f IH]; intros b h a; [apply ok_ubeh|]. cbn [h_copy].
  okb (apply ok_load_ps). destruct x as [[[n d] at_] c]. destruct Q as [-> E].
  okb (apply ok_load_dict). destruct Q as [-> Ed].
  okb (apply ok_hmap_all with (G := fun h kv => goodv b h (snd kv))).
  { intros h1 [k v]. okb (apply ok_load). destruct Q as [-> Ev].
    okb idtac; [instantiate (1 := goodv b)|apply ok_ret; exact Q].
    destruct x0; try apply ok_ubeh; try (apply ok_alloc_good; [contradiction|exact I]).
    okb (apply ok_hmap_all with (G := spine none b); [apply IH|intros; eapply spine_ev; eauto]).
    apply ok_alloc_good; [exact Q|exact I]. }
  { cbn beta. intros. eapply goodv_ev; eauto. }
  (* the rest leaves all of h0 alone *)
  apply ok_pre. intros Lb.
  assert (R : ok all (length h0) h0 (d' <~ alloc (HDict x0) ;; a' <~ h_mk_ps n d' ;;
      '(n', e, at_, _) <~ load_ps a' ;; _ <~ store a' (HPS n' e at_ c) ;; hret a')
      (fun h' a' => exists d' dl', holds (length h0) h' a' d' dl' /\ incl dl' x0)).
  { okb (apply ok_alloc). destruct Q0 as (L & -> & ->).
    okb (apply ok_mk_ps_dict with (dl := x0); [lia|]).
    { rewrite nth_error_app2, Nat.sub_diag by auto. reflexivity. }
    destruct Q0 as (dl' & Hh & Hi). pose proof Hh as (H1 & H2 & H3 & H4).
    okb (apply ok_load_ps). destruct x2 as [[[n2 d2] at2] c2]. destruct Q0 as [-> E2]. cbn in E2.
    rewrite E2 in H4. subst d2.
    assert (L2 : x1 < length h1) by (apply nth_error_Some; congruence).
    okb (eapply ok_store; [exact E2|]).
    { cbn. exists at2, c. auto. }
    subst. apply ok_ret. exists (length h0), dl'. split; auto. split; [auto|split; [auto|split]].
    - rewrite nth_set_nth by auto. destruct (Nat.eqb_spec (length h0) x1); [congruence|auto].
    - rewrite nth_set_nth by auto. now rewrite Nat.eqb_refl. }
  apply (ok_base all none b) in R. eapply ok_weaken; [exact R|]. cbn beta. intros h' a' V9 (d' & dl' & Hh & Hi).
  destruct Hh as (H1 & H2 & H3 & H4).
  apply spine_holds with d' dl'; [split; [lia|split; [lia|auto]]|].
  intros k v Hin. apply Hi in Hin. apply Q in Hin. cbn in Hin. eapply goodv_ev; eauto.
Qed.
Lemma ok_copy_ps_spine b h a : ok none b h (copy_ps a) (spine none b).
Proof. intros L tr. exact (ok_copy_spine (length h) b h a L tr). Qed.

(** ** States *)
Lemma ok_st_set_dict b h k v a d dl : holds b h a d dl ->
  ok all b h (h_st_set k v a) (fun h' _ => holds b h' a d (dset k v dl)).
Proof.
  intros (La & Ld & Ed & Ea). unfold h_st_set. okb (apply ok_load). destruct Q as [-> Ev].
  assert (G : ok all b h ('(d, at_, t, c, x) <~ load_state a ;; dl <~ load_dict d ;;
      _ <~ store d (HDict (dset k v dl)) ;; store a (HState d (dset k v at_) t c x))
      (fun h' _ => holds b h' a d (dset k v dl))).
  { clear x V Ev. okb (apply ok_load_state). destruct Q as (-> & at' & d' & t' & c' & x' & -> & E').
    rewrite E' in Ea. subst d'.
    okb (apply ok_load_dict). destruct Q as [-> Ed']. rewrite Ed in Ed'. injection Ed' as <-.
    assert (L1 : d < length h) by (apply nth_error_Some; congruence).
    assert (L2 : a < length h) by (apply nth_error_Some; congruence).
    assert (Hn : a <> d) by congruence.
    okb (eapply ok_store; [exact Ed|]).
    { exists (dset k v dl). split; auto. split; [lia|]. intros ? ? Hk. now destruct Hk. }
    subst. eapply ok_weaken.
    - eapply ok_store with (o := HState d at' t' c' x').
      + rewrite nth_set_nth by auto. destruct (Nat.eqb_spec a d); [congruence|exact E'].
      + cbn. exists (dset k v at'), c'. split; auto. lia.
    - cbn beta. intros h' _ _ ->. split; [auto|split; [auto|split]].
      + rewrite nth_set_nth by (rewrite set_nth_length; auto).
        destruct (Nat.eqb_spec d a); [congruence|]. rewrite nth_set_nth by auto. now rewrite Nat.eqb_refl.
      + rewrite nth_set_nth by (rewrite set_nth_length; auto). now rewrite Nat.eqb_refl. }
  destruct x; try apply ok_err; exact G.
Qed.
Lemma ok_st_set (N : string -> Prop) b h k v a : N k -> own_state b h a -> ok N b h (h_st_set k v a) any.
Proof.
  intros Nk (L & d & at_ & t & c & e & E & Ld). unfold h_st_set. okb (apply ok_load). destruct Q as [-> Ev].
  assert (G : ok N b h ('(d, at_, t, c, x) <~ load_state a ;; dl <~ load_dict d ;;
      _ <~ store d (HDict (dset k v dl)) ;; store a (HState d (dset k v at_) t c x)) any).
  { clear x V Ev. okb (apply ok_load_state). destruct Q as (-> & at' & d' & t' & c' & x' & -> & E').
    rewrite E in E'. injection E' as <- <- <- <- <-.
    okb (apply ok_load_dict). destruct Q as [-> Ed].
    okb (eapply ok_store; [exact Ed|]).
    { exists (dset k v x). split; auto. split; [lia|]. intros k' v' Hk Hin. apply in_dset in Hin.
      destruct Hin as [Hin|[-> _]]; [auto|contradiction]. }
    subst. eapply ok_any, ok_store with (o := HState d at_ t c e).
    - rewrite nth_set_nth by (apply nth_error_Some; congruence).
      destruct (Nat.eqb_spec a d) as [->|]; [|exact E]. rewrite E in Ed. discriminate.
    - cbn. exists (dset k v at_), c. split; auto. lia. }
  destruct x; try apply ok_err; exact G.
Qed.
Lemma ok_st_post_init_dict b h todo a d dl dl0 : holds b h a d dl -> incl dl dl0 -> incl todo dl0 ->
  ok all b h (h_st_post_init todo a) (fun h' _ => exists dl', holds b h' a d dl' /\ incl dl' dl0).
Proof.
  revert h dl. induction todo as [|[k v] t IH]; intros h dl Hh H1 H2; [apply ok_ret; eauto|]. cbn [h_st_post_init].
  okb (apply ok_st_set_dict; exact Hh). eapply IH; [exact Q| |].
  - intros [k' v'] Hin. apply in_dset in Hin. destruct Hin as [Hin|[-> ->]]; auto. apply H2. now left.
  - intros y Hy. apply H2. now right.
Qed.
Lemma ok_mk_state_dict b h d t c dl : b <= d -> nth_error h d = Some (HDict dl) ->
  ok all b h (h_mk_state d t c) (fun h' a => exists dl', holds b h' a d dl' /\ incl dl' dl /\ own_state b h' a).
Proof.
  intros Ld Ed. unfold h_mk_state. okb (apply ok_load_dict). destruct Q as [-> Ed']. rewrite Ed in Ed'. injection Ed' as <-.
  okb (apply ok_alloc). destruct Q as (L & -> & ->).
  assert (Ho : own_state b (h ++ [HState d [] t c []]) (length h)).
  { split; auto. exists d, [], t, c, []. split; auto. rewrite nth_error_app2, Nat.sub_diag by auto. reflexivity. }
  okb (eapply ok_st_post_init_dict with (d := d) (dl := dl) (dl0 := dl)); [|apply incl_refl|apply incl_refl|].
  - split; [auto|split; [auto|split]].
    + rewrite nth_error_app1; auto. apply nth_error_Some. congruence.
    + rewrite nth_error_app2, Nat.sub_diag by auto. reflexivity.
  - apply ok_ret. destruct Q as (dl' & Hh & Hi). exists dl'. repeat split; try apply Hh; auto. all: eapply own_state_ev; eauto.
Qed.
Lemma ok_entry_copy b h v : ok none b h (h_entry_copy v) (goodv b).
Proof.
  unfold h_entry_copy. okb (apply ok_load). destruct Q as [-> E]. destruct x; try apply ok_ubeh.
  - eapply ok_weaken; [apply ok_copy_ps_spine|]. cbn beta. intros h' a V1 S. split.
    + inversion S as [? ? ? _ _ Ha]. subst. apply nth_error_Some. destruct (nth_error h' a); [discriminate|contradiction].
    + intros x Hx. inversion S as [? ? ? _ _ Ha]. subst. destruct (nth_error h' a) as [[]|]; try contradiction; now subst.
  - apply ok_alloc_good; [contradiction|exact I].
Qed.
Lemma ok_st_copy b h keep a : ok none b h (h_st_copy keep a) (fun h' x => spine none b h' x /\ own_state b h' x).
Proof.
  unfold h_st_copy. okb (apply ok_load_state). destruct Q as (-> & at' & d' & t' & c' & x' & -> & E').
  okb (apply ok_load_dict). destruct Q as [-> Ed].
  okb (apply ok_hmap_all with (G := fun h kv => goodv b h (snd kv))).
  { intros h1 [k v]. okb (apply ok_entry_copy). apply ok_ret. exact Q. }
  { cbn beta. intros. eapply goodv_ev; eauto. }
  apply ok_pre. intros Lb.
  assert (R : ok all (length h0) h0 (d'0 <~ alloc (HDict x0) ;; h_mk_state d'0 t'
     (if keep then filter (fun kc => String.eqb (fst kc) "dpred") c' else []))
     (fun h' a' => exists d' dl', holds (length h0) h' a' d' dl' /\ incl dl' x0 /\ own_state (length h0) h' a')).
  { okb (apply ok_alloc). destruct Q0 as (L & -> & ->).
    eapply ok_weaken.
    - apply ok_mk_state_dict with (dl := x0); auto. rewrite nth_error_app2, Nat.sub_diag by auto. reflexivity.
    - cbn beta. intros h' a' _ (dl' & H). eauto. }
  apply (ok_base all none b) in R. eapply ok_weaken; [exact R|]. cbn beta.
  intros h' a' V9 (d1 & dl' & (H1 & H2 & H3 & H4) & Hi & (Ho1 & d2 & at2 & t2 & c2 & e2 & Ho2 & Ho3)). split.
  - apply spine_holds with d1 dl'; [split; [lia|split; [lia|auto]]|].
    intros k v Hin. apply Hi in Hin. apply Q in Hin. cbn in Hin. eapply goodv_ev; eauto.
  - split; [lia|]. exists d2, at2, t2, c2, e2. split; auto. lia.
Qed.

(** ** The walk *)
Section Walk.
Variable q : psp.
Let N (k : string) : Prop := k = psp_space q.
Definition entry_ok (b : nat) (h : heap) (x : loc) : Prop :=
  x < length h /\
  match nth_error h x with Some (HPS _ _ _ _) | Some (HState _ _ _ _ _) => spine N b h x | _ => True end.
Lemma entry_ok_ev b h h' x : ev N b h h' -> entry_ok b h x -> entry_ok b h' x.
Proof.
  intros V [L H]. split; [apply ev_length in V; lia|].
  destruct (nth_error h x) as [o|] eqn:E; [|apply nth_error_None in E; lia].
  destruct (V _ _ E) as (o' & -> & O).
  destruct o; cbn in O;
    repeat match goal with H : exists _, _ |- _ => destruct H | H : _ /\ _ |- _ => destruct H end;
    subst; auto; eapply spine_ev; eauto.
Qed.
Lemma ok_any_set b h v a : entry_ok b h a -> ok N b h (h_any_set (psp_space q) v a) any.
Proof.
  intros [_ H]. unfold h_any_set. okb (apply ok_load). destruct Q as [-> E]. rewrite E in H.
  destruct x; try apply ok_ubeh.
  - apply ok_set; [reflexivity|]. apply spine_own in H. destruct H as [H|(_ & d & at_ & t & c & e & E' & _)]; auto. congruence.
  - apply ok_st_set; [reflexivity|]. apply spine_own in H. destruct H as [(_ & n & d & at_ & c & E' & _)|H]; auto. congruence.
Qed.
Lemma ok_any_vals b h a : entry_ok b h a -> ok N b h (h_any_vals a)
  (fun h' dl => h' = h /\ forall k v, k <> psp_space q -> In (k, v) dl -> entry_ok b h v /\
     forall l, nth_error h v = Some (HLst l) -> forall x, In x l -> entry_ok b h x).
Proof.
  intros [_ H]. unfold h_any_vals. okb (apply ok_load). destruct Q as [-> E]. rewrite E in H.
  assert (G : forall d, match nth_error h a with
    | Some (HPS _ d' _ _) | Some (HState d' _ _ _ _) => d' = d | _ => False end -> spine N b h a ->
    ok N b h (load_dict d) (fun h' dl => h' = h /\ forall k v, k <> psp_space q -> In (k, v) dl -> entry_ok b h v /\
     forall l, nth_error h v = Some (HLst l) -> forall x, In x l -> entry_ok b h x)).
  { clear. intros d Ea S. eapply ok_weaken; [apply ok_load_dict|]. cbn beta. intros h' dl _ [-> Ed]. split; auto.
    intros k v Hk Hin. destruct S as [a d' dl' La Ld Ea' Ed' Hv Hx].
    assert (d' = d) by (destruct (nth_error h a) as [[]|]; try contradiction; congruence). subst d'.
    rewrite Ed in Ed'. injection Ed' as <-. split.
    - split; [eapply Hv; eauto|]. specialize (Hx k v v Hk Hin). destruct (nth_error h v) as [[]|]; auto.
    - intros l El x Hxl. specialize (Hx k v x Hk Hin). rewrite El in Hx. specialize (Hx Hxl).
      inversion Hx as [? ? ? _ _ Hs]. subst. split.
      + apply nth_error_Some. destruct (nth_error h x); [discriminate|contradiction].
      + destruct (nth_error h x) as [[]|]; auto. }
  destruct x; try apply ok_ubeh; apply G; rewrite ?E; auto.
Qed.
Definition queue_ok (b : nat) (h : heap) (s : hwalk) : Prop :=
  forall x y, In (x, y) (hw_queue s) -> entry_ok b h x.
Lemma ok_walk_list b target vs : forall i ratio stats h, ok N b h (h_walk_list q target vs i ratio stats) any.
Proof.
  induction vs as [|v t IH]; intros i ratio stats h; [now apply ok_ret|]. cbn [h_walk_list].
  destruct (i =? target).
  - okb (eapply ok_base, ok_psp_ps). destruct x as [[v' r] ty]. okb (apply IH). okgo.
  - okb (eapply ok_base, ok_copy_ps). okb (apply IH). okgo.
Qed.
Lemma ok_walk_node b target a l : forall s h, entry_ok b h a -> queue_ok b h s ->
  ok N b h (h_walk_node q target a l s) (queue_ok b).
Proof.
  induction l as [|[k v] t IH]; intros s h Ha Hq; [now apply ok_ret|]. cbn [h_walk_node].
  okb (apply ok_load). destruct Q as [-> E].
  assert (Hqe : forall h' s', hw_queue s' = hw_queue s -> ev N b h h' -> queue_ok b h' s').
  { intros h' s' Es V' x' y' Hin. rewrite Es in Hin. eapply entry_ok_ev; eauto. }
  destruct x; try now apply IH.
  - (* a list *)
    destruct (String.eqb_spec k (psp_space q)) as [->|Hk].
    + okb (apply ok_walk_list). destruct x as [[[vs' i'] ratio'] stats'].
      okb (apply ok_alloc). destruct Q0 as (_ & -> & ->).
      okb (apply ok_any_set; eapply entry_ok_ev; [|exact Ha]; eapply ev_trans; eauto).
      assert (V' : ev N b h h1) by (eapply ev_trans; [|eauto]; eapply ev_trans; eauto).
      apply IH; [eapply entry_ok_ev; eauto|]. now apply Hqe.
    + destruct l as [|l0 l]; [apply ok_err|].
      okb (apply ok_any_vals; exact Ha). destruct Q as [-> G]. destruct (dget k x) as [v'|] eqn:Ek; [|apply ok_ubeh].
      okb (apply ok_load). destruct Q as [-> E']. destruct x0; try apply ok_ubeh.
      apply IH; auto. intros x' y' Hin. cbn in Hin. apply in_app_iff in Hin. destruct Hin as [Hin|Hin]; [eapply Hq; eauto|].
      apply in_combine_l in Hin. apply dget_some_in in Ek. destruct (G _ _ Hk Ek) as [_ G2]. eapply G2; eauto.
  - (* a state *)
    destruct (String.eqb_spec k (psp_space q)) as [->|Hk].
    + destruct (_ =? target).
      * okb (eapply ok_base, ok_psp_ps). destruct x as [[v' r] ty].
        okb (apply ok_any_set; eapply entry_ok_ev; eauto).
        assert (V' : ev N b h h1) by (eapply ev_trans; eauto).
        apply IH; [eapply entry_ok_ev; eauto|]. now apply Hqe.
      * apply IH; auto.
    + okb (apply ok_any_vals; exact Ha). destruct Q as [-> G]. destruct (dget k x) as [v'|] eqn:Ek; [|apply ok_ubeh].
      apply IH; auto. intros x' y' Hin. cbn in Hin. apply in_app_iff in Hin. destruct Hin as [Hin|[Hin|[]]]; [eapply Hq; eauto|].
      injection Hin as <- <-. apply dget_some_in in Ek. now destruct (G _ _ Hk Ek).
Qed.
Lemma ok_walk_loop b target fuel : forall s h, queue_ok b h s -> ok N b h (h_walk_loop fuel q target s) any.
Proof.
  induction fuel as [|f IH]; intros s h Hq; cbn [h_walk_loop]; destruct (hw_queue s) as [|[a v] rest] eqn:Eq;
    try (now apply ok_ret); (destruct (_ <=? target); [|now apply ok_ret]); [apply ok_ubeh|].
  assert (Ha : entry_ok b h a) by (eapply Hq; rewrite Eq; left; reflexivity).
  eapply (ok_bind _ _ _ _ _ (fun h' _ => h' = h)).
  { unfold h_any_vals. okb (apply ok_load). destruct Q as [-> E].
    destruct x; try apply ok_ubeh; (eapply ok_weaken; [apply ok_load_dict|]); cbn beta; tauto. }
  intros h1 l _ ->. okb (apply ok_walk_node; [exact Ha|]).
  { intros x y Hin. eapply Hq. rewrite Eq. right. exact Hin. }
  now apply IH.
Qed.
Lemma ok_psp_perturb b h a : ok N b h (h_psp_perturb q a) (fun h' x => own_state b h' (fst x)).
Proof.
  unfold h_psp_perturb. okb (apply ok_mono with (N := none); [contradiction|apply ok_st_copy]). destruct Q as [S O].
  okb (apply ok_view_state). subst. okb (apply ok_hlift). subst. okb (apply ok_do). subst.
  okb (apply ok_walk_loop).
  { intros y z [Hin|[]]. cbn in Hin. injection Hin as <- <-. destruct O as (_ & d & at_ & t & c & e & E & _).
    split; [apply nth_error_Some; congruence|]. rewrite E. eapply spine_weaken; [|exact S]. contradiction. }
  unfold h_st_save_cache. apply (own_state_ev _ _ _ _ _ V3) in O. pose proof O as (Lx & d & at_ & t & c & e & E & Ld).
  eapply (ok_bind _ _ _ _ _ (fun h' _ => own_state b h' x)).
  - okb (apply ok_load_state). destruct Q0 as (-> & at' & d' & t' & c' & x' & -> & E').
    eapply ok_weaken; [eapply ok_store; [exact E'|]|].
    + cbn. exists at', (dset "perturb_stats"%string (CStats (map (fun kn => (fst kn, (INR (snd kn) / INR (nsum (map snd (hw_stats x3))))%R)) (hw_stats x3))) c').
      split; auto. lia.
    + cbn beta. intros h' _ V' ->. eapply own_state_ev; eauto.
  - intros h' _ _ O'. apply ok_ret. exact O'.
Qed.
End Walk.

(** ** The other perturbations, and the perturbation functions of a chain *)
Lemma ok_elem_perturb_state b h e a : ok all b h (h_elem_perturb_state e a) (fun h' x => own_state b h' (fst x)).
Proof.
  unfold h_elem_perturb_state.
  eapply (ok_bind _ _ _ _ _ (fun h' _ => h' = h)).
  { unfold h_any_vals. okb (apply ok_load). destruct Q as [-> E].
    destruct x; try apply ok_ubeh; (eapply ok_weaken; [apply ok_load_dict|]); cbn beta; tauto. }
  intros h1 dl _ ->. destruct (dget _ dl); [|apply ok_err].
  okb (apply ok_load). destruct Q as [-> E]. destruct x; try apply ok_ubeh.
  okb (apply ok_elem). destruct x as [b' r].
  okb (apply ok_mono with (N := none); [contradiction|apply ok_st_copy]). destruct Q0 as [_ O].
  okb (apply ok_st_set; [exact I|exact O]). apply ok_ret. eapply own_state_ev; eauto.
Qed.
Lemma ok_perturb_targets b ts a : forall new h, ok all b h (h_perturb_targets ts a new) any.
Proof.
  induction ts as [|t ts IH]; intros new h; [now apply ok_ret|]. cbn [h_perturb_targets].
  okb (apply ok_view_state). subst. okb (apply ok_hlift). subst. okb (apply ok_do). subst.
  okb (apply ok_alloc). apply IH.
Qed.
Lemma ok_noise_perturb b h ts a : ok all b h (h_noise_perturb ts a) (fun h' x => own_state b h' (fst x)).
Proof.
  unfold h_noise_perturb. okb (apply ok_perturb_targets).
  okb (apply ok_mono with (N := none); [contradiction|apply ok_st_copy]). destruct Q0 as [_ O].
  pose proof O as (Lx & d & at_ & t & c & e & E & Ld).
  okb (apply ok_load_state). destruct Q0 as (-> & at' & d' & t' & c' & x' & -> & E').
  rewrite E in E'. injection E' as <- <- <- <- <-.
  okb (apply ok_load_dict). destruct Q0 as [-> Ed].
  okb (eapply ok_store; [exact Ed|]).
  { cbn. exists (dupdate x1 x). repeat split; auto; try lia. intros k v Hk. now destruct Hk. }
  apply ok_ret. eapply own_state_ev; eauto.
Qed.
Lemma ok_pfunc f b h a : ok all b h (h_pfunc f a) (fun h' x => own_state b h' (fst x)).
Proof.
  destruct f as [q|ts]; cbn [h_pfunc]; [|apply ok_noise_perturb].
  apply ok_mono with (N := fun k => k = psp_space q); [intros; exact I|]. apply ok_psp_perturb.
Qed.
