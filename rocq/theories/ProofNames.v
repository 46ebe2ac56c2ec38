(** The two models of _state.py agree as long as names do not clash with the names of
    fields and methods. *)
From Verif Require Import Base ModelState ModelNames SpecState ProofUtils1D ProofChain ProofChainC ProofInversion ProofState ProofRunC.
Local Open Scope R_scope.
Local Open Scope string_scope.

(** * Reserved names *)
Definition ps_fields : list string := ["n_dimensions"; "param_values"; "cache"].
Definition ps_methods : list string :=
  ["set_param_values"; "get_param_values"; "saved_in_cache"; "load_from_cache"; "save_to_cache";
   "copy"; "todict"].
Definition st_fields : list string := ["param_values"; "temperature"; "cache"; "extra_storage"].
Definition st_methods : list string :=
  ["set_param_values"; "get_param_values"; "saved_in_cache"; "load_from_cache"; "save_to_cache";
   "saved_in_extra_storage"; "load_from_extra_storage"; "save_to_extra_storage"; "_vars"; "items"; "copy"].
Definition refused : list string := ["__class__"; "__dict__"; "__weakref__"].
Definition ps_reserved : list string := (ps_fields ++ ps_methods ++ refused)%list.
Definition st_reserved : list string := (st_fields ++ st_methods ++ refused)%list.

Lemma refuses_spec k : py_refuses k = None <-> ~ In k refused.
Proof.
  unfold py_refuses, refused. cbn [In].
  destruct (String.eqb_spec k "__class__"); [subst; split; [discriminate|intros []; auto]|].
  destruct (String.eqb_spec k "__dict__"); [subst; split; [discriminate|intros []; auto]|].
  destruct (String.eqb_spec k "__weakref__"); [subst; split; [discriminate|intros []; auto]|].
  split; auto. intros _ [H|[H|[H|[]]]]; congruence.
Qed.

(** * From records to instances *)
Fixpoint up (p : psstate) : pyobj :=
  match p with
  | PS n vals attrs cache =>
      Obj (("n_dimensions", SInt n) :: ("param_values", SMap (map (fun kv => (fst kv, upv (snd kv))) vals)) ::
           ("cache", SMap (map (fun kv => (fst kv, upv (snd kv))) cache)) ::
           map (fun kv => (fst kv, SVal (upv (snd kv)))) attrs)
  end
with upv (v : value) : pval :=
  match v with
  | Arr l => VArr l
  | ArrN l => VArrN l
  | AObj l => VObj (map up l)
  | Lst l => VLst (map up l)
  end.
Definition dmap {A B} (f : A -> B) (d : dict A) : dict B := map (fun kv => (fst kv, f (snd kv))) d.
Definition upd (d : dict value) : dict pval := dmap upv d.
Definition rok {A B} (f : A -> B) (r : res A) : res B :=
  match r with Ok a => Ok (f a) | Raise e => Raise e | Undef => Undef end.

Lemma up_eq n vals attrs cache : up (PS n vals attrs cache) =
  Obj (("n_dimensions", SInt n) :: ("param_values", SMap (upd vals)) :: ("cache", SMap (upd cache)) ::
       dmap (fun v => SVal (upv v)) attrs).
Proof. reflexivity. Qed.
Lemma dget_dmap {A B} (f : A -> B) k d : dget k (dmap f d) = option_map f (dget k d).
Proof. induction d as [|[k' v] d IH]; cbn; auto. destruct (String.eqb k k'); auto. Qed.
Lemma dset_dmap {A B} (f : A -> B) k v d : dset k (f v) (dmap f d) = dmap f (dset k v d).
Proof. induction d as [|[k' w] d IH]; cbn; auto. destruct (String.eqb k k'); cbn; auto. f_equal. exact IH. Qed.
Lemma dkeys_dmap {A B} (f : A -> B) (d : dict A) : dkeys (dmap f d) = dkeys d.
Proof. unfold dkeys, dmap. rewrite map_map. apply map_ext. auto. Qed.
Lemma upv_len v : pval_len (upv v) = value_len v.
Proof. destruct v; cbn; auto; apply map_length. Qed.
Lemma upv_empty v : upv v = VLst [] <-> v = Lst [].
Proof. destruct v as [| | |[|x l]]; cbn; split; congruence. Qed.
Lemma rbind_rok {A B C} (f : A -> B) (g : B -> res C) r : rbind (rok f r) g = rbind r (fun a => g (f a)).
Proof. destruct r; reflexivity. Qed.
Lemma rok_rbind {A B C} (g : B -> C) (f : A -> res B) r : rok g (rbind r f) = rbind r (fun a => rok g (f a)).
Proof. destruct r; reflexivity. Qed.
Lemma rbind_ext {A B} (r : res A) (f g : A -> res B) : (forall a, r = Ok a -> f a = g a) -> rbind r f = rbind r g.
Proof. destruct r; cbn; auto. Qed.

(** Keys that are not reserved. *)
Definition free (k : string) : Prop := ~ In k ps_reserved.
Ltac nin := let H := fresh in intros H; cbn in H; repeat (destruct H as [H|H]; [discriminate H|]); exact H.
Lemma free_not k m : free k -> In m ps_reserved -> k <> m.
Proof. unfold free. intros H Hm ->. auto. Qed.
Lemma free_refuses k : free k -> py_refuses k = None.
Proof.
  intros H. apply refuses_spec. intros Hk. apply H. unfold ps_reserved. rewrite !in_app_iff. auto.
Qed.
Definition attrs_free (p : psstate) : Prop := forall k, In k (dkeys (ps_attrs p)) -> free k.
Lemma up_attr p m : attrs_free p -> In m ps_reserved -> dget m (dmap (fun v => SVal (upv v)) (ps_attrs p)) = None.
Proof.
  intros H Hm. apply dget_none_keys. rewrite dkeys_dmap. intros Hk. exact (H _ Hk Hm).
Qed.
Ltac res := cbn [In ps_reserved ps_fields ps_methods refused app]; tauto.
Lemma up_method p m : attrs_free p -> In m ps_methods -> dget m (odict (up p)) = None.
Proof.
  intros H Hm. destruct p as [n vals attrs cache]. rewrite up_eq. cbn [odict dget].
  assert (Hr : In m ps_reserved) by (unfold ps_reserved; rewrite !in_app_iff; auto).
  pose proof (up_attr (PS n vals attrs cache) m H Hr) as HA. cbn [ps_attrs] in HA.
  cbn in Hm. repeat (destruct Hm as [<-|Hm]; [exact HA|]). destruct Hm.
Qed.
Lemma up_call {A} p m (b : res A) : attrs_free p -> In m ps_methods -> o_call m (up p) b = b.
Proof. intros H Hm. unfold o_call. now rewrite up_method. Qed.
Ltac meth := cbn [In ps_methods]; tauto.

(** * The operations *)
Lemma up_vals p : o_attr "param_values" (up p) = Ok (SMap (upd (ps_vals p))).
Proof. destruct p. reflexivity. Qed.
Lemma up_n p : o_attr "n_dimensions" (up p) = Ok (SInt (ps_n p)).
Proof. destruct p. reflexivity. Qed.
Lemma up_cache p : o_attr "cache" (up p) = Ok (SMap (upd (ps_cache p))).
Proof. destruct p. reflexivity. Qed.

Lemma up_set k v p : free k -> attrs_free p -> o_set k (upv v) (up p) = rok up (ps_set k v p).
Proof.
  intros Hk Hp. unfold o_set. rewrite up_call; [|exact Hp|meth].
  assert (HE : forall w, w <> Lst [] -> o_set_body k (upv w) (up p) = rok up (ps_set k w p)).
  { intros w Hw. assert (HB : o_set_body k (upv w) (up p) =
      o_setattr k (upv w) (Obj (dset "param_values" (SMap (dset k (upv w) (upd (ps_vals p)))) (odict (up p))))).
    { unfold o_set_body. rewrite up_vals. cbn [rbind]. destruct w as [| | |[|]]; cbn [upv map]; auto. congruence. }
    rewrite HB, ps_set_complete by exact Hw. unfold o_setattr. rewrite free_refuses by exact Hk.
    cbn [rok]. f_equal. destruct p as [n vals attrs cache]. cbn [ps_n ps_vals ps_attrs ps_cache].
    rewrite !up_eq. f_equal. cbn [odict].
    assert (N1 : k <> "n_dimensions") by (apply free_not; [exact Hk|res]).
    assert (N2 : k <> "param_values") by (apply free_not; [exact Hk|res]).
    assert (N3 : k <> "cache") by (apply free_not; [exact Hk|res]).
    cbn [dset String.eqb Ascii.eqb Bool.eqb].
    destruct (String.eqb_spec k "n_dimensions"); [congruence|].
    destruct (String.eqb_spec k "param_values"); [congruence|].
    destruct (String.eqb_spec k "cache"); [congruence|].
    unfold upd. rewrite !dset_dmap. rewrite (dset_dmap (fun v => SVal (upv v))). reflexivity. }
  destruct v as [| | |[|]]; try (apply HE; discriminate). reflexivity.
Qed.
Lemma set_attrs k v p q : ps_set k v p = Ok q -> free k -> attrs_free p -> attrs_free q.
Proof.
  intros H Hk Hp. apply ps_set_ok in H. destruct H as [-> _]. intros k' H'. cbn [ps_attrs] in H'.
  destruct (String.eqb_spec k' k) as [E|E]; [now subst|]. apply Hp.
  apply dget_keys in H'. destruct H' as [w Hw]. rewrite dget_dset_other in Hw by exact E.
  eapply in_dkeys. eapply dget_some_in. exact Hw.
Qed.
Lemma up_post todo : forall p, (forall k, In k (dkeys todo) -> free k) -> attrs_free p ->
  o_post_init (upd todo) (up p) = rok up (post_init todo p) /\
  (forall q, post_init todo p = Ok q -> attrs_free q).
Proof.
  induction todo as [|[k v] t IH]; intros p Hk Hp.
  - cbn. split; auto. now intros q [= <-].
  - cbn [upd dmap map fst snd o_post_init post_init]. rewrite up_n. cbn [rbind ne_len]. rewrite upv_len.
    destruct (value_len v =? ps_n p)%nat; cbn [negb].
    + assert (Fk : free k) by (apply Hk; now left). rewrite up_set by auto.
      rewrite rbind_rok. destruct (ps_set k v p) as [p'| |] eqn:E; cbn [rbind rok]; [|split; [auto|discriminate]..].
      apply IH; [intros k' H'; apply Hk; now right|]. eapply set_attrs; eauto.
    + cbn. split; [auto|discriminate].
Qed.
Lemma up_new n vals : (forall k, In k (dkeys vals) -> free k) ->
  o_new (SInt n) (upd vals) = rok up (mk_ps n vals) /\ (forall q, mk_ps n vals = Ok q -> attrs_free q).
Proof. intros H. apply (up_post vals (PS n vals [] [])); [exact H|]. intros k []. Qed.

Lemma up_get k p : attrs_free p -> o_get k (up p) = Ok (option_map upv (ps_get k p)).
Proof.
  intros H. unfold o_get. rewrite up_call by (auto; meth). rewrite up_vals. cbn [rbind].
  unfold upd. now rewrite dget_dmap.
Qed.
Lemma up_save c v p : attrs_free p -> o_save_cache c (upv v) (up p) = Ok (up (ps_save_cache c v p)).
Proof.
  intros H. unfold o_save_cache. rewrite up_call by (auto; meth). rewrite up_cache. cbn [rbind].
  destruct p as [n vals attrs cache]. unfold ps_save_cache. cbn [ps_n ps_vals ps_attrs ps_cache].
  rewrite !up_eq. cbn [odict dset String.eqb Ascii.eqb Bool.eqb]. unfold upd. rewrite dset_dmap. reflexivity.
Qed.
Lemma up_saved c p : attrs_free p -> o_saved_in_cache c (up p) = Ok (dmem c (ps_cache p)).
Proof.
  intros H. unfold o_saved_in_cache. rewrite up_call by (auto; meth). rewrite up_cache. cbn [rbind].
  unfold upd, dmem. rewrite dget_dmap. now destruct (dget c (ps_cache p)).
Qed.
Lemma up_load c p : attrs_free p ->
  o_load_cache c (up p) = match dget c (ps_cache p) with Some v => Ok (upv v) | None => Raise EKey end.
Proof.
  intros H. unfold o_load_cache. rewrite up_call by (auto; meth). rewrite up_cache. cbn [rbind].
  unfold upd. rewrite dget_dmap. now destruct (dget c (ps_cache p)).
Qed.

(** * Copies *)
Definition pval_copy (v : pval) : res pval :=
  match v with VLst ps => ps' <-? rmap o_copy ps ;; Ok (VLst ps') | a => Ok a end.
Definition copy_each (vals : dict pval) : res (dict pval) :=
  rmap (fun kv => v <-? pval_copy (snd kv) ;; Ok (fst kv, v)) vals.
Lemma o_copy_eq d : o_copy (Obj d) =
  match dget "copy" d with
  | Some _ => Raise EType
  | None =>
      vals <-? match dget "param_values" d with
               | Some (SMap vals) => copy_each vals
               | _ => Raise EAttr
               end ;;
      n <-? o_attr "n_dimensions" (Obj d) ;;
      o' <-? o_new n vals ;;
      c <-? o_attr "cache" (Obj d) ;;
      match c with
      | SInt _ => Raise EAttr
      | _ => Ok (Obj (dset "cache" c (odict o')))
      end
  end.
Proof.
  cbn [o_copy]. destruct (dget "copy" d); [reflexivity|].
  match goal with |- rbind ?a ?f = rbind ?b ?g => enough (HX : a = b) by (now rewrite HX) end.
  induction d as [|[k s] t IH]; [reflexivity|]. cbn [dget].
  destruct (String.eqb "param_values" k); [|exact IH]. destruct s; try reflexivity. clear IH.
  unfold copy_each. rename d into vals. induction vals as [|[k' v] t' IH]; [reflexivity|].
  cbn [rmap fst snd]. rewrite <- IH. clear IH.
  assert (HE : forall ps, (fix copy_list (q : list pyobj) : res (list pyobj) :=
       match q with
       | [] => Ok []
       | x :: r => x' <-? o_copy x ;; r' <-? copy_list r ;; Ok (x' :: r')
       end) ps = rmap o_copy ps).
  { induction ps as [|x r IHr]; [reflexivity|]. cbn [rmap]. now rewrite IHr. }
  destruct v; try reflexivity. cbn [pval_copy]. rewrite HE. destruct (rmap o_copy l); reflexivity.
Qed.

(** Names not reserved, at every level. *)
Inductive free_ps : psstate -> Prop :=
| free_ps_intro p : (forall k, In k (dkeys (ps_vals p)) -> free k) -> attrs_free p ->
    (forall k v q, In (k, v) (ps_vals p) -> In q (states_in v) -> free_ps q) -> free_ps p.

Lemma rmap_up {A B} (f : A -> B) (g : A -> res A) (h : B -> res B) l :
  (forall x, In x l -> h (f x) = rok f (g x)) -> rmap h (map f l) = rok (map f) (rmap g l).
Proof.
  induction l as [|x l IH]; intros H; [reflexivity|]. cbn [map rmap].
  rewrite H by (cbn; auto). rewrite rbind_rok, rok_rbind. apply rbind_ext. intros a _.
  rewrite IH by (intros; apply H; cbn; auto). rewrite rbind_rok, rok_rbind. reflexivity.
Qed.
Lemma up_copy p : free_ps p -> o_copy (up p) = rok up (ps_copy p).
Proof.
  induction p as [n vals attrs cache IH] using psstate_ind'. intros Hp.
  inversion Hp as [p' Hv Ha Hq E]; subst p'. cbn [ps_vals] in Hv, Hq.
  rewrite up_eq, o_copy_eq, ps_copy_eq.
  pose proof (up_method _ "copy" Ha ltac:(meth)) as HC. rewrite up_eq in HC. cbn [odict] in HC. rewrite HC.
  change (dget "param_values" _) with (Some (SMap (upd vals))).
  assert (HV : copy_each (upd vals) = rok upd (rmap (fun kv => v <-? value_copy (snd kv) ;; Ok (fst kv, v)) vals)).
  { unfold copy_each, upd, dmap. apply (rmap_up (fun kv : string * value => (fst kv, upv (snd kv)))).
    intros [k v] Hin. cbn [fst snd].
    assert (HW : pval_copy (upv v) = rok upv (value_copy v)).
    { destruct v as [l|l|l|l]; try reflexivity. cbn [upv pval_copy value_copy].
      rewrite (rmap_up up ps_copy o_copy); [now rewrite rbind_rok, rok_rbind|].
      intros q Hin'. eapply IH; [exact Hin|exact Hin'|]. eapply Hq; [exact Hin|exact Hin']. }
    rewrite HW, rbind_rok, rok_rbind. reflexivity. }
  cbv match. rewrite HV, rbind_rok, rok_rbind. apply rbind_ext. intros vals' HV'.
  change (o_attr "n_dimensions" _) with (Ok (A := slot) (SInt n)). cbn [rbind].
  change (o_attr "cache" _) with (Ok (A := slot) (SMap (upd cache))).
  destruct (up_new n vals') as [HN _].
  { apply rmap_ok in HV'. rewrite (copy_keys _ _ HV'). exact Hv. }
  rewrite HN, rbind_rok, rok_rbind. apply rbind_ext. intros [n1 v1 a1 c1] _.
  cbn [rbind rok]. reflexivity.
Qed.

(** * Dictionaries of results *)
Fixpoint upo (o : ovalue) : pout :=
  match o with
  | OInt n => PSlot (SInt n)
  | ONum r => PNum r
  | OArr v => PSlot (SVal (upv v))
  | OList l => PDicts (map (map (fun kv => (fst kv, upo (snd kv)))) l)
  | OAny n => PAny n
  end.
Definition show_pval (key : string) (v : pval) : res pout :=
  match v with
  | VLst ps => l <-? rmap (o_todict key) ps ;; Ok (PDicts l)
  | a => Ok (PSlot (SVal a))
  end.
Fixpoint show_each (name : string) (l : dict pval) (acc : dict pout) : res (dict pout) :=
  match l with
  | [] => Ok acc
  | (k, v) :: t =>
      p <-? show_pval (name ++ "." ++ k) v ;; show_each name t (dset (name ++ "." ++ k) p acc)
  end.
Lemma o_todict_eq name d : o_todict name (Obj d) =
  match dget "todict" d with
  | Some _ => Raise EType
  | None =>
      n <-? o_attr "n_dimensions" (Obj d) ;;
      match dget "param_values" d with
      | Some (SMap vals) => show_each name vals [(name ++ ".n_dimensions", PSlot n)]
      | _ => Raise EAttr
      end
  end.
Proof.
  cbn [o_todict]. destruct (dget "todict" d); [reflexivity|]. apply rbind_ext. intros n _.
  induction d as [|[k s] t IH]; [reflexivity|]. cbn [dget].
  destruct (String.eqb "param_values" k); [|exact IH]. destruct s; try reflexivity. clear IH.
  rename d into vals. generalize [(name ++ ".n_dimensions", PSlot n)].
  induction vals as [|[k' v] t' IH]; intros acc; [reflexivity|].
  cbn [show_each].
  assert (HE : forall key ps, (fix each (q : list pyobj) : res (list (dict pout)) :=
       match q with
       | [] => Ok []
       | x :: r => x' <-? o_todict key x ;; r' <-? each r ;; Ok (x' :: r')
       end) ps = rmap (o_todict key) ps).
  { intros key. induction ps as [|x r IHr]; [reflexivity|]. cbn [rmap]. now rewrite IHr. }
  destruct v; cbn [rbind show_pval]; try apply IH. rewrite HE.
  destruct (rmap (o_todict _) l); cbn [rbind]; auto.
Qed.
Lemma rmap_pure {A B C} (f : A -> B) (h : B -> res C) (g : A -> C) l :
  (forall x, In x l -> h (f x) = Ok (g x)) -> rmap h (map f l) = Ok (map g l).
Proof.
  induction l as [|x l IH]; intros H; [reflexivity|]. cbn [map rmap]. rewrite H by (cbn; auto). cbn [rbind].
  rewrite IH by (intros; apply H; cbn; auto). reflexivity.
Qed.
Lemma up_todict p : free_ps p -> forall name, o_todict name (up p) = Ok (dmap upo (ps_todict name p)).
Proof.
  induction p as [n vals attrs cache IH] using psstate_ind'. intros Hp name.
  inversion Hp as [p' Hv Ha Hq E]; subst p'. cbn [ps_vals] in Hv, Hq.
  rewrite up_eq, o_todict_eq, todict_eq.
  pose proof (up_method _ "todict" Ha ltac:(meth)) as HC. rewrite up_eq in HC. cbn [odict] in HC. rewrite HC.
  change (o_attr "n_dimensions" _) with (Ok (A := slot) (SInt n)). cbn [rbind].
  change (dget "param_values" _) with (Some (SMap (upd vals))).
  change [(name ++ ".n_dimensions", PSlot (SInt n))] with (dmap upo [(name ++ ".n_dimensions", OInt n)]).
  generalize [(name ++ ".n_dimensions", OInt n)].
  assert (HL : forall l, (forall kv, In kv l -> In kv vals) -> forall acc, show_each name (upd l) (dmap upo acc) =
     Ok (dmap upo (fold_left (fun acc kv => dset (name ++ "." ++ fst kv)%string
          (show_value (name ++ "." ++ fst kv) (snd kv)) acc) l acc))).
  { induction l as [|[k v] t IHl]; intros Hin acc; [reflexivity|].
    cbn [upd dmap map fst snd show_each fold_left].
    assert (HW : show_pval (name ++ "." ++ k) (upv v) = Ok (upo (show_value (name ++ "." ++ k) v))).
    { destruct v as [a|a|a|a]; try reflexivity. cbn [upv show_pval show_value].
      rewrite (rmap_pure up (o_todict (name ++ "." ++ k)) (fun q => dmap upo (ps_todict (name ++ "." ++ k) q))).
      - cbn [rbind upo]. rewrite map_map. reflexivity.
      - intros q Hin'. assert (Hkv : In (k, Lst a) vals) by (apply Hin; cbn; auto).
        eapply IH; [exact Hkv|exact Hin'|]. eapply Hq; [exact Hkv|exact Hin']. }
    rewrite HW. cbn [rbind]. change (map (fun kv => (fst kv, upo (snd kv))) acc) with (dmap upo acc).
    change (map (fun kv : string * value => (fst kv, upv (snd kv))) t) with (upd t). rewrite dset_dmap.
    apply IHl. intros; apply Hin; cbn; auto. }
  intros acc. apply HL. auto.
Qed.

(** * States *)
Definition upe (e : ModelState.entry) : sentry := match e with EPS p => NObj (up p) | ENoise d => NNoise d end.
Definition ups (s : state) : sobj :=
  ("param_values", TEnts (dmap upe (st_vals s))) :: ("temperature", TNum (st_temp s)) ::
  ("cache", TCache (st_cache s)) :: ("extra_storage", TExtra (dmap upo (st_extra s))) ::
  dmap (fun e => TEnt (upe e)) (st_attrs s).
Definition sfree (k : string) : Prop := ~ In k st_reserved.
Definition sattrs_free (s : state) : Prop := forall k, In k (dkeys (st_attrs s)) -> sfree k.
Lemma sfree_refuses k : sfree k -> py_refuses k = None.
Proof.
  intros H. apply refuses_spec. intros Hk. apply H. unfold st_reserved. rewrite !in_app_iff. auto.
Qed.
Lemma ups_method s m : sattrs_free s -> In m st_methods -> dget m (ups s) = None.
Proof.
  intros H Hm. assert (HA : dget m (dmap (fun e => TEnt (upe e)) (st_attrs s)) = None).
  { apply dget_none_keys. rewrite dkeys_dmap. intros Hk. apply (H _ Hk). unfold st_reserved. rewrite !in_app_iff. auto. }
  unfold ups. cbn [dget].
  cbn in Hm. repeat (destruct Hm as [<-|Hm]; [exact HA|]). destruct Hm.
Qed.
Lemma ups_call {A} s m (b : res A) : sattrs_free s -> In m st_methods -> t_call m (ups s) b = b.
Proof. intros H Hm. unfold t_call. now rewrite ups_method. Qed.
Ltac smeth := cbn [In st_methods]; tauto.
Lemma ups_set k e s : sfree k -> sattrs_free s -> t_set k (upe e) (ups s) = Ok (ups (st_set k e s)).
Proof.
  intros Hk Hs. unfold t_set. rewrite ups_call by (auto; smeth).
  change (t_attr "param_values" (ups s)) with (Ok (A := sslot) (TEnts (dmap upe (st_vals s)))). cbn [rbind].
  unfold t_setattr. rewrite sfree_refuses by exact Hk. f_equal.
  assert (HN : forall m, In m st_fields -> k <> m).
  { intros m Hm ->. apply Hk. unfold st_reserved. rewrite !in_app_iff. auto. }
  unfold ups at 1, ups, st_set. cbn [st_vals st_attrs st_temp st_cache st_extra].
  cbn [dset String.eqb Ascii.eqb Bool.eqb].
  destruct (String.eqb_spec k "param_values") as [E|E]; [exfalso; revert E; apply HN; cbn; auto|].
  destruct (String.eqb_spec k "temperature") as [E1|E1]; [exfalso; revert E1; apply HN; cbn; auto|].
  destruct (String.eqb_spec k "cache") as [E2|E2]; [exfalso; revert E2; apply HN; cbn; auto|].
  destruct (String.eqb_spec k "extra_storage") as [E3|E3]; [exfalso; revert E3; apply HN; cbn; auto|].
  rewrite dset_dmap, (dset_dmap (fun e => TEnt (upe e))). reflexivity.
Qed.
Lemma st_set_attrs k e s : sfree k -> sattrs_free s -> sattrs_free (st_set k e s).
Proof.
  intros Hk Hp k' H'. cbn [st_set st_attrs] in H'.
  destruct (String.eqb_spec k' k) as [E|E]; [now subst|]. apply Hp.
  apply dget_keys in H'. destruct H' as [w Hw]. rewrite dget_dset_other in Hw by exact E.
  eapply in_dkeys. eapply dget_some_in. exact Hw.
Qed.
Lemma ups_post todo : forall s, (forall k, In k (dkeys todo) -> sfree k) -> sattrs_free s ->
  t_post_init (dmap upe todo) (ups s) = Ok (ups (fold_left (fun s ke => st_set (fst ke) (snd ke) s) todo s)) /\
  sattrs_free (fold_left (fun s ke => st_set (fst ke) (snd ke) s) todo s).
Proof.
  induction todo as [|[k e] t IH]; intros s Hk Hs; [split; auto|].
  cbn [dmap map fst snd t_post_init fold_left]. rewrite ups_set; [|apply Hk; now left|exact Hs]. cbn [rbind].
  apply IH; [intros k' H'; apply Hk; now right|]. apply st_set_attrs; [apply Hk; now left|exact Hs].
Qed.
Lemma ups_new vals t cache : (forall k, In k (dkeys vals) -> sfree k) ->
  t_new (dmap upe vals) (TNum t) cache = Ok (ups (mk_state vals t cache)) /\ sattrs_free (mk_state vals t cache).
Proof. intros H. apply (ups_post vals (mkState vals [] t cache [])); [exact H|]. intros k []. Qed.

Definition free_state (s : state) : Prop :=
  (forall k, In k (dkeys (st_vals s)) -> sfree k) /\ sattrs_free s /\
  (forall k p, In (k, EPS p) (st_vals s) -> free_ps p).
Lemma ups_copy b s : free_state s -> t_copy b (ups s) = rok ups (st_copy b s).
Proof.
  intros (Hk & Ha & Hp). unfold t_copy. rewrite ups_call by (auto; smeth).
  change (t_attr "param_values" (ups s)) with (Ok (A := sslot) (TEnts (dmap upe (st_vals s)))).
  change (t_attr "temperature" (ups s)) with (Ok (A := sslot) (TNum (st_temp s))).
  change (t_attr "cache" (ups s)) with (Ok (A := sslot) (TCache (st_cache s))).
  cbn [rbind]. unfold st_copy.
  assert (HV : rmap (fun ke => e <-? sentry_copy (snd ke) ;; Ok (fst ke, e)) (dmap upe (st_vals s)) =
               rok (dmap upe) (rmap (fun ke => e <-? entry_copy (snd ke) ;; Ok (fst ke, e)) (st_vals s))).
  { unfold dmap. apply (rmap_up (fun kv : string * ModelState.entry => (fst kv, upe (snd kv)))).
    intros [k e] Hin. cbn [fst snd].
    assert (HW : sentry_copy (upe e) = rok upe (entry_copy e)).
    { destruct e as [p|d]; [|reflexivity]. cbn [upe sentry_copy entry_copy].
      rewrite up_copy by (eapply Hp; exact Hin). now rewrite rbind_rok, rok_rbind. }
    rewrite HW, rbind_rok, rok_rbind. reflexivity. }
  rewrite HV, rbind_rok, rok_rbind. apply rbind_ext. intros vals' HV'.
  assert (HK : dkeys vals' = dkeys (st_vals s)).
  { apply rmap_ok in HV'. unfold dkeys. symmetry. eapply Forall2_map_eq; [exact HV'|].
    intros a c _ E. apply rbind_ok in E. destruct E as (v & _ & [= <-]). reflexivity. }
  cbn [rok]. destruct b; cbn [rbind]; apply ups_new; rewrite HK; exact Hk.
Qed.
Lemma dupdate_dmap {A B} (f : A -> B) d' : forall d, dupdate (dmap f d) (dmap f d') = dmap f (dupdate d d').
Proof.
  unfold dupdate. induction d' as [|[k v] t IH]; intros d; [reflexivity|]. cbn [dmap map fst snd fold_left].
  rewrite dset_dmap. apply IH.
Qed.
Lemma ups_items s : free_state s -> t_items (ups s) = Ok (dmap upo (st_items s)).
Proof.
  intros (Hk & Ha & Hp). unfold t_items, t_vars. rewrite !ups_call by (auto; smeth).
  change (t_attr "param_values" (ups s)) with (Ok (A := sslot) (TEnts (dmap upe (st_vals s)))).
  change (t_attr "extra_storage" (ups s)) with (Ok (A := sslot) (TExtra (dmap upo (st_extra s)))).
  cbn [rbind].
  assert (HL : forall l, (forall k p, In (k, EPS p) l -> free_ps p) -> forall acc,
     t_vars_loop (dmap upe l) (dmap upo acc) =
     Ok (dmap upo (fold_left (fun acc ke => dupdate acc
        match snd ke with
        | EPS p => ps_todict (fst ke) p
        | ENoise d => noise_todict (fst ke) d
        end) l acc))).
  { induction l as [|[k e] t IH]; intros Hl acc; [reflexivity|].
    cbn [dmap map fst snd t_vars_loop fold_left].
    assert (HW : match upe e with NObj o => o_todict k o | NNoise d => Ok (n_todict k d) end =
                 Ok (dmap upo match e with EPS p => ps_todict k p | ENoise d => noise_todict k d end)).
    { destruct e as [p|d]; cbn [upe]; [apply up_todict; eapply Hl; now left|].
      unfold n_todict, noise_todict. destruct (dn_corr d); reflexivity. }
    rewrite HW. cbn [rbind].
    change (map (fun kv => (fst kv, upo (snd kv))) acc) with (dmap upo acc).
    change (map (fun kv : string * ModelState.entry => (fst kv, upe (snd kv))) t) with (dmap upe t).
    rewrite dupdate_dmap. apply IH. intros; eapply Hl; right; eauto. }
  specialize (HL (st_vals s) Hp []). change (dmap upo []) with (@nil (string * pout)) in HL.
  rewrite HL. cbn [rbind]. f_equal. unfold st_items. apply dupdate_dmap.
Qed.
