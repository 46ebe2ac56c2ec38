(** Which objects the result of a move can refer to: those that the state before refers to, and
    new ones. *)
From Verif Require Import Base ModelUtils1D ModelPrior ModelState ModelSpace ModelChain ModelPerturb ModelLikelihood ModelHeap
  SpecState SpecHeap SpecRefine ProofInversion ProofState ProofSpace ProofNested ProofStep ProofHeapB ProofRefine ProofRefineE.
Local Open Scope nat_scope.

Section Closed.
Variable G : loc -> Prop.
Variable n1 : nat.
Hypothesis Gnew : forall l, n1 <= l -> G l.

Definition gd_d (d : dict loc) : Prop := Forall (fun kb => G (snd kb)) d.
Definition gd_a (d : dict loc) : Prop := forall k b, dget k d = Some b -> G b.
Definition gd_o (o : obj) : Prop :=
  match o with
  | HObj l | HLst l => Forall G l
  | HDict d => gd_d d
  | HPS _ d al _ => G d /\ gd_a al
  | _ => True
  end.
Definition closed (h : heap) : Prop := forall l o, G l -> nth_error h l = Some o -> gd_o o.
Definition gd {A} (m : HM A) (Q : A -> Prop) : Prop := forall h tr, closed h -> n1 <= length h ->
  closed (snd (m h tr)) /\ n1 <= length (snd (m h tr)) /\ forall a tr', fst (m h tr) = Ret a tr' -> Q a.
Definition yes {A} (_ : A) : Prop := True.

Lemma gd_weaken {A} (m : HM A) (Q Q' : A -> Prop) : gd m Q -> (forall a, Q a -> Q' a) -> gd m Q'.
Proof. intros H K h tr C L. destruct (H h tr C L) as (C' & L' & F). repeat split; eauto. Qed.
Lemma gd_yes {A} (m : HM A) Q : gd m Q -> gd m yes.
Proof. intros H. eapply gd_weaken; [exact H|]. intros; exact I. Qed.
Lemma gd_bind {A B} (m : HM A) (f : A -> HM B) Q S : gd m Q -> (forall a, Q a -> gd (f a) S) -> gd (hbind m f) S.
Proof.
  intros H K h tr C L. destruct (H h tr C L) as (C' & L' & F). unfold hbind.
  destruct (m h tr) as [[a t|e t| |] h'] eqn:E; cbn in *; try (repeat split; auto; discriminate).
  exact (K a (F a t eq_refl) h' t C' L').
Qed.
Lemma gd_ret {A} (a : A) (Q : A -> Prop) : Q a -> gd (hret a) Q.
Proof. intros H h tr C L. cbn. repeat split; auto. now intros a' tr' [= <- _]. Qed.
Lemma gd_do {A} (m : M A) : gd (hdo m) yes.
Proof. intros h tr C L. cbn. repeat split; auto. Qed.
Lemma gd_false {A} (m : M A) Q : (forall tr a tr', m tr <> Ret a tr') -> gd (hdo m) Q.
Proof. intros H h tr C L. cbn. repeat split; auto. intros a tr' E. now apply H in E. Qed.
Lemma gd_ubeh {A} Q : gd (A := A) (hdo ubeh) Q.
Proof. apply gd_false. discriminate. Qed.
Lemma gd_err {A} e Q : gd (A := A) (hdo (err e)) Q.
Proof. apply gd_false. discriminate. Qed.
Lemma gd_hlift {A} (r : res A) : gd (hlift r) yes.
Proof. apply gd_do. Qed.
Lemma gd_load a : G a -> gd (load a) gd_o.
Proof.
  intros Ha h tr C L. cbn. repeat split; auto. intros o tr'. destruct (nth_error h a) eqn:E; [|discriminate].
  intros [= <- _]. eapply C; eauto.
Qed.
Lemma gd_alloc o : gd_o o -> gd (alloc o) G.
Proof.
  intros Ho h tr C L. cbn. rewrite app_length. repeat split; try lia.
  - intros l x Hl E. destruct (Nat.lt_ge_cases l (length h)) as [K|K].
    + rewrite nth_error_app1 in E by auto. eapply C; eauto.
    + rewrite nth_error_app2 in E by auto. destruct (l - length h) as [|[|]]; cbn in E; try discriminate. now injection E as <-.
  - intros a tr' [= <- _]. now apply Gnew.
Qed.
Lemma gd_store a o : gd_o o -> gd (store a o) yes.
Proof.
  intros Ho h tr C L. unfold store. destruct (Nat.ltb_spec a (length h)) as [La|La]; cbn; [|repeat split; auto].
  rewrite set_nth_length by auto. repeat split; auto.
  intros l x Hl E. rewrite nth_set_nth in E by auto. destruct (Nat.eqb_spec l a); [|eapply C; eauto]. now injection E as <-.
Qed.
Lemma gd_view_ps a : gd (view_ps a) yes.
Proof. intros h tr C L. cbn. repeat split; auto. Qed.
Lemma gd_load_ps a : G a -> gd (load_ps a) (fun '(_, d, al, _) => G d /\ gd_a al).
Proof.
  intros Ha. unfold load_ps. eapply gd_bind; [now apply gd_load|]. intros [] Ho; try apply gd_ubeh. apply gd_ret. exact Ho.
Qed.
Lemma gd_load_dict a : G a -> gd (load_dict a) gd_d.
Proof.
  intros Ha. unfold load_dict. eapply gd_bind; [now apply gd_load|]. intros [] Ho; try apply gd_ubeh. apply gd_ret. exact Ho.
Qed.
Lemma gd_d_get d k b : gd_d d -> dget k d = Some b -> G b.
Proof.
  intros F. induction F as [|[k1 b1] l H F IH]; cbn [dget]; [discriminate|]. destruct (k =? k1)%string; [|exact IH].
  now intros [= <-].
Qed.
Lemma gd_d_set d k b : gd_d d -> G b -> gd_d (dset k b d).
Proof.
  intros F Hb. induction F as [|[k1 b1] l H F IH]; cbn [dset]; [repeat constructor; auto|].
  destruct (k =? k1)%string; constructor; auto.
Qed.
Lemma gd_a_set d k b : gd_a d -> G b -> gd_a (dset k b d).
Proof.
  intros F Hb k' b' E. destruct (String.eqb_spec k' k) as [->|Hn].
  - rewrite dget_dset_same in E. now injection E as <-.
  - rewrite dget_dset_other in E by auto. eauto.
Qed.
Lemma gd_d_update d e : gd_d e -> gd_d d -> gd_d (dupdate d e).
Proof.
  unfold dupdate. intros F. revert d. induction F as [|[k1 b1] l H F IH]; intros d D; cbn; [exact D|]. apply IH. now apply gd_d_set.
Qed.
Lemma gd_d_attrs d : gd_d d -> gd_a d.
Proof. intros H k b. now apply gd_d_get. Qed.
Lemma gd_get k a : G a -> gd (h_get k a) (fun ob => match ob with Some b => G b | None => True end).
Proof.
  intros Ha. unfold h_get. eapply gd_bind; [now apply gd_load_ps|]. intros [[[n d] al] c] [Hd _].
  eapply gd_bind; [now apply gd_load_dict|]. intros dl Hl. apply gd_ret. destruct (dget k dl) eqn:E; [|exact I]. eapply gd_d_get; eauto.
Qed.
Lemma gd_len b : G b -> gd (h_len b) yes.
Proof. intros Hb. unfold h_len. eapply gd_bind; [now apply gd_load|]. intros [] _; try apply gd_ubeh; now apply gd_ret. Qed.
Lemma gd_set k b a : G a -> G b -> gd (h_set k b a) yes.
Proof.
  intros Ha Hb. unfold h_set. eapply gd_bind; [now apply gd_load|].
  assert (K : gd ('(n, d, at_, c) <~ load_ps a ;; dl <~ load_dict d ;;
      _ <~ store d (HDict (dset k b dl)) ;; store a (HPS n d (dset k b at_) c)) yes).
  { eapply gd_bind; [now apply gd_load_ps|]. intros [[[n d] al] c] [Hd Hal]. eapply gd_bind; [now apply gd_load_dict|].
    intros dl Hl. eapply gd_bind; [apply gd_store; cbn; now apply gd_d_set|]. intros _ _. apply gd_store.
    split; [exact Hd|now apply gd_a_set]. }
  intros [l|l|l|l|l|m l p q|l|u v x y z] Ho; try apply gd_err; try exact K. destruct l; [apply gd_err|exact K].
Qed.
Lemma gd_post_init todo n a : G a -> gd_d todo -> gd (h_post_init todo n a) yes.
Proof.
  intros Ha F. induction F as [|[k b] t Hb F IH]; [now apply gd_ret|]. cbn [h_post_init].
  eapply gd_bind; [now apply gd_len|]. intros m _. destruct (negb _); [apply gd_err|].
  eapply gd_bind; [now apply gd_set|]. intros _ _. exact IH.
Qed.
Lemma gd_mk_ps n d : G d -> gd (h_mk_ps n d) G.
Proof.
  intros Hd. unfold h_mk_ps. eapply gd_bind; [now apply gd_load_dict|]. intros dl Hl.
  eapply gd_bind; [apply gd_alloc; split; [exact Hd|intros k b; discriminate]|]. intros a Ha.
  eapply gd_bind; [now apply gd_post_init|]. intros _ _. now apply gd_ret.
Qed.
Lemma gd_hmap {A B} (f : A -> HM B) P Q l : Forall P l -> (forall x, P x -> gd (f x) Q) -> gd (hmap f l) (Forall Q).
Proof.
  intros F Hf. induction F as [|x t Hx F IH]; [apply gd_ret; constructor|]. cbn [hmap].
  eapply gd_bind; [now apply Hf|]. intros y Hy. eapply gd_bind; [exact IH|]. intros ys Hys. apply gd_ret. now constructor.
Qed.
Lemma gd_copy fuel : forall a, G a -> gd (h_copy fuel a) G.
Proof.
  induction fuel as [|f IH]; intros a Ha; [apply gd_ubeh|]. cbn [h_copy].
  eapply gd_bind; [now apply gd_load_ps|]. intros [[[n d] al] c] [Hd Hal]. eapply gd_bind; [now apply gd_load_dict|]. intros dl Hl.
  eapply gd_bind.
  { eapply gd_hmap with (Q := fun kb => G (snd kb)); [exact Hl|]. cbn. intros [k b] Hb. cbn in Hb |- *.
    eapply gd_bind; [now apply gd_load|]. intros o Ho. eapply gd_bind with (Q := G); [|intros b' Hb'; now apply gd_ret].
    destruct o; try apply gd_ubeh; try (apply gd_alloc; exact Ho).
    eapply gd_bind; [eapply gd_hmap; [exact Ho|exact IH]|]. intros l' Hl'. now apply gd_alloc. }
  cbn. intros dl' Hl'. eapply gd_bind; [now apply gd_alloc|]. intros d' Hd'.
  eapply gd_bind; [now apply gd_mk_ps|]. intros a' Ha'. eapply gd_bind; [now apply gd_load_ps|]. intros [[[n' e] at_] c'] [He Hat].
  eapply gd_bind; [apply gd_store; split; auto|]. intros _ _. now apply gd_ret.
Qed.
Lemma gd_copy_ps a : G a -> gd (copy_ps a) G.
Proof. intros Ha h tr. exact (gd_copy (length h) a Ha h tr). Qed.
Lemma gd_new p : gd (h_new p) G.
Proof.
  induction p as [n vals attrs cache IH] using psstate_ind'. cbn [h_new].
  assert (K : forall l, (forall x, In x l -> gd (h_new x) G) ->
    gd ((fix all (q : list psstate) : HM (list loc) := match q with
       | [] => hret [] | x :: r => y <~ h_new x ;; ys <~ all r ;; hret (y :: ys) end) l) (Forall G)).
  { induction l as [|x r IHl]; intros Hl; [apply gd_ret; constructor|].
    eapply gd_bind; [apply Hl; now left|]. intros y Hy. eapply gd_bind; [apply IHl; intros; apply Hl; now right|].
    intros ys Hys. apply gd_ret. now constructor. }
  eapply gd_bind with (Q := gd_d).
  - induction vals as [|[k v] t IHt]; [apply gd_ret; constructor|].
    eapply gd_bind with (Q := G).
    + destruct v; try (apply gd_alloc; exact I).
      * eapply gd_bind; [apply K; intros x Hx; eapply IH; [left; reflexivity|exact Hx]|]. intros ls Hls. now apply gd_alloc.
      * eapply gd_bind; [apply K; intros x Hx; eapply IH; [left; reflexivity|exact Hx]|]. intros ls Hls. now apply gd_alloc.
    + intros b Hb. eapply gd_bind; [apply IHt; intros; eapply IH; [right; eassumption|assumption]|].
      intros r Hr. apply gd_ret. now constructor.
  - intros dl Hl. eapply gd_bind; [now apply gd_alloc|]. intros d Hd. apply gd_alloc. split; [exact Hd|now apply gd_d_attrs].
Qed.

(** ** Moves *)
Definition gd_l (x : loc * ext) : Prop := G (fst x).
Ltac gc := cbn beta in *; unfold gd_l in *; cbn [fst snd] in *;
  repeat match goal with
  | H : _ /\ _ |- _ => destruct H
  | x : prod _ _ |- _ => destruct x
  end; cbn [fst snd] in *.
Hint Resolve gd_load gd_alloc gd_do gd_hlift gd_load_ps gd_load_dict gd_len gd_get gd_view_ps gd_copy_ps gd_new gd_mk_ps : gdb.
Hint Unfold gd_l yes : gdb.
Ltac gstep := match goal with
  | |- gd (hret _) _ => apply gd_ret; unfold gd_l, yes; cbn; auto
  | |- gd (hdo ubeh) _ => apply gd_ubeh
  | |- gd (hdo (err _)) _ => apply gd_err
  | |- gd (hbind _ _) _ => eapply gd_bind; [solve [eauto with gdb]|intros ? ?; gc]
  | |- gd (match ?x with _ => _ end) _ => destruct x
  | |- gd (hdo _) _ => solve [eauto using gd_yes, gd_do with gdb]
  | |- gd _ _ => solve [eauto with gdb]
  end.
Ltac gg := repeat gstep.
Lemma Forall_firstn {A} (P : A -> Prop) i l : Forall P l -> Forall P (firstn i l).
Proof. intros F. revert i. induction F; intros [|i]; cbn; auto. Qed.
Lemma Forall_skipn {A} (P : A -> Prop) i l : Forall P l -> Forall P (skipn i l).
Proof. intros F. revert i. induction F; intros [|i]; cbn; auto. Qed.
Lemma Forall_pick {A} (P : A -> Prop) l is l' : Forall P l -> pick l is = Ok l' -> Forall P l'.
Proof.
  intros F. unfold pick. revert l'. induction is as [|i is IH]; intros l' E; cbn in E; [injection E as <-; constructor|].
  apply rbind_ok in E. destruct E as (x & Ex & E). apply rbind_ok in E. destruct E as (t & Et & E). injection E as <-.
  constructor; [|now apply IH]. unfold idx in Ex. destruct (nth_error l i) eqn:En; [|discriminate]. injection Ex as <-.
  apply nth_error_In in En. rewrite Forall_forall in F. auto.
Qed.
Lemma gd_insert i x b : G b -> gd (h_insert i x b) G.
Proof.
  intros Hb. unfold h_insert. eapply gd_bind; [now apply gd_load|]. intros o Ho.
  destruct o, x; gg; try (apply gd_alloc; exact I). apply gd_alloc. cbn in *. unfold list_insert.
  apply Forall_app. split; [now apply Forall_firstn|]. constructor; auto. now apply Forall_skipn.
Qed.
Lemma gd_delete i b : G b -> gd (h_delete i b) G.
Proof.
  intros Hb. unfold h_delete. eapply gd_bind; [now apply gd_load|]. intros o Ho.
  destruct o; gg; try (apply gd_alloc; exact I). apply gd_alloc. cbn in *. unfold list_delete.
  apply Forall_app. split; [now apply Forall_firstn|now apply Forall_skipn].
Qed.
Lemma gd_append x b : G b -> gd (h_append x b) G.
Proof.
  intros Hb. unfold h_append. eapply gd_bind; [now apply gd_load|]. intros o Ho.
  destruct o, x; gg; try (apply gd_alloc; exact I). apply gd_alloc. cbn in *. apply Forall_app. split; auto.
Qed.
Lemma gd_vor_delete c i b : G b -> gd (h_vor_delete c i b) G.
Proof.
  intros Hb. unfold h_vor_delete. destruct c; try now apply gd_delete.
  eapply gd_bind; [now apply gd_load|]. intros o Ho.
  assert (K : forall A P (l : list A), Forall P l -> Forall P (list_delete i l)).
  { intros A P l F. unfold list_delete. apply Forall_app. split; [now apply Forall_firstn|now apply Forall_skipn]. }
  destruct o; gg; try (apply gd_alloc; exact I); apply gd_alloc; cbn in *; now apply K.
Qed.
Lemma gd_reorder is b : G b -> gd (h_reorder is b) G.
Proof.
  intros Hb. unfold h_reorder. eapply gd_bind; [now apply gd_load|]. intros o Ho.
  assert (K : forall l, Forall G l -> gd (hlift (pick l is)) (Forall G)).
  { intros l F h tr C L. cbn. repeat split; auto. intros a tr'. unfold lift. destruct (pick l is) eqn:E; try discriminate.
    intros [= <- _]. eapply Forall_pick; eauto. }
  destruct o; try apply gd_ubeh; try (eapply gd_bind; [apply gd_hlift|]; intros l' _; now apply gd_alloc);
    (eapply gd_bind; [apply K; exact Ho|]); intros l' Hl'; now apply gd_alloc.
Qed.
Lemma gd_add_kdtree c a : G a -> gd (h_add_kdtree c a) G.
Proof.
  intros Ha. unfold h_add_kdtree. destruct c as [| |? ? ? ? ? [] ?]; gg.
  eapply gd_bind; [apply gd_store; split; auto|]. intros _ _. now apply gd_ret.
Qed.
Hint Resolve gd_insert gd_delete gd_append gd_vor_delete gd_reorder gd_add_kdtree : gdb.
Lemma gd_plain_birth_vals params i l : gd_d l -> gd (h_plain_birth_vals params i l) gd_d.
Proof.
  intros F. induction F as [|[k b] t Hb F IH]; [apply gd_ret; constructor|]. cbn in Hb. cbn [h_plain_birth_vals]. gg.
  constructor; auto.
Qed.
Hint Resolve gd_plain_birth_vals : gdb.
Lemma gd_plain_birth s a : G a -> gd (h_plain_birth s a) gd_l.
Proof. intros Ha. unfold h_plain_birth. gg. Qed.
Lemma gd_map_d (f : loc -> HM loc) dl : gd_d dl -> (forall b, G b -> gd (f b) G) ->
  gd (hmap (fun kb => b <~ f (snd kb) ;; hret (fst kb, b)) dl) gd_d.
Proof.
  intros Hl Hf. eapply gd_hmap; [exact Hl|]. cbn. intros [k b] Hb. cbn in *. eapply gd_bind; [now apply Hf|].
  intros b' Hb'. now apply gd_ret.
Qed.
Lemma gd_plain_death s a : G a -> gd (h_plain_death s a) gd_l.
Proof.
  intros Ha. unfold h_plain_death. gg. eapply gd_bind; [apply gd_map_d; eauto with gdb|]. intros dl' Hl'. gg.
Qed.
Lemma gd_add_newborns put a l : G a -> (forall x b, G b -> gd (put x b) G) ->
  forall acc, gd_d acc -> gd (h_add_newborns put a l acc) gd_d.
Proof.
  intros Ha Hp. induction l as [|[k x] t IH]; intros acc Hacc; [now apply gd_ret|]. cbn [h_add_newborns].
  eapply gd_bind; [now apply gd_get|]. intros ob Hob. eapply gd_bind with (Q := G); [destruct ob; gg; now apply Hp|].
  intros b Hb. apply IH. now apply gd_d_set.
Qed.
Lemma gd_vor_birth s a : G a -> gd (h_vor_birth s a) gd_l.
Proof.
  intros Ha. unfold h_vor_birth. eapply gd_bind; [now apply gd_load_ps|]. intros [[[n d] al] c] [Hd Hal].
  eapply gd_bind with (Q := gd_l); [|intros [q r] Hq; gg].
  destruct (n =? sp_max s); [now apply gd_ret|].
  eapply gd_bind; [apply gd_do|]. intros x _. eapply gd_bind; [apply gd_view_ps|]. intros old _.
  eapply gd_bind; [apply gd_do|]. intros [born l] _. eapply gd_bind; [now apply gd_get|]. intros ob Hob.
  eapply gd_bind with (Q := gd_d); [|intros dl Hdl; gg].
  destruct x as [y|y], ob as [b|]; gg.
  - apply gd_add_newborns; auto with gdb. repeat constructor; auto.
  - apply gd_add_newborns; auto with gdb. repeat constructor; auto.
Qed.
Lemma gd_vor_death s a : G a -> gd (h_vor_death s a) gd_l.
Proof.
  intros Ha. unfold h_vor_death. eapply gd_bind; [now apply gd_load_ps|]. intros [[[n d] al] c] [Hd Hal].
  eapply gd_bind with (Q := gd_l); [|intros [q r] Hq; gg].
  destruct (n =? sp_min s); [now apply gd_ret|]. gg.
  eapply gd_bind; [apply gd_map_d; eauto with gdb|]. intros dl' Hl'. gg.
Qed.
Lemma gd_copy_arr b : G b -> gd (h_copy_arr b) G.
Proof. intros Hb. unfold h_copy_arr. eapply gd_bind; [now apply gd_load|]. intros [] Ho; try apply gd_ubeh; now apply gd_alloc. Qed.
Lemma gd_put_num b i x : G b -> gd (h_put_num b i x) yes.
Proof.
  intros Hb. unfold h_put_num. eapply gd_bind; [now apply gd_load|]. intros [] Ho; gg. now apply gd_store.
Qed.
Lemma gd_put_row b i x : G b -> gd (h_put_row b i x) yes.
Proof.
  intros Hb. unfold h_put_row. eapply gd_bind; [now apply gd_load|]. intros [] Ho; gg. now apply gd_store.
Qed.
Hint Resolve gd_copy_arr gd_put_num gd_put_row : gdb.
Lemma gd_perturb_value_loop params a i x x' put : G a -> (forall b, G b -> gd (put b) G) ->
  forall vals acc, gd_d vals -> gd (h_perturb_value_loop params a i x x' put vals acc) (fun y => gd_d (fst y)).
Proof.
  intros Ha Hp. induction params as [|[k pr] t IH]; intros vals acc Hv; [now apply gd_ret|]. cbn [h_perturb_value_loop].
  eapply gd_bind; [now apply gd_get|]. intros ob Hob. eapply gd_bind with (Q := yes); [gg|]. intros acc' _.
  eapply gd_bind with (Q := G); [destruct ob; gg; now apply Hp|]. intros b Hb. apply IH. now apply gd_d_set.
Qed.
Lemma gd_perturb_value s a i : G a -> gd (h_perturb_value s a i) gd_l.
Proof.
  intros Ha. unfold h_perturb_value. gg. eapply gd_bind with (Q := fun y => gd_d (fst y)); [|intros [dl r] Hl; gg].
  match goal with H : match ?ob with _ => _ end |- _ => destruct ob as [b|]; [|gg] end.
  eapply gd_bind; [now apply gd_copy_arr|]. intros e He. gg.
  - apply gd_perturb_value_loop; auto with gdb. repeat constructor; auto.
  - apply gd_perturb_value_loop; auto with gdb. 
    + intros b0 Hb0. now apply gd_ret.
    + repeat constructor; auto.
Qed.
Lemma gd_perturb_params i l a : G a -> forall new acc, gd_d new -> gd (h_perturb_params l a i new acc) gd_l.
Proof.
  intros Ha. induction l as [|[pr|s] t IH]; intros new acc Hn; cbn [h_perturb_params].
  - eapply gd_bind; [now apply gd_copy_ps|]. intros c Hc. eapply gd_bind; [now apply gd_load_ps|]. intros [[[n d] al] cl] [Hd Hal].
    eapply gd_bind; [now apply gd_load_dict|]. intros dl Hl. eapply gd_bind; [apply gd_store; now apply gd_d_update|].
    intros _ _. now apply gd_ret.
  - eapply gd_bind; [now apply gd_get|]. intros [b|] Hb; [|gg]. gg. apply IH. now apply gd_d_set.
  - destruct (is_disc s); [now apply gd_perturb_value|gg].
Qed.
Lemma gd_elem e a : G a -> gd (h_elem_perturb e a) gd_l.
Proof.
  intros Ha. destruct e; cbn [h_elem_perturb].
  - unfold h_birth. destruct (is_disc s); [now apply gd_vor_birth|now apply gd_plain_birth].
  - unfold h_death. destruct (is_disc s); [now apply gd_vor_death|now apply gd_plain_death].
  - unfold h_param_perturb. gg. apply gd_perturb_params; auto. constructor.
Qed.
Lemma gd_psp_ps q a : G a -> gd (h_psp_ps q a) (fun x => G (fst (fst x))).
Proof.
  intros Ha. unfold h_psp_ps. gg. eapply gd_bind; [now apply gd_elem|]. intros [a9 r9] Ha9. now apply gd_ret.
Qed.
Lemma gd_walk_list q target vs : Forall G vs -> forall i ratio stats,
  gd (h_walk_list q target vs i ratio stats) (fun x => Forall G (fst (fst (fst x)))).
Proof.
  intros F. induction F as [|v t Hv F IH]; intros i ratio stats; [apply gd_ret; constructor|]. cbn [h_walk_list].
  destruct (i =? target).
  - eapply gd_bind; [now apply gd_psp_ps|]. intros [[v' r] ty] Hv'. eapply gd_bind; [apply IH|].
    intros [[[t' i'] ratio'] stats'] Ht. apply gd_ret. constructor; auto.
  - eapply gd_bind; [now apply gd_copy_ps|]. intros v' Hv'. eapply gd_bind; [apply IH|].
    intros [[[t' i'] ratio'] stats'] Ht. apply gd_ret. constructor; auto.
Qed.
End Closed.
