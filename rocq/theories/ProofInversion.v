(** Proofs about ModelInversion.v. *)
From Verif Require Import Base ModelChain ModelInversion SpecInversion.
Local Open Scope R_scope.

(** ** Dictionaries *)
Lemma dget_dset_same {A} k (v : A) d : dget k (dset k v d) = Some v.
Proof.
  induction d as [|[k' v'] t IH]; cbn [dset dget].
  - now rewrite String.eqb_refl.
  - destruct (String.eqb_spec k k') as [->|Hn]; cbn [dget].
    + now rewrite String.eqb_refl.
    + destruct (String.eqb_spec k k'); [easy|auto].
Qed.
Lemma dget_dset_other {A} k k1 (v : A) d : k1 <> k -> dget k1 (dset k v d) = dget k1 d.
Proof.
  intros Hn. induction d as [|[k' v'] t IH]; cbn [dset dget].
  - now destruct (String.eqb_spec k1 k).
  - destruct (String.eqb_spec k k') as [->|Hn']; cbn [dget].
    + now destruct (String.eqb_spec k1 k').
    + destruct (String.eqb_spec k1 k'); auto.
Qed.
Lemma dget_none_keys {A} k (d : dict A) : dget k d = None <-> ~ In k (dkeys d).
Proof.
  induction d as [|[k' v'] t IH]; cbn; [tauto|].
  destruct (String.eqb_spec k k') as [->|Hn]; [split; [discriminate|tauto]|].
  rewrite IH. split; [intros H [H1|H1]; [congruence|tauto]|tauto].
Qed.
Lemma dset_keys {A} k (v : A) d :
  dkeys (dset k v d) = if dmem k d then dkeys d else dkeys d ++ [k].
Proof.
  unfold dmem, dkeys. induction d as [|[k' v'] t IH]; cbn; auto.
  destruct (String.eqb_spec k k') as [->|Hn]; cbn; auto.
  rewrite IH. now destruct (dget k t).
Qed.
Lemma dset_nodup {A} k (v : A) d : NoDup (dkeys d) -> NoDup (dkeys (dset k v d)).
Proof.
  intros H. rewrite dset_keys. unfold dmem. destruct (dget k d) eqn:E; auto.
  apply dget_none_keys in E. apply NoDup_rev in H.
  rewrite <- (rev_involutive (dkeys d ++ [k])). apply NoDup_rev.
  rewrite rev_app_distr. cbn. constructor; auto. now rewrite <- in_rev.
Qed.
Lemma dget_in {A} k (v : A) d : dget k d = Some v -> In (k, v) d.
Proof.
  induction d as [|[k' v'] t IH]; cbn; [discriminate|].
  destruct (String.eqb_spec k k') as [->|Hn]; [intros [= ->]; auto|auto].
Qed.
Lemma dget_in_nodup {A} k (v : A) d : NoDup (dkeys d) -> In (k, v) d -> dget k d = Some v.
Proof.
  intros Hn. induction d as [|[k' v'] t IH]; cbn in *; [tauto|]. inversion Hn; subst.
  intros [[= -> ->]|H].
  - now rewrite String.eqb_refl.
  - destruct (String.eqb_spec k k') as [->|Hk]; auto.
    exfalso. apply H1. change (In k' (dkeys t)). unfold dkeys. apply in_map_iff. now exists (k', v).
Qed.

(** ** collect_pairs *)
Section Pairs.
Context {fn value : Type}.
Notation func := (func fn value).

Definition idx_of (n : string) (fs : list func) : list nat :=
  filter (at_index (fun f => match bd_space f with Some m => String.eqb m n | None => false end) fs)
         (seq 0 (length fs)).

Lemma at_index_app_l p (fs gs : list func) i : (i < length fs)%nat ->
  at_index p (fs ++ gs) i = at_index p fs i.
Proof. intros H. unfold at_index. now rewrite nth_error_app1. Qed.

Lemma idx_of_snoc n (fs : list func) f :
  idx_of n (fs ++ [f]) =
  idx_of n fs ++ (if match bd_space f with Some m => String.eqb m n | None => false end
                  then [length fs] else []).
Proof.
  unfold idx_of. rewrite app_length. cbn [length].
  replace (length fs + 1)%nat with (S (length fs)) by lia. rewrite seq_S, filter_app. f_equal.
  - apply filter_ext_in. intros i Hi. apply in_seq in Hi. apply at_index_app_l. lia.
  - cbn [filter]. unfold at_index at 1. cbn [Nat.add]. rewrite nth_error_app2 by lia.
    rewrite Nat.sub_diag. cbn. reflexivity.
Qed.

Definition pairs_inv (fs : list func) (d : dict (list nat)) : Prop :=
  NoDup (dkeys d) /\
  forall n, match dget n d with
            | Some l => l = idx_of n fs /\ l <> []
            | None => idx_of n fs = []
            end.

Lemma collect_inv : forall fs pre d, pairs_inv pre d ->
  pairs_inv (pre ++ fs) (collect_pairs (length pre) fs d).
Proof.
  induction fs as [|f t IH]; intros pre d H; cbn [collect_pairs].
  - now rewrite app_nil_r.
  - replace (S (length pre)) with (length (pre ++ [f])) by (rewrite app_length; cbn; lia).
    replace (pre ++ f :: t) with ((pre ++ [f]) ++ t) by now rewrite <- app_assoc.
    apply IH. destruct H as [Hn Hd]. destruct (bd_space f) as [m|] eqn:Ef.
    + split; [now apply dset_nodup|]. intros n. rewrite idx_of_snoc, Ef.
      destruct (String.eqb_spec m n) as [->|Hm].
      * rewrite dget_dset_same. specialize (Hd n). split.
        -- destruct (dget n d) as [l|]; [destruct Hd as [-> _]; auto|]. now rewrite Hd.
        -- intros H. now apply app_eq_nil in H as [_ ?].
      * rewrite dget_dset_other by auto. rewrite app_nil_r. apply Hd.
    + split; auto. intros n. rewrite idx_of_snoc, Ef, app_nil_r. apply Hd.
Qed.
Lemma collect_pairs_inv (fs : list func) : pairs_inv fs (collect_pairs 0 fs []).
Proof.
  apply (collect_inv fs [] []). split; [constructor|]. intros n. reflexivity.
Qed.

(** Positions of a birth or death of [n]. *)
Lemma births_of (fs : list func) n i :
  In i (filter (at_index is_birth fs) (idx_of n fs)) <-> birth_at fs n i.
Proof.
  unfold idx_of, birth_at. rewrite !filter_In, in_seq. unfold at_index. split.
  - intros [[_ H1] H2]. destruct (nth_error fs i) as [[|[m|m|m]|w]|] eqn:E; cbn in *; try discriminate.
    apply String.eqb_eq in H1. now subst.
  - intros H. rewrite H. cbn. rewrite String.eqb_refl. repeat split; try lia.
    apply nth_error_Some. congruence.
Qed.
Lemma deaths_of (fs : list func) n i :
  In i (filter (at_index is_death fs) (idx_of n fs)) <-> death_at fs n i.
Proof.
  unfold idx_of, death_at. rewrite !filter_In, in_seq. unfold at_index. split.
  - intros [[_ H1] H2]. destruct (nth_error fs i) as [[|[m|m|m]|w]|] eqn:E; cbn in *; try discriminate.
    apply String.eqb_eq in H1. now subst.
  - intros H. rewrite H. cbn. rewrite String.eqb_refl. repeat split; try lia.
    apply nth_error_Some. congruence.
Qed.
Lemma idx_of_bd (fs : list func) n i : In i (idx_of n fs) <-> birth_at fs n i \/ death_at fs n i.
Proof.
  unfold idx_of, birth_at, death_at. rewrite filter_In, in_seq. unfold at_index. split.
  - intros [_ H1]. destruct (nth_error fs i) as [[|[m|m|m]|w]|] eqn:E; cbn in *; try discriminate;
      apply String.eqb_eq in H1; subst; auto.
  - intros H. assert (Hl : (i < length fs)%nat) by (apply nth_error_Some; destruct H; congruence).
    split; [lia|]. destruct H as [-> | ->]; cbn; apply String.eqb_refl.
Qed.
Lemma idx_of_nodup (fs : list func) n : NoDup (idx_of n fs).
Proof. apply NoDup_filter, seq_NoDup. Qed.

Lemma singleton_unique {A} (l : list A) : NoDup l ->
  ((exists x, l = [x]) <-> exists! x, In x l).
Proof.
  intros Hn. split.
  - intros [x ->]. exists x. split; [now left|]. now intros y [H|[]].
  - intros (x & Hx & Hu). destruct l as [|a [|b t]]; [destruct Hx|eauto|].
    exfalso. inversion Hn; subst. apply H1. left.
    rewrite <- (Hu a), <- (Hu b); cbn; auto.
Qed.
Lemma one_birth (fs : list func) n :
  (exists b, filter (at_index is_birth fs) (idx_of n fs) = [b]) <-> exists! b, birth_at fs n b.
Proof.
  rewrite singleton_unique by (apply NoDup_filter, idx_of_nodup).
  split; intros (b & H1 & H2); exists b; (split; [now apply births_of|]);
    intros y Hy; apply H2; now apply births_of.
Qed.
Lemma one_death (fs : list func) n :
  (exists b, filter (at_index is_death fs) (idx_of n fs) = [b]) <-> exists! b, death_at fs n b.
Proof.
  rewrite singleton_unique by (apply NoDup_filter, idx_of_nodup).
  split; intros (b & H1 & H2); exists b; (split; [now apply deaths_of|]);
    intros y Hy; apply H2; now apply deaths_of.
Qed.

(** ** set_nth *)
Lemma nth_set_nth {A} (l : list A) i x j : (i < length l)%nat ->
  nth_error (set_nth l i x) j = if (j =? i)%nat then Some x else nth_error l j.
Proof.
  intros Hi. unfold set_nth. destruct (Nat.eqb_spec j i) as [->|Hn].
  - rewrite nth_error_app2 by (rewrite firstn_length; lia).
    rewrite firstn_length, Nat.min_l by lia. now rewrite Nat.sub_diag.
  - destruct (Nat.lt_ge_cases j i).
    + rewrite nth_error_app1 by (rewrite firstn_length; lia).
      rewrite <- (firstn_skipn i l) at 2.
      rewrite nth_error_app1; auto. rewrite firstn_length; lia.
    + rewrite nth_error_app2 by (rewrite firstn_length; lia).
      rewrite firstn_length, Nat.min_l by lia.
      rewrite <- (firstn_skipn (S i) l) at 2.
      rewrite nth_error_app2 by (rewrite firstn_length; lia).
      rewrite firstn_length, Nat.min_l by lia.
      destruct (j - i)%nat eqn:E; [lia|]. cbn. f_equal. lia.
Qed.
Lemma set_nth_length {A} (l : list A) i x : (i < length l)%nat -> length (set_nth l i x) = length l.
Proof.
  intros Hi. unfold set_nth. rewrite app_length. cbn [length]. rewrite firstn_length, skipn_length. lia.
Qed.

(** ** equalise *)
Lemma equalise_ok (fs : list func) : forall pairs ws ws',
  NoDup (dkeys pairs) -> (forall n l, In (n, l) pairs -> l = idx_of n fs) ->
  length ws = length fs ->
  equalise fs pairs ws = (ws', None) ->
  length ws' = length ws /\
  (forall n l, In (n, l) pairs -> exists b d,
     filter (at_index is_birth fs) l = [b] /\ filter (at_index is_death fs) l = [d] /\
     nth_error ws' d = nth_error ws b) /\
  (forall k, (forall n l, In (n, l) pairs -> ~ death_at fs n k) -> nth_error ws' k = nth_error ws k).
Proof.
  induction pairs as [|[n is] t IH]; intros ws ws' Hn Hp Hl H; cbn [equalise] in H.
  - injection H as <-. split; auto. split; [intros ? ? []|auto].
  - inversion Hn as [|? ? Hnin Hnt]; subst.
    destruct (filter (at_index is_birth fs) is) as [|b [|? ?]] eqn:Eb; try discriminate.
    destruct (filter (at_index is_death fs) is) as [|d [|? ?]] eqn:Ed; try discriminate.
    destruct (nth_error ws b) as [wb|] eqn:Ewb; [|discriminate].
    destruct (nth_error ws d) as [wd|] eqn:Ewd; [|discriminate].
    assert (His : is = idx_of n fs) by (apply Hp; now left).
    assert (Hbn : birth_at fs n b) by (apply births_of; rewrite <- His, Eb; now left).
    assert (Hdn : death_at fs n d) by (apply deaths_of; rewrite <- His, Ed; now left).
    assert (Hd : (d < length ws)%nat) by (apply nth_error_Some; congruence).
    set (ws1 := if Reqb wb wd then ws else set_nth ws d wb) in *.
    assert (H1 : forall j, nth_error ws1 j = if (j =? d)%nat then Some wb else nth_error ws j).
    { intros j. unfold ws1, Reqb. destruct (Req_EM_T wb wd) as [->|].
      - destruct (Nat.eqb_spec j d); congruence.
      - now apply nth_set_nth. }
    assert (Hl1 : length ws1 = length ws).
    { unfold ws1. destruct (Reqb wb wd); auto. now apply set_nth_length. }
    destruct (IH ws1 ws' Hnt) as (I1 & I2 & I3); try congruence.
    { intros m l Hm. apply Hp. now right. }
    assert (Hnd : forall m l k, In (m, l) t -> death_at fs m k -> k <> d).
    { intros m l k Hin Hk ->. unfold death_at in *. rewrite Hk in Hdn. injection Hdn as ->.
      apply Hnin. unfold dkeys. apply in_map_iff. now exists (n, l). }
    split; [congruence|]. split.
    + intros m l [[= <- <-]|Hin].
      * exists b, d. repeat split; auto. rewrite I3.
        -- rewrite H1, Nat.eqb_refl. congruence.
        -- intros m l Hin Hk. eapply Hnd; eauto.
      * destruct (I2 m l Hin) as (b' & d' & A & B & C). exists b', d'. repeat split; auto.
        rewrite C, H1. destruct (Nat.eqb_spec b' d) as [->|]; auto.
        assert (Hb' : birth_at fs m d).
        { apply births_of. rewrite <- (Hp m l (or_intror Hin)), A. now left. }
        unfold birth_at, death_at in *. congruence.
    + intros k Hk. rewrite I3.
      * rewrite H1. destruct (Nat.eqb_spec k d) as [->|]; auto.
        exfalso. apply (Hk n is); [now left|auto].
      * intros m l Hin. apply (Hk m l). now right.
Qed.

Lemma equalise_result (fs : list func) : forall pairs ws,
  (forall n l, In (n, l) pairs -> l = idx_of n fs) ->
  length ws = length fs ->
  snd (equalise fs pairs ws) = None \/ snd (equalise fs pairs ws) = Some EValue.
Proof.
  induction pairs as [|[n is] t IH]; intros ws Hp Hl; cbn [equalise]; auto.
  destruct (filter (at_index is_birth fs) is) as [|b [|? ?]] eqn:Eb; cbn; auto.
  destruct (filter (at_index is_death fs) is) as [|d [|? ?]] eqn:Ed; cbn; auto.
  assert (His : is = idx_of n fs) by (apply Hp; now left).
  assert (Hbn : birth_at fs n b) by (apply births_of; rewrite <- His, Eb; now left).
  assert (Hdn : death_at fs n d) by (apply deaths_of; rewrite <- His, Ed; now left).
  assert (Hb : (b < length ws)%nat) by (rewrite Hl; apply nth_error_Some; unfold birth_at in *; congruence).
  assert (Hd : (d < length ws)%nat) by (rewrite Hl; apply nth_error_Some; unfold death_at in *; congruence).
  apply nth_error_Some in Hb. destruct (nth_error ws b) as [wb|] eqn:Ewb; [|easy].
  pose proof Hd as Hd'. apply nth_error_Some in Hd'. destruct (nth_error ws d) as [wd|] eqn:Ewd; [|easy].
  apply IH; [intros m l Hm; apply Hp; now right|].
  destruct (Reqb wb wd); auto. now rewrite set_nth_length.
Qed.
Lemma equalise_complete (fs : list func) : forall pairs ws,
  (forall n l, In (n, l) pairs -> l = idx_of n fs) ->
  length ws = length fs ->
  (forall n l, In (n, l) pairs -> (exists! b, birth_at fs n b) /\ (exists! d, death_at fs n d)) ->
  snd (equalise fs pairs ws) = None.
Proof.
  induction pairs as [|[n is] t IH]; intros ws Hp Hl Hv; cbn [equalise]; auto.
  assert (His : is = idx_of n fs) by (apply Hp; now left).
  destruct (Hv n is (or_introl eq_refl)) as [H1 H2].
  apply one_birth in H1. destruct H1 as [b Eb]. apply one_death in H2. destruct H2 as [d Ed].
  rewrite <- His in Eb, Ed. rewrite Eb, Ed.
  assert (Hbn : birth_at fs n b) by (apply births_of; rewrite <- His, Eb; now left).
  assert (Hdn : death_at fs n d) by (apply deaths_of; rewrite <- His, Ed; now left).
  assert (Hb : (b < length ws)%nat) by (rewrite Hl; apply nth_error_Some; unfold birth_at in *; congruence).
  assert (Hd : (d < length ws)%nat) by (rewrite Hl; apply nth_error_Some; unfold death_at in *; congruence).
  apply nth_error_Some in Hb. destruct (nth_error ws b) as [wb|] eqn:Ewb; [|easy].
  pose proof Hd as Hd'. apply nth_error_Some in Hd'. destruct (nth_error ws d) as [wd|] eqn:Ewd; [|easy].
  apply IH.
  - intros m l Hm. apply Hp. now right.
  - destruct (Reqb wb wd); auto. now rewrite set_nth_length.
  - intros m l Hm. apply (Hv m l). now right.
Qed.

Lemma pairs_are (fs : list func) n l : In (n, l) (collect_pairs 0 fs []) <-> l = idx_of n fs /\ l <> [].
Proof.
  destruct (collect_pairs_inv fs) as [Hn Hd]. specialize (Hd n). split.
  - intros H. apply dget_in_nodup in H; auto. now rewrite H in Hd.
  - intros [-> Hne]. destruct (dget n _) as [l|] eqn:E; [|easy]. destruct Hd as [<- _].
    now apply dget_in.
Qed.

(** The method's validation succeeds exactly on paired lists. *)
Lemma equalise_iff (fs : list func) ws : length ws = length fs ->
  (snd (equalise fs (collect_pairs 0 fs []) ws) = None <-> paired fs).
Proof.
  intros Hl. destruct (collect_pairs_inv fs) as [Hn _]. split.
  - intros H n i Hi. destruct (equalise _ _ _) as [ws' o] eqn:E. cbn in H. subst o.
    apply equalise_ok in E; auto.
    + destruct E as (_ & E & _). destruct (E n (idx_of n fs)) as (b & d & A & B & _).
      { apply pairs_are. split; auto. intros H. apply idx_of_bd in Hi. rewrite H in Hi. destruct Hi. }
      split; [apply one_birth|apply one_death]; eauto.
    + intros m l Hm. now apply pairs_are in Hm.
  - intros H. apply equalise_complete; auto.
    + intros m l Hm. now apply pairs_are in Hm.
    + intros m l Hm. apply pairs_are in Hm. destruct Hm as [-> Hne].
      destruct (idx_of m fs) as [|i t] eqn:E; [easy|]. apply (H m i).
      apply idx_of_bd. rewrite E. now left.
Qed.
Lemma equalise_equalised (fs : list func) ws ws' : length ws = length fs ->
  equalise fs (collect_pairs 0 fs []) ws = (ws', None) -> equalised fs ws ws'.
Proof.
  intros Hl H. destruct (collect_pairs_inv fs) as [Hn _]. pose proof H as H0.
  apply equalise_ok in H; auto; [|intros m l Hm; now apply pairs_are in Hm].
  destruct H as (A & B & C). split; auto. split.
  - intros n b d Hb Hd.
    assert (Hin : In (n, idx_of n fs) (collect_pairs 0 fs [])).
    { apply pairs_are. split; auto. intros E.
      assert (Hi : In b (idx_of n fs)) by (apply idx_of_bd; auto). rewrite E in Hi. destruct Hi. }
    destruct (B _ _ Hin) as (b' & d' & Eb & Ed & E).
    apply births_of in Hb. rewrite Eb in Hb. apply deaths_of in Hd. rewrite Ed in Hd.
    destruct Hb as [<-|[]]. destruct Hd as [<-|[]]. auto.
  - intros k Hk. apply C. auto.
Qed.

Lemma chains_set_ok (fs : list func) ws : forall cs,
  existsb no_name fs = false ->
  chains_set fs ws cs = (map (fun _ => Build_chain_funcs _ _ fs ws) cs, None).
Proof.
  induction cs as [|c t IH]; intros H; cbn [chains_set map]; auto.
  unfold chain_set. rewrite H. rewrite IH by auto. reflexivity.
Qed.
Lemma chains_set_iff (fs : list func) ws cs :
  snd (chains_set fs ws cs) = None <-> cs = [] \/ ~ In FNone fs.
Proof.
  destruct (existsb no_name fs) eqn:E.
  - assert (Hin : In FNone fs).
    { apply existsb_exists in E. destruct E as ([| |] & Hi & Hx); cbn in Hx; try discriminate. auto. }
    destruct cs as [|c t]; cbn [chains_set]; [cbn; tauto|].
    unfold chain_set. rewrite E. cbn. split; [discriminate|]. intros [?|?]; [discriminate|tauto].
  - rewrite chains_set_ok by auto. cbn. split; auto. intros _. right. intros H.
    assert (existsb no_name fs = true) by (apply existsb_exists; exists FNone; auto). congruence.
Qed.
End Pairs.

(** ** Results *)
Section Results.
Context {St V : Type}.

Definition gathered {A B} (f : A -> list B) (k : string) (ds : list (dict A)) : list B :=
  concat (map (fun d => match dget k d with Some l => f l | None => [] end) ds).

Lemma wanted_requested keys k : wanted keys k = true <-> requested keys k.
Proof.
  destruct keys as [ks|]; cbn; [|tauto]. rewrite existsb_exists. split.
  - intros (x & Hx & E). apply String.eqb_eq in E. now subst.
  - intros H. exists k. split; auto. apply String.eqb_refl.
Qed.

Lemma extend_results_get {A B} (f : A -> list B) keys k : forall its r,
  NoDup (dkeys its) ->
  dget k (extend_results f keys its r) =
  match dget k its with
  | Some vs => if wanted keys k then Some (match dget k r with Some l => l | None => [] end ++ f vs)
               else dget k r
  | None => dget k r
  end.
Proof.
  induction its as [|[k' vs] t IH]; intros r Hn; cbn [extend_results dget]; auto.
  inversion Hn as [|? ? Hnin Hnt]; subst. rewrite IH by auto.
  destruct (String.eqb_spec k k') as [<-|Hk].
  - assert (Hz : dget k t = None) by now apply dget_none_keys.
    rewrite Hz. destruct (wanted keys k); auto. now rewrite dget_dset_same.
  - destruct (dget k t); destruct (wanted keys k'); auto; now rewrite dget_dset_other by auto.
Qed.
Lemma extend_results_nodup {A B} (f : A -> list B) keys : forall its r,
  NoDup (dkeys r) -> NoDup (dkeys (extend_results f keys its r)).
Proof.
  induction its as [|[k vs] t IH]; intros r Hr; cbn [extend_results]; auto.
  apply IH. destruct (wanted keys k); auto. now apply dset_nodup.
Qed.

Lemma gather_get {B} (f : list V -> list B) keys : forall ds r,
  Forall (fun d => NoDup (dkeys d)) ds -> NoDup (dkeys r) ->
  exists r', gather (St:=St) f keys (map (fun d => OChain (SDict d)) ds) r = Ok r' /\
    NoDup (dkeys r') /\
    forall k, dget k r' =
      if wanted keys k && existsb (fun d => dmem k d) ds
      then Some (match dget k r with Some l => l | None => [] end ++ gathered f k ds)
      else dget k r.
Proof.
  induction ds as [|d t IH]; intros r Hf Hr; cbn [map gather].
  - exists r. split; auto. split; auto. intros k. cbn. now rewrite andb_false_r.
  - inversion Hf as [|? ? Hd Ht]; subst.
    destruct (IH (extend_results f keys d r) Ht) as (r' & E & Hn & Hg).
    { now apply extend_results_nodup. }
    exists r'. split; auto. split; auto. intros k. rewrite Hg, extend_results_get by auto.
    unfold gathered. cbn [existsb map concat]. unfold dmem at 2.
    destruct (wanted keys k) eqn:Ew; cbn [andb].
    + destruct (dget k d) as [vs|]; cbn [orb].
      * destruct (existsb (fun d0 => dmem k d0) t) eqn:Ex; [now rewrite <- app_assoc|].
        f_equal. f_equal. rewrite <- (app_nil_r (f vs)) at 1. f_equal.
        clear -Ex. induction t as [|d t IH]; cbn in *; auto.
        apply orb_false_iff in Ex. destruct Ex as [E1 E2].
        unfold dmem in E1. destruct (dget k d); [discriminate|]. cbn. auto.
      * reflexivity.
    + now destruct (dget k d).
Qed.
End Results.
