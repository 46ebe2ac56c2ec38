(** A Metropolis step that moves all numbers of a box at once: it leaves the density exp(L/T) invariant, and
    iterations converge to it. *)
From Coquelicot Require Import Coquelicot.
From Verif Require Import Base SpecWalk SpecInvariance SpecMany ProofFubini ProofBox ProofInvariance ProofConverge.
From Verif Require ProofLine.
Local Open Scope R_scope.

(** * Integrals with parameters *)
Section Boxes.
Context (lo hi : R) (Hlo : lo < hi).
Notation box := (in_box lo hi).
Notation ucont := (cont_on lo hi).
Notation box_int := (box_int lo hi).

Lemma boxes_app n m xs ys : box n xs -> box m ys -> box (n + m) (xs ++ ys).
Proof. intros [Hl Hf] [Hl' Hf']. split; [rewrite app_length; lia|now apply Forall_app]. Qed.
Lemma near_app d xs ys xs' ys' : near d xs xs' -> near d ys ys' -> near d (xs ++ ys) (xs' ++ ys').
Proof. apply Forall2_app. Qed.
Lemma near_firstn d k xs ys : near d xs ys -> near d (firstn k xs) (firstn k ys).
Proof. intros H. revert k. induction H; intros [|k]; cbn; constructor; auto; now apply IHForall2. Qed.
Lemma near_skipn d k xs ys : near d xs ys -> near d (skipn k xs) (skipn k ys).
Proof. intros H. revert k. induction H; intros [|k]; cbn; try (now constructor); now apply IHForall2. Qed.
Lemma box_firstn n m xs : box (n + m) xs -> box n (firstn n xs).
Proof.
  intros [Hl Hf]. split; [rewrite firstn_length; lia|]. apply List.Forall_forall. intros x Hx. rewrite List.Forall_forall in Hf. apply Hf.
  rewrite <- (firstn_skipn n xs). apply in_or_app. now left.
Qed.
Lemma box_skipn n m xs : box (n + m) xs -> box m (skipn n xs).
Proof.
  intros [Hl Hf]. split; [rewrite skipn_length; lia|]. apply List.Forall_forall. intros x Hx. rewrite List.Forall_forall in Hf. apply Hf.
  rewrite <- (firstn_skipn n xs). apply in_or_app. now right.
Qed.
Lemma ucont_firstn n m f : ucont n f -> ucont (n + m) (fun l => f (firstn n l)).
Proof. apply ucont_map; [intros; eapply box_firstn; eauto|]. intros d xs ys _ _ _. apply near_firstn. Qed.
Lemma ucont_skipn n m f : ucont m f -> ucont (n + m) (fun l => f (skipn n l)).
Proof. apply ucont_map; [intros; eapply box_skipn; eauto|]. intros d xs ys _ _ _. apply near_skipn. Qed.
Lemma ucont_app n m f xs : ucont (n + m) f -> box n xs -> ucont m (fun ys => f (xs ++ ys)).
Proof.
  intros Hf Hx. apply (ucont_map lo hi m (n + m) f (fun ys => xs ++ ys)); auto.
  - intros ys Hy. now apply boxes_app.
  - intros d ys ys' Hd _ _ H. apply near_app; auto. now apply near_refl.
Qed.
Lemma ucont_box n m f : ucont (n + m) f -> ucont n (fun xs => box_int m (fun ys => f (xs ++ ys))).
Proof.
  intros Hf eps He. assert (Hp : 0 < (hi - lo) ^ m) by (apply pow_lt; lra).
  destruct (Hf (eps / (2 * (hi - lo) ^ m))) as (d & Hd & H); [apply Rdiv_lt_0_compat; lra|].
  exists d. split; auto. intros xs xs' Hx Hx' Hn.
  apply Rle_lt_trans with (eps / (2 * (hi - lo) ^ m) * (hi - lo) ^ m).
  - apply box_int_close; auto using (ucont_app n m f). intros ys Hy. apply Rlt_le. apply H; try now apply boxes_app.
    apply near_app; auto. now apply near_refl.
  - replace (eps / (2 * (hi - lo) ^ m) * (hi - lo) ^ m) with (eps / 2) by (field; lra). lra.
Qed.
Lemma box_swap a : forall b f, ucont (a + b) f ->
  box_int a (fun xs => box_int b (fun ys => f (xs ++ ys))) = box_int b (fun ys => box_int a (fun xs => f (xs ++ ys))).
Proof.
  induction a as [|a IH]; intros b f Hf; [reflexivity|].
  change (box_int (S a) (fun xs => box_int b (fun ys => f (xs ++ ys)))) with
    (RInt (fun x => box_int a (fun xs => box_int b (fun ys => f ((x :: xs) ++ ys)))) lo hi).
  rewrite (RInt_in lo hi Hlo _ (fun x => box_int b (fun ys => box_int a (fun xs => f (x :: xs ++ ys))))).
  2:{ intros x Hx. apply (IH b (fun l => f (x :: l))). now apply (ucont_cons lo hi (a + b) f). }
  set (f2 := fun zs => f (hd 0 zs :: skipn (S b) zs ++ firstn b (tl zs))).
  assert (H2 : ucont (S b + a) f2).
  { apply (ucont_map lo hi (S b + a) (S a + b) f (fun zs => hd 0 zs :: skipn (S b) zs ++ firstn b (tl zs))); auto.
    - intros [|z zs] Hz; [now destruct Hz|]. cbn [hd tl skipn]. apply box_cons in Hz. destruct Hz as [Hz Hzs].
      change (S a + b)%nat with (S (a + b)). apply box_cons. split; auto. apply boxes_app.
      + now apply (box_skipn b a).
      + now apply (box_firstn b a).
    - intros d [|z zs] [|z' zs'] Hd H1 H1' Hn; try (now destruct H1); try (now destruct H1'). inversion Hn; subst. cbn [hd tl skipn].
      constructor; auto. apply near_app; [now apply near_skipn|now apply near_firstn]. }
  assert (H3 : ucont (S b) (fun l => box_int a (fun xs => f (hd 0 l :: xs ++ tl l)))).
  { apply (ucont_ext lo hi (S b) (fun l => box_int a (fun xs => f2 (l ++ xs)))); [|now apply ucont_box].
    intros [|y ys] Hy; [now destruct Hy|]. apply box_int_ext; auto. intros xs Hx. unfold f2. cbn [app hd tl skipn].
    destruct Hy as [Hl _]. cbn in Hl. injection Hl as <-. now rewrite skipn_app, skipn_all, Nat.sub_diag, firstn_app, firstn_all, Nat.sub_diag, firstn_O, app_nil_r. }
  etransitivity; [symmetry; exact (box_int_commute lo hi Hlo b (fun l => box_int a (fun xs => f (hd 0 l :: xs ++ tl l))) H3)|].
  apply box_int_ext; auto.
Qed.
End Boxes.

(** * The mean over the deviate of one number *)
Section Hop.
Context (lo hi : R) (Hlo : lo < hi) (sd : R) (Hsd : 0 < sd).
Context (F phi : R -> R) (HF : normal_cdf F) (Hphi : forall z, derivable_pt_lim F z (phi z)).
Notation inside x := (lo <= x <= hi).
Definition landed (c : R) (G : R -> R) (y : R) : R := if Rle_dec lo y then if Rle_dec y hi then c + G y else c else c.
Lemma mean_hop c G x : inside x -> ex_RInt (fun y => q sd phi x y * G y) lo hi ->
  mean_deviate phi (fun z => landed c G (x + z * sd)) (c + RInt (fun y => q sd phi x y * G y) lo hi).
Proof.
  intros Hxi HG.
  set (a := (lo - x) / sd). set (b := (hi - x) / sd). set (h := fun z => phi z * (landed c G (x + z * sd) - c)). set (v := RInt (fun y => q sd phi x y * G y) lo hi).
  assert (Ha : sd * a + x = lo) by (unfold a; field; lra). assert (Hb : sd * b + x = hi) by (unfold b; field; lra).
  assert (Hab : a <= 0 <= b). { split; [assert (sd * a <= 0) by lra|assert (0 <= sd * b) by lra]; nra. }
  assert (Hab' : a < b). { assert (sd * a < sd * b) by lra. nra. }
  assert (I : is_RInt h a b v).
  { assert (Hf : is_RInt (fun y => q sd phi x y * G y) lo hi v) by now apply @RInt_correct.
    rewrite <- Ha, <- Hb in Hf at 1. apply (is_RInt_comp_lin (V := R_NormedModule)) in Hf.
    eapply is_RInt_ext; [|exact Hf]. intros z Hz. rewrite Rmin_left, Rmax_right in Hz by lra.
    unfold scal. cbn. unfold mult. cbn. unfold h, landed, q.
    replace (x + z * sd) with (sd * z + x) by lra.
    assert (lo <= sd * z + x) by nra. assert (sd * z + x <= hi) by nra.
    destruct (Rle_dec lo _); [|contradiction]. destruct (Rle_dec _ hi); [|contradiction].
    replace ((sd * z + x - x) / sd) with z by (field; lra). field. lra. }
  assert (O : forall e d, (d <= a \/ b <= e) -> e <= d -> is_RInt h e d 0).
  { intros e d Ho Hcd. apply (is_RInt_ext (fun _ => 0)).
    - intros z Hz. rewrite Rmin_left, Rmax_right in Hz by lra. unfold h, landed.
      assert (Hout : sd * z + x < lo \/ hi < sd * z + x).
      { rewrite <- Ha, <- Hb. destruct Ho; [left|right]; nra. }
      destruct (Rle_dec lo _); [|cbn; lra]. destruct (Rle_dec _ hi); [lra|lra].
    - pose proof (const_int 0 e d) as D. now replace ((d - e) * 0) with 0 in D by lra. }
  exists (fun t => (F t - F (- t)) * c + RInt h (- t) t).
  assert (Ex : forall t, 0 < t -> ex_RInt h (- t) t).
  { intros t Ht. set (e := t + Rabs a + Rabs b). pose proof (Rabs_pos a). pose proof (Rabs_pos b).
    pose proof (Rle_abs b). pose proof (Rle_abs (- a)). rewrite Rabs_Ropp in *.
    assert (Be : ex_RInt h (- e) e).
    { apply (ex_RInt_Chasles (V := R_NormedModule) _ (- e) a e); [exists 0; apply O; unfold e; lra|].
      apply (ex_RInt_Chasles (V := R_NormedModule) _ a b e); [eexists; exact I|exists 0; apply O; unfold e; lra]. }
    apply (ex_RInt_Chasles_1 (V := R_CompleteNormedModule) _ (- t) t e); [unfold e; lra|].
    apply (ex_RInt_Chasles_2 (V := R_CompleteNormedModule) _ (- e) (- t) e); [unfold e; lra|exact Be]. }
  split.
  - intros t Ht.
    apply (is_RInt_ext (fun z => plus (scal c (phi z)) (h z))).
    { intros. unfold plus, scal, h. cbn. unfold mult. cbn. ring. }
    apply (is_RInt_plus (V := R_NormedModule)).
    + rewrite Rmult_comm. apply (is_RInt_scal (V := R_NormedModule)). now apply (phi_int F phi HF Hphi).
    + apply @RInt_correct. auto.
  - assert (Lc : is_lim (fun t => (F t - F (- t)) * c) p_infty c).
    { pose proof (is_lim_scal_r (fun t => F t - F (- t)) c p_infty 1 (mass_one F HF)) as H. cbn in H.
      now rewrite Rmult_1_l in H. }
    apply (is_lim_ext_loc (fun t => (F t - F (- t)) * c + v)).
    + exists (Rmax (- a) b). intros t Ht. f_equal. symmetry. apply is_RInt_unique.
      pose proof (Rmax_l (- a) b). pose proof (Rmax_r (- a) b).
      replace v with (plus 0 (plus v 0)) by (unfold plus; cbn; ring).
      apply (is_RInt_Chasles (V := R_NormedModule)) with a; [apply O; lra|].
      apply (is_RInt_Chasles (V := R_NormedModule)) with b; [exact I|apply O; lra].
    + apply (is_lim_plus' _ (fun _ => v) p_infty c v); auto. apply is_lim_const.
Qed.
Lemma mean_const c : mean_deviate phi (fun _ => c) c.
Proof.
  exists (fun t => (F t - F (- t)) * c). split.
  - intros t Ht. apply (is_RInt_ext (fun z => scal c (phi z))).
    { intros. unfold scal. cbn. unfold mult. cbn. ring. }
    rewrite Rmult_comm. apply (is_RInt_scal (V := R_NormedModule)). now apply (phi_int F phi HF Hphi).
  - pose proof (is_lim_scal_r (fun t => F t - F (- t)) c p_infty 1 (mass_one F HF)) as H. cbn in H. now rewrite Rmult_1_l in H.
Qed.
Lemma mean_deviates_const d c : forall h, (forall zs, length zs = d -> h zs = c) -> mean_deviates phi d h c.
Proof.
  induction d as [|d IH]; intros h H; cbn; [symmetry; now apply H|]. exists (fun _ => c). split; [|apply mean_const].
  intros z. apply IH. intros zs Hz. apply H. cbn. now rewrite Hz.
Qed.
Lemma mean_deviates_ext d : forall h h' m, (forall zs, length zs = d -> h zs = h' zs) -> mean_deviates phi d h m -> mean_deviates phi d h' m.
Proof.
  induction d as [|d IH]; intros h h' m H; cbn; [intros ->; now apply H|]. intros (k & Hk & Hm). exists k. split; auto.
  intros z. eapply IH; [|apply Hk]. intros zs Hz. apply H. cbn. now rewrite Hz.
Qed.
End Hop.

(** * The step *)
Section Many.
Context (lo hi : R) (Hlo : lo < hi) (T : R) (HT : 0 < T).
Context (F phi : R -> R) (HF : normal_cdf F) (Hphi : forall z, derivable_pt_lim F z (phi z)).
Notation box := (in_box lo hi).
Notation ucont := (cont_on lo hi).
Notation inside x := (lo <= x <= hi).
Notation bint := (box_int lo hi).

(** Density of the proposals [ys] from [xs]; [ss] are the standard deviations. *)
Fixpoint pq (ss : list R) (i : nat) (xs ys : list R) : R :=
  match ss with
  | [] => 1
  | s :: t => q s phi (nth i xs 0) (nth i ys 0) * pq t (S i) xs ys
  end.
Fixpoint jump (ss xs zs : list R) : list R :=
  match ss, xs, zs with
  | s :: ss', x :: xs', z :: zs' => (x + z * s) :: jump ss' xs' zs'
  | _, _, _ => []
  end.
Fixpoint inb (ys : list R) : bool :=
  match ys with
  | [] => true
  | y :: t => if Rle_dec lo y then if Rle_dec y hi then inb t else false else false
  end.
Lemma pq_shift ss : forall i x y xs ys, pq ss (S i) (x :: xs) (y :: ys) = pq ss i xs ys.
Proof. induction ss as [|s ss IH]; intros; cbn; auto. f_equal. apply IH. Qed.
Lemma pq_sym ss : Forall (fun s => 0 < s) ss -> forall i xs ys, pq ss i xs ys = pq ss i ys xs.
Proof.
  induction 1 as [|s ss Hs H IH]; intros i xs ys; cbn; auto. rewrite IH. f_equal. now apply (q_sym s Hs F phi HF Hphi).
Qed.
Lemma pq_pos ss : Forall (fun s => 0 < s) ss -> forall i xs ys, 0 <= pq ss i xs ys.
Proof.
  induction 1 as [|s ss Hs H IH]; intros i xs ys; cbn; [lra|]. apply Rmult_le_pos; auto. now apply (ProofLine.hop_pos s Hs F phi HF Hphi).
Qed.
Lemma inb_box ys : inb ys = true -> box (length ys) ys.
Proof.
  induction ys as [|y ys IH]; cbn [inb]; intros H; [split; auto|]. destruct (Rle_dec lo y); [|discriminate]. destruct (Rle_dec y hi); [|discriminate].
  apply box_cons. split; [lra|]. now apply IH.
Qed.
Lemma jump_length ss : forall xs zs, length xs = length ss -> length zs = length ss -> length (jump ss xs zs) = length ss.
Proof. induction ss as [|s ss IH]; intros [|x xs] [|z zs] H1 H2; cbn in *; try discriminate; auto. Qed.
Lemma ucont_q1 m s f g : 0 < s -> ucont m f -> ucont m g -> ucont m (fun l => q s phi (f l) (g l)).
Proof.
  intros Hs Hf Hg. unfold q. apply (ucont_ext lo hi m (fun l => / s * phi (/ s * (g l - f l)))); [intros; unfold Rdiv; now rewrite (Rmult_comm (/ s)), (Rmult_comm (/ s))|].
  apply ucont_scal; auto. apply (ucont_comp lo hi Hlo m phi); [apply (phi_cont F phi HF Hphi)|]. apply ucont_scal; auto. now apply ucont_minus.
Qed.
Lemma ucont_pq d m ss : Forall (fun s => 0 < s) ss -> forall i, ucont (d + m) (fun l => pq ss i (firstn d l) (skipn d l)).
Proof.
  induction 1 as [|s ss Hs H IH]; intros i; cbn; [apply ucont_const|]. apply ucont_mult; auto.
  apply ucont_q1; auto.
  - apply (ucont_firstn lo hi d m (fun l => nth i l 0)). apply ucont_nth.
  - apply (ucont_skipn lo hi d m (fun l => nth i l 0)). apply ucont_nth.
Qed.
Lemma split_app d (xs ys : list R) : length xs = d -> firstn d (xs ++ ys) = xs /\ skipn d (xs ++ ys) = ys.
Proof. intros <-. rewrite firstn_app, firstn_all, Nat.sub_diag, firstn_O, app_nil_r, skipn_app, skipn_all, Nat.sub_diag. auto. Qed.
(** Functions of pairs as functions of the joined list. *)
Definition ucont2 (d m : nat) (f : list R -> list R -> R) : Prop := ucont (d + m) (fun l => f (firstn d l) (skipn d l)).
Lemma ucont2_at d m f xs : ucont2 d m f -> box d xs -> ucont m (f xs).
Proof.
  intros H Hx. eapply ucont_ext; [|exact (ucont_app lo hi d m _ xs H Hx)]. intros ys _. cbn beta.
  destruct (split_app d xs ys (proj1 Hx)) as [-> ->]. reflexivity.
Qed.
Lemma ucont2_int d m f : ucont2 d m f -> ucont d (fun xs => bint m (f xs)).
Proof.
  intros H. eapply ucont_ext; [|exact (ucont_box lo hi Hlo d m _ H)]. intros xs Hx. cbn beta. apply box_int_ext; auto. intros ys _.
  destruct (split_app d xs ys (proj1 Hx)) as [-> ->]. reflexivity.
Qed.
Lemma ucont2_swap d m f : ucont2 d m f -> bint d (fun xs => bint m (fun ys => f xs ys)) = bint m (fun ys => bint d (fun xs => f xs ys)).
Proof.
  intros H. pose proof (box_swap lo hi Hlo d m _ H) as E. cbn beta in E.
  etransitivity; [|etransitivity; [exact E|]].
  - apply box_int_ext; auto. intros xs Hx. apply box_int_ext; auto. intros ys Hy. destruct (split_app d xs ys (proj1 Hx)) as [-> ->]. reflexivity.
  - apply box_int_ext; auto. intros ys Hy. apply box_int_ext; auto. intros xs Hx. destruct (split_app d xs ys (proj1 Hx)) as [-> ->]. reflexivity.
Qed.
Lemma pq_at ss m xs : Forall (fun s => 0 < s) ss -> box (length ss) xs -> ucont m (pq ss 0 xs).
Proof. intros Hs Hx. apply (ucont2_at (length ss) m (pq ss 0)); auto. now apply ucont_pq. Qed.

(** The mean over the deviates. *)
Lemma mean_jump ss : Forall (fun s => 0 < s) ss -> forall c f xs, box (length ss) xs -> ucont (length ss) f ->
  mean_deviates phi (length ss) (fun zs => if inb (jump ss xs zs) then c + f (jump ss xs zs) else c)
    (c + bint (length ss) (fun ys => pq ss 0 xs ys * f ys)).
Proof.
  induction 1 as [|s ss Hs H IH]; intros c f xs Hx Hf.
  - cbn. lra.
  - destruct xs as [|x xs]; [now destruct Hx|]. cbn [length] in Hx, Hf. apply box_cons in Hx. destruct Hx as [Hx Hxs].
    set (G := fun y => bint (length ss) (fun ys => pq ss 0 xs ys * f (y :: ys))).
    assert (E : forall y, inside y -> bint (length ss) (fun ys => pq (s :: ss) 0 (x :: xs) (y :: ys) * f (y :: ys)) = q s phi x y * G y).
    { intros y Hy. unfold G. rewrite <- box_int_scal; auto.
      - apply box_int_ext; auto. intros ys Hys. cbn [pq nth]. rewrite pq_shift. ring.
      - apply ucont_mult; auto; [now apply pq_at|now apply ucont_cons]. }
    assert (EG : bint (length (s :: ss)) (fun ys => pq (s :: ss) 0 (x :: xs) ys * f ys) = RInt (fun y => q s phi x y * G y) lo hi).
    { cbn [length box_int]. apply RInt_in; auto. }
    cbn [length mean_deviates]. exists (fun z => landed lo hi c G (x + z * s)). split.
    + intros z. unfold landed. destruct (Rle_dec lo (x + z * s)) as [H1|H1]; [destruct (Rle_dec (x + z * s) hi) as [H2|H2]|].
      * eapply mean_deviates_ext; [|apply (IH c (fun ys => f ((x + z * s) :: ys)) xs Hxs)].
        -- intros zs _. cbn [jump inb]. destruct (Rle_dec lo _); [|contradiction]. destruct (Rle_dec _ hi); [|contradiction]. reflexivity.
        -- now apply ucont_cons.
      * eapply mean_deviates_const; eauto. intros zs _. cbn [jump inb]. destruct (Rle_dec lo _); [|reflexivity]. destruct (Rle_dec _ hi); [contradiction|reflexivity].
      * eapply mean_deviates_const; eauto. intros zs _. cbn [jump inb]. destruct (Rle_dec lo _); [contradiction|reflexivity].
    + change (S (length ss)) with (length (s :: ss)). rewrite EG.
      apply (mean_hop lo hi Hlo s Hs F phi HF Hphi c G x Hx).
      apply (ex_RInt_ext (fun y => bint (length ss) (fun ys => pq (s :: ss) 0 (x :: xs) (y :: ys) * f (y :: ys)))).
      * intros y Hy. rewrite Rmin_left, Rmax_right in Hy by lra. apply E. lra.
      * apply uc1_int; auto. apply (box_int_uc1 lo hi Hlo (length ss) (fun ys => pq (s :: ss) 0 (x :: xs) ys * f ys)).
        apply ucont_mult; auto. apply pq_at; [now constructor|]. now apply box_cons.
Qed.
(** Not more than all proposals are inside. *)
Lemma pq_mass ss : Forall (fun s => 0 < s) ss -> forall xs, box (length ss) xs -> bint (length ss) (pq ss 0 xs) <= 1.
Proof.
  induction 1 as [|s ss Hs H IH]; intros xs Hx; [cbn; lra|].
  destruct xs as [|x xs]; [now destruct Hx|]. cbn [length] in Hx. apply box_cons in Hx. destruct Hx as [Hx Hxs].
  set (M := bint (length ss) (pq ss 0 xs)).
  assert (HM : 0 <= M <= 1).
  { split; [|now apply IH]. apply ProofLine.box_int_nonneg; auto; [now apply pq_at|]. intros. now apply pq_pos. }
  assert (E : bint (length (s :: ss)) (pq (s :: ss) 0 (x :: xs)) = M * (F ((hi - x) / s) - F ((lo - x) / s))).
  { cbn [length box_int]. rewrite (RInt_in lo hi Hlo _ (fun y => M * q s phi x y)).
    - etransitivity; [apply (RInt_scal (V := R_CompleteNormedModule)); eexists; exact (ProofLine.hop_int s Hs F phi HF Hphi x lo hi)|].
      rewrite (is_RInt_unique _ _ _ _ (ProofLine.hop_int s Hs F phi HF Hphi x lo hi)). reflexivity.
    - intros y Hy. unfold M. rewrite Rmult_comm, <- box_int_scal by (auto; now apply pq_at). apply box_int_ext; auto. intros ys Hys. cbn [pq nth]. now rewrite pq_shift. }
  rewrite E. pose proof (nc_range F HF ((hi - x) / s)). pose proof (nc_range F HF ((lo - x) / s)). nra.
Qed.
(** A bound from below. *)
Lemma pq_low ss : Forall (fun s => 0 < s) ss -> exists delta, 0 < delta /\ forall i xs ys, box (i + length ss) xs -> box (i + length ss) ys -> delta <= pq ss i xs ys.
Proof.
  destruct (phi_bell F phi HF Hphi) as (c & Hc & Hb).
  induction 1 as [|s ss Hs H (delta & Hd & IH)]; [exists 1; cbn; split; [lra|intros; lra]|].
  set (w := (hi - lo) / s).
  assert (Hp : 0 < c * bell w / s). { apply Rdiv_lt_0_compat; auto. apply Rmult_lt_0_compat; auto. apply exp_pos. }
  exists (c * bell w / s * delta). split; [now apply Rmult_lt_0_compat|]. intros i xs ys Hx Hy. cbn [pq length] in *.
  rewrite Nat.add_succ_r in Hx, Hy. apply Rmult_le_compat; try lra; [|apply (IH (S i)); auto].
  assert (Hxi : inside (nth i xs 0)) by (apply (box_nth lo hi _ xs i Hx); lia).
  assert (Hyi : inside (nth i ys 0)) by (apply (box_nth lo hi _ ys i Hy); lia).
  cbv beta in Hxi, Hyi. set (x := nth i xs 0) in *. set (y := nth i ys 0) in *.
  unfold q. rewrite Hb. unfold Rdiv at 1 2. apply Rmult_le_compat_r; [apply Rlt_le; now apply Rinv_0_lt_compat|].
  apply Rmult_le_compat_l; [lra|]. unfold bell.
  assert (He : forall a b, a <= b -> exp a <= exp b) by (intros a b [H0| ->]; [apply Rlt_le; now apply exp_increasing|lra]). apply He.
  assert (Hsq : (y - x) / s * ((y - x) / s) <= w * w).
  { unfold w. assert (0 < / s) by now apply Rinv_0_lt_compat. unfold Rdiv.
    assert (- ((hi - lo) * / s) <= (y - x) * / s <= (hi - lo) * / s) by (split; nra). nra. }
  lra.
Qed.

Context (ss : list R) (Hss : Forall (fun s => 0 < s) ss).
Let d := length ss.
Context (L : list R -> R) (HL : ucont d L).
Notation acc := (acc T L).
Notation dens := (dens T L).
(** One iteration with the deviates [zs] and the uniform number [u]. *)
Definition leap (xs zs : list R) (u : R) : list R :=
  let ys := jump ss xs zs in
  if inb ys then if Rlt_dec (ln u) ((L ys - L xs) / T) then ys else xs else xs.
Definition leap_mean (g : list R -> R) (xs zs : list R) : R :=
  let ys := jump ss xs zs in if inb ys then g xs + acc xs ys * (g ys - g xs) else g xs.
Lemma leap_inside xs zs u : box d xs -> length zs = d -> box d (leap xs zs u).
Proof.
  intros Hx Hz. unfold leap. cbv zeta. destruct (inb (jump ss xs zs)) eqn:E; auto. destruct (Rlt_dec _ _); auto.
  apply inb_box in E. rewrite jump_length in E; auto. apply Hx.
Qed.
Lemma mean_unit_leap g xs zs : mean_unit (fun u => g (leap xs zs u)) (leap_mean g xs zs).
Proof.
  unfold mean_unit, leap_mean, leap. cbv zeta. set (ys := jump ss xs zs).
  assert (D : is_RInt (fun _ : R => g xs) 0 1 (g xs)). { pose proof (const_int (g xs) 0 1) as D. now replace ((1 - 0) * g xs) with (g xs) in D by lra. }
  destruct (inb ys); [|exact D].
  pose proof (acc_range T L xs ys) as Ha. set (a := acc xs ys) in *.
  replace (g xs + a * (g ys - g xs)) with (plus ((a - 0) * g ys) ((1 - a) * g xs)) by (unfold plus; cbn; ring).
  apply (is_RInt_Chasles (V := R_NormedModule)) with a.
  - apply (is_RInt_ext (fun _ => g ys)); [|apply const_int]. intros u Hu. rewrite Rmin_left, Rmax_right in Hu by lra.
    destruct (Rlt_dec _ _) as [|Hn]; auto. exfalso. apply Hn. apply ln_acc; unfold a in *; lra.
  - apply (is_RInt_ext (fun _ => g xs)); [|apply const_int]. intros u Hu. rewrite Rmin_left, Rmax_right in Hu by lra.
    destruct (Rlt_dec _ _) as [Hn|]; auto. apply ln_acc in Hn; unfold a in *; lra.
Qed.
Definition kern (xs ys : list R) : R := pq ss 0 xs ys * acc xs ys.
Definition together (g : list R -> R) (xs : list R) : R := g xs + bint d (fun ys => kern xs ys * (g ys - g xs)).
Lemma left2 f m : ucont d f -> ucont2 d m (fun xs _ => f xs).
Proof. apply ucont_firstn. Qed.
Lemma right2 f : ucont d f -> ucont2 d d (fun _ ys => f ys).
Proof. apply ucont_skipn. Qed.
Lemma acc2 : ucont2 d d acc.
Proof.
  unfold ucont2, ProofInvariance.acc. apply ucont_min; auto; [apply ucont_const|].
  apply (ucont_comp lo hi Hlo (d + d) exp). { intros. apply derivable_continuous_pt. apply derivable_pt_exp. }
  apply (ucont_ext lo hi (d + d) (fun l => / T * (L (skipn d l) - L (firstn d l)))); [intros; unfold Rdiv; lra|].
  apply ucont_scal; auto. apply ucont_minus; auto; [exact (right2 L HL)|exact (left2 L d HL)].
Qed.
Lemma kern2 : ucont2 d d kern.
Proof. unfold ucont2, kern. apply ucont_mult; auto; [now apply ucont_pq|exact acc2]. Qed.
Lemma diff2 g : ucont d g -> ucont2 d d (fun xs ys => g ys - g xs).
Proof. intros Hg. apply (ucont_minus lo hi Hlo (d + d)); [exact (right2 g Hg)|exact (left2 g d Hg)]. Qed.
Lemma flow2 g : ucont d g -> ucont2 d d (fun xs ys => kern xs ys * (g ys - g xs)).
Proof. intros Hg. unfold ucont2. apply ucont_mult; auto; [exact kern2|exact (diff2 g Hg)]. Qed.
Lemma ucont_together g : ucont d g -> ucont d (together g).
Proof. intros Hg. unfold together. apply ucont_plus; auto. exact (ucont2_int d d _ (flow2 g Hg)). Qed.
Lemma acc_at xs : box d xs -> ucont d (acc xs).
Proof. intros Hx. exact (ucont2_at d d acc xs acc2 Hx). Qed.
Lemma kern_at xs : box d xs -> ucont d (kern xs).
Proof. intros Hx. exact (ucont2_at d d kern xs kern2 Hx). Qed.
Lemma mean_many_leap g xs : ucont d g -> box d xs -> mean_many phi d (fun zs u => g (leap xs zs u)) (together g xs).
Proof.
  intros Hg Hx. exists (leap_mean g xs). split; [intros; apply mean_unit_leap|].
  pose proof (mean_jump ss Hss (g xs) (fun ys => acc xs ys * (g ys - g xs)) xs Hx) as H.
  unfold together. rewrite (box_int_ext lo hi Hlo d (fun ys => kern xs ys * (g ys - g xs)) (fun ys => pq ss 0 xs ys * (acc xs ys * (g ys - g xs)))) by (intros; unfold kern; ring).
  apply H. apply ucont_mult; auto; [now apply acc_at|]. apply ucont_minus; auto. apply ucont_const.
Qed.
(** Balance. *)
Lemma ucont_dens2 : ucont d dens.
Proof. exact (ucont_dens lo hi Hlo d T L HL). Qed.
Lemma balance_together g : ucont d g -> bint d (fun xs => dens xs * together g xs) = bint d (fun xs => dens xs * g xs).
Proof.
  intros Hg.
  set (A := fun xs ys => pq ss 0 xs ys * Rmin (dens xs) (dens ys)).
  assert (HA : ucont2 d d A).
  { unfold ucont2, A. apply ucont_mult; auto; [now apply ucont_pq|]. apply ucont_min; auto; [exact (left2 _ d ucont_dens2)|exact (right2 _ ucont_dens2)]. }
  assert (HU : ucont2 d d (fun xs ys => A xs ys * g ys)) by (apply (ucont_mult lo hi Hlo (d + d)); [exact HA|exact (right2 g Hg)]).
  assert (HV : ucont2 d d (fun xs ys => A xs ys * g xs)) by (apply (ucont_mult lo hi Hlo (d + d)); [exact HA|exact (left2 g d Hg)]).
  set (U := fun xs => bint d (fun ys => A xs ys * g ys)). set (V := fun xs => bint d (fun ys => A xs ys * g xs)).
  assert (CU : ucont d U) by exact (ucont2_int d d _ HU). assert (CV : ucont d V) by exact (ucont2_int d d _ HV).
  assert (E : bint d U = bint d V).
  { unfold U. rewrite (ucont2_swap d d _ HU). unfold V. apply box_int_ext; auto. intros xs Hx. apply box_int_ext; auto. intros ys Hy.
    unfold A. rewrite (pq_sym ss Hss 0 ys xs), Rmin_comm. reflexivity. }
  transitivity (bint d (fun xs => dens xs * g xs + (U xs + (-1) * V xs))).
  - apply box_int_ext; auto. intros xs Hx. unfold together. rewrite Rmult_plus_distr_l. f_equal.
    pose proof (ucont2_at d d _ xs HU Hx) as X1. pose proof (ucont2_at d d _ xs HV Hx) as X2. pose proof (ucont2_at d d _ xs (flow2 g Hg) Hx) as X3.
    cbv beta in X1, X2, X3. unfold U, V.
    rewrite <- (box_int_scal lo hi Hlo d (dens xs)) by exact X3. rewrite <- (box_int_scal lo hi Hlo d (-1)) by exact X2.
    rewrite <- box_int_plus; auto; [|now apply ucont_scal]. apply box_int_ext; auto. intros ys Hy. unfold A, kern. rewrite <- dens_acc by exact HT. ring.
  - rewrite (box_int_plus lo hi Hlo d (fun xs => dens xs * g xs) (fun xs => U xs + -1 * V xs)).
    + rewrite (box_int_plus lo hi Hlo d U (fun xs => -1 * V xs)) by (auto; now apply ucont_scal).
      rewrite (box_int_scal lo hi Hlo d (-1) V) by auto. rewrite E. lra.
    + apply ucont_mult; auto. apply ucont_dens2.
    + apply ucont_plus; auto. now apply ucont_scal.
Qed.
(** Convergence. *)
Lemma kern_pos xs ys : 0 <= kern xs ys.
Proof. unfold kern. apply Rmult_le_pos; [now apply pq_pos|]. apply Rlt_le, acc_range. Qed.
Lemma kern_mass xs : box d xs -> bint d (kern xs) <= 1.
Proof.
  intros Hx. eapply Rle_trans; [|exact (pq_mass ss Hss xs Hx)]. apply ProofLine.box_int_le; auto; [now apply kern_at|now apply pq_at|].
  intros ys Hy. unfold kern. pose proof (acc_range T L xs ys). pose proof (pq_pos ss Hss 0 xs ys). nra.
Qed.
Lemma kern_low : exists delta, 0 < delta /\ forall xs ys, box d xs -> box d ys -> delta <= kern xs ys.
Proof.
  destruct (pq_low ss Hss) as (de & Hd & H). destruct (ucont_bounded lo hi Hlo d L HL) as (B & HB & BB).
  exists (de * exp (- (2 * B / T))). split; [apply Rmult_lt_0_compat; auto; apply exp_pos|]. intros xs ys Hx Hy. unfold kern.
  apply Rmult_le_compat; [lra|apply Rlt_le, exp_pos|now apply H|].
  assert (He : forall a b, a <= b -> exp a <= exp b) by (intros a b [H0| ->]; [apply Rlt_le; now apply exp_increasing|lra]).
  unfold ProofInvariance.acc. apply Rmin_glb.
  - rewrite <- exp_0. apply He. assert (0 < 2 * B / T) by (apply Rdiv_lt_0_compat; lra). lra.
  - apply He. pose proof (BB xs Hx) as B1. pose proof (BB _ Hy) as B2.
    apply Rabs_le_between in B1. apply Rabs_le_between in B2.
    replace (- (2 * B / T)) with (- (2 * B) / T) by (field; lra). unfold Rdiv. apply Rmult_le_compat_r; [apply Rlt_le; now apply Rinv_0_lt_compat|]. lra.
Qed.
Lemma together_split g xs : ucont d g -> box d xs -> together g xs = bint d (fun ys => kern xs ys * g ys) + (1 - bint d (kern xs)) * g xs.
Proof.
  intros Hg Hx. unfold together. pose proof (kern_at xs Hx) as Hk.
  rewrite (box_int_ext lo hi Hlo d _ (fun ys => kern xs ys * g ys + (- g xs) * kern xs ys)) by (intros; ring).
  rewrite (box_int_plus lo hi Hlo d (fun ys => kern xs ys * g ys) (fun ys => - g xs * kern xs ys)); [|now apply ucont_mult|now apply ucont_scal].
  rewrite (box_int_scal lo hi Hlo d (- g xs) (kern xs)) by auto. ring.
Qed.
Lemma together_low : exists delta, 0 < delta /\ forall g xs, ucont d g -> (forall xs, box d xs -> 0 <= g xs) -> box d xs -> delta * bint d g <= together g xs.
Proof.
  destruct kern_low as (de & Hd & H). exists de. split; auto. intros g xs Hg Hp Hx. rewrite together_split by auto.
  pose proof (kern_mass xs Hx). pose proof (Hp xs Hx).
  rewrite <- (box_int_scal lo hi Hlo d de g) by auto.
  assert (bint d (fun ys => de * g ys) <= bint d (fun ys => kern xs ys * g ys)).
  { apply ProofLine.box_int_le; auto; [now apply ucont_scal|apply ucont_mult; auto; now apply kern_at|]. intros ys Hy. apply Rmult_le_compat_r; auto. }
  assert (0 <= (1 - bint d (kern xs)) * g xs) by (apply Rmult_le_pos; lra). lra.
Qed.
Lemma together_averages : averages (box d) (ucont d) together.
Proof.
  destruct together_low as (de & Hd & H). split.
  - intros g Hg. now apply ucont_together.
  - intros a b g Hg. apply ucont_plus; [apply ucont_const|now apply ucont_scal].
  - intros a b g xs Hg Hx. unfold together.
    rewrite (box_int_ext lo hi Hlo d _ (fun ys => b * (kern xs ys * (g ys - g xs)))) by (intros; ring).
    rewrite box_int_scal; [ring|auto|]. exact (ucont2_at d d _ xs (flow2 g Hg) Hx).
  - intros g xs Hg Hp Hx. eapply Rle_trans; [|apply H; auto]. apply Rmult_le_pos; [lra|]. now apply ProofLine.box_int_nonneg.
  - intros g h xs E Hx. unfold together. rewrite E by auto. f_equal. apply box_int_ext; auto. intros ys Hy. now rewrite E.
Qed.
Lemma together_converges : exists rho, 0 <= rho < 1 /\ forall g B, ucont d g -> (forall xs, box d xs -> Rabs (g xs) <= B) ->
  forall k xs, box d xs -> Rabs (Nat.iter k together g xs - expect lo hi d dens g) <= 2 * B * rho ^ k.
Proof.
  pose proof ucont_dens2 as Hdc. assert (Hdp : forall xs, box d xs -> 0 < dens xs) by (intros; apply exp_pos).
  assert (HM : 0 < total lo hi d dens) by now apply total_pos.
  assert (Hv : 0 < (hi - lo) ^ d) by (apply pow_lt; lra).
  destruct together_low as (de & Hd & Hlow).
  set (theta := de * (hi - lo) ^ d). assert (Hth : 0 < theta) by now apply Rmult_lt_0_compat.
  assert (Hmin : forall g xs, ucont d g -> (forall xs, box d xs -> 0 <= g xs) -> box d xs -> theta * uni lo hi d g <= Nat.iter 1 together g xs).
  { intros g xs Hg Hp Hx. change (Nat.iter 1 together g xs) with (together g xs). eapply Rle_trans; [|apply Hlow; auto]. right. unfold theta, uni. field. lra. }
  assert (Hone : theta <= 1).
  { set (x0 := repeat lo d). assert (Hx0 : box d x0). { split; [apply repeat_length|]. apply List.Forall_forall. intros x Hx. apply repeat_spec in Hx. subst. lra. }
    pose proof (Hmin (fun _ => 1) x0 (ucont_const lo hi d 1) ltac:(intros; lra) Hx0) as H.
    assert (E : uni lo hi d (fun _ => 1) = 1). { unfold uni. rewrite (box_const lo hi). field. lra. }
    assert (E2 : Nat.iter 1 together (fun _ => 1) x0 <= 1).
    { apply (iter_bounds (box d) (ucont d) together together_averages 1 (fun _ => 1) 1 1); auto; [apply ucont_const|intros; lra]. }
    rewrite E in H. lra. }
  exists (1 - theta). split; [lra|]. intros g B Hg HB k xs Hx.
  replace (2 * B) with (B - - B) by ring. replace ((1 - theta) ^ k) with ((1 - theta) ^ (k / 1)) by now rewrite Nat.div_1_r.
  apply (converges (box d) (ucont d) together 1 (uni lo hi d) (expect lo hi d dens) theta together_averages); auto.
  - intros a b h Hh. unfold uni. rewrite (box_int_ext lo hi Hlo d (fun x => a + b * h x) (fun x => 1 * (a + b * h x))) by (intros; ring).
    rewrite (box_aff lo hi Hlo d (fun _ => 1) a b h (ucont_const lo hi d 1) Hh). rewrite (box_const lo hi).
    rewrite (box_int_ext lo hi Hlo d (fun x => 1 * h x) h) by (intros; ring). field. lra.
  - intros a b h Hh. unfold expect. rewrite (box_aff lo hi Hlo d dens a b h Hdc Hh). fold (total lo hi d dens). field. lra.
  - intros h Hh Hp. unfold expect. apply Rmult_le_pos; [|apply Rlt_le; now apply Rinv_0_lt_compat].
    apply ProofLine.box_int_nonneg; auto; [now apply (ucont_mult lo hi Hlo d dens)|]. intros ys Hy. apply Rmult_le_pos; auto. apply Rlt_le; auto.
  - intros h Hh. unfold expect. f_equal. now apply balance_together.
  - intros ys Hy. apply HB in Hy. apply Rabs_le_between in Hy. lra.
Qed.
End Many.
