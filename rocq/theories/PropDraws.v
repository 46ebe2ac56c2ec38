(** C78: sampling, first states and births draw from the prior. *)
From Coq Require Import Permutation.
From Verif Require Import Base SpecUtils1D ModelUtils1D ModelPrior ModelState ModelSpace SpecPrior SpecState SpecSpace SpecDraws
  ProofUtils1D ProofChain ProofInversion ProofState ProofSpace ProofSpaceB ProofSpaceC ProofSpaceD PropPrior ProofEnsemble ProofNested ExampleRun ExampleSpace PropSpace PropNeighbour.
Local Open Scope R_scope.

Lemma uniform_iff a b tr v tr' : uniform a b tr = Ret v tr' <->
  exists u, tr = DU u :: tr' /\ 0 <= u < 1 /\ v = (1 - u) * a + u * b.
Proof.
  unfold uniform. split.
  - intros H. mb H as u Eu. mr H. apply drawU_inv in Eu. destruct Eu as [-> Hu]. exists u. split; auto. split; auto. lra.
  - intros (u & -> & Hu & ->). unfold bind. rewrite drawU_ok by auto. unfold ret. f_equal. lra.
Qed.
Lemma normal_iff a b tr v tr' : normal a b tr = Ret v tr' <-> exists z, tr = DZ z :: tr' /\ v = a + b * z.
Proof.
  unfold normal, bind, drawZ, ret. split.
  - destruct tr as [|[] tr]; try discriminate. intros [= <- <-]. eexists. split; auto. lra.
  - intros (z & -> & ->). f_equal. lra.
Qed.
Lemma laplace_iff a b tr v tr' : laplace a b tr = Ret v tr' <-> exists z, tr = DLap z :: tr' /\ v = a + b * z.
Proof.
  unfold laplace, bind, drawLap, ret. split.
  - destruct tr as [|[] tr]; try discriminate. intros [= <- <-]. eexists. split; auto.
  - intros (z & -> & ->). f_equal.
Qed.
Lemma lift_iff {A} (r : res A) tr a tr' : lift r tr = Ret a tr' <-> r = Ok a /\ tr' = tr.
Proof.
  destruct r; cbn; unfold ret, err, ubeh; split; try discriminate.
  - intros [= <- <-]. auto.
  - intros [[= <-] ->]. auto.
  - intros [H _]. discriminate.
  - intros [H _]. discriminate.
Qed.
Lemma bind_lift {A B} (r : res A) (f : A -> M B) tr b tr' : bind (lift r) f tr = Ret b tr' <->
  exists a, r = Ok a /\ f a tr = Ret b tr'.
Proof.
  unfold bind. destruct r; cbn; unfold ret, err, ubeh; split; try discriminate.
  - eauto.
  - intros (x & [= <-] & H). exact H.
  - intros (x & H & _). discriminate.
  - intros (x & H & _). discriminate.
Qed.

(** [sample] of a prior returns a value exactly when the next draws give this value. *)
Theorem C78_value pr at_ tr v tr' : dist_ok (p_dist pr) ->
  (p_sample pr at_ tr = Ret v tr' <-> value_drawn (p_dist pr) at_ tr v tr').
Proof.
  unfold p_sample. destruct (p_dist pr) as [a b|a b|a b|f l2 l1]; intros Hok; [destruct Hok as [Ha Hb]..|].
  - rewrite bind_lift. setoid_rewrite bind_lift. setoid_rewrite uniform_iff. split.
    + intros (lo & Elo & hi & Ehi & u & -> & Hu & ->). apply VD_uniform with a b; auto; apply C12_hyper_parameters; auto.
    + intros H. inversion H as [a0 b0 lo hi u t E Hlo Hhi Hu|? ? ? ? ? ? E|? ? ? ? ? ? E|? ? ? ? ? ? E]; subst; try discriminate.
      injection E as <- <-. exists lo. split; [apply C12_hyper_parameters; auto|]. exists hi.
      split; [apply C12_hyper_parameters; auto|]. exists u. auto.
  - rewrite bind_lift. setoid_rewrite bind_lift. setoid_rewrite normal_iff. split.
    + intros (lo & Elo & hi & Ehi & u & -> & ->). apply VD_gauss with a b; auto; apply C12_hyper_parameters; auto.
    + intros H. inversion H as [? ? ? ? ? ? E|a0 b0 lo hi u t E Hlo Hhi|? ? ? ? ? ? E|? ? ? ? ? ? E]; subst; try discriminate.
      injection E as <- <-. exists lo. split; [apply C12_hyper_parameters; auto|]. exists hi.
      split; [apply C12_hyper_parameters; auto|]. exists u. auto.
  - rewrite bind_lift. setoid_rewrite bind_lift. setoid_rewrite laplace_iff. split.
    + intros (lo & Elo & hi & Ehi & u & -> & ->). apply VD_laplace with a b; auto; apply C12_hyper_parameters; auto.
    + intros H. inversion H as [? ? ? ? ? ? E|? ? ? ? ? ? E|a0 b0 lo hi u t E Hlo Hhi|? ? ? ? ? ? E]; subst; try discriminate.
      injection E as <- <-. exists lo. split; [apply C12_hyper_parameters; auto|]. exists hi.
      split; [apply C12_hyper_parameters; auto|]. exists u. auto.
  - split; [apply VD_custom with l2 l1; auto|].
    intros H. inversion H as [? ? ? ? ? ? E|? ? ? ? ? ? E|? ? ? ? ? ? E|f0 a0 b0 ? ? ? E]; subst; try discriminate.
    injection E as <- <- <-. assumption.
Qed.

(** * Sites *)
Lemma until_rec {A} (P : trace -> A -> trace -> Prop) (m : M A) ok :
  (forall tr a tr', m tr = Ret a tr' -> ok a = true -> P tr a tr') ->
  (forall tr b t a tr', m tr = Ret b t -> ok b = false -> P t a tr' -> P tr a tr') ->
  forall tr a tr', until m ok tr = Ret a tr' -> P tr a tr'.
Proof.
  intros H1 H2 tr a tr'. unfold until. generalize (S (length tr)) as fuel. intros fuel. revert tr.
  induction fuel as [|f IH]; intros tr H; cbn in H; [discriminate|].
  destruct (m tr) as [b t|e t| |] eqn:E; try discriminate.
  destruct (ok b) eqn:Eb; [|eauto]. injection H as <- <-. eauto.
Qed.
Lemma uniform_vec_drawn d lo hi tr x tr' : uniform_vec d lo hi tr = Ret x tr' ->
  exists us, tr = map DU us ++ tr' /\ point_drawn d lo hi us x.
Proof.
  unfold uniform_vec. destruct (Nat.eqb_spec (length lo) d) as [L1|]; cbn [andb]; [|discriminate].
  destruct (Nat.eqb_spec (length hi) d) as [L2|]; [|discriminate]. unfold point_drawn. subst d. intros H.
  revert hi L2 tr x H. induction lo as [|a lo IH]; intros [|b hi] L2 tr x H; cbn in L2; try discriminate; cbn [combine mapM] in H.
  - mr H. exists []. cbn. repeat (split; auto). intros [|i]; discriminate.
  - mb H as y Ey. mb H as ys Eys. mr H. cbn [fst snd] in Ey. apply uniform_iff in Ey. destruct Ey as (u & -> & Hu & ->).
    destruct (IH hi (f_equal pred L2) _ _ Eys) as (us & -> & K1 & K2 & K3 & K4 & K5 & K6).
    exists (u :: us). cbn. split; auto. split; auto. split; auto. split; [congruence|]. split; [congruence|].
    split; [auto|]. intros [|i] a' b' u'; cbn; [intros [= <-] [= <-] [= <-]; auto|apply K6].
Qed.
(** A sampled site is uniform on the interval or the box, or the first point inside the polygon. *)
Theorem C78_site c tr x tr' : sample_site c tr = Ret x tr' -> site_drawn c tr x tr'.
Proof.
  destruct c as [|lo hi sd fp|d lo hi sd [inside|] kd fp]; cbn [sample_site]; intros H; [discriminate|..].
  - mb H as y Ey. mr H. apply uniform_iff in Ey. destruct Ey as (u & -> & Hu & ->). eapply ST_line; eauto.
  - mb H as y Ey. mr H.
    match goal with |- site_drawn ?c ?t _ ?t' =>
      apply (until_rec (fun t y t' => site_drawn c t (PN y) t')) in Ey; [exact Ey|..] end.
    + intros t a t' E Ein. apply uniform_vec_drawn in E. destruct E as (us & -> & K). eapply ST_inside; eauto.
    + intros t b t0 a t' E Ein Hrest. apply uniform_vec_drawn in E. destruct E as (us & -> & K). eapply ST_outside; eauto.
  - mb H as y Ey. mr H. apply uniform_vec_drawn in Ey. destruct Ey as (us & -> & K). eapply ST_box; eauto.
Qed.

(** * Lists *)
Lemma each_mapM {A B} (P : A -> trace -> B -> trace -> Prop) (f : A -> M B) l :
  (forall a tr b tr', In a l -> f a tr = Ret b tr' -> P a tr b tr') ->
  forall tr m tr', mapM f l tr = Ret m tr' -> each P l tr m tr'.
Proof.
  induction l as [|a l IH]; intros HP tr m tr' H; cbn [mapM] in H.
  - mr H. constructor.
  - mb H as b Eb. mb H as bs Ebs. mr H. econstructor; [apply HP; [now left|eauto]|].
    eapply IH; eauto. intros; eapply HP; eauto. now right.
Qed.
Lemma each_repeatM {A B} (P : A -> trace -> B -> trace -> Prop) (f : M B) l :
  (forall a tr b tr', f tr = Ret b tr' -> P a tr b tr') ->
  forall tr m tr', repeatM (length l) f tr = Ret m tr' -> each P l tr m tr'.
Proof.
  intros HP. induction l as [|a l IH]; intros tr m tr' H; cbn [length repeatM] in H.
  - mr H. constructor.
  - mb H as b Eb. mb H as bs Ebs. mr H. econstructor; eauto.
Qed.
Lemma each_repeat {A B} (P : A -> trace -> B -> trace -> Prop) (f : M B) a n :
  (forall tr b tr', f tr = Ret b tr' -> P a tr b tr') ->
  forall tr m tr', repeatM n f tr = Ret m tr' -> each P (repeat a n) tr m tr'.
Proof.
  intros HP. induction n as [|n IH]; intros tr m tr' H; cbn [repeat repeatM] in *.
  - mr H. constructor.
  - mb H as b Eb. mb H as bs Ebs. mr H. econstructor; eauto.
Qed.
Lemma each_len {A B} (P : A -> trace -> B -> trace -> Prop) l tr m tr' : each P l tr m tr' -> length m = length l.
Proof. induction 1; cbn; congruence. Qed.
Lemma each_map {A B C} (P : B -> trace -> C -> trace -> Prop) (g : A -> B) l tr m tr' :
  each (fun a => P (g a)) l tr m tr' -> each P (map g l) tr m tr'.
Proof. induction 1; cbn; econstructor; eauto. Qed.
Lemma each_impl {A B} (P Q : A -> trace -> B -> trace -> Prop) l tr m tr' :
  (forall a t b t', In a l -> P a t b t' -> Q a t b t') -> each P l tr m tr' -> each Q l tr m tr'.
Proof. intros HPQ H. induction H; [constructor|]. econstructor; [apply HPQ; [now left|eauto]|]. apply IHeach. intros. apply HPQ; auto. now right. Qed.
Lemma junk_drawn n tr g tr' : repeatM n drawVal tr = Ret g tr' -> tr = map DVal g ++ tr' /\ length g = n.
Proof.
  revert tr g. induction n as [|n IH]; intros tr g H; cbn [repeatM] in H.
  - mr H. auto.
  - mb H as x Ex. mb H as xs Exs. mr H. destruct (IH _ _ Exs) as [-> <-].
    unfold drawVal in Ex. destruct tr as [|[] tr]; try discriminate. injection Ex as -> ->. auto.
Qed.

(** * First values of a prior *)
Lemma rmap_each {A B C} (P : A -> trace -> C -> trace -> Prop) (h : A -> res B) (f : B -> M C) l bs :
  rmap h l = Ok bs ->
  (forall a b tr v tr', In a l -> h a = Ok b -> f b tr = Ret v tr' -> P a tr v tr') ->
  forall tr m tr', mapM f bs tr = Ret m tr' -> each P l tr m tr'.
Proof.
  revert bs. induction l as [|a l IH]; intros bs H HP tr m tr' Hm; cbn [rmap] in H.
  - injection H as <-. mr Hm. constructor.
  - apply rbind_ok in H. destruct H as (b & Eb & H). apply rbind_ok in H. destruct H as (bs' & Ebs & H). injection H as <-.
    cbn [mapM] in Hm. mb Hm as y Ey. mb Hm as ys Eys. mr Hm. econstructor; [eapply HP; eauto; now left|].
    eapply IH; eauto. intros; eapply HP; eauto. now right.
Qed.
Lemma hyper_all h ps rs : get_hyper_all h ps = Ok rs -> rmap (fun p => get_hyper h (Some p)) ps = Ok rs.
Proof.
  destruct h as [r|x y|f]; cbn [get_hyper_all]; auto.
  - intros [= <-]. induction ps as [|p ps IH]; cbn in *; auto. now rewrite IH.
  - destruct ps as [|p [|p' ps]]; try discriminate. auto.
Qed.
Lemma pair_each {A C} (P : A -> trace -> C -> trace -> Prop) (h k : A -> res R) (f : R * R -> M C) l xs ys :
  rmap h l = Ok xs -> rmap k l = Ok ys ->
  (forall a x y tr v tr', In a l -> h a = Ok x -> k a = Ok y -> f (x, y) tr = Ret v tr' -> P a tr v tr') ->
  forall tr m tr', mapM f (combine xs ys) tr = Ret m tr' -> each P l tr m tr'.
Proof.
  revert xs ys. induction l as [|a l IH]; intros xs ys H K HP tr m tr' Hm; cbn [rmap] in H, K.
  - injection H as <-. injection K as <-. mr Hm. constructor.
  - apply rbind_ok in H. destruct H as (b & Eb & H). apply rbind_ok in H. destruct H as (bs & Ebs & H). injection H as <-.
    apply rbind_ok in K. destruct K as (c & Ec & K). apply rbind_ok in K. destruct K as (cs & Ecs & K). injection K as <-.
    cbn [combine mapM] in Hm. mb Hm as y Ey. mb Hm as zs Ezs. mr Hm. econstructor; [eapply HP; eauto; now left|].
    eapply IH; eauto. intros; eapply HP; eauto. now right.
Qed.
(** [initialize] of a prior draws one value per position. *)
Theorem C78_first_values pr ps tr vs tr' : dist_ok (p_dist pr) -> p_initialize pr ps tr = Ret vs tr' ->
  each (value_drawn (p_dist pr)) (map Some ps) tr vs tr'.
Proof.
  intros Hok H. apply each_map. unfold p_initialize in H.
  destruct (p_dist pr) as [a b|a b|a b|f l2 l1] eqn:Ed; [destruct Hok as [Ha Hb]..|].
  - mb H as bs Ebs. destruct bs as [|b0 bs]; [discriminate|].
    eapply rmap_each; [exact Ebs| |exact H]. cbv beta. intros p lh t v t' _ E Hu.
    apply rbind_ok in E. destruct E as (lo & Elo & E). apply rbind_ok in E. destruct E as (hi & Ehi & [= <-]).
    cbn [fst snd] in Hu. apply uniform_iff in Hu. destruct Hu as (u & -> & Hu & ->).
    apply VD_uniform with a b; auto; apply C12_hyper_parameters; auto.
  - mb H as ms Ems. mb H as ss Ess. destruct (neg_any ss); [discriminate|].
    eapply pair_each; [exact (hyper_all _ _ _ Ems)|exact (hyper_all _ _ _ Ess)| |exact H].
    cbv beta. cbn [fst snd]. intros p x y t v t' _ Ex Ey Hz. apply normal_iff in Hz. destruct Hz as (z & -> & ->).
    apply VD_gauss with a b; auto; apply C12_hyper_parameters; auto.
  - mb H as ms Ems. mb H as ss Ess. destruct (neg_any ss); [discriminate|].
    eapply pair_each; [exact (hyper_all _ _ _ Ems)|exact (hyper_all _ _ _ Ess)| |exact H].
    cbv beta. cbn [fst snd]. intros p x y t v t' _ Ex Ey Hz. apply laplace_iff in Hz. destruct Hz as (z & -> & ->).
    apply VD_laplace with a b; auto; apply C12_hyper_parameters; auto.
  - eapply each_mapM; [|exact H]. cbv beta. intros p t v t' _ E. eapply VD_custom; [reflexivity|exact E].
Qed.
Lemma value_settled d at_ at' tr v tr' : settled d -> value_drawn d at_ tr v tr' -> value_drawn d at' tr v tr'.
Proof.
  intros Hs H. inversion H as [a b lo hi u t E H1 H2 Hu|a b lo hi u t E H1 H2|a b lo hi u t E H1 H2|f l2 l1 x t t' E Hf]; subst;
    cbn in Hs; try (destruct a, b; try contradiction; cbn in H1, H2; subst).
  - eapply VD_uniform; eauto; reflexivity.
  - eapply VD_gauss; eauto; reflexivity.
  - eapply VD_laplace; eauto; reflexivity.
  - eapply VD_custom; eauto. rewrite (Hs at' at_). exact Hf.
Qed.

(** * Numbers of dimensions *)
Lemma Int_part_le x : IZR (Int_part x) <= x < IZR (Int_part x) + 1.
Proof. destruct (base_Int_part x). lra. Qed.
Lemma first_number s tr n tr' : space_ok s -> init_n s tr = Ret n tr' -> number_drawn true s tr n tr'.
Proof.
  intros (Hmm & Hr & _). unfold init_n. destruct (sp_fixed s) as [m|] eqn:Ef.
  - intros H. mr H. now constructor.
  - set (x := (INR (sp_max s) - INR (sp_min s)) * sp_range s + INR (sp_min s)).
    unfold randint_to. destruct (Z.ltb_spec (py_int x) (Z.of_nat (sp_min s))) as [|Hz]; [discriminate|].
    intros H. apply randint_inv in H. destruct H as [Hn ->].
    assert (Hx0 : 0 <= x).
    { unfold x. assert (INR (sp_min s) <= INR (sp_max s)) by (apply le_INR; lia).
      assert (0 <= INR (sp_min s)) by apply pos_INR. nra. }
    apply ND_free; [auto|lia|]. fold x. unfold py_int in *. destruct (Rltb x 0) eqn:E.
    + apply Rltb_true in E. lra.
    + destruct (Int_part_le x) as [H1 _]. apply Rle_trans with (IZR (Int_part x)); auto.
      rewrite INR_IZR_INZ. apply IZR_le. lia.
Qed.
Lemma sampled_number s tr n tr' : sample_n s tr = Ret n tr' -> number_drawn false s tr n tr'.
Proof.
  unfold sample_n. destruct (sp_fixed s) as [m|] eqn:Ef.
  - intros H. mr H. now constructor.
  - intros H. apply randint_inv in H. destruct H as [Hn ->]. constructor; auto; [lia|]. apply le_INR. lia.
Qed.

(** * Sites of a state *)
Lemma drawn_sites c n tr xs tr' : c <> Plain -> repeatM n (sample_site c) tr = Ret xs tr' ->
  each (fun _ : unit => site_drawn c) (repeat tt n) tr xs tr' /\ length xs = n /\
  exists ps, positions_of (Some (sites_value c xs)) = Ok ps /\ sites_are xs (sites_value c xs) ps /\ length ps = n.
Proof.
  intros Hc H. apply (each_repeat (fun _ : unit => site_drawn c) _ tt) in H; [|intros; now apply C78_site].
  split; auto. pose proof (each_len _ _ _ _ _ H) as L. rewrite repeat_length in L. split; auto.
  destruct c as [|lo hi sd fp|d lo hi sd poly kd fp]; [congruence| |].
  - assert (Hl : exists l, xs = map P1 l).
    { clear -H. remember (repeat tt n) as us eqn:E. clear E. induction H as [|a l b m t t1 t2 Hb _ IH]; [exists []; auto|].
      destruct IH as (l' & ->). inversion Hb; try discriminate. exists ((1 - u) * lo0 + u * hi0 :: l'). auto. }
    destruct Hl as (l & ->). cbn [sites_value].
    assert (Er : ravel (map P1 l) = l) by (clear; unfold ravel, rows; induction l as [|x l IH]; cbn; [auto|f_equal; exact IH]). rewrite Er. clear Er.
    exists (map P1 (rsort l)). split; auto. split; [|rewrite map_length, rsort_length, <- L, map_length; auto].
    left. exists l, (rsort l). split; auto. split; [symmetry; apply rsort_perm|].
    split; [apply ordered_sorted, rsort_ordered|]. auto.
  - assert (Hl : exists l, xs = map PN l).
    { clear -H. remember (repeat tt n) as us eqn:E. clear E. induction H as [|a l b m t t1 t2 Hb _ IH]; [exists []; auto|].
      destruct IH as (l' & ->). assert (Hx : exists x, b = PN x).
      { clear -Hb. remember (VorN d lo hi sd poly kd fp) as c eqn:Ec. induction Hb; try congruence; eauto. }
      destruct Hx as (x & ->). exists (x :: l'). auto. }
    destruct Hl as (l & ->). cbn [sites_value].
    assert (Er : rows (map PN l) = l) by (clear; unfold ravel, rows; induction l as [|x l IH]; cbn; [auto|f_equal; exact IH]). rewrite Er. clear Er.
    exists (map PN l). split; auto. split; auto. right. exists l. auto.
Qed.

(** * Parameters *)
Definition from_f (first : bool) (f : space -> M psstate) (params : list (string * param)) : Prop :=
  forall k s' t q t', In (k, PSpace s') params -> f s' t = Ret q t' -> state_drawn first s' t q t'.
Definition oks (params : list (string * param)) : Prop :=
  forall k p, In (k, PPrior p) params -> dist_ok (p_dist p).
Lemma from_f_tail first f x l : from_f first f (x :: l) -> from_f first f l.
Proof. intros H k s' t q t' Hin. eapply H. right. exact Hin. Qed.
Lemma oks_tail x l : oks (x :: l) -> oks l.
Proof. intros H k p Hin. eapply H. right. exact Hin. Qed.

Lemma sample_plain_drawn (f : space -> M psstate) n params : oks params -> from_f false f params ->
  forall tr vals tr',
  (fix go (l : list (string * param)) : M (dict value) :=
     match l with
     | [] => ret []
     | (k, PPrior p) :: t =>
         a <- repeatM n (p_sample p None) ;;
         r <- go t ;; ret ((k, Arr a) :: r)
     | (k, PSpace s') :: t =>
         a <- repeatM n (f s') ;;
         r <- go t ;;
         ret ((k, if is_disc s' then AObj a else Lst a) :: r)
     end) params tr = Ret vals tr' ->
  params_drawn false O (repeat None n) params tr vals tr'.
Proof.
  induction params as [|[k [pr|s']] l IH]; intros Ho Hf tr vals tr' H.
  - mr H. constructor.
  - mb H as a Ea. mb H as r Er. mr H.
    eapply PD_prior with (junk := []); [reflexivity|reflexivity| |eapply IH; [eapply oks_tail; eauto|eapply from_f_tail; eauto|exact Er]].
    eapply each_repeat; [|exact Ea]. intros ta b tb E. apply C78_value; auto. eapply Ho. left. reflexivity.
  - mb H as a Ea. mb H as r Er. mr H.
    eapply PD_space; [|destruct (is_disc s'); [right|left]; reflexivity|eapply IH; [eapply oks_tail; eauto|eapply from_f_tail; eauto|exact Er]].
    apply (each_repeat (fun _ : option pos => state_drawn false s') (f s')); [|exact Ea].
    intros ta q tb. apply (Hf k). now left.
Qed.
Lemma first_plain_drawn (f : space -> M psstate) n params : oks params -> from_f true f params ->
  (forall k p, In (k, PPrior p) params -> settled (p_dist p)) -> forall tr vals tr',
  (fix go (l : list (string * param)) : M (dict value) :=
     match l with
     | [] => ret []
     | (k, PPrior p) :: t =>
         g <- repeatM n drawVal ;;
         a <- p_initialize p (map P1 g) ;;
         r <- go t ;; ret ((k, Arr a) :: r)
     | (k, PSpace s') :: t =>
         a <- repeatM n (f s') ;;
         r <- go t ;; ret ((k, Lst a) :: r)
     end) params tr = Ret vals tr' ->
  params_drawn true n (repeat None n) params tr vals tr'.
Proof.
  induction params as [|[k [pr|s']] l IH]; intros Ho Hf Hs tr vals tr' H.
  - mr H. constructor.
  - mb H as g Eg. mb H as a Ea. mb H as r Er. mr H. apply junk_drawn in Eg. destruct Eg as [-> Lg].
    eapply PD_prior; [reflexivity|exact Lg| |eapply IH; [eapply oks_tail; eauto|eapply from_f_tail; eauto|intros; eapply Hs; right; eauto|exact Er]].
    apply C78_first_values in Ea; [|eapply Ho; left; reflexivity].
    assert (Hset : settled (p_dist pr)) by (eapply Hs; left; reflexivity).
    clear -Ea Lg Hset. subst n. rewrite map_map in Ea. remember (map (fun x => Some (P1 x)) g) as ats eqn:E.
    revert g E. induction Ea as [|at_ l b m t1 t2 t3 Hb _ IH]; intros g E.
    + destruct g; [|discriminate]. constructor.
    + destruct g as [|x g]; [discriminate|]. injection E as _ ->. cbn [length repeat]. econstructor; [eapply value_settled; eauto|eauto].
  - mb H as a Ea. mb H as r Er. mr H.
    eapply PD_space; [|left; reflexivity|eapply IH; [eapply oks_tail; eauto|eapply from_f_tail; eauto|intros; eapply Hs; right; eauto|exact Er]].
    apply (each_repeat (fun _ : option pos => state_drawn true s') (f s')); [|exact Ea].
    intros ta q tb. apply (Hf k). now left.
Qed.
Lemma states_at first s' (f : space -> M psstate) (ps : list pos) tr qs tr' :
  (forall t q t', f s' t = Ret q t' -> state_drawn first s' t q t') ->
  repeatM (length ps) (f s') tr = Ret qs tr' ->
  each (fun _ : option pos => state_drawn first s') (map Some ps) tr qs tr'.
Proof.
  intros Hf H. apply (each_repeatM (fun _ : option pos => state_drawn first s') (f s')); [intros _; exact Hf|].
  now rewrite map_length.
Qed.
Lemma first_sites_drawn (f : space -> M psstate) positions params : oks params -> from_f true f params ->
  forall acc tr vals tr', NoDup (dkeys acc ++ dkeys params) ->
  (fix go (l : list (string * param)) (acc : dict value) : M (dict value) :=
     match l with
     | [] => ret acc
     | (k, PPrior p) :: t =>
         a <- p_initialize p positions ;; go t (dset k (Arr a) acc)
     | (k, PSpace s') :: t =>
         a <- repeatM (length positions) (f s') ;;
         go t (dset k (Lst a) acc)
     end) params acc tr = Ret vals tr' ->
  exists new, vals = (acc ++ new)%list /\ params_drawn true O (map Some positions) params tr new tr'.
Proof.
  induction params as [|[k par] l IH]; intros Ho Hf acc tr vals tr' Hnd H.
  - mr H. exists []. rewrite app_nil_r. split; auto. constructor.
  - assert (Hk : ~ In k (dkeys acc)).
    { intros Hin. apply NoDup_remove_2 in Hnd. apply Hnd. apply in_or_app. auto. }
    assert (Hnd' : forall v : value, NoDup (dkeys (dset k v acc) ++ dkeys l)).
    { intros v. rewrite dset_fresh by auto. unfold dkeys in *. rewrite map_app, <- app_assoc. exact Hnd. }
    destruct par as [pr|s']; mb H as a Ea; eapply IH in H; eauto using oks_tail, from_f_tail;
      destruct H as (new & -> & Hnew); rewrite dset_fresh by auto; rewrite <- app_assoc; eexists; (split; [reflexivity|]).
    + apply C78_first_values in Ea; [|eapply Ho; left; reflexivity].
      eapply PD_prior with (junk := []); [reflexivity|reflexivity|exact Ea|exact Hnew].
    + eapply PD_space; [|left; reflexivity|exact Hnew]. eapply states_at; [|exact Ea]. intros ta q tb. apply (Hf k). now left.
Qed.
Lemma sample_sites_drawn (f : space -> M psstate) positions params : oks params -> from_f false f params ->
  ~ In disc_key (dkeys params) ->
  forall q tr q' tr', NoDup (dkeys (ps_vals q) ++ dkeys params) ->
  positions_of (ps_get disc_key q) = Ok positions ->
  (fix go (l : list (string * param)) (q : psstate) : M psstate :=
     match l with
     | [] => ret q
     | (k, PPrior p) :: t =>
         positions <- lift (positions_of (ps_get disc_key q)) ;;
         a <- mapM (fun x => p_sample p (Some x)) positions ;;
         q' <- lift (ps_set k (Arr a) q) ;; go t q'
     | (k, PSpace s') :: t =>
         positions <- lift (positions_of (ps_get disc_key q)) ;;
         a <- repeatM (length positions) (f s') ;;
         q' <- lift (ps_set k (Lst a) q) ;; go t q'
     end) params q tr = Ret q' tr' ->
  ps_n q' = ps_n q /\
  exists new, ps_vals q' = (ps_vals q ++ new)%list /\ params_drawn false O (map Some positions) params tr new tr'.
Proof.
  induction params as [|[k par] l IH]; intros Ho Hf Hdk q tr q' tr' Hnd HP H.
  - mr H. split; [auto|]. exists []. rewrite app_nil_r. split; auto. constructor.
  - assert (Hk : ~ In k (dkeys (ps_vals q))).
    { intros Hin. apply NoDup_remove_2 in Hnd. apply Hnd. apply in_or_app. auto. }
    assert (Hkd : k <> disc_key) by (intros ->; apply Hdk; left; auto).
    assert (Hdk' : ~ In disc_key (dkeys l)) by (intros Hin; apply Hdk; right; auto).
    assert (Hprep : forall v,
      NoDup (dkeys (dset k v (ps_vals q)) ++ dkeys l) /\
      dget disc_key (dset k v (ps_vals q)) = dget disc_key (ps_vals q)).
    { intros v. split.
      - rewrite dset_fresh by auto. unfold dkeys in *. rewrite map_app, <- app_assoc. exact Hnd.
      - apply dget_dset_other; congruence. }
    specialize (IH (oks_tail _ _ Ho) (from_f_tail _ _ _ _ Hf) Hdk').
    destruct par as [pr|s']; mb H as ps' Eps; rewrite HP in Eps; injection Eps as <-;
      mb H as a Ea; mb H as q1 Eq1; apply ps_set_ok in Eq1; destruct Eq1 as [-> _];
      (apply IH in H; [|exact (proj1 (Hprep _))|
         rewrite <- HP; unfold ps_get; cbn [ps_vals]; f_equal; exact (proj2 (Hprep _))]);
      destruct H as (K1 & new & K3 & Hnew); (split; [exact K1|]);
      cbn [ps_vals] in K3; rewrite dset_fresh in K3 by auto;
      rewrite <- app_assoc in K3; eexists; (split; [exact K3|]).
    + eapply PD_prior with (junk := []); [reflexivity|reflexivity| |exact Hnew]. apply each_map.
      eapply each_mapM; [|exact Ea]. cbv beta. intros x ta b tb _ E. apply C78_value; auto. eapply Ho. left. reflexivity.
    + eapply PD_space; [|left; reflexivity|exact Hnew]. eapply states_at; [|exact Ea]. intros ta q0 tb. apply (Hf k). now left.
Qed.
Lemma sampled_sites s tr q tr' : is_disc s = true -> sample_discretization s tr = Ret q tr' ->
  exists t xs t' sv ps, number_drawn false s tr (ps_n q) t /\
    each (fun _ : unit => site_drawn (sp_cls s)) (repeat tt (ps_n q)) t xs t' /\ t' = tr' /\
    sites_are xs sv ps /\ ps_vals q = [(disc_key, sv)] /\ positions_of (ps_get disc_key q) = Ok ps.
Proof.
  intros Hd H. unfold sample_discretization in H. mb H as n En. mb H as sites Es. mr H.
  apply sampled_number in En.
  apply drawn_sites in Es; [|unfold is_disc in Hd; destruct (sp_cls s); congruence].
  destruct Es as (Es & Ls & ps & Eps & Hs & Lp).
  apply mk_ps_ok in H; [|repeat constructor; cbn; tauto]. destruct H as [-> _]. cbn [ps_n ps_vals].
  do 5 eexists. split; [exact En|]. split; [exact Es|]. split; [reflexivity|]. split; [exact Hs|]. split; [reflexivity|].
  exact Eps.
Qed.

Lemma dkeys_app {A} (a b : dict A) : dkeys (a ++ b)%list = (dkeys a ++ dkeys b)%list.
Proof. unfold dkeys. apply map_app. Qed.
Lemma params_keys first m ats params tr vals tr' : params_drawn first m ats params tr vals tr' -> dkeys vals = dkeys params.
Proof. intros H. induction H; cbn; auto; unfold dkeys in *; congruence. Qed.

(** * States *)
(** [sample] draws every part of the state from its prior. *)
Theorem C78_sample s : valid s -> forall tr p tr', sample s tr = Ret p tr' -> state_drawn false s tr p tr'.
Proof.
  induction s as [s IH] using space_ind'. intros Hv tr p tr' H.
  pose proof (valid_here _ Hv) as Hok.
  assert (HIH : from_f false sample (sp_params s)).
  { intros k s' t q t' Hin. eapply IH; eauto. eapply valid_in; eauto. }
  assert (HP : oks (sp_params s)) by (intros k q Hin; apply (prior_of s k q Hok Hin)).
  pose proof Hok as (_ & _ & _ & Hnd & Hdk & _).
  assert (Hsites : forall p0 t, sample_discretization s tr = Ret p0 t -> is_disc s = true ->
    forall (H : (fix go (l : list (string * param)) (q : psstate) : M psstate :=
     match l with
     | [] => ret q
     | (k, PPrior p) :: t =>
         positions <- lift (positions_of (ps_get disc_key q)) ;;
         a <- mapM (fun x => p_sample p (Some x)) positions ;;
         q' <- lift (ps_set k (Arr a) q) ;; go t q'
     | (k, PSpace s') :: t =>
         positions <- lift (positions_of (ps_get disc_key q)) ;;
         a <- repeatM (length positions) (sample s') ;;
         q' <- lift (ps_set k (Lst a) q) ;; go t q'
     end) (sp_params s) p0 t = Ret p tr'), state_drawn false s tr p tr').
  { intros p0 t E0 Hd H'. apply sampled_sites in E0; auto.
    destruct E0 as (t1 & xs & t2 & sv & ps & Hn & He & -> & Hs & Hv0 & Hps).
    destruct (sample_sites_drawn sample ps (sp_params s) HP HIH Hdk p0 _ _ _
       (eq_ind_r (fun d => NoDup (dkeys d ++ dkeys (sp_params s))) (disc_first s _ Hnd Hdk) Hv0) Hps H')
       as (K1 & new & K3 & Hnew).
    eapply SD_sites; [unfold is_disc in Hd; destruct (sp_cls s); congruence|exact Hn|exact He|exact Hs|exact Hnew|exact K1|].
    rewrite K3, Hv0. reflexivity. }
  destruct s as [nm fx mi ma rg cls params]. cbn [sample] in H.
  destruct cls as [|lo hi sd fp|d lo hi sd poly kd fp].
  - mb H as n En. mb H as vals Ev. mr H. apply sampled_number in En.
    pose proof (sample_plain_drawn sample n params HP HIH _ _ _ Ev) as Hd.
    assert (Hkv : dkeys vals = dkeys params).
    { eapply params_keys; eauto. }
    apply mk_ps_ok in H; [|rewrite Hkv; exact Hnd]. destruct H as [-> _].
    eapply SD_plain; [reflexivity|exact En|exact Hd|reflexivity].
  - mb H as p0 E0. eapply Hsites; [exact E0|reflexivity|exact H].
  - mb H as p0 E0. eapply Hsites; [exact E0|reflexivity|exact H].
Qed.
Lemma settled_in s k s' : settled_space s -> In (k, PSpace s') (sp_params s) -> settled_space s'.
Proof. intros H Hin s1 k1 pr Hn. apply H. econstructor; eauto. Qed.
(** [initialize] draws every part of the first state from its prior, for spaces whose priors outside
    tessellations do not depend on the position. *)
Theorem C78_initialize s : valid s -> settled_space s ->
  forall tr p tr', initialize s tr = Ret p tr' -> state_drawn true s tr p tr'.
Proof.
  induction s as [s IH] using space_ind'. intros Hv Hset tr p tr' H.
  pose proof (valid_here _ Hv) as Hok.
  assert (HIH : from_f true initialize (sp_params s)).
  { intros k s' t q t' Hin. eapply IH; eauto; [eapply valid_in|eapply settled_in]; eauto. }
  assert (HP : oks (sp_params s)) by (intros k q Hin; apply (prior_of s k q Hok Hin)).
  pose proof Hok as (_ & _ & _ & Hnd & Hdk & _).
  destruct s as [nm fx mi ma rg cls params]. cbn [initialize] in H.
  mb H as n En. apply first_number in En; [|exact Hok].
  destruct cls as [|lo hi sd fp|d lo hi sd poly kd fp].
  - mb H as vals Ev. mr H.
    assert (Hs : forall k q, In (k, PPrior q) params -> settled (p_dist q)).
    { intros k q Hin. eapply Hset; [apply nested_here|reflexivity|exact Hin]. }
    pose proof (first_plain_drawn initialize n params HP HIH Hs _ _ _ Ev) as Hd.
    assert (Hkv : dkeys vals = dkeys params).
    { eapply params_keys; eauto. }
    apply mk_ps_ok in H; [|rewrite Hkv; exact Hnd]. destruct H as [-> _].
    eapply SD_plain; [reflexivity|exact En|exact Hd|reflexivity].
  - mb H as sites Es. mb H as positions Ep. mb H as vals Ev. mb H as p0 E0. mr H.
    apply drawn_sites in Es; [|discriminate]. destruct Es as (Es & Ls & ps & Eps & Hs & Lp).
    rewrite Ep in Eps. injection Eps as <-.
    set (s := Space nm fx mi ma rg (Vor1 lo hi sd fp) params) in *.
    destruct (first_sites_drawn initialize positions params HP HIH _ _ _ _ (disc_first s _ Hnd Hdk) Ev) as (new & -> & Hnew).
    apply mk_ps_ok in E0; [|rewrite dkeys_app, (params_keys _ _ _ _ _ _ _ Hnew); apply (disc_first s); auto].
    destruct E0 as [-> _].
    eapply SD_sites; [discriminate|exact En|exact Es|exact Hs|exact Hnew|reflexivity|reflexivity].
  - mb H as sites Es. mb H as positions Ep. mb H as vals Ev. mb H as p0 E0. mr H.
    apply drawn_sites in Es; [|discriminate]. destruct Es as (Es & Ls & ps & Eps & Hs & Lp).
    rewrite Ep in Eps. injection Eps as <-.
    set (s := Space nm fx mi ma rg (VorN d lo hi sd poly kd fp) params) in *.
    destruct (first_sites_drawn initialize positions params HP HIH _ _ _ _ (disc_first s _ Hnd Hdk) Ev) as (new & -> & Hnew).
    apply mk_ps_ok in E0; [|rewrite dkeys_app, (params_keys _ _ _ _ _ _ _ Hnew); apply (disc_first s); auto].
    destruct E0 as [-> _]. apply add_kdtree_ok in H. destruct H as (K1 & K2 & _).
    eapply SD_sites; [discriminate|exact En|exact Es|exact Hs|exact Hnew|exact K1|exact K2].
Qed.

(** * Births *)
Lemma item_sample par at_ tr b tr' : (forall pr, par = PPrior pr -> dist_ok (p_dist pr)) -> (forall s', par = PSpace s' -> valid s') ->
  param_sample par at_ tr = Ret b tr' ->
  exists x, item_drawn at_ par tr x tr' /\ match b with NNum r => x = inl r | NState q => x = inr q end.
Proof.
  intros Hp Hs H. destruct par as [pr|s']; cbn [param_sample] in H.
  - mb H as x Ex. mr H. exists (inl x). split; auto. constructor. apply C78_value; auto.
  - mb H as x Ex. mr H. exists (inr x). split; auto. constructor. apply C78_sample; auto.
Qed.
Definition as_item (b : newborn) : R + psstate := match b with NNum r => inl r | NState q => inr q end.
Lemma item_sample' par at_ tr b tr' : (forall pr, par = PPrior pr -> dist_ok (p_dist pr)) -> (forall s', par = PSpace s' -> valid s') ->
  param_sample par at_ tr = Ret b tr' -> item_drawn at_ par tr (as_item b) tr'.
Proof. intros Hp Hs H. destruct (item_sample _ _ _ _ _ Hp Hs H) as (x & Hx & E). destruct b; subst x; exact Hx. Qed.
Lemma insert_at_split {A} i (x : A) l : (i <= length l)%nat -> exists a b, length a = i /\ l = (a ++ b)%list /\ insert_at i x l = (a ++ x :: b)%list.
Proof.
  intros Hi. exists (firstn i l), (skipn i l). split; [apply firstn_length_le; auto|]. split; [symmetry; apply firstn_skipn|reflexivity].
Qed.
Lemma put_at_in i b v v' : put_at i b v v' -> put_in i (as_item b) v v'.
Proof.
  intros [Hi H]. destruct b as [r|q], v as [l|l|l|l]; try contradiction; subst v'; cbn [value_len as_item] in *.
  - destruct (insert_at_split i r l Hi) as (a & c & L & -> & ->). now constructor.
  - destruct (insert_at_split i q l Hi) as (a & c & L & -> & ->). now constructor.
Qed.
Lemma plain_newborns s i n : forall l params tr vals tr',
  (forall k pr, In (k, PPrior pr) params -> dist_ok (p_dist pr)) -> (forall k s', In (k, PSpace s') params -> valid s') ->
  dkeys l = dkeys params -> (forall k par, In (k, par) params -> dget k (sp_params s) = Some par) ->
  (forall k v, In (k, v) l -> value_len v = n) -> (i <= n)%nat ->
  plain_birth_vals (sp_params s) i l tr = Ret vals tr' ->
  exists xs, each (item_drawn None) (map snd params) tr xs tr' /\ dkeys vals = dkeys l /\
    forall j k par, nth_error params j = Some (k, par) -> exists x v v', nth_error xs j = Some x /\
      In (k, v) l /\ In (k, v') vals /\ put_in i x v v'.
Proof.
  induction l as [|[k v] l IH]; intros [|[k0 par] params] tr vals tr' Hp Hs Hk Hg Hn Hi H; try discriminate; cbn [plain_birth_vals] in H.
  - mr H. exists []. split; [constructor|]. split; auto. intros [|j]; discriminate.
  - cbn in Hk. injection Hk as -> Hk. rewrite (Hg k0 par) in H by now left.
    mb H as b Eb. mb H as v' Ev. mb H as r Er. mr H.
    destruct (IH params _ _ _ (fun k pr Hin => Hp k pr (or_intror Hin)) (fun k s' Hin => Hs k s' (or_intror Hin)) Hk
      (fun k p Hin => Hg k p (or_intror Hin)) (fun k w Hin => Hn k w (or_intror Hin)) Hi Er) as (xs & He & Hkv & Hx).
    exists (as_item b :: xs). split; [|split].
    + cbn [map snd]. econstructor; [|exact He]. apply item_sample'; auto.
      * intros pr ->. eapply Hp. left. reflexivity.
      * intros s' ->. eapply Hs. left. reflexivity.
    + cbn. f_equal. exact Hkv.
    + intros [|j] k par' Hj; cbn in Hj.
      * injection Hj as <- <-. exists (as_item b), v, v'. split; auto. split; [now left|]. split; [now left|].
        apply put_at_in, insert_value_ok; auto. rewrite (Hn k0 v) by now left. exact Hi.
      * destruct (Hx j k par' Hj) as (x & w & w' & H1 & H2 & H3 & H4). exists x, w, w'. split; auto. split; [now right|]. split; [now right|auto].
Qed.
(** A birth in a space without sites draws the index and then each parameter from its prior. *)
Theorem C78_birth s old tr q r tr' : valid s -> is_disc s = false -> wf s old -> (ps_n old < sp_max s)%nat ->
  plain_birth s old tr = Ret (q, r) tr' ->
  exists i t xs, tr = DInt i :: t /\ each (item_drawn None) (map snd (sp_params s)) t xs tr' /\
    grown_with i (sp_params s) xs old q /\ r = Fin 0.
Proof.
  intros Hv Hd Hwf Hlt H. pose proof (valid_here _ Hv) as Hok. pose proof Hok as (_ & _ & _ & Hnd & Hdk & _).
  destruct (wf_local _ _ Hwf) as (Hdim & (Hkeys & Hl & _) & _).
  assert (Hnames : names s = dkeys (sp_params s)) by (unfold names; now rewrite Hd).
  unfold plain_birth in H. destruct (Nat.eqb_spec (ps_n old) (sp_max s)) as [Emax|Emax]; [lia|].
  mb H as i Ei. mb H as vals Ev. mb H as q0 Eq. mr H. injection H as -> <-.
  apply randint_inv in Ei. destruct Ei as [Hi ->].
  assert (Hndo : NoDup (dkeys (ps_vals old))) by (rewrite Hkeys, Hnames; auto).
  destruct (plain_newborns s i (ps_n old) (ps_vals old) (sp_params s) t vals tr') as (xs & He & Hk & Hx); try exact Ev; auto.
  - intros k pr Hin. apply (prior_of s k pr Hok Hin).
  - intros k s' Hin. eapply valid_in; eauto.
  - congruence.
  - intros k par Hin. apply dget_in_nodup; auto.
  - intros k v Hin. apply (Hl k v). apply dget_in_nodup; auto.
  - lia.
  - assert (Hndv : NoDup (dkeys vals)) by (rewrite Hk; auto).
    destruct (mk_ps_ok _ _ _ Hndv Eq) as [-> _]. exists i. eexists. exists xs. split; [reflexivity|]. split; [exact He|].
    split; auto. split; auto. split; [lia|]. intros j k par Hj. destruct (Hx j k par Hj) as (x & v & v' & H1 & H2 & H3 & H4).
    exists x, v, v'. split; auto. split; [apply dget_in_nodup; auto|]. split; [apply dget_in_nodup; auto|auto].
Qed.
Lemma prior_newborns at_ : forall params tr born tr',
  (forall k pr, In (k, PPrior pr) params -> dist_ok (p_dist pr)) -> (forall k s', In (k, PSpace s') params -> valid s') ->
  newborn_from_prior params at_ tr = Ret born tr' ->
  each (item_drawn (Some at_)) (map snd params) tr (map (fun kb => as_item (snd kb)) born) tr' /\ dkeys born = dkeys params.
Proof.
  induction params as [|[k par] l IH]; intros tr born tr' Hp Hs H; cbn [newborn_from_prior] in H.
  - mr H. split; [constructor|auto].
  - mb H as b Eb. mb H as r Er. mr H. destruct (IH _ _ _ (fun k pr Hin => Hp k pr (or_intror Hin)) (fun k s' Hin => Hs k s' (or_intror Hin)) Er) as [He Hk].
    split; [|cbn; f_equal; exact Hk]. cbn [map snd]. econstructor; [|exact He]. apply item_sample'; auto.
    + intros pr ->. eapply Hp. left. reflexivity.
    + intros s' ->. eapply Hs. left. reflexivity.
Qed.
(** A birth of a Voronoi cell with birth_from = "prior" draws the site and then each parameter from its prior
    at this site; the ratio is 1. *)
Theorem C78_cell_birth s old tr q r tr' : valid s -> is_disc s = true -> from_neighbour s = false -> wf s old ->
  (ps_n old < sp_max s)%nat -> vor_birth s old tr = Ret (q, r) tr' ->
  exists y t xs i sv sv', site_drawn (sp_cls s) tr y t /\ each (item_drawn (Some y)) (map snd (sp_params s)) t xs tr' /\
    grown_with i (sp_params s) xs old q /\
    dget disc_key (ps_vals old) = Some sv /\ dget disc_key (ps_vals q) = Some sv' /\ site_in i y sv sv' /\ r = Fin 0.
Proof.
  intros Hv Hd Hf Hwf Hlt H. pose proof (valid_here _ Hv) as Hok.
  pose proof Hok as (Hmm & _ & Hc & Hnd & Hdk & _).
  destruct (wf_inv _ _ Hnd Hwf) as (Hdim & Hsites & Hkeys & Hdl & Hfits).
  unfold vor_birth in H. mb H as [q1 l1] Eb. mb H as q2 Ekd. mr H. injection H as -> ->.
  apply add_kdtree_ok in Ekd. destruct Ekd as (K1 & K2 & K3).
  destruct (Nat.eqb_spec (ps_n old) (sp_max s)) as [Emax|Emax]; [lia|].
  mb Eb as x Ex. mb Eb as [born l] Enb. mb Eb as vals Ev. mb Eb as q0 Eq0. mr Eb. injection Eb as <- <-.
  pose proof (C78_site _ _ _ _ Ex) as Hsite. apply sample_site_inv in Ex; auto.
  assert (Hnp : newborn_from_prior (sp_params s) x t = Ret born tr' /\ l = Fin 0).
  { unfold newborn_params, from_neighbour, is_disc in *. destruct (sp_cls s) as [|lo hi sd [|]|d lo hi sd poly kd [|]]; try discriminate;
      mb Enb as b0 Eb0; mr Enb; injection Enb as -> ->; auto. }
  destruct Hnp as [Hnp ->].
  destruct (prior_newborns x (sp_params s) _ _ _ (fun k pr Hin => proj1 (prior_of s k pr Hok Hin)) (fun k s' Hin => valid_in s k s' Hv Hin) Hnp) as [He Hbk].
  destruct (Hdl Hd) as (dv & Edv & Ldv).
  assert (Hmain : forall i sv' put, (i <= ps_n old)%nat ->
      (forall b v v', value_len v = ps_n old -> put b (Some v) = Ok v' -> put_at i b v v') ->
      site_in i x dv sv' -> add_newborns put old born [(disc_key, sv')] = Ok vals ->
      exists y t0 xs i sv sv', site_drawn (sp_cls s) tr y t0 /\ each (item_drawn (Some y)) (map snd (sp_params s)) t0 xs tr' /\
        grown_with i (sp_params s) xs old q /\
        dget disc_key (ps_vals old) = Some sv /\ dget disc_key (ps_vals q) = Some sv' /\ site_in i y sv sv' /\ Fin 0 = Fin 0).
  { intros i sv' put Hi Hput Hin Hadd. apply add_newborns_spec in Hadd; [|rewrite Hbk; apply disc_first; auto].
    destruct Hadd as (new & -> & HF).
    assert (Hnk : dkeys new = dkeys (sp_params s)).
    { rewrite <- Hbk. unfold dkeys. symmetry. eapply Forall2_map_eq; [exact HF|]. intros a b _ [E _]. exact E. }
    assert (Hndv : NoDup (dkeys ([(disc_key, sv')] ++ new))).
    { cbn [app dkeys map fst]. change (map fst new) with (dkeys new). rewrite Hnk. constructor; auto. }
    destruct (mk_ps_ok _ _ _ Hndv Eq0) as [-> _]. cbn [ps_n ps_vals ps_attrs] in *.
    exists x, t, (map (fun kb => as_item (snd kb)) born), i, dv, sv'. split; auto. split; auto.
    split; [|split; [exact Edv|split; [rewrite K2; reflexivity|split; auto]]].
    split; [exact K1|]. split; auto. intros j k par Hj.
    assert (Hb : exists b, nth_error born j = Some (k, b)).
    { assert (E : nth_error (dkeys born) j = Some k) by (rewrite Hbk; unfold dkeys; rewrite nth_error_map, Hj; reflexivity).
      unfold dkeys in E. rewrite nth_error_map in E. destruct (nth_error born j) as [[k1 b]|]; [|discriminate]. cbn in E. injection E as ->. eauto. }
    destruct Hb as (b & Hb). destruct (Hfits _ _ (nth_error_In _ _ Hj)) as (v & Ev0 & Hfv).
    assert (Hlv : value_len v = ps_n old).
    { destruct par; cbn in Hfv.
      - destruct Hfv as (lv & -> & L & _). exact L.
      - destruct Hfv as (lv & [-> | ->] & L & _); exact L. }
    destruct (Forall2_in_l _ _ _ _ HF (nth_error_In _ _ Hb)) as ([k' v'] & Hin' & E1 & E2). cbn in E1, E2. subst k'.
    rewrite Ev0 in E2. exists (as_item b), v, v'. split; [rewrite nth_error_map, Hb; reflexivity|]. split; [exact Ev0|].
    split; [rewrite K2; apply dget_in_nodup; auto; right; exact Hin'|]. apply put_at_in. eapply Hput; eauto. }
  destruct x as [y|y].
  - rewrite Edv in Ev. destruct dv as [sites| | |]; try discriminate.
    apply rbind_ok in Ev. destruct Ev as (i & Ei & Ev).
    apply rbind_ok in Ev. destruct Ev as (sites' & Es & Ev).
    assert (Hsort : sortedR sites).
    { unfold sites_ok in Hsites. destruct (sp_cls s) as [|? ? ? ?|? ? ? ? ? ? ?]; try (cbn in Ex; tauto).
      destruct Hsites as (l' & E' & Hso & _). rewrite Edv in E'. injection E' as <-. exact Hso. }
    destruct (bisect_left_ok _ _ _ Hsort Ei) as (Hi & _). cbn in Ldv.
    rewrite insert_1d_spec in Es by auto. injection Es as <-.
    eapply (Hmain i); [lia| | |exact Ev].
    + intros b v v' Lv Hp. cbn in Hp. apply insert_value_ok; auto. lia.
    + destruct (insert_at_split i y sites) as (a & c & La & -> & ->); [lia|]. now constructor.
  - rewrite Edv in Ev. destruct dv as [|sites| |]; try discriminate. cbn in Ldv.
    eapply (Hmain (ps_n old)); [lia| | |exact Ev].
    + intros b v v' Lv Hp. rewrite <- Lv. now apply append_value_ok.
    + rewrite <- (app_nil_r sites) at 1. constructor. exact Ldv.
Qed.

(** A ParameterSpace passes uninitialised memory as positions to the priors: with a prior that depends on
    the position, the same random numbers give first values that differ with the contents of that memory. *)
Local Opaque Rleb Rltb Reqb py_int.
Definition ex_far : prior := mkPrior "far"%string true (Gauss (HI [0; 1] [0; 10]) (HS 1)) (HS 1) (HS 1).
Definition ex_flat : space := Space "flat"%string (Some 1%nat) 1 1 0 Plain [("far"%string, PPrior ex_far)].
Lemma ex_flat_valid : valid ex_flat.
Proof.
  intros s' H. assert (s' = ex_flat) as ->.
  { inversion H as [|? ? s1 ? Hin]; subst; auto. cbn in Hin. destruct Hin as [E|[]]; discriminate E. }
  split; [cbn; lia|]. split; [cbn; lra|]. split; [cbn; exact I|]. split; [|split; [|split]].
  - cbn. repeat constructor; cbn; intuition discriminate.
  - cbn. intuition discriminate.
  - cbn. intros k p [E|[]]. injection E as <- <-. split; auto. split; [|split; [discriminate|exact I]].
    split; [|exact I]. split; [discriminate|]. split; [|reflexivity].
    intros [|[|[|i]]] [|[|[|j]]] a b Hij Ha Hb; cbn in *; try discriminate; try lia;
      injection Ha as <-; injection Hb as <-; lra.
  - cbn. intros k p [E|[]]. discriminate E.
Qed.
Theorem C78_initialize_refuted : exists s g g' tr p p', valid s /\
  initialize s (DVal g :: tr) = Ret p [] /\ initialize s (DVal g' :: tr) = Ret p' [] /\ ps_vals p <> ps_vals p'.
Proof.
  assert (E : forall g y, g = 0 /\ y = 2 \/ g = 1 /\ y = 12 -> initialize ex_flat [DVal g; DZ 2] =
    Ret (PS 1 [("far"%string, Arr [y])] [("far"%string, Arr [y])] []) []).
  { intros g y [[-> ->]|[-> ->]]; run; same. }
  exists ex_flat, 0, 1, [DZ 2]. eexists _, _. split; [exact ex_flat_valid|].
  split; [apply (E 0 2); auto|]. split; [apply (E 1 12); auto|]. cbn. intros H. injection H as H. lra.
Qed.

(** * Cases *)
Example C78_initialize_case : valid ex_nb /\ settled_space ex_nb /\
  initialize ex_nb [DInt 1; DU (1/2); DU (1/2); DU (1/2); DZ 0] = Ret ex_nb0 [].
Proof.
  split; [apply ex_nb_valid|]. split; [|apply ex_nb_init].
  intros s' k pr Hn Hc. assert (H : sub_space ex_nb s').
  { clear -Hn. induction Hn; econstructor; eauto. }
  apply ex_nb_is in H. destruct H as [-> | ->]; discriminate Hc.
Qed.
Example C78_sample_case : valid ex_vor /\ exists p,
  sample ex_vor [DInt 2; DU (1/2); DU (1/4); DU (1/2); DU (3/4); DZ 1; DZ 2] = Ret p [] /\
  dget "v"%string (ps_vals p) = Some (Arr [2; 5/2]) /\ dget disc_key (ps_vals p) = Some (Arr [5/2; 5]).
Proof.
  split; [apply ex_valid|]. eexists. split; [run; reflexivity|].
  split; apply (f_equal Some), (f_equal Arr), f_equal2; [lra|f_equal; lra|lra|f_equal; lra].
Qed.
Example C78_cell_birth_case : valid ex_vor /\ is_disc ex_vor = true /\ from_neighbour ex_vor = false /\ wf ex_vor ex_p0 /\
  (ps_n ex_p0 < sp_max ex_vor)%nat /\ vor_birth ex_vor ex_p0 [DU (8/10); DU (3/4); DZ 1] = Ret (ex_p1, Fin 0) [].
Proof.
  split; [apply ex_valid|]. split; auto. split; auto. split; [apply ex_p0_wf|]. split; [cbn; lia|]. apply ex_vor_birth.
Qed.
Example C78_site_case : sample_site (VorN 2 [0; 0] [1; 2] [1; 1] (Some (fun x => Rleb (nth 0 x 0) (1/2))) true true)
  [DU (3/4); DU 0; DU (1/4); DU (1/2)] = Ret (PN [1/4; 1]) [].
Proof. run. same. Qed.
