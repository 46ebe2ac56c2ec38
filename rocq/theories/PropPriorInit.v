(** C75: what the constructors of priors accept, and the hyper-parameters they set. *)
From Verif Require Import Base ModelUtils1D ModelPrior ModelPriorB SpecUtils1D SpecPrior ProofUtils1D PropUtils1D PropPrior.
Local Open Scope R_scope.

(** * Specification *)
(** A number, or an array with one entry per position. *)
Definition acceptable (p : raw_pos) (h : raw) : Prop :=
  match h with RawS _ => True | RawA l => p <> NoPos /\ length l = raw_pos_len p end.
(** The function [g] of the position has the values [h] given at the positions [p]; [interp]
    is SciPy's interpolation of points in N-D. *)
Definition takes interp (p : raw_pos) (h : raw) (g : option pos -> res R) : Prop :=
  match h with
  | RawS r => forall at_, g at_ = Ok r
  | RawA l =>
      g None = Raise EValue /\
      match p with
      | NoPos => False
      | Pos1 x => x <> [] -> sortedR x -> forall q, exists v, g (Some (P1 q)) = Ok v /\ linear_value x l q v
      | PosN ps => forall v, g (Some (PN v)) = match interp ps l v with Some r => Ok r | None => Raise EDomain end
      end
  end.

(** * Proofs *)
Lemma add_hyper_ok interp p h : acceptable p h -> exists k, add_hyper interp p h = Ok k /\ takes interp p h (get_hyper k).
Proof.
  destruct h as [r|l]; intros H.
  - exists (HS r). destruct p; (split; [reflexivity|intros at_; reflexivity]).
  - destruct H as [Hp Hl]. destruct p as [|x|ps]; [congruence| |]; unfold add_hyper; cbn [raw_pos_len] in *; rewrite Hl, Nat.eqb_refl; eexists; (split; [reflexivity|]).
    + split; [reflexivity|]. intros Hx Hs q. cbn [get_hyper init_hyper].
      destruct (C45_interpolate_linear x l q Hx Hs Hl) as (v & Hv & _). exists v. split; auto.
      now apply (linear_value_interp x l q v Hx Hs Hl).
    + split; [reflexivity|]. intros v. reflexivity.
Qed.
Lemma add_hyper_not interp p h : ~ acceptable p h -> add_hyper interp p h = Raise EAssert.
Proof.
  destruct h as [r|l]; intros H; [exfalso; apply H; exact I|]. unfold acceptable in H.
  destruct p as [|x|ps]; [reflexivity| |]; unfold add_hyper; cbn [raw_pos_len] in *;
    match goal with |- context [if ?b then _ else _] => destruct b eqn:E end; auto; apply Nat.eqb_eq in E; exfalso; apply H; split; auto; discriminate.
Qed.
Lemma acceptable_dec p h : acceptable p h \/ ~ acceptable p h.
Proof.
  destruct h as [r|l]; [left; exact I|]. unfold acceptable. destruct (Nat.eq_dec (length l) (raw_pos_len p)) as [E|E]; [|right; tauto].
  destruct p; [right; tauto| |]; left; split; auto; discriminate.
Qed.
Lemma pos_flag (p : raw_pos) : match p with NoPos => false | _ => true end = false <-> p = NoPos.
Proof. destruct p; split; congruence. Qed.
Definition birth_given (std : raw) (stdb : option raw) : raw := match stdb with Some h => h | None => std end.
(** Used at births and otherwise. *)
Definition stds_taken interp p std stdb pr : Prop :=
  takes interp p std (perturb_std_of pr false) /\ takes interp p (birth_given std stdb) (perturb_std_of pr true).
(** UniformPrior, GaussianPrior, LaplacePrior and CustomPrior: numbers, or arrays with one
    entry per position, are accepted, and are what the prior uses at the positions; without
    perturb_std_birth, perturb_std is used at births.  Anything else is an AssertionError. *)
Theorem C75_gaussian interp name mean std pstd stdb p :
  (Forall (acceptable p) [mean; std; pstd; birth_given pstd stdb] ->
     exists pr m s, mk_gaussian interp name mean std pstd stdb p = Ok pr /\ p_name pr = name /\ (p_pos pr = false <-> p = NoPos) /\ p_dist pr = Gauss m s /\
       takes interp p mean (get_hyper m) /\ takes interp p std (get_hyper s) /\ stds_taken interp p pstd stdb pr) /\
  (~ Forall (acceptable p) [mean; std; pstd; birth_given pstd stdb] ->
     mk_gaussian interp name mean std pstd stdb p = Raise EAssert).
Proof.
  split; intros H.
  - inversion H as [|? ? H1 T1]; subst. inversion T1 as [|? ? H2 T2]; subst. inversion T2 as [|? ? H3 T3]; subst. inversion T3 as [|? ? H4 T4]; subst.
    destruct (add_hyper_ok interp p _ H1) as (k1 & E1 & K1), (add_hyper_ok interp p _ H2) as (k2 & E2 & K2), (add_hyper_ok interp p _ H3) as (k3 & E3 & K3), (add_hyper_ok interp p _ H4) as (k4 & E4 & K4).
    unfold mk_gaussian. change (birth_default pstd stdb) with (birth_given pstd stdb). rewrite E1, E2, E3, E4. cbn [rbind].
    eexists _, k1, k2. split; [reflexivity|]. split; [reflexivity|]. split; [apply pos_flag|]. split; [reflexivity|]. split; auto. split; auto. split; assumption.
  - unfold mk_gaussian. change (birth_default pstd stdb) with (birth_given pstd stdb).
    destruct (acceptable_dec p mean) as [H1|H1]; [destruct (add_hyper_ok interp p _ H1) as (k1 & -> & _); cbn [rbind]|now rewrite (add_hyper_not interp p _ H1)].
    destruct (acceptable_dec p std) as [H2|H2]; [destruct (add_hyper_ok interp p _ H2) as (k2 & -> & _); cbn [rbind]|now rewrite (add_hyper_not interp p _ H2)].
    destruct (acceptable_dec p pstd) as [H3|H3]; [destruct (add_hyper_ok interp p _ H3) as (k3 & -> & _); cbn [rbind]|now rewrite (add_hyper_not interp p _ H3)].
    destruct (acceptable_dec p (birth_given pstd stdb)) as [H4|H4]; [|now rewrite (add_hyper_not interp p _ H4)].
    exfalso. apply H. repeat constructor; auto.
Qed.
Theorem C75_laplace interp name mean sc pstd stdb p :
  (Forall (acceptable p) [mean; sc; pstd; birth_given pstd stdb] ->
     exists pr m s, mk_laplace interp name mean sc pstd stdb p = Ok pr /\ p_name pr = name /\ (p_pos pr = false <-> p = NoPos) /\ p_dist pr = Laplace m s /\
       takes interp p mean (get_hyper m) /\ takes interp p sc (get_hyper s) /\ stds_taken interp p pstd stdb pr) /\
  (~ Forall (acceptable p) [mean; sc; pstd; birth_given pstd stdb] ->
     mk_laplace interp name mean sc pstd stdb p = Raise EAssert).
Proof.
  split; intros H.
  - inversion H as [|? ? H1 T1]; subst. inversion T1 as [|? ? H2 T2]; subst. inversion T2 as [|? ? H3 T3]; subst. inversion T3 as [|? ? H4 T4]; subst.
    destruct (add_hyper_ok interp p _ H1) as (k1 & E1 & K1), (add_hyper_ok interp p _ H2) as (k2 & E2 & K2), (add_hyper_ok interp p _ H3) as (k3 & E3 & K3), (add_hyper_ok interp p _ H4) as (k4 & E4 & K4).
    unfold mk_laplace. change (birth_default pstd stdb) with (birth_given pstd stdb). rewrite E1, E2, E3, E4. cbn [rbind].
    eexists _, k1, k2. split; [reflexivity|]. split; [reflexivity|]. split; [apply pos_flag|]. split; [reflexivity|]. split; auto. split; auto. split; assumption.
  - unfold mk_laplace. change (birth_default pstd stdb) with (birth_given pstd stdb).
    destruct (acceptable_dec p mean) as [H1|H1]; [destruct (add_hyper_ok interp p _ H1) as (k1 & -> & _); cbn [rbind]|now rewrite (add_hyper_not interp p _ H1)].
    destruct (acceptable_dec p sc) as [H2|H2]; [destruct (add_hyper_ok interp p _ H2) as (k2 & -> & _); cbn [rbind]|now rewrite (add_hyper_not interp p _ H2)].
    destruct (acceptable_dec p pstd) as [H3|H3]; [destruct (add_hyper_ok interp p _ H3) as (k3 & -> & _); cbn [rbind]|now rewrite (add_hyper_not interp p _ H3)].
    destruct (acceptable_dec p (birth_given pstd stdb)) as [H4|H4]; [|now rewrite (add_hyper_not interp p _ H4)].
    exfalso. apply H. repeat constructor; auto.
Qed.
Theorem C75_custom interp name samp logp2 logp1 pstd stdb p :
  (Forall (acceptable p) [pstd; birth_given pstd stdb] ->
     exists pr, mk_custom interp name samp logp2 logp1 pstd stdb p = Ok pr /\ p_name pr = name /\ (p_pos pr = false <-> p = NoPos) /\ p_dist pr = Custom samp logp2 logp1 /\
       stds_taken interp p pstd stdb pr) /\
  (~ Forall (acceptable p) [pstd; birth_given pstd stdb] ->
     mk_custom interp name samp logp2 logp1 pstd stdb p = Raise EAssert).
Proof.
  split; intros H.
  - inversion H as [|? ? H3 T3]; subst. inversion T3 as [|? ? H4 T4]; subst.
    destruct (add_hyper_ok interp p _ H3) as (k3 & E3 & K3), (add_hyper_ok interp p _ H4) as (k4 & E4 & K4).
    unfold mk_custom. change (birth_default pstd stdb) with (birth_given pstd stdb). rewrite E3, E4. cbn [rbind].
    eexists. split; [reflexivity|]. split; [reflexivity|]. split; [apply pos_flag|]. split; [reflexivity|]. split; assumption.
  - unfold mk_custom. change (birth_default pstd stdb) with (birth_given pstd stdb).
    destruct (acceptable_dec p pstd) as [H3|H3]; [destruct (add_hyper_ok interp p _ H3) as (k3 & -> & _); cbn [rbind]|now rewrite (add_hyper_not interp p _ H3)].
    destruct (acceptable_dec p (birth_given pstd stdb)) as [H4|H4]; [|now rewrite (add_hyper_not interp p _ H4)].
    exfalso. apply H. repeat constructor; auto.
Qed.
Lemma sub_acceptable p a b : acceptable p a -> acceptable p b -> exists d, raw_sub a b = Ok d /\ acceptable p d.
Proof.
  destruct a as [x|l], b as [y|m]; cbn [acceptable raw_sub]; intros Ha Hb.
  - eexists. split; [reflexivity|exact I].
  - eexists. split; [reflexivity|]. cbn. now rewrite map_length.
  - eexists. split; [reflexivity|]. cbn. now rewrite map_length.
  - destruct Ha as [Hp Ha], Hb as [_ Hb]. rewrite Ha, Hb, Nat.eqb_refl. eexists. split; [reflexivity|]. cbn. rewrite map_length, combine_length, Ha, Hb, Nat.min_id. auto.
Qed.
Lemma combine_const {A B} (l : list A) (y : B) : combine l (repeat y (length l)) = map (fun x => (x, y)) l.
Proof. induction l as [|a l IH]; cbn; congruence. Qed.
Lemma combine_const_l {A B} (l : list A) (y : B) : combine (repeat y (length l)) l = map (fun x => (y, x)) l.
Proof. induction l as [|a l IH]; cbn; congruence. Qed.
Lemma interp_const x c q : x <> [] -> sortedR x -> interp_linear q x (repeat c (length x)) = Ok c.
Proof.
  intros Hx Hs. assert (Hl : length (repeat c (length x)) = length x) by apply repeat_length.
  destruct (C45_interpolate_linear x _ q Hx Hs Hl) as (v & Hv & _). pose proof (proj2 (linear_value_interp x _ q v Hx Hs Hl) Hv) as L.
  assert (R : forall n i w, nth_error (repeat c n) i = Some w -> w = c).
  { intros n i w E. apply nth_error_In in E. now apply repeat_spec in E. }
  destruct L as [(a & _ & _ & E)|[(a & z & _ & _ & _ & _ & E)|(i & a & b & u & w & z & _ & _ & E1 & E2 & _ & _ & _ & ->)]].
  - now rewrite Hv, (R _ _ _ E).
  - now rewrite Hv, (R _ _ _ E).
  - rewrite Hv, (R _ _ _ E1), (R _ _ _ E2). f_equal. unfold Rdiv. ring.
Qed.
(** UniformPrior: the same; get_delta is vmax - vmin at every position, also between the
    given ones. *)
Theorem C75_uniform interp name vmin vmax pstd stdb p :
  Forall (acceptable p) [vmin; vmax; pstd; birth_given pstd stdb] ->
  exists pr d a b, uniform_init interp name vmin vmax pstd stdb p = Ok (pr, d) /\
    mk_uniform interp name vmin vmax pstd stdb p = Ok pr /\ p_name pr = name /\ (p_pos pr = false <-> p = NoPos) /\ p_dist pr = Uniform a b /\
    takes interp p vmin (get_hyper a) /\ takes interp p vmax (get_hyper b) /\ stds_taken interp p pstd stdb pr /\
    (match p with NoPos => True | Pos1 x => x <> [] /\ sortedR x | PosN _ => exists u v, vmin = RawS u /\ vmax = RawS v end ->
     forall at_ lo hi, get_vmin_vmax pr at_ = Ok (lo, hi) -> get_delta (pr, d) at_ = Ok (hi - lo)).
Proof.
  intros H.
  inversion H as [|? ? H1 T1]; subst. inversion T1 as [|? ? H2 T2]; subst. inversion T2 as [|? ? H3 T3]; subst. inversion T3 as [|? ? H4 T4]; subst.
  destruct (add_hyper_ok interp p _ H1) as (k1 & E1 & K1), (add_hyper_ok interp p _ H2) as (k2 & E2 & K2), (add_hyper_ok interp p _ H3) as (k3 & E3 & K3), (add_hyper_ok interp p _ H4) as (k4 & E4 & K4).
  destruct (sub_acceptable p vmax vmin H2 H1) as (d & Ed & Hd). destruct (add_hyper_ok interp p _ Hd) as (k5 & E5 & K5).
  unfold uniform_init, mk_uniform. change (birth_default pstd stdb) with (birth_given pstd stdb). rewrite Ed, E1, E2, E3, E4. cbn [rbind]. rewrite E5. cbn [rbind].
  eexists _, k5, k1, k2. split; [reflexivity|]. split; [reflexivity|]. split; [reflexivity|]. split; [apply pos_flag|]. split; [reflexivity|]. split; auto. split; auto.
  split; [split; assumption|]. intros Hp at_ lo hi HV. unfold get_vmin_vmax in HV. cbn [p_dist] in HV.
  destruct (get_hyper k1 at_) as [lo'| |] eqn:G1; try discriminate. cbn [rbind] in HV.
  destruct (get_hyper k2 at_) as [hi'| |] eqn:G2; try discriminate. cbn [rbind] in HV. injection HV as -> ->.
  unfold get_delta. cbn [snd].
  destruct p as [|x|ps].
  - destruct vmin as [u|l]; [|destruct H1; congruence]. destruct vmax as [v|m]; [|destruct H2; congruence].
    injection Ed as <-. cbn in E1, E2, E5. injection E1 as <-. injection E2 as <-. injection E5 as <-. cbn in *. congruence.
  - destruct Hp as [Hx Hs].
    assert (W : forall h k, acceptable (Pos1 x) h -> add_hyper interp (Pos1 x) h = Ok k -> (exists r, h = RawS r /\ k = HS r) \/ exists l, h = RawA l /\ k = HI x l /\ length l = length x).
    { intros [r|l] k Ha Ek; cbn in Ek, Ha; [injection Ek as <-; left; eauto|]. destruct Ha as [_ Ha]. rewrite Ha, Nat.eqb_refl in Ek. injection Ek as <-. right. eauto. }
    destruct (W _ _ H1 E1) as [(u & -> & ->)|(l & -> & -> & Ll)], (W _ _ H2 E2) as [(v & -> & ->)|(m & -> & -> & Lm)]; cbn [raw_sub] in Ed.
    + injection Ed as <-. cbn in E5. injection E5 as <-. cbn in *. congruence.
    + injection Ed as <-. cbn in E5. rewrite map_length, Lm, Nat.eqb_refl in E5. injection E5 as <-. cbn [get_hyper] in *.
      destruct at_ as [[q|w]|]; try discriminate. injection G1 as ->.
      destruct (C46_width x (repeat lo (length x)) m q Hx Hs (repeat_length _ _) Lm) as (a & b & A & B & C).
      rewrite interp_const in A by auto. injection A as <-. rewrite B in G2. injection G2 as ->.
      rewrite <- Lm, combine_const, map_map in C. exact C.
    + injection Ed as <-. cbn in E5. rewrite map_length, Ll, Nat.eqb_refl in E5. injection E5 as <-. cbn [get_hyper] in *.
      destruct at_ as [[q|w]|]; try discriminate. injection G2 as ->.
      destruct (C46_width x l (repeat hi (length x)) q Hx Hs Ll (repeat_length _ _)) as (a & b & A & B & C).
      rewrite interp_const in B by auto. injection B as <-. rewrite A in G1. injection G1 as ->.
      rewrite <- Ll, combine_const_l, map_map in C. exact C.
    + rewrite Lm, Ll, Nat.eqb_refl in Ed. injection Ed as <-. cbn in E5. rewrite map_length, combine_length, Lm, Ll, Nat.min_id, Nat.eqb_refl in E5. injection E5 as <-.
      cbn [get_hyper] in *. destruct at_ as [[q|w]|]; try discriminate.
      destruct (C46_width x l m q Hx Hs Ll Lm) as (a & b & A & B & C). rewrite A in G1. rewrite B in G2. injection G1 as ->. injection G2 as ->. exact C.
  - destruct Hp as (u & v & -> & ->). injection Ed as <-. cbn in E1, E2, E5. injection E1 as <-. injection E2 as <-. injection E5 as <-. cbn in *. congruence.
Qed.
(** Otherwise it is an AssertionError, or a ValueError when the arrays vmin and vmax do not
    fit each other. *)
Theorem C75_uniform_rejected interp name vmin vmax pstd stdb p : ~ Forall (acceptable p) [vmin; vmax; pstd; birth_given pstd stdb] ->
  uniform_init interp name vmin vmax pstd stdb p = Raise EAssert \/
  (uniform_init interp name vmin vmax pstd stdb p = Raise EValue /\
   exists l m, vmin = RawA l /\ vmax = RawA m /\ length l <> length m).
Proof.
  intros H. unfold uniform_init.
  assert (M : mk_uniform interp name vmin vmax pstd stdb p = Raise EAssert).
  { unfold mk_uniform. change (birth_default pstd stdb) with (birth_given pstd stdb).
    destruct (acceptable_dec p vmin) as [H1|H1]; [destruct (add_hyper_ok interp p _ H1) as (k1 & -> & _); cbn [rbind]|now rewrite (add_hyper_not interp p _ H1)].
    destruct (acceptable_dec p vmax) as [H2|H2]; [destruct (add_hyper_ok interp p _ H2) as (k2 & -> & _); cbn [rbind]|now rewrite (add_hyper_not interp p _ H2)].
    destruct (acceptable_dec p pstd) as [H3|H3]; [destruct (add_hyper_ok interp p _ H3) as (k3 & -> & _); cbn [rbind]|now rewrite (add_hyper_not interp p _ H3)].
    destruct (acceptable_dec p (birth_given pstd stdb)) as [H4|H4]; [|now rewrite (add_hyper_not interp p _ H4)].
    exfalso. apply H. repeat constructor; auto. }
  destruct vmax as [v|m], vmin as [u|l]; cbn [raw_sub rbind]; try (left; now rewrite M).
  destruct (Nat.eqb_spec (length m) (length l)) as [E|E]; [left; cbn [rbind]; now rewrite M|].
  destruct m as [|a [|b m]], l as [|c [|d l]]; cbn [rbind]; try (left; now rewrite M); try (right; split; [reflexivity|]; eexists _, _; split; [reflexivity|]; split; [reflexivity|]; auto).
Qed.
(** Nothing checks that positions are in order: values given at positions in another order
    are not the values used there. *)
Theorem C75_unsorted_refuted : exists pr m s, mk_gaussian (fun _ _ _ => None) "v" (RawA [5; 7]) (RawS 1) (RawS 1) None (Pos1 [1; 0]) = Ok pr /\
  p_dist pr = Gauss m s /\ get_hyper m (Some (P1 0)) = Ok 5.
Proof.
  eexists _, _, _. split; [reflexivity|]. split; [reflexivity|]. cbn [get_hyper init_hyper]. unfold interp_linear. cbn [rd idx nth_error rbind].
  rbool; try lra. reflexivity.
Qed.

(** Means 1 and 3 at positions 0 and 2, another step at births: at position 1 the mean is 2. *)
Example C75_gaussian_case : exists pr m s,
  mk_gaussian (fun _ _ _ => None) "v" (RawA [1; 3]) (RawS 1) (RawS 2) (Some (RawA [4; 5])) (Pos1 [0; 2]) = Ok pr /\ p_dist pr = Gauss m s /\
  get_hyper m (Some (P1 1)) = Ok 2 /\ perturb_std_of pr false None = Ok 2 /\ perturb_std_of pr true (Some (P1 0)) = Ok 4 /\
  Forall (acceptable (Pos1 [0; 2])) [RawA [1; 3]; RawS 1; RawS 2; birth_given (RawS 2) (Some (RawA [4; 5]))].
Proof.
  eexists _, _, _. split; [reflexivity|]. split; [reflexivity|].
  split; [cbn [get_hyper init_hyper]; unfold interp_linear; cbn [rd idx nth_error rbind length]; rbool; try lra; cbn; rbool; try lra; cbn; rbool; try lra; f_equal; lra|].
  split; [reflexivity|].
  split; [unfold perturb_std_of; cbn [get_hyper init_hyper p_stdb p_std]; unfold interp_linear; cbn [rd idx nth_error rbind length]; rbool; try lra; cbn; rbool; try lra; reflexivity|].
  repeat constructor; try discriminate.
Qed.
(** Limits 0 and 5 at positions 0 and 2, upper limit 10: the width at 0 is 10. *)
Example C75_uniform_case : exists pr d, uniform_init (fun _ _ _ => None) "v" (RawA [0; 5]) (RawS 10) (RawS 1) None (Pos1 [0; 2]) = Ok (pr, d) /\
  get_vmin_vmax pr (Some (P1 0)) = Ok (0, 10) /\ get_delta (pr, d) (Some (P1 0)) = Ok (10 - 0) /\
  perturb_std_of pr true None = Ok 1 /\ sortedR [0; 2].
Proof.
  eexists _, _. split; [reflexivity|].
  split; [unfold get_vmin_vmax; cbn [p_dist get_hyper init_hyper]; unfold interp_linear; cbn [rd idx nth_error rbind length]; rbool; try lra; cbn; rbool; try lra; reflexivity|].
  split; [unfold get_delta; cbn [snd get_hyper init_hyper map]; unfold interp_linear; cbn [rd idx nth_error rbind length]; rbool; try lra; cbn; rbool; try lra; reflexivity|].
  split; [reflexivity|]. intros [|[|[|i]]] [|[|[|j]]] a b Hij Ha Hb; cbn in Ha, Hb; try discriminate; try lia; injection Ha as <-; injection Hb as <-; lra.
Qed.
(** An array without positions, one of another length, and limits that do not fit each other. *)
Example C75_rejected_case :
  mk_laplace (fun _ _ _ => None) "v" (RawA [1; 3]) (RawS 1) (RawS 2) None NoPos = Raise EAssert /\
  mk_custom (fun _ _ _ => None) "v" (fun _ => ret 0) (fun _ _ => Ok (Fin 0)) (fun _ => Ok (Fin 0)) (RawA [1; 3]) None (Pos1 [0]) = Raise EAssert /\
  uniform_init (fun _ _ _ => None) "v" (RawA [0; 0]) (RawA [1; 1; 1]) (RawS 1) None (Pos1 [0; 2]) = Raise EValue.
Proof. repeat split; reflexivity. Qed.
