(** C90 for inversions for a fixed number of values with one uniform prior (C85) and for trans-dimensional ones (C87). *)
From Coquelicot Require Import Coquelicot.
From Verif Require Import Base ModelPrior ModelState ModelSpace ModelPerturb ModelChain ModelLikelihood SpecWalk SpecInvariance SpecTransd SpecLikelihood SpecEstimate SpecEvents.
From Verif Require Import ProofBox ProofInvariance ProofTransd ProofConverge ProofTransConverge ProofEstimate ProofEstimateBox PropInvariance PropInvarianceLike PropTransd PropTransdLike PropConverge PropTransConverge.
Local Open Scope R_scope.

(** * A fixed number of values: one is chosen and moved *)
Definition choice (n : nat) (z : nat * R * R) : Prop := (fst (fst z) < n)%nat /\ 0 < snd z < 1.
Definition choice_mean (phi : R -> R) (n : nat) (k : nat * R * R -> R) (m : R) : Prop := mean_draws phi n (fun i z u => k (i, z, u)) m.
Definition goes (next : list R -> nat -> R -> R -> list R) (xs : list R) (z : nat * R * R) : list R := next xs (fst (fst z)) (snd (fst z)) (snd z).
Theorem C90_numbers n lo hi sd T ll L kept save F phi next :
  (0 < n)%nat -> lo < hi -> 0 < sd -> 0 < T -> normal_cdf F -> (forall z, derivable_pt_lim F z (phi z)) ->
  cont_on lo hi n L -> evaluates n lo hi T ll L kept ->
  follows (inversion_env [number_space n lo hi sd] ll save) n lo hi T kept next ->
  exists Z C, 0 < Z /\ box_integral lo hi n (fun xs => exp (L xs / T)) Z /\ 0 <= C /\
    forall g B, cont_on lo hi n g -> (forall xs, in_box lo hi n xs -> Rabs (g xs) <= B) ->
    exists v, box_integral lo hi n (fun xs => exp (L xs / T) * g xs) v /\
      forall burnin every j xs, in_box lo hi n xs -> (0 < every)%nat -> (0 < (j - burnin) / every)%nat ->
      exists m, mean_rounds (choice_mean phi n) (choice n) j
          (fun ds => (average (map g (scheduled burnin every 0 (visited (goes next) xs ds))) - v / Z) ^ 2) m /\
        m <= C * (B * B) / INR ((j - burnin) / every).
Proof.
  intros Hn Hlo Hsd HT HF Hphi HL Hev Hnext.
  assert (Hd : cont_on lo hi n (dens T L)) by (eapply ucont_dens; eauto).
  destruct (box_estimate lo hi Hlo n Hn sd T Hsd HT F phi HF Hphi L HL) as (C & HC & H).
  exists (mass lo hi n T L), C. split; [apply mass_pos; auto|]. split; [apply box_int_is; auto|]. split; auto.
  intros g B Hg HB. exists (box_int lo hi n (fun xs => exp (L xs / T) * g xs)). split.
  - apply box_int_is; auto. apply (ucont_mult lo hi Hlo n (dens T L)); auto.
  - intros burnin every j xs Hx He HN. destruct (H g B Hg HB burnin every j xs Hx He HN) as (m & Hm & Hle). exists m. split; auto.
    eapply mean_rounds_ext; [|exact Hm]. intros ds _ Hds. cbn beta. do 5 f_equal.
    clear -Hds Hx Hev Hnext HT Hn. revert xs Hx. induction Hds as [|[[i z] u] ds [Hi Hu] Hds IH]; intros xs Hx; [reflexivity|]. cbn [visited fst snd] in *.
    assert (E : goes next xs (i, z, u) = ProofInvariance.step lo hi sd T L xs i z u) by (apply (follows_step n lo hi sd T ll L kept save Hev next Hnext); auto).
    rewrite E. f_equal. apply IH. now apply step_inside.
Qed.
Theorem C90_numbers_unique phi n j : forall h m m',
  mean_rounds (choice_mean phi n) (choice n) j h m -> mean_rounds (choice_mean phi n) (choice n) j h m' -> m = m'.
Proof.
  induction j as [|j IH]; intros h m m'; cbn; [congruence|]. intros (k & Hk & Hm) (k' & Hk' & Hm').
  apply (mean_draws_unique phi n (fun i z u => k (i, z, u)) (fun i z u => k' (i, z, u))); auto.
  intros i z u Hi Hu. assert (Hd : choice n (i, z, u)) by now split. eapply IH; [now apply Hk|now apply Hk'].
Qed.

(** * A varying number of values *)
Definition comes (born : list R -> nat -> R -> R -> list R) (died : list R -> nat -> R -> list R)
    (moved_to : list R -> nat -> R -> R -> list R) (xs : list R) (z : event) : list R :=
  match z with
  | Born i a u => born xs i a u
  | Died i u => died xs i u
  | Moved i d u => moved_to xs i d u
  | Refused => xs
  end.
Theorem C90_transd kmin kmax range lo hi sd T ll L kept save F phi born died moved_to :
  (1 <= kmin <= kmax)%nat -> lo < hi -> 0 < sd -> 0 < T -> normal_cdf F -> (forall z, derivable_pt_lim F z (phi z)) ->
  (forall k, (kmin <= k <= kmax)%nat -> cont_on lo hi k L) -> evaluates_all kmin kmax lo hi T ll L kept ->
  follows_all (inversion_env [numbers_space kmin kmax range lo hi sd] ll save) kmin kmax lo hi T kept born died moved_to ->
  exists Z C, 0 < Z /\ trans_integral lo hi kmin kmax (posterior lo hi T L) Z /\ 0 <= C /\
    forall g B, (forall k, (kmin <= k <= kmax)%nat -> cont_on lo hi k g) ->
    (forall k xs, (kmin <= k <= kmax)%nat -> in_box lo hi k xs -> Rabs (g xs) <= B) ->
    exists v, trans_integral lo hi kmin kmax (fun xs => posterior lo hi T L xs * g xs) v /\
      forall burnin every j k xs, (kmin <= k <= kmax)%nat -> in_box lo hi k xs -> (0 < every)%nat -> (0 < (j - burnin) / every)%nat ->
      exists m, mean_path (comes born died moved_to) (event_mean phi kmin kmax) (events kmin kmax) j xs
          (fun ds => (average (map g (scheduled burnin every 0 (visited (comes born died moved_to) xs ds))) - v / Z) ^ 2) m /\
        m <= C * (B * B) / INR ((j - burnin) / every).
Proof.
  intros Hk Hlo Hsd HT HF Hphi HL Hev Hf.
  destruct (trans_estimate lo hi Hlo kmin kmax Hk sd T Hsd HT F phi HF Hphi L HL) as (C & HC & H).
  exists (trans_mass lo hi kmin kmax T L), C. split; [apply trans_mass_pos; auto|]. split; [|split; auto].
  - assert (Hone : forall k, (kmin <= k <= kmax)%nat -> cont_on lo hi k (fun _ => 1)) by (intros; apply ucont_const).
    destruct (posterior_integral kmin kmax lo hi T L (fun _ => 1) Hlo HT HL Hone) as (h & Hh & Eh).
    exists h. split.
    + intros k Hkk. pose proof (Hh k Hkk) as Hi. replace (posterior lo hi T L) with (fun xs => posterior lo hi T L xs * 1); auto.
      apply FunctionalExtensionality.functional_extensionality. intros xs. ring.
    + rewrite <- Eh. unfold trans_mass. f_equal. apply map_ext. intros k. apply box_int_ext; auto. intros; ring.
  - intros g B Hg HB.
    exists (rsum (map (fun k => box_int lo hi k (fun xs => ProofTransd.post lo hi T L k xs * g xs)) (seq kmin (S kmax - kmin)))).
    split; [now apply posterior_integral|]. intros burnin every j k xs Hkk Hx He HN.
    assert (HB' : forall ys, dom lo hi kmin kmax ys -> Rabs (g ys) <= B) by (intros ys (k' & Hk' & Hy); now apply (HB k')).
    assert (Dx : dom lo hi kmin kmax xs) by now exists k.
    destruct (H g B Hg HB' burnin every j xs Dx He HN) as (m & Hm & Hle). exists m. split; auto.
    assert (E : forall x z, dom lo hi kmin kmax x -> events kmin kmax x z ->
      dom lo hi kmin kmax (happens lo hi sd T L x z) /\ happens lo hi sd T L x z = comes born died moved_to x z).
    { intros x z Hdx Hz. split; [now apply (happens_inside lo hi Hlo kmin kmax Hk)|]. destruct Hdx as (k' & Hk' & Hx').
      pose proof (box_length lo hi k' x Hx') as El.
      destruct (follows_only kmin kmax range lo hi sd T ll L kept save Hev Hlo Hk born died moved_to Hf k' x Hk' Hx') as (E1 & E2 & E3).
      destruct z as [i a u|i u|i d u|]; cbn [events happens comes] in *; rewrite ?El in *; symmetry; [now apply E1|now apply E2|now apply E3|reflexivity]. }
    eapply (mean_path_next _ _ _ _ _ _ E); [exact Dx|]. eapply mean_path_ext; [|exact Hm]. intros ds _ Hds. cbn beta.
    now rewrite (visited_next _ _ _ _ E ds xs Dx Hds).
Qed.

(** * Cases *)
(** Two numbers with the data of [C85_case]; the sum of up to three numbers as in [C87_case]. *)
Example C90_numbers_case : exists next phi Z C v m,
  box_integral 0 1 2 (fun xs => exp (data_logpdf cv_K cv_P cv_G [cv_target] xs / 1) * nth 0 xs 0) v /\
  mean_rounds (choice_mean phi 2) (choice 2) 1500
    (fun ds => (average (map (fun xs => nth 0 xs 0) (scheduled 1000 5 0 (visited (goes next) [/ 2; / 3] ds))) - v / Z) ^ 2) m /\
  m <= C * (1 * 1) / INR 100.
Proof.
  destruct C85_case as (ll & next & F & phi & HF & Hphi & Hev & HL & Hnext).
  destruct (C90_numbers 2 0 1 (/ 2) 1 ll _ _ false F phi next ltac:(lia) ltac:(lra) ltac:(lra) ltac:(lra) HF Hphi HL Hev Hnext) as (Z & C & HZ & _ & HC & H).
  destruct (H (fun xs => nth 0 xs 0) 1) as (v & Hv & Hm).
  - apply ucont_nth.
  - intros xs [Hl Hx]. destruct xs as [|x xs]; [discriminate|]. inversion Hx; subst. cbn. rewrite Rabs_right; lra.
  - destruct (Hm 1000%nat 5%nat 1500%nat [/ 2; / 3]) as (m & Hmm & Hle); [split; [reflexivity|repeat constructor; lra]|lia|vm_compute; lia|].
    exists next, phi, Z, C, v, m. split; [exact Hv|]. split; [exact Hmm|exact Hle].
Qed.
Example C90_transd_case : exists born died moved_to phi Z C v m,
  trans_integral 0 1 1 3 (fun xs => posterior 0 1 2 (fun xs => - rsum xs) xs * rsum xs) v /\
  mean_path (comes born died moved_to) (event_mean phi 1 3) (events 1 3) 1500 [/ 2]
    (fun ds => (average (map rsum (scheduled 1000 5 0 (visited (comes born died moved_to) [/ 2] ds))) - v / Z) ^ 2) m /\
  m <= C * (3 * 3) / INR 100.
Proof.
  destruct C87_case as (ll & F & phi & b & d & mv & HF & Hphi & HL & Hev & Hf & Hg & HB).
  destruct (C90_transd 1 3 (1 / 2) 0 1 (1 / 10) 2 ll _ _ true F phi b d mv ltac:(lia) ltac:(lra) ltac:(lra) ltac:(lra) HF Hphi HL Hev Hf) as (Z & C & HZ & _ & HC & H).
  destruct (H rsum 3 Hg HB) as (v & Hv & Hm).
  destruct (Hm 1000%nat 5%nat 1500%nat 1%nat [/ 2]) as (m & Hmm & Hle); [lia|split; [reflexivity|repeat constructor; lra]|lia|vm_compute; lia|].
  exists b, d, mv, phi, Z, C, v, m. split; [exact Hv|]. split; [exact Hmm|exact Hle].
Qed.
