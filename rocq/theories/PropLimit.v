(** C86: from every start, the chains over the sites of a tessellation (C79) and over values and a noise level (C83)
    converge, but to a distribution other than the posterior. *)
From Coq Require Import FunctionalExtensionality Permutation.
From Coquelicot Require Import Coquelicot.
From Verif Require Import Base ModelPrior ModelState ModelSpace ModelPerturb ModelChain ModelLikelihood SpecWalk SpecInvariance SpecSites SpecHier.
From Verif Require Import ProofBox ProofInvariance ProofSites ProofConverge PropSites PropHier.
From Verif Require ExampleWalk PropWalk ProofFubini ProofHier PropInvariance.
Local Open Scope R_scope.

(** [e k xs] is the mean of [g] after [k] iterations that start from the sites [xs]; [e k l xs] the same for the
    noise level [l] and the values [xs]. *)
Definition site_means (w : R -> R -> R) (lo hi : R) (n : nat) (next : list R -> nat -> R -> R -> list R)
    (g : list R -> R) (e : nat -> list R -> R) : Prop :=
  (forall xs, e O xs = g xs) /\
  forall k xs, ordered lo hi n xs -> mean_moves w lo hi n xs (fun i y u => e k (next xs i y u)) (e (S k) xs).
Definition level_means (phi : R -> R) (w : R -> R -> R) (a b lo hi : R) (n : nat)
    (nextv : R -> list R -> nat -> R -> R -> R * list R) (nextn : R -> list R -> R -> R -> R * list R)
    (g : R -> list R -> R) (e : nat -> R -> list R -> R) : Prop :=
  (forall l xs, e O l xs = g l xs) /\
  forall k l xs, a <= l <= b -> in_box lo hi n xs ->
    mean_either (3 / 4) phi n w a b l
      (fun i z u => e k (fst (nextv l xs i z u)) (snd (nextv l xs i z u)))
      (fun y u => e k (fst (nextn l xs y u)) (snd (nextn l xs y u))) (e (S k) l xs).

(** * Sites *)
(** The limit [v / Z] is the mean under exp(L/T) times the probability that steps from all sites stay within the limits. *)
Theorem C86_sites_partial n lo hi sd T fp ll L kept save F w next :
  (0 < n)%nat -> lo < hi -> 0 < sd -> 0 < T -> normal_cdf F -> walks F lo hi sd w ->
  cont_on lo hi n L -> evaluates_sites n lo hi T ll L kept ->
  moves_on (inversion_env [site_space n lo hi sd fp] ll save) n lo hi sd T kept next ->
  exists Z rho, 0 < Z /\ box_integral lo hi n (fun xs => exp (L (in_order xs) / T) * stays F lo hi sd xs) Z /\ 0 <= rho < 1 /\
    forall g B, cont_on lo hi n g -> (forall xs, ordered lo hi n xs -> Rabs (g xs) <= B) ->
    exists e v, site_means w lo hi n next g e /\
      box_integral lo hi n (fun xs => exp (L (in_order xs) / T) * stays F lo hi sd xs * g (in_order xs)) v /\
      forall k xs, ordered lo hi n xs -> Rabs (e k xs - v / Z) <= 2 * B * rho ^ (k / n).
Proof.
  intros Hn Hlo Hsd HT HF Hw HL Hev Hnext. pose proof HF as [(c & Hc & Hphi) Hr _ _].
  set (phi := fun u => c * bell u) in *. set (L' := fun l => L (in_order l)).
  assert (HL' : cont_on lo hi n L') by (now apply cont_order).
  assert (SL : symmetric L') by (intros l l' Hp; unfold L'; now rewrite (in_order_of _ _ Hp)).
  pose proof (ucont_wd lo hi Hlo n sd T Hsd F phi Hphi L' HL') as CD.
  destruct (sites_converge lo hi Hlo n Hn sd T Hsd HT F phi HF Hphi L' HL') as (rho & Hrho & Hcv).
  exists (wmass lo hi n sd T F L'), rho.
  split; [exact (wmass_pos lo hi Hlo n sd T Hsd F phi HF Hphi L' HL')|].
  split. { apply (box_int_is lo hi Hlo n (wdens lo hi sd T F L')). exact CD. }
  split; auto. intros g B Hg HB.
  set (W := wafter lo hi n sd T F phi L') in *.
  set (P := fun (f : list R -> R) l => W f (in_order l)).
  set (G := fun k => Nat.iter k P (fun l => g (in_order l))).
  assert (Hid : forall l, in_order (in_order l) = in_order l) by (intros; apply in_order_id, in_order_sorted).
  assert (SG : forall k, symmetric (G k)).
  { intros [|k] l l' Hp; cbn; unfold P; now rewrite (in_order_of _ _ Hp). }
  assert (CG : forall k, cont_on lo hi n (G k)).
  { induction k as [|k IH]; cbn; [now apply cont_order|]. apply cont_order.
    exact (ucont_wafter lo hi Hlo n sd T Hsd F phi HF Hphi L' HL' _ IH). }
  assert (EG : forall k l, in_box lo hi n l -> G k l = Nat.iter k W (G O) l).
  { induction k as [|k IH]; intros l Hl; [reflexivity|]. change (W (G k) (in_order l) = W (Nat.iter k W (G O)) l).
    transitivity (W (G k) l).
    - symmetry. apply (wafter_sym lo hi Hlo n sd T F phi L' (G k) l (in_order l) SL (SG k)); [apply Hl|]. symmetry. apply in_order_perm.
    - assert (Wx : forall f h, (forall x, in_box lo hi n x -> f x = h x) -> W f l = W h l).
      { intros f h E. unfold W, wafter. f_equal. f_equal. apply map_ext_in. intros i Hi. apply in_seq in Hi. unfold wafter_i. rewrite E by auto. f_equal.
        apply RInt_in; auto. intros y Hy. unfold wflux. rewrite !E; auto. apply box_set; auto. lia. }
      apply Wx. auto. }
  set (e := fun k => match k with O => g | S _ => G k end).
  assert (Ee : forall k l, e k (in_order l) = G k l).
  { intros [|k] l; cbn; [reflexivity|]. unfold P. now rewrite Hid. }
  exists e, (box_int lo hi n (fun xs => wdens lo hi sd T F L' xs * G O xs)). split; [split; [reflexivity|]|split].
  - intros k xs Hx. change (e (S k) xs) with (W (G k) (in_order xs)). rewrite (proj2 Hx).
    pose proof (mean_moves_step lo hi n sd T F phi L w (G k) xs Hlo Hsd HT HF Hphi HL (CG k)
      (walk_wq lo hi sd F c w Hlo Hsd Hc Hphi Hr Hw) (fun l _ => SG k _ _ (in_order_perm l)) Hx) as Hm.
    refine (mean_moves_ext w w lo hi n xs _ _ _ Hlo (proj2 (proj1 Hx)) (proj1 (proj1 Hx)) (fun _ _ _ _ => eq_refl) _ Hm).
    intros i y u Hi Hy Hu. cbn beta. rewrite (moves_on_step n lo hi sd T fp ll L kept save Hev next Hsd Hnext xs i y u Hx Hi Hy Hu).
    pose proof (site_step_ordered n lo hi T L xs i y u Hx Hi Hy) as [_ Ho]. rewrite <- Ho at 2. rewrite Ee. reflexivity.
  - apply (box_int_is lo hi Hlo n (fun xs => wdens lo hi sd T F L' xs * G O xs)). apply (ucont_mult lo hi Hlo n (wdens lo hi sd T F L')); auto.
  - intros k xs Hx. pose proof Hx as [Hb Ho]. rewrite <- Ho at 1. rewrite Ee, EG by auto.
    apply (Hcv (G O) B (CG O)); auto. intros l Hl. apply HB. split; [now apply box_order in Hl|apply Hid].
Qed.

Lemma limit_of (e : nat -> list R -> R) xs l B rho n : (0 < n)%nat -> 0 <= rho < 1 -> (forall k, Rabs (e k xs - l) <= 2 * B * rho ^ (k / n)) ->
  is_lim_seq (fun k => e k xs) l.
Proof.
  intros Hn Hr H. assert (HB : 0 <= B). { specialize (H O). rewrite Nat.div_0_l in H by lia. cbn in H. pose proof (Rabs_pos (e O xs - l)). lra. }
  apply is_lim_seq_spec. intros eps.
  assert (He : 0 < eps / (2 * B + 1)) by (apply Rdiv_lt_0_compat; [apply cond_pos|lra]).
  destruct (pow_lt_1_zero rho ltac:(rewrite Rabs_right; lra) _ He) as (N & HN). exists (N * n)%nat. intros k Hk.
  eapply Rle_lt_trans; [apply H|]. assert (HNk : (N <= k / n)%nat) by (apply Nat.div_le_lower_bound; lia).
  specialize (HN _ HNk). rewrite Rabs_right in HN by (apply Rle_ge, pow_le; lra).
  assert (P0 : 0 <= rho ^ (k / n)) by (apply pow_le; lra).
  apply Rle_lt_trans with ((2 * B + 1) * rho ^ (k / n)); [nra|].
  apply Rmult_lt_compat_l with (r := 2 * B + 1) in HN; [|lra]. replace ((2 * B + 1) * (eps / (2 * B + 1))) with (RIneq.pos eps) in HN by (field; lra). exact HN.
Qed.
(** The mean of a function of one number that is not constant is larger under a weight with this function. *)
Lemma weighted_larger lo hi (Hlo : lo < hi) (h : R -> R) x y : ProofFubini.uc1 lo hi h -> lo <= x <= hi -> lo <= y <= hi -> h x <> h y ->
  ex_RInt (fun t => h t * h t) lo hi /\ RInt h lo hi * RInt h lo hi < (hi - lo) * RInt (fun t => h t * h t) lo hi.
Proof.
  intros Hu Hx Hy Hne. assert (C1 : cont_on lo hi 1 (fun l => h (hd 0 l))).
  { intros eps He. destruct (Hu eps He) as (d & Hd & H). exists d. split; auto. intros [|a [|a' l]] [|b [|b' l']] Ha Hb Hnr; try (now destruct Ha); try (now destruct Hb).
    apply box_cons in Ha, Hb. inversion Hnr; subst. cbn. apply H; tauto. }
  assert (U : forall f, cont_on lo hi 1 f -> ProofFubini.uc1 lo hi (fun t => f [t])).
  { intros f Hf eps He. destruct (Hf eps He) as (d & Hd & H). exists d. split; auto. intros a b Ha Hb Hab.
    apply H; try (split; [reflexivity|constructor; [assumption|constructor]]). constructor; [exact Hab|constructor]. }
  assert (E1 : ex_RInt h lo hi) by now apply (ProofFubini.uc1_int lo hi Hlo).
  assert (E2 : ex_RInt (fun t => h t * h t) lo hi).
  { apply (ProofFubini.uc1_int lo hi Hlo). apply (U (fun l => h (hd 0 l) * h (hd 0 l))). now apply ucont_mult. }
  split; auto. set (I := RInt h lo hi). set (J := RInt (fun t => h t * h t) lo hi). set (m := I / (hi - lo)).
  set (f := fun t => (h t - m) * (h t - m)).
  assert (Uf : ProofFubini.uc1 lo hi f).
  { apply (U (fun l => (h (hd 0 l) - m) * (h (hd 0 l) - m))). apply ucont_mult; auto; apply ucont_minus; auto; apply ucont_const. }
  assert (Hpos : 0 < RInt f lo hi).
  { assert (Hc : exists c, lo <= c <= hi /\ h c <> m). { destruct (Req_dec (h x) m) as [E|N]; [exists y; split; auto; congruence|exists x; auto]. }
    destruct Hc as (c & Hc & Nc). apply (positive_int lo hi Hlo f c); auto.
    - intros t _. exact (Rle_0_sqr (h t - m)).
    - apply (Rsqr_pos_lt (h c - m)). intros E. apply Nc. lra. }
  assert (Ef : RInt f lo hi = J - 2 * m * I + (hi - lo) * (m * m)).
  { apply is_RInt_unique. apply (is_RInt_ext (fun t => plus (plus (h t * h t) (scal (- (2 * m)) (h t))) (m * m))).
    - intros t _. unfold plus, scal, f. cbn. unfold mult. cbn. match goal with |- ?x = ?y => change (@eq R x y) end. ring.
    - replace (J - 2 * m * I + (hi - lo) * (m * m)) with (plus (plus J (scal (- (2 * m)) I)) ((hi - lo) * (m * m))) by (unfold plus, scal; cbn; unfold mult; cbn; ring).
      apply (is_RInt_plus (V := R_NormedModule)); [apply (is_RInt_plus (V := R_NormedModule))|].
      + apply @RInt_correct. exact E2.
      + apply (is_RInt_scal (V := R_NormedModule)). apply @RInt_correct. exact E1.
      + apply (is_RInt_const (V := R_NormedModule)). }
  rewrite Ef in Hpos. unfold m in Hpos. assert (Hd : 0 < hi - lo) by lra.
  replace (J - 2 * (I / (hi - lo)) * I + (hi - lo) * (I / (hi - lo) * (I / (hi - lo)))) with (((hi - lo) * J - I * I) / (hi - lo)) in Hpos by (field; lra).
  apply Rmult_lt_compat_r with (r := hi - lo) in Hpos; auto. unfold Rdiv in Hpos. rewrite Rmult_assoc, Rinv_l in Hpos by lra. lra.
Qed.

Lemma ratio_lt I J : 0 < I -> I * I < (10 - 0) * J -> I / 10 < J / I.
Proof.
  intros HI H. apply Rmult_lt_reg_r with (10 * I); [lra|]. replace (I / 10 * (10 * I)) with (I * I) by field.
  replace (J / I * (10 * I)) with ((10 - 0) * J) by (field; lra). exact H.
Qed.
(** One site in [0, 10], steps of standard deviation 1, a likelihood that does not depend on it: the limit of the mean
    of [g] (the probability that a step stays inside) is larger than its mean under the posterior distribution. *)
Theorem C86_sites_refuted : exists n lo hi sd T fp ll L kept save F w next g e Z v l,
  (0 < n)%nat /\ lo < hi /\ 0 < sd /\ T = 1 /\ normal_cdf F /\ walks F lo hi sd w /\
  cont_on lo hi n L /\ evaluates_sites n lo hi T ll L kept /\
  moves_on (inversion_env [site_space n lo hi sd fp] ll save) n lo hi sd T kept next /\ cont_on lo hi n g /\
  site_means w lo hi n next g e /\
  box_integral lo hi n (fun xs => exp (L (in_order xs) / T)) Z /\
  box_integral lo hi n (fun xs => exp (L (in_order xs) / T) * g (in_order xs)) v /\
  (forall xs, ordered lo hi n xs -> is_lim_seq (fun k => e k xs) l) /\ v / Z < l.
Proof.
  destruct PropWalk.C53_density_case as (F & w & HF & Hw & Hne & _).
  pose proof HF as [(c & Hc & Hphi) Hr _ _]. set (phi := fun u => c * bell u) in *.
  set (O0 := fun _ : list R => 0).
  assert (Hll : exists ll, loglike_init None None None (Some (fun _ => ret (Fin 0))) = Ok ll) by (eexists; reflexivity). destruct Hll as (ll & Ell).
  assert (Hev : evaluates_sites 1 0 10 1 ll O0 (fun _ => True)).
  { apply (C79_function 1 0 10 1 (fun _ => ret (Fin 0)) O0 ll); auto; lra. }
  assert (Hlo : 0 < 10) by lra. assert (Hsd : 0 < 1) by lra.
  assert (HZ : cont_on 0 10 1 O0) by apply ucont_const.
  set (g := hits 0 10 1 F). assert (Hg : cont_on 0 10 1 g) by exact (hits_cont 0 10 Hlo 1 Hsd F phi Hphi).
  set (h := hit F 0 10 1).
  destruct (C79_iteration 1 0 10 1 1 true ll O0 (fun _ => True) true Hsd Hev) as (next & Hnext & _).
  destruct (C86_sites_partial 1 0 10 1 1 true ll O0 (fun _ => True) true F w next ltac:(lia) Hlo Hsd Hsd HF Hw HZ Hev Hnext) as (Zw & rho & HZw & IZ & Hrho & Hcv).
  destruct (ucont_bounded 0 10 Hlo 1 g Hg) as (B & HB & BB).
  destruct (Hcv g B Hg (fun xs Hx => BB xs (proj1 Hx))) as (e & vw & He & Iv & Hlim).
  assert (Uh : ProofFubini.uc1 0 10 h).
  { intros eps He'. destruct (Hg eps He') as (d & Hd & H). exists d. split; auto. intros a b Ha Hb Hab.
    apply (H [a] [b]); try (split; [reflexivity|constructor; [assumption|constructor]]). constructor; [exact Hab|constructor]. }
  assert (Hne' : h 5 <> h 9).
  { intros Eh. apply Hne. destruct (PropWalk.C53_log_ratio F 0 10 1 w 5 9) as [-> _]; auto; try lra. unfold h in Eh. rewrite Eh.
    pose proof (PropWalk.hit_pos F c Hc Hphi 0 10 1 Hsd Hlo 9) as Hp. set (p := hit F 0 10 1 9) in *. replace (p / p) with 1 by (field; lra). apply ln_1. }
  destruct (weighted_larger 0 10 Hlo h 5 9 Uh ltac:(lra) ltac:(lra) Hne') as [Xh2 Hlt]. set (I := RInt h 0 10) in *. set (J := RInt (fun t => h t * h t) 0 10) in *.
  assert (Xh : ex_RInt h 0 10) by now apply (ProofFubini.uc1_int 0 10 Hlo).
  assert (one : forall (f : list R -> R) (k : R -> R) v, (forall x, 0 <= x <= 10 -> f [x] = k x) -> is_RInt k 0 10 v -> box_integral 0 10 1 f v).
  { intros f k v E Hk. exists k. split; [intros x Hx; symmetry; now apply E|exact Hk]. }
  assert (ex1 : exp (0 / 1) = 1) by (replace (0 / 1) with 0 by lra; apply exp_0).
  assert (EZ : Zw = I).
  { eapply (box_integral_unique 0 10 Hlo 1); [exact IZ|]. apply (one _ h); [|now apply @RInt_correct].
    intros x _. unfold O0, stays. cbn [fold_right]. rewrite ex1. unfold h. ring. }
  assert (Ev : vw = J).
  { eapply (box_integral_unique 0 10 Hlo 1); [exact Iv|]. apply (one _ (fun t => h t * h t)); [|now apply @RInt_correct].
    intros x _. unfold O0, stays, g, hits. cbn [fold_right in_order place hd]. rewrite ex1. unfold h. ring. }
  exists 1%nat, 0, 10, 1, 1, true, ll, O0, (fun _ => True), true, F, w, next, g, e, 10, I, (vw / Zw).
  split; [lia|]. do 2 (split; [lra|]). split; [reflexivity|]. do 5 (split; [assumption|]). split; [assumption|]. split; [assumption|].
  split; [|split; [|split]].
  - apply (one _ (fun _ => 1)); [intros; exact ex1|]. replace 10 with ((10 - 0) * 1) at 2 by ring. apply (is_RInt_const (V := R_NormedModule)).
  - apply (one _ h); [|now apply @RInt_correct]. intros x _. unfold O0, g, hits. cbn [in_order place hd]. rewrite ex1. unfold h. ring.
  - intros xs Hx. apply (limit_of e xs (vw / Zw) B rho 1); auto.
  - rewrite EZ, Ev in *. exact (ratio_lt I J HZw Hlt).
Qed.

(** * Values and a noise level *)
Lemma joint_integral_unique a b lo hi n f v v' : a < b -> lo < hi -> joint_integral a b lo hi n f v -> joint_integral a b lo hi n f v' -> v = v'.
Proof.
  intros Hab Hlo (h & H1 & H2) (h' & H1' & H2'). apply (is_RInt_unique (V := R_CompleteNormedModule)) in H2, H2'. rewrite <- H2, <- H2'.
  apply RInt_in; auto. intros s Hs. eapply (box_integral_unique lo hi Hlo); eauto.
Qed.
Theorem C86_level_partial n lo hi sd a b tau T dobs r1 r2 r3 ll L kept save F phi w nextv nextn :
  (0 < n)%nat -> lo < hi -> 0 < sd -> a < b -> 0 < tau -> 0 < T ->
  normal_cdf F -> (forall z, derivable_pt_lim F z (phi z)) -> walks F a b tau w ->
  joint_cont a b lo hi n L -> evaluates_both n lo hi a b T ll (level_target dobs a b tau r1 r2 r3) L kept ->
  goes_on (inversion_env [PropInvariance.number_space n lo hi sd] ll save) n lo hi a b tau T kept nextv nextn ->
  exists Z rho, 0 < Z /\ joint_integral a b lo hi n (fun l xs => exp (L l xs / T) * hit F a b tau l) Z /\ 0 <= rho < 1 /\
    forall g B, joint_cont a b lo hi n g -> (forall l xs, a <= l <= b -> in_box lo hi n xs -> Rabs (g l xs) <= B) ->
    exists e v, level_means phi w a b lo hi n nextv nextn g e /\
      joint_integral a b lo hi n (fun l xs => exp (L l xs / T) * hit F a b tau l * g l xs) v /\
      forall k l xs, a <= l <= b -> in_box lo hi n xs -> Rabs (e k l xs - v / Z) <= 2 * B * rho ^ (k / S n).
Proof.
  intros Hn Hlo Hsd Hab Htau HT HF Hphi Hw HL Hev Hgo.
  destruct (phi_bell F phi HF Hphi) as (c & Hc & Hb).
  assert (Hd : forall u, derivable_pt_lim F u (c * bell u)) by (intros u; rewrite <- Hb; apply Hphi).
  assert (Hq : forall x y, a <= x <= b -> a < y < b -> wq a b tau F phi x y = w x y).
  { intros x y Hx Hy. rewrite <- (PropSites.walk_wq a b tau F c w Hab Htau Hc Hd (nc_range F HF) Hw x y Hx Hy).
    unfold wq, q. now rewrite Hb. }
  pose proof (ucont_jd lo hi Hlo n T a b tau Hab Htau F phi Hphi L HL) as CD.
  pose proof (ProofHier.rate_pos lo hi Hlo a b Hab) as Hrate.
  destruct (level_converges lo hi Hlo n Hn sd T Hsd HT a b tau Hab Htau (3 / 4) ltac:(lra) F phi HF Hphi L HL) as (rho & Hrho & Hcv).
  pose proof (jmass_pos lo hi Hlo n T a b tau Hab Htau F phi HF Hphi L HL) as HM.
  set (LA := ProofHier.la lo hi a b). set (P := ProofHier.jafter lo hi n sd T a b tau (3 / 4) F phi L) in *.
  set (D := ProofHier.jdens lo hi T a b tau F L) in *. set (r := ProofHier.rate lo hi a b) in *.
  set (M := jmass lo hi n T a b tau F L) in *.
  assert (ED : forall s xs, exp (L s xs / T) * hit F a b tau s = D (LA s :: xs)).
  { intros s xs. unfold D, ProofHier.jdens, ProofHier.lifted. cbn [hd tl]. unfold LA.
    rewrite (ProofHier.al_la lo hi Hlo a b Hab), (ProofHier.hit_la lo hi Hlo a b tau Hab Htau F). reflexivity. }
  exists (/ r * M), rho.
  split. { apply Rmult_lt_0_compat; auto. now apply Rinv_0_lt_compat. }
  split. { replace (fun l xs => exp (L l xs / T) * hit F a b tau l) with (fun s xs => D (LA s :: xs)).
    - exact (ProofHier.joint_of lo hi Hlo n a b Hab D CD).
    - extensionality s. extensionality xs. now rewrite ED. }
  split; auto. intros g B Hg HB.
  set (G := fun k => Nat.iter k P (ProofHier.lifted lo hi a b g)).
  assert (CG : forall k, cont_on lo hi (S n) (G k)).
  { induction k as [|k IH]; cbn; [exact (ProofHier.lifted_cont lo hi Hlo n a b Hab g Hg)|].
    exact (ProofHier.ucont_jafter lo hi Hlo n sd T a b tau Hab Htau (3 / 4) F phi HF Hphi L HL (G k) IH). }
  assert (E0 : forall l xs, G O (LA l :: xs) = g l xs).
  { intros l xs. unfold G. cbn. unfold ProofHier.lifted. cbn [hd tl]. unfold LA. now rewrite (ProofHier.al_la lo hi Hlo a b Hab). }
  exists (fun k l xs => G k (LA l :: xs)), (/ r * box_int lo hi (S n) (fun x => D x * G O x)). split; [split; [exact E0|]|split].
  - intros k l xs Hl Hx. exists (ProofHier.value_part lo hi n sd T a b phi L (G k) (LA l :: xs)), (ProofHier.noise_part lo hi T a b tau F phi L (G k) (LA l :: xs)).
    split; [|split; [|reflexivity]].
    + eapply PropInvariance.mean_draws_ext; [|exact (ProofHier.value_mean lo hi Hlo n sd T Hsd a b Hab F phi HF Hphi L HL (G k) l xs Hl (CG k) Hx)].
      intros i z u Hi Hu. cbn beta.
      rewrite (goes_on_values n lo hi sd a b tau T dobs r1 r2 r3 ll L kept save Hev nextv nextn Hgo l xs i z u Hl Hx Hi Hu). reflexivity.
    + assert (Bs : Forall (fun x => a <= x <= b) [l]) by (constructor; [exact Hl|constructor]).
      refine (PropSites.mean_moves_ext w w a b 1 [l] _ _ _ Hab Bs eq_refl (fun _ _ _ _ => eq_refl) _
        (ProofHier.noise_mean lo hi Hlo n T a b tau Hab Htau F phi HF Hphi L HL (G k) w l xs Hl (CG k) Hx Hq)).
      intros i y u Hi Hy Hu. cbn beta.
      rewrite (goes_on_noise n lo hi sd a b tau T dobs r1 r2 r3 ll L kept save Hev nextv nextn Htau Hgo l xs y u Hl Hx Hy Hu). reflexivity.
  - replace (fun l xs => exp (L l xs / T) * hit F a b tau l * g l xs) with (fun s xs => D (LA s :: xs) * G O (LA s :: xs)).
    + exact (ProofHier.joint_of lo hi Hlo n a b Hab (fun x => D x * G O x) (ucont_mult lo hi Hlo (S n) D (G O) CD (CG O))).
    + extensionality s. extensionality xs. now rewrite ED, E0.
  - intros k l xs Hl Hx. replace (/ r * box_int lo hi (S n) (fun x => D x * G O x) / (/ r * M)) with (jpost lo hi n T a b tau F L (G O)).
    + apply (Hcv (G O) B (CG O)).
      * intros [|x ys] Hy; [now destruct Hy|]. apply box_cons in Hy. destruct Hy as [Hxx Hy].
        change (Rabs (g (ProofHier.al lo hi a b x) ys) <= B). apply HB; auto. now apply (ProofHier.al_inside lo hi Hlo a b Hab).
      * apply box_cons. split; auto. now apply (ProofHier.la_inside lo hi Hlo a b Hab).
    + unfold jpost, expect. fold D. change (total lo hi (S n) D) with M. field. lra.
Qed.
Lemma ratio_lt10 I J : 0 < 10 * I -> I * I < (10 - 0) * J -> 10 * I / (10 * 10) < 10 * J / (10 * I).
Proof.
  intros HI H. assert (H0 : 0 < I) by lra. pose proof (ratio_lt I J H0 H). replace (10 * I / (10 * 10)) with (I / 10) by field.
  replace (10 * J / (10 * I)) with (J / I) by (field; lra). assumption.
Qed.
(** A level in [0, 10] with steps of standard deviation 1, one number, and a likelihood that depends on neither. *)
Theorem C86_level_refuted : exists n lo hi sd a b tau T dobs r1 r2 r3 ll L kept save F phi w nextv nextn g e Z v lim,
  (0 < n)%nat /\ lo < hi /\ 0 < sd /\ a < b /\ 0 < tau /\ T = 1 /\
  normal_cdf F /\ (forall z, derivable_pt_lim F z (phi z)) /\ walks F a b tau w /\
  joint_cont a b lo hi n L /\ evaluates_both n lo hi a b T ll (level_target dobs a b tau r1 r2 r3) L kept /\
  goes_on (inversion_env [PropInvariance.number_space n lo hi sd] ll save) n lo hi a b tau T kept nextv nextn /\
  joint_cont a b lo hi n g /\ level_means phi w a b lo hi n nextv nextn g e /\
  joint_integral a b lo hi n (fun l xs => exp (L l xs / T)) Z /\
  joint_integral a b lo hi n (fun l xs => exp (L l xs / T) * g l xs) v /\
  (forall l xs, a <= l <= b -> in_box lo hi n xs -> is_lim_seq (fun k => e k l xs) lim) /\ v / Z < lim.
Proof.
  destruct PropWalk.C53_density_case as (F & w & HF & Hw & Hne & _).
  pose proof HF as [(c & Hc & Hphi) Hr _ _]. set (phi := fun u => c * bell u) in *.
  set (O0 := fun (_ : R) (_ : list R) => 0). set (t := level_target [] 0 10 1 0 0 0).
  assert (Hll : exists ll, loglike_init (Some [ATarget t]) None None (Some (fun _ => ret (Fin 0))) = Ok ll) by (eexists; reflexivity).
  destruct Hll as (ll & Ell).
  assert (H1 : 0 < 1) by lra. assert (Hlo : 0 < 10) by lra.
  assert (Hev : evaluates_both 1 0 10 0 10 1 ll t O0 (fun _ => True)).
  { apply (C83_function 1 0 10 0 10 1 [] 1 0 0 0 (fun _ => ret (Fin 0)) O0 ll H1); auto. }
  assert (HZ2 : joint_cont 0 10 0 10 1 O0).
  { intros eps He. exists 1. split; [lra|]. intros. unfold O0. replace (0 - 0) with 0 by lra. now rewrite Rabs_R0. }
  set (h := hit F 0 10 1). set (g := fun (l : R) (_ : list R) => h l).
  assert (Hg : cont_on 0 10 1 (hits 0 10 1 F)) by exact (hits_cont 0 10 Hlo 1 H1 F phi Hphi).
  assert (Hgj : joint_cont 0 10 0 10 1 g).
  { intros eps He. destruct (Hg eps He) as (d & Hd & H). exists d. split; auto. intros s u xs ys Hs Hu Hx Hy Hsu Hn. unfold g.
    apply (H [s] [u]); try (split; [reflexivity|constructor; [assumption|constructor]]). constructor; [exact Hsu|constructor]. }
  destruct (C83_iteration 1 0 10 1 0 10 1 1 [] 0 0 0 ll O0 (fun _ => True) true H1 Hev) as (nextv & nextn & Hgo & _).
  destruct (C86_level_partial 1 0 10 1 0 10 1 1 [] 0 0 0 ll O0 (fun _ => True) true F phi w nextv nextn ltac:(lia) Hlo H1 Hlo H1 H1 HF Hphi Hw HZ2 Hev Hgo)
    as (Zw & rho & HZw & IZ & Hrho & Hcv).
  destruct (ucont_bounded 0 10 Hlo 1 _ Hg) as (B & HB & BB).
  destruct (Hcv g B Hgj) as (e & vw & He & Iv & Hlim).
  { intros l xs Hl _. apply (BB [l]). split; [reflexivity|constructor; [exact Hl|constructor]]. }
  assert (Uh : ProofFubini.uc1 0 10 h).
  { intros eps He'. destruct (Hg eps He') as (d & Hd & H). exists d. split; auto. intros a b Ha Hb Hab.
    apply (H [a] [b]); try (split; [reflexivity|constructor; [assumption|constructor]]). constructor; [exact Hab|constructor]. }
  assert (Hne' : h 5 <> h 9).
  { intros Eh. apply Hne. destruct (PropWalk.C53_log_ratio F 0 10 1 w 5 9) as [-> _]; auto; try lra. unfold h in Eh. rewrite Eh.
    pose proof (PropWalk.hit_pos F c Hc Hphi 0 10 1 H1 Hlo 9) as Hp. set (p := hit F 0 10 1 9) in *. replace (p / p) with 1 by (field; lra). apply ln_1. }
  destruct (weighted_larger 0 10 Hlo h 5 9 Uh ltac:(lra) ltac:(lra) Hne') as [Xh2 Hlt]. set (I := RInt h 0 10) in *. set (J := RInt (fun t => h t * h t) 0 10) in *.
  assert (Xh : ex_RInt h 0 10) by now apply (ProofFubini.uc1_int 0 10 Hlo).
  assert (ex1 : exp (0 / 1) = 1) by (replace (0 / 1) with 0 by lra; apply exp_0).
  assert (one : forall (f : R -> list R -> R) (k : R -> R) v, (forall l xs, f l xs = k l) -> is_RInt k 0 10 v -> joint_integral 0 10 0 10 1 f (10 * v)).
  { intros f k v E Hk. exists (fun l => 10 * k l). split.
    - intros l Hl. exists (fun _ => k l). split.
      + intros x Hx. cbn. now rewrite E.
      + replace (10 * k l) with ((10 - 0) * k l) by ring. apply (is_RInt_const (V := R_NormedModule)).
    - exact (is_RInt_scal (V := R_NormedModule) k 0 10 10 v Hk). }
  assert (EZ : Zw = 10 * I).
  { eapply (joint_integral_unique 0 10 0 10 1 _ _ _ Hlo Hlo); [exact IZ|]. apply (one _ h); [|now apply @RInt_correct].
    intros l xs. unfold O0. rewrite ex1. unfold h. ring. }
  assert (Ev : vw = 10 * J).
  { eapply (joint_integral_unique 0 10 0 10 1 _ _ _ Hlo Hlo); [exact Iv|]. apply (one _ (fun t => h t * h t)); [|now apply @RInt_correct].
    intros l xs. unfold O0, g. rewrite ex1. unfold h. ring. }
  exists 1%nat, 0, 10, 1, 0, 10, 1, 1, [], 0, 0, 0, ll, O0, (fun _ => True), true, F, phi, w, nextv, nextn, g, e, (10 * 10), (10 * I), (vw / Zw).
  split; [lia|]. do 4 (split; [lra|]). split; [reflexivity|]. do 8 (split; [assumption|]).
  split; [|split; [|split]].
  - apply (one _ (fun _ => 1)); [intros; exact ex1|]. replace 10 with ((10 - 0) * 1) at 2 by ring. apply (is_RInt_const (V := R_NormedModule)).
  - apply (one _ h); [|now apply @RInt_correct]. intros l xs. unfold O0, g. rewrite ex1. ring.
  - intros l xs Hl Hx. apply (limit_of (fun k xs => e k l xs) xs (vw / Zw) B rho 2); auto.
  - rewrite EZ, Ev in *. exact (ratio_lt10 I J HZw Hlt).
Qed.

(** * Cases *)
(** Two sites in [0, 10] with the log likelihood minus the first one, at temperature 3. *)
Example C86_sites_case : exists ll F w next, normal_cdf F /\ walks F 0 10 1 w /\ cont_on 0 10 2 (fun xs => - nth 0 xs 0) /\
  evaluates_sites 2 0 10 3 ll (fun xs => - nth 0 xs 0) (fun _ => True) /\
  moves_on (inversion_env [site_space 2 0 10 1 true] ll false) 2 0 10 1 3 (fun _ => True) next /\ ordered 0 10 2 [2%R; 5].
Proof.
  destruct C79_case as (ll & F & w & _ & Hev & HL & HF & Hw & Ho & _).
  destruct (C79_iteration 2 0 10 1 3 true ll _ _ false ltac:(lra) Hev) as (next & Hnext & _).
  exists ll, F, w, next. auto 6.
Qed.
(** Two numbers in [0, 4] and a level in [1, 2] whose log likelihood is minus the level, at temperature 3. *)
Example C86_level_case : exists ll F phi w nextv nextn, normal_cdf F /\ (forall z, derivable_pt_lim F z (phi z)) /\ walks F 1 2 (1 / 2) w /\
  joint_cont 1 2 0 4 2 (fun l _ => - l) /\ evaluates_both 2 0 4 1 2 3 ll cs_target (fun l _ => - l) (fun _ => True) /\
  goes_on (inversion_env [PropInvariance.number_space 2 0 4 1] ll false) 2 0 4 1 2 (1 / 2) 3 (fun _ => True) nextv nextn.
Proof.
  destruct C83_case as (_ & F & phi & w & _ & HF & Hphi & Hw & _). destruct C83_function_case as (ll & _ & Hev).
  destruct (C83_iteration 2 0 4 1 1 2 (1 / 2) 3 _ _ _ _ ll _ _ false ltac:(lra) Hev) as (nextv & nextn & Hgo & _).
  exists ll, F, phi, w, nextv, nextn. repeat (split; [assumption|]). split; [|auto].
  intros eps He. exists eps. split; auto. intros s t xs ys _ _ _ _ Hst _. replace (- s - - t) with (- (s - t)) by ring. now rewrite Rabs_Ropp.
Qed.
