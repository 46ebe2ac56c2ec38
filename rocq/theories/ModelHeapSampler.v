(** Model of the samplers with objects that are shared and changed in place: the setter of
    temperature (/repo/src/bayesbay/_markov_chain.py:69-73), advance_chain (246-294),
    samplers/_samplers.py, and the creation and the run of an inversion in
    _bayes_inversion.py.  Functions registered by the user (add_on_...) are left out. *)
From Verif Require Import Base ModelUtils1D ModelPrior ModelState ModelSpace ModelChain ModelSampler
  ModelPerturb ModelLikelihood ModelHeap.
Local Open Scope R_scope.

Definition hchain := chain loc hout.
Definition hhook := hchain -> HM (hchain * option exn).
Definition hlhook := list hchain -> HM (list hchain * option exn).

(** _markov_chain.py:69-73: the attribute of the current state, a State, is assigned. *)
Definition with_temp (T : R) (c : hchain) : hchain :=
  mkChain (c_cur c) T (c_nprop c) (c_nacc c) (c_nprop_tot c) (c_nacc_tot c)
    (c_exc c) (c_saved c) (c_flag c) (c_log c).
Definition h_set_temperature (T : R) (c : hchain) : HM hchain :=
  '(d, at_, _, ca, x) <~ load_state (c_cur c) ;;
  _ <~ store (c_cur c) (HState d at_ T ca x) ;;
  hret (with_temp T c).

(** _markov_chain.py:246-294 [advance_chain] with begin_iteration, end_iteration and
    printing. *)
Definition h_advance_one (E : henv) (sc : sched) (b e : hhook) (c : hchain)
    : HM (hchain * option exn) :=
  let i := S (c_nprop_tot c) in
  match save_flag sc i with
  | Raise x => hret (c, Some x)
  | Undef => hdo ubeh
  | Ok flag =>
      '(c1, o1) <~ b (set_flag flag c) ;;
      match o1 with
      | Some x => hret (c1, Some x)
      | None =>
          '(c2, o2) <~ h_tries E 500 c1 ;;
          match o2 with
          | Some x => hret (c2, Some x)
          | None =>
              '(c3, o3) <~ e c2 ;;
              match o3 with
              | Some x => hret (c3, Some x)
              | None =>
                  if sc_verbose sc then
                    if (sc_print_every sc =? 0)%nat then hret (c3, Some EZeroDiv)
                    else if (i mod sc_print_every sc =? 0)%nat then
                      match print_statistics c3 with
                      | Ok _ => hret (c3, None)
                      | Raise x => hret (c3, Some x)
                      | Undef => hdo ubeh
                      end
                    else hret (c3, None)
                  else hret (c3, None)
              end
          end
      end
  end.
Fixpoint h_advance_with (E : henv) (n : nat) (sc : sched) (b e : hhook) (c : hchain)
    : HM (hchain * option exn) :=
  match n with
  | O => hret (c, None)
  | S n' =>
      '(c', o) <~ h_advance_one E sc b e c ;;
      match o with
      | Some x => hret (c', Some x)
      | None => h_advance_with E n' sc b e c'
      end
  end.

(** A process of joblib (_samplers.py:231-234) gets copies of the objects that the chain refers
    to, works on the copies, and sends back copies of what it then has: these come to lie
    behind the objects of the main process, with references between them as in the worker.
    Simplified: the worker is given all objects, and all that it has comes back; what no
    reference leads to cannot be seen. *)
Definition move_obj (n : nat) (o : obj) : obj :=
  let mv := map (fun ka : string * loc => (fst ka, (n + snd ka)%nat)) in
  match o with
  | HArr l => HArr l
  | HArrN l => HArrN l
  | HObj l => HObj (map (Nat.add n) l)
  | HLst l => HLst (map (Nat.add n) l)
  | HDict d => HDict (mv d)
  | HPS k d at_ c => HPS k (n + d)%nat (mv at_) (mv c)
  | HNoise d => HNoise d
  | HState d at_ t c x => HState (n + d)%nat (mv at_) t c x
  end.
Fixpoint move_out (n : nat) (o : hout) : hout :=
  match o with
  | QArr a => QArr (n + a)%nat
  | QList l => QList (map (map (fun kx => (fst kx, move_out n (snd kx)))) l)
  | o => o
  end.
Definition move_chain (n : nat) (c : hchain) : hchain :=
  mkChain (n + c_cur c)%nat (c_temp c) (c_nprop c) (c_nacc c) (c_nprop_tot c) (c_nacc_tot c)
    (c_exc c)
    match c_saved c with
    | SDict d => SDict (map (fun kl => (fst kl, map (move_out n) (snd kl))) d)
    | SList l => SList (map (Nat.add n) l)
    end (c_flag c) (c_log c).
Definition h_worker (f : hhook) : hhook := fun c h tr =>
  match f c h tr with
  | (Ret (c', o) tr', h') => (Ret (move_chain (length h) c', o) tr', h ++ map (move_obj (length h)) h')
  | (Err e tr', _) => (Err e tr', h)
  | (UBeh, _) => (UBeh, h)
  | (Starve, _) => (Starve, h)
  end.

(** [func(chain) for chain in self.chains] (236) *)
Fixpoint h_each_chain (f : hhook) (cs : list hchain) : HM (list hchain * option exn) :=
  match cs with
  | [] => hret ([], None)
  | c :: t =>
      '(c', o) <~ f c ;;
      match o with
      | Some e => hret (c' :: t, Some e)
      | None => '(t', o') <~ h_each_chain f t ;; hret (c' :: t', o')
      end
  end.
(** _samplers.py:190-238 (see [advance_chain] in ModelSampler.v); [fin] is
    on_end_advance_chain. *)
Definition h_advance_chain (E : henv) (b e : hhook) (fin : hlhook) (n_jobs : option Z) (n : nat)
    (sc : sched) : hlhook := fun cs =>
  match n_jobs with
  | None => hret (cs, Some EKey)
  | Some jobs =>
      let func := h_advance_with E n sc b e in
      if (1 <? jobs)%Z then
        '(cs', o) <~ h_each_chain (h_worker func) cs ;;
        match o with
        | Some x => hret (cs, Some x)
        | None => fin cs'
        end
      else
        '(cs', o) <~ h_each_chain func cs ;;
        match o with
        | Some x => hret (cs', Some x)
        | None => fin cs'
        end
  end.
Definition h_nothing : hhook := fun c => hret (c, None).
Definition h_nothing_l : hlhook := fun cs => hret (cs, None).

(** ** VanillaSampler, 241-274 *)
Definition h_vanilla_run (E : henv) (n_jobs : option Z) (n : nat) (sc : sched) : hlhook :=
  h_advance_chain E h_nothing h_nothing h_nothing_l n_jobs n sc.

(** ** ParallelTempering, 277-364 *)
(** 322-323 *)
Fixpoint h_set_temperatures (ts : list R) (cs : list hchain) : HM (list hchain * option exn) :=
  match cs with
  | [] => hret ([], None)
  | c :: t =>
      match ts with
      | [] => hret (cs, Some EIndex)
      | T :: ts' =>
          c' <~ h_set_temperature T c ;;
          '(t', o) <~ h_set_temperatures ts' t ;; hret (c' :: t', o)
      end
  end.
Definition h_pt_on_initialize (frac tmax : R) : hlhook := fun cs =>
  match pt_temperatures (length cs) frac tmax with
  | Ok ts => h_set_temperatures ts cs
  | Raise e => hret (cs, Some e)
  | Undef => hdo ubeh
  end.
(** 333-339 *)
Definition h_pt_swap_with (E : henv) (i j : nat) (cs : list hchain)
    : HM (list hchain * option exn) :=
  match nth_error cs i, nth_error cs j with
  | Some c1, Some c2 =>
      let T1 := c_temp c1 in let T2 := c_temp c2 in
      r <~ h_like E (c_cur c1) (c_cur c2) T1 ;;
      match r with
      | inr e => hret (cs, Some e)
      | inl llr =>
          if Reqb T1 0 || Reqb T2 0 then hdo ubeh else
          let prob := emul (1 / T1 - 1 / T2) llr in
          u <~ hdo drawU ;;
          match py_log u with
          | Ok lu =>
              if egtb prob (Fin lu) then
                c1' <~ h_set_temperature T2 c1 ;;
                c2' <~ h_set_temperature T1 c2 ;;
                hret (set_nth (set_nth cs i c1') j c2', None)
              else hret (cs, None)
          | Raise e => hret (cs, Some e)
          | Undef => hdo ubeh
          end
      end
  | _, _ => hdo ubeh
  end.
Definition h_pt_swap_one (E : henv) : hlhook := fun cs =>
  p <~ hdo (try (choose_two (length cs))) ;;
  match p with
  | inr e => hret (cs, Some e)
  | inl (i, j) => h_pt_swap_with E i j cs
  end.
(** 331-339 *)
Fixpoint h_pt_swaps (E : henv) (k : nat) : hlhook := fun cs =>
  match k with
  | O => hret (cs, None)
  | S k' =>
      '(cs', o) <~ h_pt_swap_one E cs ;;
      match o with
      | Some e => hret (cs', Some e)
      | None => h_pt_swaps E k' cs'
      end
  end.
(** 341-364 *)
Fixpoint h_pt_loop (E : henv) (fuel : nat) (n_jobs : option Z) (swap_every n : nat) (sc : sched)
    : hlhook := fun cs =>
  match fuel with
  | O => fun h _ => (Starve, h)
  | S fuel' =>
      match cs with
      | [] => hret (cs, Some EIndex)
      | c0 :: _ =>
          let iteration := c_nprop_tot c0 in
          let n_it := Nat.min swap_every (n - iteration) in
          let burnin_it := Nat.min swap_every (sc_burnin sc - iteration) in
          '(cs', o) <~ h_advance_chain E h_nothing h_nothing (fun cs => h_pt_swaps E (length cs) cs)
                         n_jobs n_it (with_burnin burnin_it sc) cs ;;
          match o with
          | Some e => hret (cs', Some e)
          | None =>
              if (n <=? iteration)%nat then hret (cs', None)
              else h_pt_loop E fuel' n_jobs swap_every n sc cs'
          end
      end
  end.

(** ** SimulatedAnnealing, 367-430 *)
(** 393-395 *)
Fixpoint h_sa_on_initialize (T0 : R) (cs : list hchain) : HM (list hchain * option exn) :=
  match cs with
  | [] => hret ([], None)
  | c :: t =>
      c' <~ h_set_temperature T0 c ;;
      '(t', o) <~ h_sa_on_initialize T0 t ;; hret (c' :: t', o)
  end.
(** 397-404 *)
Definition h_sa_on_begin (T0 : R) (burnin : nat) (rate : R) : hhook := fun c =>
  let iteration := c_nprop_tot c in
  if (iteration <? burnin)%nat then
    c' <~ h_set_temperature (T0 * exp (- rate * INR iteration)) c ;; hret (c', None)
  else if (iteration =? burnin)%nat then
    c' <~ h_set_temperature 1 c ;; hret (c', None)
  else hret (c, None).
(** 412-430 *)
Definition h_sa_run (E : henv) (T0 : R) (n_jobs : option Z) (n : nat) (sc : sched) : hlhook := fun cs =>
  if (sc_burnin sc =? 0)%nat then
    h_advance_chain E (h_sa_on_begin T0 0 0) h_nothing h_nothing_l n_jobs n sc cs
  else
    match py_log T0 with
    | Raise e => hret (cs, Some e)
    | Undef => hdo ubeh
    | Ok l =>
        h_advance_chain E (h_sa_on_begin T0 (sc_burnin sc) (l / INR (sc_burnin sc))) h_nothing
          h_nothing_l n_jobs n sc cs
    end.

(** ** BaseBayesianInversion.run, _bayes_inversion.py:202-253 *)
Definition h_inversion_run (init run : hlhook) (parallel : bool) : hlhook := fun cs =>
  '(cs0, o) <~ init cs ;;
  match o with
  | Some e => hret (cs0, Some e)
  | None =>
      '(cs1, o1) <~ run cs0 ;;
      match o1 with
      | None => hret (cs1, None)
      | Some e => hret ((if parallel then cs0 else cs1), Some e)
      end
  end.

(** ** A new inversion *)
(** likelihood/_target.py:115-134 [initialize]: the State is changed in place. *)
Definition h_target_initialize (t : target) (a : loc) : HM unit :=
  if is_hier t then
    d <~ hdo (std <- uniform (t_std_min t) (t_std_max t) ;;
              cor <- (if t_corr t then c <- uniform (t_cor_min t) (t_cor_max t) ;; ret (Some c)
                      else ret None) ;;
              ret (mkNoise std cor)) ;;
    b <~ alloc (HNoise d) ;;
    h_st_set (t_name t) b a
  else hret tt.
Fixpoint h_targets_initialize (ts : list target) (a : loc) : HM unit :=
  match ts with
  | [] => hret tt
  | t :: ts' => _ <~ h_target_initialize t a ;; h_targets_initialize ts' a
  end.
(** _parameterization.py:55-66, _markov_chain.py:367-371.  The states of the spaces are
    allocated when complete. *)
Definition h_starting_state (spaces : list space) (ll : loglike) : HM loc :=
  dl <~ hmap (fun s => p <~ hdo (ModelSpace.initialize s) ;; a <~ h_new p ;; hret (sp_name s, a)) spaces ;;
  d <~ alloc (HDict dl) ;;
  a <~ h_mk_state d 1 [] ;;
  _ <~ h_targets_initialize (ll_targets ll) a ;;
  hret a.
Definition h_new_chain (a : loc) : hchain := mkChain a 1 [] [] 0 0 [] (SDict []) None [].
(** _bayes_inversion.py:395-427 *)
Fixpoint h_inversion_chains (spaces : list space) (ll : loglike) (n : nat) : HM (list hchain) :=
  match n with
  | O => hret []
  | S n' =>
      a <~ h_starting_state spaces ll ;;
      cs <~ h_inversion_chains spaces ll n' ;;
      hret (h_new_chain a :: cs)
  end.
