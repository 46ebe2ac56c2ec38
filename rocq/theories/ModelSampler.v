(** Model of /repo/src/bayesbay/samplers/_samplers.py: Sampler, VanillaSampler,
    ParallelTempering, SimulatedAnnealing.

    A sampler works on a list of chains.  A method that raises leaves the chains in the
    condition they had at that moment, hence the results [list chain * option exn].  All
    chains of an inversion share perturbations and likelihood, here the environment [E]. *)
From Verif Require Import Base ModelChain.
Local Open Scope R_scope.

Section Sampler.
Variables St V : Type.
Variable E : env St V.
Let chain := chain St V.
Let hook := hook St V.

(** A callback on the list of chains (on_initialize, on_end_advance_chain). *)
Definition lhook := list chain -> M (list chain * option exn).

(** A sampler instance (12-20): the four methods that subclasses define and the four lists
    of registered functions. *)
Record sampler := {
  sm_on_initialize : lhook;
  sm_on_begin : hook;
  sm_on_end : hook;
  sm_on_end_advance : lhook;
  sm_x_initialize : list lhook;
  sm_x_begin : list hook;
  sm_x_end : list hook;
  sm_x_end_advance : list lhook
}.

(** for func in extras: func(self, x), stopping at an exception. *)
Fixpoint call_all {X} (fs : list (X -> M (X * option exn))) (x : X) : M (X * option exn) :=
  match fs with
  | [] => ret (x, None)
  | f :: t =>
      '(x', o) <- f x ;;
      match o with
      | Some e => ret (x', Some e)
      | None => call_all t x'
      end
  end.

(** _samplers.py:22-33 *)
Definition initialize (s : sampler) : lhook :=
  call_all (sm_on_initialize s :: sm_x_initialize s).
(** _samplers.py:35-46 *)
Definition begin_iteration (s : sampler) : hook := call_all (sm_on_begin s :: sm_x_begin s).
(** _samplers.py:48-59 *)
Definition end_iteration (s : sampler) : hook := call_all (sm_on_end s :: sm_x_end s).
(** _samplers.py:61-67 (no caller in the package) *)
Definition end_advance_chain (s : sampler) : lhook :=
  call_all (sm_on_end_advance s :: sm_x_end_advance s).

(** [func(chain) for chain in self.chains] (236): chains are objects changed in place, so
    those before a failing one stay advanced and those after it untouched. *)
Fixpoint each_chain (f : hook) (cs : list chain) : M (list chain * option exn) :=
  match cs with
  | [] => ret ([], None)
  | c :: t =>
      '(c', o) <- f c ;;
      match o with
      | Some e => ret (c' :: t, Some e)
      | None => '(t', o') <- each_chain f t ;; ret (c' :: t', o')
      end
  end.

(** _samplers.py:190-238.  [n_jobs] is parallel_config["n_jobs"] (None: key missing, which
    raises KeyError).  Parallel workers get copies of the chains and send back the advanced
    ones; if a worker raises, joblib raises and self._chains keeps the originals.  The
    workers' random numbers are taken from the trace one worker after the other
    (simplification: which draws a worker gets is arbitrary anyway, and theorem C57 shows
    that the interleaving is irrelevant).  on_end_advance_chain is called directly, not
    end_advance_chain. *)
Definition advance_chain (s : sampler) (n_jobs : option Z) (n : nat) (sc : sched) : lhook :=
  fun cs =>
  match n_jobs with
  | None => ret (cs, Some EKey)
  | Some jobs =>
      let func := advance E n sc (Some (begin_iteration s)) (Some (end_iteration s)) in
      '(cs', o) <- each_chain func cs ;;
      match o with
      | Some e => ret ((if (1 <? jobs)%Z then cs else cs'), Some e)
      | None => sm_on_end_advance s cs'
      end
  end.

Definition nothing : hook := fun c => ret (c, None).
Definition nothing_l : lhook := fun cs => ret (cs, None).

(** ** VanillaSampler, 241-274 *)
Definition vanilla (xi : list lhook) (xb xe : list hook) (xa : list lhook) : sampler :=
  {| sm_on_initialize := nothing_l; sm_on_begin := nothing; sm_on_end := nothing;
     sm_on_end_advance := nothing_l; sm_x_initialize := xi; sm_x_begin := xb;
     sm_x_end := xe; sm_x_end_advance := xa |}.
Definition vanilla_run (s : sampler) (n_jobs : option Z) (n : nat) (sc : sched) : lhook :=
  advance_chain s n_jobs n sc.

(** ** ParallelTempering, 277-364 *)

(** int(x) for x >= 0 *)
Definition int_part (x : R) : nat := Z.to_nat (Int_part x).
(** np.geomspace(1, stop, num): [num] values from 1 to [stop]; one value is [1].  stop = 0
    raises ValueError; negative stops are not modelled (Undef). *)
Definition geomspace (stop : R) (num : nat) : res (list R) :=
  if Reqb stop 0 then Raise EValue
  else if Rltb stop 0 then Undef
  else Ok (map (fun j => Rpower stop (INR j / INR (num - 1))) (seq 0 num)).
(** _samplers.py:313-321: the temperatures; "size" is unbound when too few chains are left. *)
Definition pt_temperatures (n : nat) (frac tmax : R) : res (list R) :=
  let ones := repeat 1 (Nat.max 2 (int_part (INR n * frac)) - 1) in
  if (length ones <? n)%nat then
    g <-? geomspace tmax (n - length ones) ;; Ok (ones ++ g)
  else Raise EUnbound.
(** _samplers.py:322-323 *)
Fixpoint set_temperatures (ts : list R) (cs : list chain) : list chain * option exn :=
  match cs with
  | [] => ([], None)
  | c :: t =>
      match ts with
      | [] => (cs, Some EIndex)
      | T :: ts' => let '(t', o) := set_temperatures ts' t in (set_temperature E T c :: t', o)
      end
  end.
Definition pt_on_initialize (frac tmax : R) : lhook := fun cs =>
  match pt_temperatures (length cs) frac tmax with
  | Ok ts => ret (set_temperatures ts cs)
  | Raise e => ret (cs, Some e)
  | Undef => ubeh
  end.

(** np.random.choice(self.chains, 2, replace=False): two different positions. *)
Definition choose_two (n : nat) : M (nat * nat) := fun tr =>
  if (n <? 2)%nat then Err EValue tr else
  match tr with
  | DPair i j :: t =>
      if (i <? n)%nat && (j <? n)%nat && negb (i =? j)%nat then Ret (i, j) t else Starve
  | _ => Starve
  end.

(** _samplers.py:333-339: one proposed swap.  A temperature zero is outside the model (they
    come from geomspace, which gives none). *)
Definition pt_swap_with (i j : nat) (cs : list chain) : M (list chain * option exn) :=
  match nth_error cs i, nth_error cs j with
  | Some c1, Some c2 =>
      let T1 := c_temp c1 in let T2 := c_temp c2 in
      '(s1, s2, r) <- e_like E (c_cur c1) (c_cur c2) T1 ;;
      let c1' := set_cur s1 c1 in let c2' := set_cur s2 c2 in
      let cs1 := set_nth (set_nth cs i c1') j c2' in
      match r with
      | inr e => ret (cs1, Some e)
      | inl llr =>
          if Reqb T1 0 || Reqb T2 0 then ubeh else
          let prob := emul (1 / T1 - 1 / T2) llr in
          u <- drawU ;;
          match py_log u with
          | Ok lu =>
              if egtb prob (Fin lu) then
                ret (set_nth (set_nth cs1 i (set_temperature E T2 c1'))
                       j (set_temperature E T1 c2'), None)
              else ret (cs1, None)
          | Raise e => ret (cs1, Some e)
          | Undef => ubeh
          end
      end
  | _, _ => ubeh
  end.
Definition pt_swap_one : lhook := fun cs =>
  p <- try (choose_two (length cs)) ;;
  match p with
  | inr e => ret (cs, Some e)
  | inl (i, j) => pt_swap_with i j cs
  end.
(** _samplers.py:331-339 *)
Fixpoint pt_swaps (k : nat) : lhook := fun cs =>
  match k with
  | O => ret (cs, None)
  | S k' =>
      '(cs', o) <- pt_swap_one cs ;;
      match o with
      | Some e => ret (cs', Some e)
      | None => pt_swaps k' cs'
      end
  end.
Definition pt_on_end_advance : lhook := fun cs => pt_swaps (length cs) cs.

Definition parallel_tempering (frac tmax : R)
    (xi : list lhook) (xb xe : list hook) (xa : list lhook) : sampler :=
  {| sm_on_initialize := pt_on_initialize frac tmax; sm_on_begin := nothing;
     sm_on_end := nothing; sm_on_end_advance := pt_on_end_advance; sm_x_initialize := xi;
     sm_x_begin := xb; sm_x_end := xe; sm_x_end_advance := xa |}.

Definition with_burnin (b : nat) (sc : sched) : sched :=
  {| sc_burnin := b; sc_every := sc_every sc; sc_verbose := sc_verbose sc;
     sc_print_every := sc_print_every sc |}.

(** _samplers.py:341-364: the loop.  Numbers of iterations are natural numbers, for which
    truncated subtraction agrees with the use of the (possibly negative) differences in
    range() and max(0, ..).  [fuel] bounds the number of rounds of "while True"; running out
    of it is the outcome Starve, no result. *)
Fixpoint pt_loop (fuel : nat) (s : sampler) (n_jobs : option Z) (swap_every n : nat)
    (sc : sched) : lhook := fun cs =>
  match fuel with
  | O => fun _ => Starve
  | S fuel' =>
      match cs with
      | [] => ret (cs, Some EIndex)
      | c0 :: _ =>
          let iteration := c_nprop_tot c0 in
          let n_it := Nat.min swap_every (n - iteration) in
          let burnin_it := Nat.min swap_every (sc_burnin sc - iteration) in
          '(cs', o) <- advance_chain s n_jobs n_it (with_burnin burnin_it sc) cs ;;
          match o with
          | Some e => ret (cs', Some e)
          | None =>
              if (n <=? iteration)%nat then ret (cs', None)
              else pt_loop fuel' s n_jobs swap_every n sc cs'
          end
      end
  end.

(** ** SimulatedAnnealing, 367-430 *)
(** 393-395 *)
Definition sa_on_initialize (T0 : R) : lhook := fun cs =>
  ret (map (set_temperature E T0) cs, None).
(** 397-404; [rate] is self.cooling_rate, set by run when burnin is not 0. *)
Definition sa_on_begin (T0 : R) (burnin : nat) (rate : R) : hook := fun c =>
  let iteration := c_nprop_tot c in
  if (iteration <? burnin)%nat then
    ret (set_temperature E (T0 * exp (- rate * INR iteration)) c, None)
  else if (iteration =? burnin)%nat then ret (set_temperature E 1 c, None)
  else ret (c, None).
Definition simulated_annealing (T0 : R) (burnin : nat) (rate : R)
    (xi : list lhook) (xb xe : list hook) (xa : list lhook) : sampler :=
  {| sm_on_initialize := sa_on_initialize T0; sm_on_begin := sa_on_begin T0 burnin rate;
     sm_on_end := nothing; sm_on_end_advance := nothing_l; sm_x_initialize := xi;
     sm_x_begin := xb; sm_x_end := xe; sm_x_end_advance := xa |}.
(** 412-430: cooling_rate = math.log(T0) / burnin when burnin is not 0 (an earlier value
    would be kept but never used). *)
Definition sa_run (T0 : R) (xi : list lhook) (xb xe : list hook) (xa : list lhook)
    (n_jobs : option Z) (n : nat) (sc : sched) : lhook := fun cs =>
  if (sc_burnin sc =? 0)%nat then
    advance_chain (simulated_annealing T0 0 0 xi xb xe xa) n_jobs n sc cs
  else
    match py_log T0 with
    | Raise e => ret (cs, Some e)
    | Undef => ubeh
    | Ok l =>
        advance_chain
          (simulated_annealing T0 (sc_burnin sc) (l / INR (sc_burnin sc)) xi xb xe xa)
          n_jobs n sc cs
    end.

(** ** BaseBayesianInversion.run, _bayes_inversion.py:202-253
    [run] is the method run of the sampler; the inversion's chains are replaced by the
    result when it returns.  In parallel mode with an exception the inversion keeps the
    chain objects it had, changed in place only by initialize; in sequential mode these
    objects are the ones advanced. *)
Definition inversion_run (s : sampler) (run : lhook) (parallel : bool) : lhook := fun cs =>
  '(cs0, o) <- initialize s cs ;;
  match o with
  | Some e => ret (cs0, Some e)
  | None =>
      '(cs1, o1) <- run cs0 ;;
      match o1 with
      | None => ret (cs1, None)
      | Some e => ret ((if parallel then cs0 else cs1), Some e)
      end
  end.

End Sampler.

Arguments sm_on_initialize {St V}. Arguments sm_on_begin {St V}. Arguments sm_on_end {St V}.
Arguments sm_on_end_advance {St V}. Arguments sm_x_initialize {St V}. Arguments sm_x_begin {St V}.
Arguments sm_x_end {St V}. Arguments sm_x_end_advance {St V}.
Arguments initialize {St V}. Arguments begin_iteration {St V}. Arguments end_iteration {St V}.
Arguments end_advance_chain {St V}. Arguments each_chain {St V}. Arguments advance_chain {St V}.
Arguments nothing {St V}. Arguments nothing_l {St V}. Arguments vanilla {St V}.
Arguments vanilla_run {St V}. Arguments set_temperatures {St V}. Arguments pt_on_initialize {St V}.
Arguments pt_swap_with {St V}. Arguments pt_swap_one {St V}. Arguments pt_swaps {St V}.
Arguments pt_on_end_advance {St V}. Arguments parallel_tempering {St V}. Arguments pt_loop {St V}.
Arguments sa_on_initialize {St V}. Arguments sa_on_begin {St V}. Arguments simulated_annealing {St V}.
Arguments sa_run {St V}. Arguments inversion_run {St V}.
