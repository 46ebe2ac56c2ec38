(** Common vocabulary of the models: exceptions, outcomes, the trace monad,
    extended numbers, ordered dictionaries.

    These are modelling devices, not transcriptions; where they stand for a
    Python/NumPy primitive the comment says which one. *)
From Coq Require Export String Ascii ZArith Reals Lra Lia Bool Arith List.
Export ListNotations.

(** Exception classes that the modelled code can raise.  [EUser] is
    [UserFunctionException], [EForward] is [ForwardException], [EDomain] is
    [OutOfDomainException] (/repo/src/bayesbay/exceptions/_exceptions.py);
    [EOther n] is any other exception class raised by user code. *)
Inductive exn :=
| EValue | EType | EIndex | EKey | EZeroDiv | EAttr | EUnbound | EAssert
| ENotImpl | ERuntime | EForward | EUser | EDomain | EOther (n : nat).

Definition exn_eq_dec (a b : exn) : {a = b} + {a <> b}.
Proof. decide equality. apply Nat.eq_dec. Defined.

Definition exn_eqb (a b : exn) : bool := if exn_eq_dec a b then true else false.

(** Result of deterministic code: a value, an exception, or undefined behaviour
    (unchecked out-of-range access or uninitialised C variable in the Cython
    code). *)
Inductive res (A : Type) :=
| Ok (a : A)
| Raise (e : exn)
| Undef.
Arguments Ok {A} a.
Arguments Raise {A} e.
Arguments Undef {A}.

Definition rbind {A B} (m : res A) (f : A -> res B) : res B :=
  match m with
  | Ok a => f a
  | Raise e => Raise e
  | Undef => Undef
  end.

Notation "x <-? m ;; k" := (rbind m (fun x => k))
  (at level 61, m at next level, right associativity).
Notation "' pat <-? m ;; k" := (rbind m (fun x => match x with pat => k end))
  (at level 61, pat pattern, m at next level, right associativity).

Fixpoint rmap {A B} (f : A -> res B) (l : list A) : res (list B) :=
  match l with
  | [] => Ok []
  | x :: t => y <-? f x ;; ys <-? rmap f t ;; Ok (y :: ys)
  end.

(** Unchecked array read and write of the Cython code. *)
Definition rd {A} (l : list A) (i : nat) : res A :=
  match nth_error l i with Some x => Ok x | None => Undef end.

Definition set_nth {A} (l : list A) (i : nat) (x : A) : list A :=
  firstn i l ++ x :: skipn (S i) l.

Definition upd {A} (l : list A) (i : nat) (x : A) : res (list A) :=
  if (i <? length l)%nat then Ok (set_nth l i x) else Undef.

(** Checked Python/NumPy indexing with a non-negative index. *)
Definition idx {A} (l : list A) (i : nat) : res A :=
  match nth_error l i with Some x => Ok x | None => Raise EIndex end.

(** Values returned by the random generators, in the order of the calls.
    - [DU u]: a uniform deviate in [0,1): random.random(), and the deviate behind
      random.uniform(a,b) = a + (b-a)*u, np.random.uniform, random.choices;
    - [DInt k]: random.randint;
    - [DZ z]: a standard normal deviate, normalvariate(mu,s) = mu + s*z,
      gauss, np.random.normal;
    - [DLap z]: a standard Laplace deviate, np.random.laplace(m,b) = m + b*z;
    - [DPair i j]: np.random.choice(list, 2, replace=False);
    - [DVal x]: an arbitrary number: result of a user-supplied sampling function or
      uninitialised memory of np.empty. *)
Inductive draw :=
| DU (u : R) | DInt (k : nat) | DZ (z : R) | DLap (z : R)
| DPair (i j : nat) | DVal (x : R).

Definition trace := list draw.

(** Outcome of code that consumes random draws.  [Starve]: the trace is exhausted or
    holds a value that the generator could not have produced at this point. *)
Inductive out (A : Type) :=
| Ret (a : A) (tr : trace)
| Err (e : exn) (tr : trace)
| UBeh
| Starve.
Arguments Ret {A} a tr.
Arguments Err {A} e tr.
Arguments UBeh {A}.
Arguments Starve {A}.

Definition M (A : Type) := trace -> out A.

Definition ret {A} (a : A) : M A := fun tr => Ret a tr.
Definition err {A} (e : exn) : M A := fun tr => Err e tr.
Definition ubeh {A} : M A := fun _ => UBeh.
Definition bind {A B} (m : M A) (f : A -> M B) : M B := fun tr =>
  match m tr with
  | Ret a tr' => f a tr'
  | Err e tr' => Err e tr'
  | UBeh => UBeh
  | Starve => Starve
  end.
Definition lift {A} (r : res A) : M A :=
  match r with Ok a => ret a | Raise e => err e | Undef => ubeh end.

(** try/except: the exception becomes a value. *)
Definition try {A} (m : M A) : M (A + exn) := fun tr =>
  match m tr with
  | Ret a tr' => Ret (inl a) tr'
  | Err e tr' => Ret (inr e) tr'
  | UBeh => UBeh
  | Starve => Starve
  end.

Notation "x <- m ;; k" := (bind m (fun x => k))
  (at level 61, m at next level, right associativity).
Notation "' pat <- m ;; k" := (bind m (fun x => match x with pat => k end))
  (at level 61, pat pattern, m at next level, right associativity).

Fixpoint repeatM {A} (n : nat) (m : M A) : M (list A) :=
  match n with
  | O => ret []
  | S k => x <- m ;; xs <- repeatM k m ;; ret (x :: xs)
  end.

Fixpoint mapM {A B} (f : A -> M B) (l : list A) : M (list B) :=
  match l with
  | [] => ret []
  | x :: t => y <- f x ;; ys <- mapM f t ;; ret (y :: ys)
  end.

(** Boolean comparisons of reals (Python's < and <= on floats that are numbers). *)
Definition Rleb (x y : R) : bool := if Rle_dec x y then true else false.
Definition Rltb (x y : R) : bool := if Rlt_dec x y then true else false.
Definition Reqb (x y : R) : bool := if Req_EM_T x y then true else false.

(** Draws. *)
Definition drawU : M R := fun tr =>
  match tr with
  | DU u :: tr' => if Rleb 0 u && Rltb u 1 then Ret u tr' else Starve
  | _ => Starve
  end.
(** random.randint(a, b): raises ValueError on an empty range. *)
Definition randint (a b : nat) : M nat := fun tr =>
  if (b <? a)%nat then Err EValue tr else
  match tr with
  | DInt k :: tr' => if (a <=? k)%nat && (k <=? b)%nat then Ret k tr' else Starve
  | _ => Starve
  end.
Definition drawZ : M R := fun tr =>
  match tr with DZ z :: tr' => Ret z tr' | _ => Starve end.
Definition drawLap : M R := fun tr =>
  match tr with DLap z :: tr' => Ret z tr' | _ => Starve end.
Definition drawVal : M R := fun tr =>
  match tr with DVal x :: tr' => Ret x tr' | _ => Starve end.
(** random.uniform(a,b) / np.random.uniform(a,b). *)
Definition uniform (a b : R) : M R := (u <- drawU ;; ret (a + (b - a) * u)%R).
(** random.normalvariate(mu,sigma) / random.gauss / np.random.normal. *)
Definition normal (mu sigma : R) : M R := (z <- drawZ ;; ret (mu + z * sigma)%R).
Definition laplace (mu b : R) : M R := (z <- drawLap ;; ret (mu + b * z)%R).

(** Extended numbers: Python floats seen as reals plus infinities and NaN. *)
Inductive ext := Fin (r : R) | PInf | MInf | NaN.

Definition eadd (a b : ext) : ext :=
  match a, b with
  | NaN, _ => NaN
  | _, NaN => NaN
  | Fin x, Fin y => Fin (x + y)
  | Fin _, i => i
  | i, Fin _ => i
  | PInf, PInf => PInf
  | MInf, MInf => MInf
  | _, _ => NaN
  end.

Definition eneg (a : ext) : ext :=
  match a with Fin x => Fin (- x) | PInf => MInf | MInf => PInf | NaN => NaN end.

Definition esub (a b : ext) : ext := eadd a (eneg b).

(** Division of a float by a non-zero finite number. *)
Definition ediv (a : ext) (t : R) : ext :=
  match a with
  | Fin x => Fin (x / t)
  | NaN => NaN
  | PInf => if Rltb 0 t then PInf else MInf
  | MInf => if Rltb 0 t then MInf else PInf
  end.

(** Multiplication of a float by a finite number (0 * inf = NaN). *)
Definition emul (t : R) (a : ext) : ext :=
  match a with
  | Fin x => Fin (t * x)
  | NaN => NaN
  | PInf => if Rltb 0 t then PInf else if Rltb t 0 then MInf else NaN
  | MInf => if Rltb 0 t then MInf else if Rltb t 0 then PInf else NaN
  end.

(** [a > b]: false when one side is NaN. *)
Definition egtb (a b : ext) : bool :=
  match a, b with
  | NaN, _ => false
  | _, NaN => false
  | Fin x, Fin y => Rltb y x
  | PInf, PInf => false
  | PInf, _ => true
  | _, PInf => false
  | MInf, _ => false
  | _, MInf => true
  end.

(** math.isinf *)
Definition eisinf (a : ext) : bool :=
  match a with PInf | MInf => true | _ => false end.

(** math.log: ValueError unless the argument is positive. *)
Definition py_log (x : R) : res R :=
  if Rltb 0 x then Ok (ln x) else Raise EValue.

(** np.log on a scalar. *)
Definition np_log (x : R) : ext :=
  if Rltb 0 x then Fin (ln x) else if Reqb x 0 then MInf else NaN.

Definition rsum (l : list R) : R := fold_right Rplus 0%R l.
Definition nsum (l : list nat) : nat := fold_right Nat.add 0%nat l.

(** Insertion-ordered dictionaries with string keys (Python dict). *)
Definition dict (A : Type) := list (string * A).

Fixpoint dget {A} (k : string) (d : dict A) : option A :=
  match d with
  | [] => None
  | (k', v) :: t => if String.eqb k k' then Some v else dget k t
  end.

(** d[k] = v: replaces in place, or appends at the end. *)
Fixpoint dset {A} (k : string) (v : A) (d : dict A) : dict A :=
  match d with
  | [] => [(k, v)]
  | (k', v') :: t => if String.eqb k k' then (k, v) :: t else (k', v') :: dset k v t
  end.

Definition dmem {A} (k : string) (d : dict A) : bool :=
  match dget k d with Some _ => true | None => false end.

(** d.update(d') *)
Definition dupdate {A} (d d' : dict A) : dict A :=
  fold_left (fun acc kv => dset (fst kv) (snd kv) acc) d' d.

Definition dkeys {A} (d : dict A) : list string := map fst d.

(** [sub in s] on strings. *)
Fixpoint contains (sub s : string) : bool :=
  if String.prefix sub s then true else
  match s with
  | EmptyString => false
  | String _ t => contains sub t
  end.
