(** Independent specification of the 1-D helpers: only lists, positions and distances;
    none of the model's loops. *)
From Verif Require Import Base.
Local Open Scope R_scope.

(** [x] is in non-decreasing order. *)
Definition sortedR (x : list R) : Prop :=
  forall i j a b, (i <= j)%nat ->
    nth_error x i = Some a -> nth_error x j = Some b -> a <= b.

Definition strictly_sortedR (x : list R) : Prop :=
  forall i j a b, (i < j)%nat ->
    nth_error x i = Some a -> nth_error x j = Some b -> a < b.

(** Site [k] of [x] is at minimal distance from [q]; among equally distant sites it is a
    right-most one. *)
Definition nearest_site (x : list R) (q : R) (k : nat) : Prop :=
  exists a, nth_error x k = Some a /\
    forall j b, nth_error x j = Some b ->
      Rabs (a - q) <= Rabs (b - q) /\ (Rabs (b - q) = Rabs (a - q) -> b <= a).

(** Position of the [i]-th cell boundary of the sites [s]: [lb] on the left, [ub] on the
    right, midpoints in between; None where the domain is unbounded. *)
Definition boundary (s : list R) (lb ub : option R) (i : nat) : option R :=
  match i with
  | O => lb
  | S j =>
      match nth_error s j, nth_error s i with
      | Some a, Some b => Some ((a + b) / 2)
      | _, _ => ub
      end
  end.

(** Extent of cell [i]. *)
Definition cell_extent (s : list R) (lb ub : option R) (fill : ext) (i : nat) : ext :=
  match boundary s lb ub i, boundary s lb ub (S i) with
  | Some a, Some b => Fin (b - a)
  | _, _ => fill
  end.

(** Layer [k] of a stack with the given thicknesses starting at depth 0 contains depth
    [q]; the last layer is a half-space. *)
Definition in_layer (thick : list R) (q : R) (k : nat) : Prop :=
  (k < length thick)%nat /\
  rsum (firstn k thick) <= q /\
  ((S k < length thick)%nat -> q < rsum (firstn (S k) thick)).

(** Insertion and deletion at an index. *)
Definition insert_at {A} (i : nat) (a : A) (l : list A) : list A :=
  firstn i l ++ a :: skipn i l.
Definition delete_at {A} (i : nat) (l : list A) : list A :=
  firstn i l ++ skipn (S i) l.

(** Entry of a matrix given by rows (0 outside). *)
Definition entry (m : list (list R)) (i j : nat) : R := nth j (nth i m []) 0.
Definition is_matrix (n : nat) (m : list (list R)) : Prop :=
  length m = n /\ Forall (fun row => length row = n) m.

(** Covariance of a stationary AR(1) sequence. *)
Definition dist (i j : nat) : nat := (i - j) + (j - i).
Definition ar1_cov (sigma r : R) (i j : nat) : R := sigma ^ 2 * r ^ dist i j.

(** [sum f n] = f 0 + ... + f (n-1) *)
Fixpoint sum (f : nat -> R) (n : nat) : R :=
  match n with O => 0 | S k => sum f k + f k end.
