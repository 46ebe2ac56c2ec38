(** Independent specification of the statistics of ensembles: values of cells, counts,
    rearrangements; none of the model's definitions. *)
From Coq Require Import Permutation.
From Verif Require Import Base SpecUtils1D ModelUtils1D.
Local Open Scope R_scope.

(** [n] members of [l] have the property [P]. *)
Inductive counts {A} (P : A -> Prop) : list A -> nat -> Prop :=
| counts_nil : counts P [] 0
| counts_yes : forall a l n, P a -> counts P l n -> counts P (a :: l) (S n)
| counts_no : forall a l n, ~ P a -> counts P l n -> counts P (a :: l) n.

(** The tessellation with the given cells (positions of sites, or thicknesses of layers) and
    values has the value [x] at the position [q]. *)
Definition cell_value (ty : tess_input) (cells vals : list R) (q x : R) : Prop :=
  match ty with
  | Nuclei =>
      exists k a, nth_error vals k = Some x /\ nth_error cells k = Some a /\
        forall j b, nth_error cells j = Some b -> Rabs (a - q) <= Rabs (b - q)
  | Extents => exists k, in_layer cells q k /\ nth_error vals k = Some x
  end.
Definition tessellation (ty : tess_input) (cells vals : list R) : Prop :=
  cells <> [] /\ length vals = length cells /\
  match ty with Nuclei => sortedR cells | Extents => Forall (fun w => 0 <= w) cells end.
Definition queries (ty : tess_input) (qs : list R) : Prop :=
  match ty with Nuclei => True | Extents => sortedR qs /\ Forall (fun q => 0 <= q) qs end.

(** Squared Euclidean distance of two points with equally many coordinates. *)
Definition sqdist (a b : list R) : R := rsum (map (fun xy => (fst xy - snd xy) ^ 2) (combine a b)).
Definition cell_value_nd (sites : list (list R)) (vals : list R) (q : list R) (x : R) : Prop :=
  exists k a, nth_error vals k = Some x /\ nth_error sites k = Some a /\
    forall j b, nth_error sites j = Some b -> sqdist a q <= sqdist b q.

(** Mean, standard deviation, median and percentiles of a list of values. *)
Definition mean_of (l : list R) (m : R) : Prop := INR (length l) * m = rsum l.
Definition std_of (l : list R) (s : R) : Prop :=
  0 <= s /\ exists m, mean_of l m /\
  INR (length l) * s ^ 2 = rsum (map (fun x => (x - m) ^ 2) l).
(** [s]: the values in order. *)
Definition in_order (l s : list R) : Prop := Permutation l s /\ sortedR s.
Definition median_of (l : list R) (d : R) : Prop :=
  exists s, in_order l s /\ exists k,
    (length l = (2 * k + 1)%nat /\ nth_error s k = Some d) \/
    (length l = (2 * k + 2)%nat /\ exists a b, nth_error s k = Some a /\ nth_error s (S k) = Some b /\
       d = (a + b) / 2).
(** The smallest value is the 0th percentile, the largest one the 100th, the others are equally
    spaced, with linear interpolation between neighbours. *)
Definition percentile_of (l : list R) (p v : R) : Prop :=
  exists s, in_order l s /\ exists k t a,
    0 <= t < 1 /\ p / 100 * (INR (length l) - 1) = INR k + t /\ nth_error s k = Some a /\
    ((t = 0 /\ v = a) \/ exists b, nth_error s (S k) = Some b /\ v = (1 - t) * a + t * b).

(** Value [x] lies in bin [i] between the given edges: an edge belongs to the bin on its right,
    the last one to the last bin. *)
Definition in_bin (edges : list R) (i : nat) (x : R) : Prop :=
  exists a b, nth_error edges i = Some a /\ nth_error edges (S i) = Some b /\
    a <= x /\ (x < b \/ (x = b /\ S (S i) = length edges)).
(** Width of bin [i]. *)
Definition bin_width (edges : list R) (i : nat) (w : R) : Prop :=
  exists a b, nth_error edges i = Some a /\ nth_error edges (S i) = Some b /\ w = b - a.

(** [ub] is the largest position of a site, or the largest depth of the bottom of the layers. *)
Definition deepest (ty : tess_input) (cells : list (list R)) (ub : R) : Prop :=
  match ty with
  | Nuclei => (exists c, In c cells /\ In ub c) /\ forall c x, In c cells -> In x c -> x <= ub
  | Extents => (exists c, In c cells /\ ub = rsum c) /\ forall c, In c cells -> rsum c <= ub
  end.
