(** Specification of the likelihood: determinants, inverses and the density of multivariate
    normal residuals.  Only the data types of the model are used. *)
From Verif Require Import Base ModelState ModelLikelihood SpecUtils1D.
Local Open Scope R_scope.

(** * Matrices, given by their entries *)
(** The determinant, by cofactors along the first row. *)
Definition minor (a : nat -> nat -> R) (j : nat) : nat -> nat -> R :=
  fun i k => a (S i) (if (k <? j)%nat then k else S k).
Fixpoint det (n : nat) (a : nat -> nat -> R) : R :=
  match n with
  | O => 1
  | S m => sum (fun j => (-1) ^ j * a O j * det m (minor a j)) (S m)
  end.
Definition inverse (n : nat) (c p : nat -> nat -> R) : Prop := forall i k, (i < n)%nat -> (k < n)%nat ->
  sum (fun j => c i j * p j k) n = (if (i =? k)%nat then 1 else 0) /\
  sum (fun j => p i j * c j k) n = (if (i =? k)%nat then 1 else 0).
(** v^T P v *)
Definition quad (n : nat) (p : nat -> nat -> R) (v : nat -> R) : R :=
  sum (fun i => v i * sum (fun j => p i j * v j) n) n.
(** The log density of N(0, C) at [v]; [p] is the inverse of [c]. *)
Definition normal_logpdf (n : nat) (c p : nat -> nat -> R) (v : nat -> R) : R :=
  - (INR n / 2) * ln (2 * PI) - / 2 * ln (det n c) - / 2 * quad n p v.

(** * Targets *)
(** The noise of a target with unknown noise, in a state. *)
Definition has_noise (t : target) (s : state) (d : noise) : Prop :=
  dget (t_name t) (st_vals s) = Some (ENoise d).
(** Standard deviation and correlation (none is correlation 0): C_ij = std^2 r^|i-j|. *)
Definition corr_of (d : noise) : R := match dn_corr d with Some r => r | None => 0 end.
Definition noise_cov (d : noise) : nat -> nat -> R := ar1_cov (dn_std d) (corr_of d).
(** The inverse covariance given by the user for known noise. *)
Definition given_precision (c : covinv) (n : nat) (p : nat -> nat -> R) : Prop :=
  match c with
  | CScalar x => forall i j, p i j = if (i =? j)%nat then x else 0
  | CVec w => length w = n /\ forall i j, p i j = if (i =? j)%nat then nth i w 0 else 0
  | CMat m => is_matrix n m /\ forall i j, p i j = entry m i j
  end.
(** [c] is the covariance of the target in this state, [p] its inverse.  With known noise
    [K t] is the covariance. *)
Definition covariance (K : target -> nat -> nat -> R) (t : target) (s : state) (c p : nat -> nat -> R) : Prop :=
  inverse (length (t_dobs t)) c p /\
  match t_cov t with
  | Some v => c = K t /\ given_precision v (length (t_dobs t)) p
  | None => exists d, has_noise t s d /\ c = noise_cov d
  end.
(** The prediction of a target recorded in a state. *)
Definition predicted (t : target) (s : state) (d : list R) : Prop :=
  dget (dpred_key t) (st_cache s) = Some (CPred d).
(** The log density of the residuals of all targets in a state, the targets being
    independent. *)
Inductive log_density (K : target -> nat -> nat -> R) (s : state) : list target -> R -> Prop :=
| ld_nil : log_density K s [] 0
| ld_cons t ts d c p x : predicted t s d -> covariance K t s c p -> log_density K s ts x ->
    log_density K s (t :: ts)
      (normal_logpdf (length (t_dobs t)) c p (fun i => nth i d 0 - nth i (t_dobs t) 0) + x).
(** Known noise: the array given is the inverse of a covariance. *)
Definition known_ok (K : target -> nat -> nat -> R) (t : target) : Prop :=
  match t_cov t with
  | Some v => exists p, given_precision v (length (t_dobs t)) p /\ inverse (length (t_dobs t)) (K t) p
  | None => True
  end.
