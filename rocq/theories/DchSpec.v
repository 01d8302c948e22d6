(** Specifications for derivatives of Cholesky factors. *)

From Coq Require Import Reals List Arith.
From Coquelicot Require Import Coquelicot.
From Verif Require Import GlsSpec.
Local Open Scope R_scope.

(** Entries below the diagonal vanish. *)
Definition upper (M : nat -> nat -> R) : Prop := forall i j, (j < i)%nat -> M i j = 0.

(** The product of two n x n matrices at (i,j), and the identity. *)
Definition prod (n : nat) (A B : nat -> nat -> R) (i j : nat) : R := sumf n (fun k => A i k * B k j).
Definition ident (i j : nat) : R := if (i =? j)%nat then 1 else 0.

(** M is an upper triangular factor with positive diagonal of the n x n matrix T: M^T M = T. *)
Definition chol_factor (n : nat) (T M : nat -> nat -> R) : Prop :=
  upper M /\ (forall i, (i < n)%nat -> 0 < M i i) /\
  forall i j, (i < n)%nat -> (j < n)%nat -> sumf n (fun k => M k i * M k j) = T i j.

(** Minv is the inverse of M. *)
Definition inverse (n : nat) (M Minv : nat -> nat -> R) : Prop :=
  forall i j, (i < n)%nat -> (j < n)%nat -> prod n M Minv i j = ident i j.

(** Entry-wise derivative of a matrix depending on t. *)
Definition mat_derive (n : nat) (M : R -> nat -> nat -> R) (t : R) (D : nat -> nat -> R) : Prop :=
  forall i j, (i < n)%nat -> (j < n)%nat -> is_derive (fun s => M s i j) t (D i j).

(** The penalised matrix H + sum_p exp(rho_p) S_p. *)
Definition penalised (npen : nat) (H : nat -> nat -> R) (SJ : nat -> nat -> nat -> R) (rho : nat -> R)
  : nat -> nat -> R :=
  fun i j => H i j + sumf npen (fun p => exp (rho p) * SJ p i j).

(** Near rho, along every coordinate p, the penalised matrix has the factor M and M the inverse Mi. *)
Definition factored (npen n : nat) (H : nat -> nat -> R) (SJ : nat -> nat -> nat -> R)
    (M Mi : (nat -> R) -> nat -> nat -> R) (rho : nat -> R) : Prop :=
  forall p, (p < npen)%nat ->
    locally (rho p) (fun t => chol_factor n (penalised npen H SJ (upd rho p t)) (M (upd rho p t))) /\
    locally (rho p) (fun t => inverse n (M (upd rho p t)) (Mi (upd rho p t))).

(** Coefficients with some of them held at zero: kept ones solve their rows of the system. *)
Definition kept_solution (npen n : nat) H SJ (keep : nat -> bool) (b : nat -> R)
    (beta : (nat -> R) -> nat -> R) : Prop :=
  forall r i, (i < n)%nat ->
    (keep i = true -> sumf n (fun j => penalised npen H SJ r i j * beta r j) = b i) /\
    (keep i = false -> beta r i = 0).

(** W inverts the kept block of N and is zero elsewhere ("padded with zeroes"). *)
Definition padded_inverse (n : nat) (keep : nat -> bool) (N W : nat -> nat -> R) : Prop :=
  (forall i j, (i < n)%nat -> (j < n)%nat -> keep i = false \/ keep j = false -> W i j = 0) /\
  (forall i j, (i < n)%nat -> (j < n)%nat -> keep i = true -> keep j = true -> prod n W N i j = ident i j).
