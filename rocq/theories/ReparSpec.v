(** What the similarity transform is compared with, and the contract of the eigenvalue decomposition. *)

From Coq Require Import Reals.
From mathcomp Require Import all_ssreflect all_algebra.
From Verif Require Import RealField RealMat.
Import GRing.Theory.
Set Implicit Arguments.
Unset Strict Implicit.
Unset Printing Implicit Defensive.
Local Open Scope ring_scope.

Definition symmetric (q : nat) (A : nat -> nat -> R) := forall i j, (i < q)%N -> (j < q)%N -> A i j = A j i.

(** The columns of a square matrix are orthonormal. *)
Definition orthonormal (q : nat) (U : nat -> nat -> R) :=
  forall i j, (i < q)%N -> (j < q)%N -> \sum_(a < q) U a i * U a j = (if i == j then 1 else 0).

(** Eigenvalue decomposition without rounding: A = U diag(D) U' with orthonormal U and decreasing D. *)
Definition exact_eigh (eigh : nat -> (nat -> nat -> R) -> (nat -> R) * (nat -> nat -> R)) :=
  forall q A, symmetric q A ->
  [/\ orthonormal q (eigh q A).2,
      forall i j, (i < q)%N -> (j < q)%N -> A i j = \sum_(k < q) (eigh q A).2 i k * (eigh q A).1 k * (eigh q A).2 j k &
      forall i j, (i <= j)%N -> (j < q)%N -> Rle ((eigh q A).1 j) ((eigh q A).1 i)].

(** The quadratic form of a matrix; penalties are symmetric and never negative, and not zero. *)
Definition form (q : nat) (A : nat -> nat -> R) (x : nat -> R) : R := \sum_(i < q) \sum_(j < q) x i * A i j * x j.
Definition penalty (q : nat) (A : nat -> nat -> R) :=
  [/\ symmetric q A, forall x, Rle 0 (form q A x) & exists i j, [/\ (i < q)%N, (j < q)%N & A i j <> 0]].

(** The sum of the squared entries. *)
Definition size2 (q : nat) (A : nat -> nat -> R) : R := \sum_(i < q) \sum_(j < q) A i j * A i j.

(** Penalty [k] is the largest of the weighted penalties, and penalises everything that is penalised at all. *)
Definition dominant (q npen : nat) (S : nat -> nat -> nat -> R) (lam : nat -> R) (k : nat) :=
  [/\ (k < npen)%N,
      forall j, (j < npen)%N -> Rle (size2 q (fun a b => lam j * S j a b)) (size2 q (fun a b => lam k * S k a b)) &
      forall x, form q (S k) x = 0 -> forall j, (j < npen)%N -> form q (S j) x = 0].

(** [B] is the matrix [A] in the basis given by the columns of [Q]: B = Q' A Q. *)
Definition in_basis (q : nat) (Q A B : nat -> nat -> R) :=
  forall i j, (i < q)%N -> (j < q)%N -> B i j = \sum_(a < q) \sum_(b < q) Q a i * A a b * Q b j.

(** The matrix with [r] rows and columns in the upper left corner of a larger one that is zero elsewhere. *)
Definition cornered (r : nat) (A : nat -> nat -> R) : nat -> nat -> R := fun i j => if (i < r)%N && (j < r)%N then A i j else 0.

(** A transform of the penalties of a term: an orthonormal basis, in which the penalties act on the first [r]
    coefficients only, their weighted sum, and that sum penalises all of these [r] coefficients. *)
Definition separates (dim npen : nat) (S : nat -> nat -> nat -> R) (lam : nat -> R)
    (r : nat) (total : nat -> nat -> R) (S' : nat -> nat -> nat -> R) (Q : nat -> nat -> R) :=
  [/\ (r <= dim)%N, orthonormal dim Q,
      forall k, (k < npen)%N -> in_basis dim Q (S k) (cornered r (S' k)),
      forall i j, (i < r)%N -> (j < r)%N -> total i j = \sum_(k < npen) lam k * S' k i j &
      forall x, (exists i, (i < r)%N /\ x i <> 0) -> Rlt 0 (form r total x)].
