(** What the covariance matrix of the log smoothing parameters is compared with. *)

From Coq Require Import Reals.
From Coquelicot Require Import Coquelicot.
From mathcomp Require Import all_ssreflect all_algebra perm.
From Verif Require Import RealField RealMat RealEigen RemlModel RemlSpec.
Import GRing.Theory.
Set Implicit Arguments.
Unset Strict Implicit.
Unset Printing Implicit Defensive.
Local Open Scope ring_scope.

(** The partial derivative of [f] with respect to argument [j] of group [g]. *)
Definition partial (f : (nat -> nat -> R) -> R) (g j : nat) (r : nat -> nat -> R) : R :=
  Derive (fun t => f (with_param r g j t)) (r g j).

(** [d] is the second partial derivative of [f] at [r]: around [r] the first one exists, and [d] is its derivative. *)
Definition second_partial (f : (nat -> nat -> R) -> R) (r : nat -> nat -> R) (g j h k : nat) (d : R) :=
  locally (r h k) (fun t : R => let r' := with_param r h k t in
    ex_derive (fun s : R => f (with_param r' g j s)) (r' g j)) /\
  is_derive (fun t : R => partial f g j (with_param r h k t)) (r h k) d.

(** The restricted likelihood criterion of a model with normal observations and known scale, fitted for the log
    smoothing parameters [r]. *)
Section Criterion.
Variables (n n_groups : nat) (gs : nat -> group).
Variables (chol : forall m, 'M[R]_m -> option 'M[R]_m) (cholP : forall m, 'M[R]_m -> option ('M[R]_m * 'S_m))
          (qr_r : forall m, 'M[R]_m -> 'M[R]_m).
Definition expo (r : nat -> nat -> R) : nat -> nat -> R := fun g j => exp (r g j).
Definition fitted_reml N (X : 'M[R]_(N, n)) (y : 'cV[R]_N) (scale : R) (r : nat -> nat -> R) : R :=
  let b := pls X y (total_penalty n n_groups gs (expo r)) in
  value (REML n_groups gs chol cholP qr_r (gaussian_llk X y scale b) (scale^-1 *: (X^T *m X)) b scale (expo r)).
End Criterion.

(** An exact eigenvalue decomposition of symmetric matrices. *)
Definition exact_eigh (eigh : forall m, 'M[R]_m -> 'rV[R]_m * 'M[R]_m) :=
  forall m (A : 'M[R]_m), A^T = A -> let (e, U) := eigh m A in
    U^T *m U = 1%:M /\ U *m diag_mx e *m U^T = A.
