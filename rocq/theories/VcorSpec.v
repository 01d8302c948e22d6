(** What corrected covariance matrices and degrees of freedom are compared with. *)

From Coq Require Import Reals.
From mathcomp Require Import all_ssreflect all_algebra.
From Verif Require Import RealField RealMat RealEigen.
Import GRing.Theory.
Set Implicit Arguments.
Unset Strict Implicit.
Unset Printing Implicit Defensive.
Local Open Scope ring_scope.

(** Weights of a distribution. *)
Definition distribution N (ws : 'I_N -> R) := (forall i, Rle 0 (ws i)) /\ \sum_i ws i = 1.

(** The covariance of elements [a] and [b] of a vector that, with probability [ws i], has mean [bs i] and covariance
    matrix [Vs i]. *)
Definition total_covariance N n (ws : 'I_N -> R) (Vs : 'I_N -> 'M[R]_n) (bs : 'I_N -> 'cV[R]_n) (a b : 'I_n) : R :=
  \sum_i ws i * (Vs i a b + (bs i a 0 - \sum_j ws j * bs j a 0) * (bs i b 0 - \sum_j ws j * bs j b 0)).

(** No linear combination of the elements varies less under [B] than under [A]. *)
Definition below n (A B : 'M[R]_n) := forall x : 'cV[R]_n, Rle (quad A x) (quad B x).
