(** Specification of the null space of difference penalties over the reals. *)

From Coq Require Import Reals.
From Verif Require Import PenSpec.
Local Open Scope R_scope.

(** Finite sums of reals. *)
Notation rsum := (@nsum R 0 Rplus).

(** b agrees on 0..n-1 with a polynomial of degree less than m in the index. *)
Definition is_poly (n m : nat) (b : nat -> R) : Prop :=
  exists a : nat -> R, forall i, (i < n)%nat -> b i = rsum m (fun k => a k * INR i ^ k).
