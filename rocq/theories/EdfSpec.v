(** Penalties as matrices. *)

From Coq Require Import Reals.
From mathcomp Require Import all_ssreflect all_algebra.
From Verif Require Import RealField RealMat PenModel.
Import GRing.Theory.
Set Implicit Arguments.
Unset Strict Implicit.
Unset Printing Implicit Defensive.
Local Open Scope ring_scope.

Section Spec.
Variable n : nat.
(** S_J_emb and D_J_emb of a penalty. *)
Definition emb (p : lterm R) : 'M[R]_n := \matrix_(i, j) t_Semb p i j.
Definition root (p : lterm R) : 'M[R]_n := \matrix_(i, j) t_Demb p i j.
(** Their sum, weighted by the smoothing parameters. *)
Definition weighted (l : list (lterm R)) : 'M[R]_n := \sum_(p <- l) t_lam p *: emb p.
(** B.power(2).sum() for B = InvCholXXS @ D_J_emb, gamm_solvers.py:967-968. *)
Definition squares (Li : 'M[R]_n) (p : lterm R) : R :=
  \sum_i \sum_j (Li *m root p) i j * (Li *m root p) i j.
End Spec.
