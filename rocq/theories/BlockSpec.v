(** Specifications for BlockModel. *)
From mathcomp Require Import all_ssreflect all_algebra.
From Verif Require Import BlockModel.
Set Implicit Arguments.
Unset Strict Implicit.
Unset Printing Implicit Defensive.
Import GRing.Theory Num.Theory.
Local Open Scope ring_scope.

Section Spec.
Variable F : realFieldType.

(** A routine that solves systems with an invertible matrix. *)
Definition solve_ok (solve : forall n, 'M[F]_n -> 'cV[F]_n -> 'cV[F]_n) : Prop :=
  forall n (L : 'M[F]_n) b, L \in unitmx -> L *m solve n L b = b.

(** L L' = P H P' for an orthogonal P (a permutation) and an invertible L. *)
Definition factored n (H L P : 'M[F]_n) : Prop :=
  [/\ P *m P^T = 1%:M, L \in unitmx & L *m L^T = P *m H *m P^T].

(** The trace that effective degrees of freedom are computed from: of V S for the penalty S = D D'. *)
Definition trace_of n (H D : 'M[F]_n) : F := \tr (invmx H *m (D *m D^T)).

(** A root without entries in columns that do not belong to the term. *)
Definition own_columns n (t : lterm F n) : Prop :=
  forall i (j : 'I_n), ~~ (l_start t <= j < l_start t + l_rep t * l_nc t)%N -> l_D t i j = 0.

(** Null-space penalty of one coefficient, number [ni], of every level (formula.py:2367-2368). *)
Definition null_of n (t : lterm F n) (ni : 'I_(l_nc t)) : Prop :=
  [/\ l_null t, l_SJ t = delta_mx ni ni, (l_start t + l_rep t * l_nc t <= n)%N, (0 < l_rep t)%N &
      forall i j : 'I_n, l_D t i j = ((i == j) && [exists k : 'I_(l_rep t), j == l_start t + k * l_nc t + ni :> nat]%N)%:R].

(** The part of a root that belongs to level [s]. *)
Definition level_root n (t : lterm F n) (s : nat) : 'M[F]_n :=
  \matrix_(i, j) (if (l_start t + s * l_nc t <= j < l_start t + s.+1 * l_nc t)%N then l_D t i j else 0).

(** Within the columns of a level, only the first columns of the root have entries, as many as the rank. *)
Definition leading n (t : lterm F n) : Prop :=
  [/\ (0 < l_rep t)%N, (l_rank t %/ l_rep t <= l_nc t)%N &
      forall s (i j : 'I_n), (l_start t + s * l_nc t + l_rank t %/ l_rep t <= j < l_start t + s.+1 * l_nc t)%N ->
        l_D t i j = 0].

(** Clusters of series that represent their members well: the levels of all series in a cluster contribute the
    same to the trace as the level of the series that is kept.  [lv] is the number of the level of a series. *)
Definition representative n (H : 'M[F]_n) (t : lterm F n) (lv : nat -> nat) (members : seq (seq nat))
  (cl : seq (nat * seq F)) : Prop :=
  [/\ perm_eq (flatten members) (iota 0 (l_rep t)),
      size members = size cl &
      forall k, (k < size cl)%N ->
        let m := nth [::] members k in let c := nth (0%N, [::]) cl k in
        size c.2 = size m /\
        forall s, s \in m -> trace_of H (level_root t (lv s)) = trace_of H (level_root t (lv c.1))].
End Spec.
