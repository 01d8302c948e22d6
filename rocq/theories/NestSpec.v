(** Specification of nested smooth terms: what is kept, and what "dependent" means. *)
From Coq Require Import String.
From mathcomp Require Import all_ssreflect all_algebra.
From Verif Require Import NestModel.
Set Implicit Arguments.
Unset Strict Implicit.
Unset Printing Implicit Defensive.
Import GRing.Theory Num.Theory.
Local Open Scope ring_scope.

Section Spec.
Variables (F : realFieldType) (n : nat).
Implicit Types (X : seq 'cV[F]_n).

(** The columns whose position is not listed. *)
Definition without (X : seq 'cV[F]_n) (idx : seq nat) : seq 'cV[F]_n :=
  [seq nth 0 X i | i <- iota 0 (size X) & i \notin idx].

(** What a QR decomposition of X1 guarantees: an invertible (orthogonal) matrix that leaves nothing of X1 below its first
    rows, size X1 of them. *)
Definition qr_ok X (Q : 'M[F]_n) : Prop :=
  Q^T *m Q = 1%:M /\ forall x, x \in X -> forall i : 'I_n, (size X <= i)%N -> (Q^T *m x) i 0 = 0.

(** The columns at listed positions. *)
Definition at_positions (X : seq 'cV[F]_n) (idx : seq nat) : seq 'cV[F]_n := [seq nth 0 X i | i <- idx].

(** What a QR decomposition with column pivoting guarantees: a permutation of the columns, of which the first (as many as
    the rank) are independent and span all columns. *)
Definition pivot_ok X (piv : seq nat) (r : nat) : Prop :=
  [/\ perm_eq piv (iota 0 (size X)), (r <= size X)%N,
      free (at_positions X (take r piv)) & <<at_positions X (take r piv)>>%VS = <<X>>%VS].

(** What the identification of dependencies has to guarantee: a permutation of columns of X2, of which those from the
    rank on can be removed; what remains does not depend on X1 and nothing is lost. *)
Definition separates (X1 X2 : seq 'cV[F]_n) (nid : seq nat) (rank : nat) : Prop :=
  free (X1 ++ without X2 (drop rank nid)) /\ (<<X1 ++ without X2 (drop rank nid)>> = <<X1 ++ X2>>)%VS.
Definition dep_ok (dep : seq 'cV[F]_n -> seq 'cV[F]_n -> seq nat * nat) : Prop :=
  forall X1 X2,
    perm_eq (dep X1 X2).1 (iota 0 (size X2)) /\ ((dep X1 X2).2 <= size X2)%N /\
    (free X1 -> separates X1 X2 (dep X1 X2).1 (dep X1 X2).2).

(** Name of a variable of a term at a level of its factor. *)
Definition decorate (t : term F n) (v : string) : string :=
  let v := match t_binary t with Some (b, l, _) => (v ++ "_" ++ b ++ "_" ++ l)%string | None => v end in
  match t_by_cont t with Some c => (v ++ "_" ++ c)%string | None => v end.
Definition name_at (t : term F n) (k : nat) (v : string) : string :=
  decorate t (match t_by t with Some (lvls, _) => (v ++ "_" ++ nth EmptyString lvls k)%string | None => v end).
Definition levels (t : term F n) : nat := match t_by t with Some (lvls, _) => size lvls | None => 1 end.

(** Two terms have a variable (at a level) in common. *)
Definition common (t : term F n) (k : nat) (t' : term F n) : Prop :=
  exists v v' k', [/\ List.In v (t_vars t), List.In v' (t_vars t'), (k' < levels t')%N & name_at t k v = name_at t' k' v'].

(** Columns of a term at a level before anything is dropped: the rows of that level. *)
Definition original (t : term F n) (k : nat) : seq 'cV[F]_n :=
  let rows (i : 'I_n) := match t_by t with
                         | Some (_, code) => code i == k
                         | None => match t_binary t with Some (_, _, p) => p i | None => true end
                         end in
  map (fun v : 'cV[F]_n => \col_i (if rows i then v i 0 else 0)) (t_mat t).
(** Columns that remain when coefficients are dropped; coefficients of a term are ordered by level. *)
Definition remaining (t : term F n) (k : nat) (dropped : seq nat) : seq 'cV[F]_n :=
  [seq nth 0 (original t k) i | i <- iota 0 (size (t_mat t)) & (k * size (t_mat t) + i)%N \notin dropped].

(** Terms to which a term is nested come before it: fewer variables, or as many and listed earlier. *)
Definition before (ts : seq (term F n)) (t0 : term F n) (j i : nat) : bool :=
  let s k := size (t_vars (nth t0 ts k)) in (s j < s i)%N || (s j == s i) && (j < i)%N.
End Spec.
