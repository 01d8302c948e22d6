(** Specification for the multivariate Gaussian family. *)

From Coq Require Import Reals List Arith.
From Coquelicot Require Import Coquelicot.
From Verif Require Import GlsSpec.
Import ListNotations.
Local Open Scope R_scope.

(** The cells on and above the diagonal, row by row. *)
Definition cells (m : nat) : list (nat * nat) :=
  filter (fun rc => (fst rc <=? snd rc)%nat) (list_prod (seq 0 m) (seq 0 m)).

(** All coefficients of m blocks as (block, column), block by block. *)
Fixpoint columns (p : nat -> nat) (m : nat) : list (nat * nat) :=
  match m with O => [] | S k => columns p k ++ map (fun c => (k, c)) (seq 0 (p k)) end.

(** Determinant by expansion along the first column. *)
Fixpoint det (n : nat) (A : nat -> nat -> R) : R :=
  match n with
  | O => 1
  | S k => sumf (S k) (fun i => (-1) ^ i * A i 0%nat *
                                det k (fun r c => A (if (r <? i)%nat then r else S r) (S c)))
  end.

(** Second derivative along coordinate i and then j (possibly i = j). *)
Definition second (f : (nat -> R) -> R) (i j : nat) (e : nat -> R) (v : R) : Prop :=
  is_derive (fun t => Derive (fun s => f (upd (upd e j t) i s)) (upd e j t i)) (e j) v.
