(** Specifications for IdentModel. *)
From mathcomp Require Import all_ssreflect all_algebra.
Set Implicit Arguments. Unset Strict Implicit. Unset Printing Implicit Defensive.
Import GRing.Theory Num.Theory.
Local Open Scope ring_scope.

Section Spec.
Variable F : realFieldType.
Variable n : nat.

(** Every coefficient is either kept or dropped, once, and both lists are increasing. *)
Definition splits (keep dropped : seq 'I_n) : Prop :=
  sorted (fun i j : 'I_n => (i < j)%N) keep /\ sorted (fun i j : 'I_n => (i < j)%N) dropped /\
  forall i, (i \in keep) (+) (i \in dropped).

(** A vector that is zero for the coefficients dropped. *)
Definition zero_on (D : seq 'I_n) (v : 'cV[F]_n) : Prop := forall i, i \in D -> v i 0 = 0.

(** With the dropped coefficients at zero the remaining ones are determined. *)
Definition identified (P : 'M[F]_n) (D : seq 'I_n) : Prop :=
  forall v, zero_on D v -> P *m v = 0 -> v = 0.
(** Stronger: the system without the rows and columns dropped has only one solution. *)
Definition regular_system (P : 'M[F]_n) (D : seq 'I_n) : Prop :=
  forall v, zero_on D v -> (forall i, i \notin D -> (P *m v) i 0 = 0) -> v = 0.
(** Nothing is lost: what coefficients can do, coefficients that are zero where dropped can do. *)
Definition nothing_lost (P : 'M[F]_n) (D : seq 'I_n) : Prop :=
  forall v, exists w, zero_on D w /\ P *m w = P *m v.

(** Columns of a matrix listed in [l]. *)
Definition cols (A : 'M[F]_n) (l : seq 'I_n) : 'M[F]_(n, size l) := \matrix_(i, j) A i (tnth (in_tuple l) j).

(** A rank revealing decomposition: the pivots are all columns, the first ones are independent. *)
Definition rank_revealing (A : 'M[F]_n) (out : seq 'I_n * nat) : Prop :=
  let (Pr, r) := out in perm_eq Pr (enum 'I_n) /\ r = \rank A /\ \rank (cols A (take r Pr)) = r.

(** svds with k = 1 refuses fewer than two columns and otherwise fails or gives a vector that is not zero. *)
Definition svds_like (svds : forall k, 'M[F]_k -> option (seq F)) : Prop :=
  forall k (M : 'M[F]_k), (if (k < 2)%N then svds k M = None else
    match svds k M with None => True | Some v => size v = k /\ has (fun x => x != 0) v end).

(** splu refuses singular matrices and gives an order of the columns. *)
Definition splu_like (splu : forall k, 'M[F]_k -> option ('M[F]_k * seq nat)) : Prop :=
  forall k (M : 'M[F]_k),
    (M \notin unitmx -> splu k M = None) /\
    (forall U pc, splu k M = Some (U, pc) -> perm_eq pc (iota 0 k)).
End Spec.
