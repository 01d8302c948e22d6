(** Specifications for MatModel: contracts of the factorisation, inversion and solving routines
    that the code calls, and the small notions the theorems are stated with. *)
From mathcomp Require Import all_ssreflect all_algebra.
From Verif Require Import MatModel.
Set Implicit Arguments.
Unset Strict Implicit.
Unset Printing Implicit Defensive.
Import GRing.Theory Num.Theory.
Local Open Scope ring_scope.

(** A lower triangular matrix. *)
Definition lower (F : fieldType) n (L : 'M[F]_n) : Prop :=
  forall i j : 'I_n, (i < j)%N -> L i j = 0.

(** What a successful pivoted Cholesky factorisation promises: Pr is a permutation, L is lower
    triangular with positive diagonal and the product L L^T, read through the permutation, is A. *)
Definition is_factor (R : rcfType) n (A : 'M[R]_n) (f : factor R n) : Prop :=
  [/\ injective (fac_P f), lower (fac_L f), (forall i, 0 < fac_L f i i) &
      forall i j, A i j = \sum_k fac_L f (fac_P f i) k * fac_L f (fac_P f j) k].

Definition cholP_ok (R : rcfType) n (cholP : 'M[R]_n -> factor R n) : Prop :=
  forall A, fac_code (cholP A) = 0%N -> is_factor A (cholP A).

(** Contract of a routine inverting lower triangular matrices. *)
Definition linv_ok (R : rcfType) n (linv : 'M[R]_n -> 'M[R]_n) : Prop :=
  forall L, lower L -> (forall i, 0 < L i i) -> L *m linv L = 1%:M.

(** Contract of a routine solving upper triangular systems. *)
Definition backsolve_ok (R : rcfType) p n
    (backsolve : 'M[R]_p -> 'M[R]_(p, n) -> 'M[R]_(p, n)) : Prop :=
  forall U C, lower U^T -> (forall i, U i i != 0) -> U *m backsolve U C = C.

(** Contract of a routine inverting invertible matrices. *)
Definition inv_ok (F : fieldType) m (inv : 'M[F]_m -> 'M[F]_m) : Prop :=
  forall A, A \in unitmx -> A *m inv A = 1%:M.

(** The ridge tried on the k-th pass: 0, then 1e-14, then twice the previous one. *)
Definition ladder (R : rcfType) (k : nat) : R :=
  if k is j.+1 then 2%:R ^+ j / 10%:R ^+ 14 else 0.

(** |A_ii| on the diagonal. *)
Definition abs_diag (R : rcfType) n (A : 'M[R]_n) : 'M[R]_n :=
  \matrix_(i, j) (if i == j then `|A i i| else 0).

(** The quadratic form x^T A x. *)
Definition quad (F : fieldType) n (A : 'M[F]_n) (x : 'cV[F]_n) : F := (x^T *m A *m x) 0 0.

(** Entry (r,c) of the csc matrix held in data, indices, indptr. *)
Definition csc_entry (F : fieldType) (elements : seq F) (idx iptr : seq nat) (r c : nat) : F :=
  \sum_(nth 0%N iptr c <= k < nth 0%N iptr c.+1 | nth 0%N idx k == r) nth 0 elements k.

(** Entry (r,c) of the matrix given as (value, row, column) triplets. *)
Definition triplet_entry (F : fieldType) (t : seq F * seq nat * seq nat) (r c : nat) : F :=
  let '(data, rows, cols) := t in
  \sum_(0 <= k < size data | (nth 0%N rows k == r) && (nth 0%N cols k == c)) nth 0 data k.

(** A well-formed csc matrix with n columns. *)
Definition csc_ok (T : Type) (n : nat) (elements : seq T) (idx iptr : seq nat) : Prop :=
  [/\ nth 0%N iptr 0 = 0%N, (forall c, (c < n)%N -> (nth 0 iptr c <= nth 0 iptr c.+1)%N),
      nth 0%N iptr n = size elements & size idx = size elements].

(** The middle matrices of Byrd, Nocedal and Schnabel (1994): diagonal and strictly triangular parts
    of S^T Y minus the quadratic part. *)
Definition sr1_H_middle (F : fieldType) n m (s y : 'I_m -> 'rV[F]_n) (H0 : 'M[F]_n) : 'M[F]_m :=
  \matrix_(i, j) ((if (j < i)%N then dot (s i) (y j) else dot (s j) (y i))
                  - (s i *m H0 *m (s j)^T) 0 0).
Definition sr1_V_middle (F : fieldType) n m (s y : 'I_m -> 'rV[F]_n) (V0 : 'M[F]_n) : 'M[F]_m :=
  \matrix_(i, j) ((if (j < i)%N then dot (s j) (y i) else dot (s i) (y j))
                  - (y i *m V0 *m (y j)^T) 0 0).
