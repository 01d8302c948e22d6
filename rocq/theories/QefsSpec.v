(** Specifications for QefsModel: contracts of the decompositions that the code calls, and the small
    notions the theorems are stated with. *)
From mathcomp Require Import all_ssreflect all_algebra.
From Verif Require Import MatModel MatSpec QefsModel.
Set Implicit Arguments.
Unset Strict Implicit.
Unset Printing Implicit Defensive.
Import Order.TTheory GRing.Theory Num.Theory.
Local Open Scope ring_scope.

(** Positive semi-definite and positive definite matrices. *)
Definition semi (R : rcfType) n (A : 'M[R]_n) : Prop := A^T = A /\ forall x, 0 <= quad A x.
Definition definite (R : rcfType) n (A : 'M[R]_n) : Prop := A^T = A /\ forall x, x != 0 -> 0 < quad A x.

(** The pseudo-inverse of Moore and Penrose, for symmetric matrices. *)
Definition pseudo_inverse (F : fieldType) n (A X : 'M[F]_n) : Prop :=
  [/\ A *m X *m A = A, X *m A *m X = X, (A *m X)^T = A *m X & (X *m A)^T = X *m A].

(** Contracts of the decompositions. *)
Section Contracts.
Variable R : rcfType.
Definition qr_ok (qr : forall n m, 'M[R]_(n, m) -> economic R n m) : Prop :=
  forall n m (A : 'M[R]_(n, m)), A = eQ (qr n m A) *m eR (qr n m A) /\ (eQ (qr n m A))^T *m eQ (qr n m A) = 1%:M.
Definition eigh_ok (eigh : forall k, 'M[R]_k -> 'rV[R]_k * 'M[R]_k) : Prop :=
  forall k (A : 'M[R]_k), A^T = A ->
    A = (eigh k A).2 *m diag_mx (eigh k A).1 *m (eigh k A).2^T /\ (eigh k A).2^T *m (eigh k A).2 = 1%:M.
Definition svd_ok (svd : forall k, 'M[R]_k -> 'M[R]_k * 'rV[R]_k * 'M[R]_k) : Prop :=
  forall k (A : 'M[R]_k), A \in unitmx -> let '(U, sv, VT) := svd k A in
    [/\ A = U *m diag_mx sv *m VT, U^T *m U = 1%:M & VT *m VT^T = 1%:M].
(** A pivoted factorisation that is correct when it reports success, and succeeds on positive definite
    matrices. *)
Definition chol_ok k (cholP : 'M[R]_k -> factor R k) : Prop :=
  cholP_ok cholP /\ forall A, definite A -> fac_code (cholP A) = 0%N.
(** Updating a Cholesky factor by sigma u u^T, as long as the result is positive definite. *)
Definition rank_one_ok k (rank_one : 'M[R]_k -> 'cV[R]_k -> R -> 'M[R]_k) : Prop :=
  forall L u sigma, lower L -> (forall i, 0 < L i i) ->
    definite (L *m L^T + sigma *: (u *m u^T)) ->
    let L' := rank_one L u sigma in
    [/\ lower L', (forall i, 0 < L' i i) & L' *m L'^T = L *m L^T + sigma *: (u *m u^T)].
End Contracts.

(** A memory whose rho belong to its vectors and whose inner matrix (compact representation started from
    [omega] times the identity) is invertible. *)
Definition proper (R : rcfType) n m (s y : 'I_m.+1 -> 'rV[R]_n) rho (omega : R) : Prop :=
  (forall k, rho k = 1 / dot (s k) (y k)) /\ sr1_H_middle s y omega%:M \in unitmx.

(** A penalty matrix without entries outside the columns of its term. *)
Definition in_place (R : rcfType) n (p : pen R n) : Prop :=
  forall i j : 'I_n, ~~ (pn_start p <= j < pn_start p + pn_len p)%N -> pn_S p i j = 0.

(** The total penalty matrix. *)
Definition total_penalty (R : rcfType) n (pens : seq (pen R n)) : 'M[R]_n :=
  \sum_(p <- pens) pn_lam p *: pn_S p.

(** Second derivatives of which the rows and columns [jcols] are known: entry (r, c) comes from the column
    listed first. *)
Fixpoint known (K : ringType) (Hj : nat -> nat -> K) (jcols : seq nat) (r c : nat) : K :=
  match jcols with
  | [::] => 0
  | j :: jcols => if c == j then Hj j r else if r == j then Hj j c else known Hj jcols r c
  end.
