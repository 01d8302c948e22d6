(** Specifications for QrModel. *)
From mathcomp Require Import all_ssreflect all_algebra.
From Verif Require Import MatModel MatSpec QrModel.
Set Implicit Arguments.
Unset Strict Implicit.
Unset Printing Implicit Defensive.
Import GRing.Theory Num.Theory.
Local Open Scope ring_scope.

(** The penalised sum of squares. *)
Definition penalised_ss (R : rcfType) n p (y : 'cV[R]_n) (X : 'M[R]_(n, p)) (S : 'M[R]_p) (b : 'cV[R]_p) : R :=
  \sum_i (y i 0 - \sum_j X i j * b j 0) ^+ 2 + \sum_i \sum_j b i 0 * S i j * b j 0.

(** The penalised cross-product matrix (the negative Hessian up to the scale). *)
Definition penalised_cross (R : rcfType) n p (X : 'M[R]_(n, p)) (S : 'M[R]_p) (i j : 'I_p) : R :=
  \sum_k X k i * X k j + S i j.

(** A QR decomposition with column pivoting that reveals the rank: columns P1[P2[j]] of A are Q times the
    columns of (R, R12), Q has orthonormal columns, R is upper triangular without zeros on its
    diagonal. *)
Definition is_qr (R : rcfType) n r d (A : 'M[R]_(n + (r + d), r + d)) (f : qrfac R n r d) : Prop :=
  [/\ injective (q_P1 f), injective (q_P2 f), (q_Q f)^T *m q_Q f = 1%:M,
      lower (q_R f)^T /\ (forall i, q_R f i i != 0) &
      exists R12 : 'M[R]_(r, d), forall i j,
        A i (q_P1 f (q_P2 f j)) = \sum_k q_Q f i k * row_mx (q_R f) R12 k j].

(** Solving upper triangular systems, inverting lower triangular matrices. *)
Definition usolve_ok (R : rcfType) r (usolve : 'M[R]_r -> 'cV[R]_r -> 'cV[R]_r) : Prop :=
  forall U b, lower U^T -> (forall i, U i i != 0) -> U *m usolve U b = b.
Definition linv_nz (R : rcfType) r (linv : 'M[R]_r -> 'M[R]_r) : Prop :=
  forall L, lower L -> (forall i, L i i != 0) -> L *m linv L = 1%:M.

(** keep and drop split the coefficients. *)
Definition splits (R : rcfType) p (s : solution R p) (d : nat) : Prop :=
  [/\ uniq (s_keep s), uniq (s_drop s), size (s_drop s) = d &
      forall i, (i \in s_keep s) = (i \notin s_drop s)].

(** The best coefficients among all, zero where dropped, and the only best ones that are. *)
Definition best (R : rcfType) n p (y : 'cV[R]_n) (X : 'M[R]_(n, p)) (S : 'M[R]_p) (s : solution R p) : Prop :=
  [/\ forall b, penalised_ss y X S (s_coef s) <= penalised_ss y X S b,
      forall i, i \in s_drop s -> s_coef s i 0 = 0 &
      forall b : 'cV[R]_p, (forall i, i \in s_drop s -> b i 0 = 0) ->
        (forall b', penalised_ss y X S b <= penalised_ss y X S b') -> b = s_coef s].

(** L L^T is the penalised cross-product matrix of the kept coefficients, zero for dropped ones. *)
Definition factor_of (R : rcfType) n p (X : 'M[R]_(n, p)) (S : 'M[R]_p) (s : solution R p) : Prop :=
  forall i j, \sum_k s_L s i k * s_L s j k
    = if (i \in s_keep s) && (j \in s_keep s) then penalised_cross X S i j else 0.

(** The inverse factor: sum over k of Linv(k,i) Linv(k,j) inverts it on the kept coefficients. *)
Definition inverse_of (R : rcfType) n p (X : 'M[R]_(n, p)) (S : 'M[R]_p) (s : solution R p) : Prop :=
  forall i j, i \in s_keep s -> j \in s_keep s ->
    \sum_(l <- s_keep s) (\sum_k s_Linv s k i * s_Linv s k l) * penalised_cross X S l j = (i == j)%:R.
