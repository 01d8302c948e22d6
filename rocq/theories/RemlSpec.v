(** What the criterion and its derivative are compared with, and the contracts of the factorisations. *)

From Coq Require Import Reals.
From Coquelicot Require Import Coquelicot.
From mathcomp Require Import all_ssreflect all_algebra perm.
From Verif Require Import RealField RealMat RemlModel.
Import GRing.Theory.
Set Implicit Arguments.
Unset Strict Implicit.
Unset Printing Implicit Defensive.
Local Open Scope ring_scope.

(** Cholesky factorisation without rounding: whatever is returned is the factor, and every positive definite
    matrix has one.  The second kind factorises the matrix with rows and columns permuted. *)
Definition exact_cholesky (chol : forall m, 'M[R]_m -> option 'M[R]_m) :=
  forall m (A : 'M[R]_m), (forall L, chol m A = Some L -> factor A L) /\ (pd A -> chol m A <> None).
Definition exact_cholesky_perm (cholP : forall m, 'M[R]_m -> option ('M[R]_m * 'S_m)) :=
  forall m (A : 'M[R]_m),
    (forall L s, cholP m A = Some (L, s) -> factor (row_perm s (col_perm s A)) L) /\ (pd A -> cholP m A <> None).

(** The Moore-Penrose inverse. *)
Definition penrose m (A X : 'M[R]_m) :=
  [/\ A *m X *m A = A, X *m A *m X = X, (A *m X)^T = A *m X & (X *m A)^T = X *m A].

(** The penalties of a group are symmetric, the columns of [Ur] are orthonormal and span a space that contains
    the range of every penalty, and [Qr] is a rotation. *)
Definition well_formed (g : group) :=
  [/\ forall j, (j < npen g)%N -> (SJ g j)^T = SJ g j,
      (Ur g)^T *m Ur g = 1%:M,
      forall j, (j < npen g)%N -> Ur g *m (Ur g)^T *m SJ g j = SJ g j,
      forall l, (Qr g l)^T *m Qr g l = 1%:M &
      (0 < npen g)%N].

(** The groups' columns follow one another and end before column [n]. *)
Definition placed (n n_groups : nat) (gs : nat -> group) :=
  (forall g h, (g < h)%N -> (h < n_groups)%N ->
     (start (gs g) + reps (gs g) * dim (gs g) <= start (gs h))%N) /\
  (forall g, (g < n_groups)%N -> (start (gs g) + reps (gs g) * dim (gs g) <= n)%N).

(** No penalty alone has as many dimensions as all penalties of its group. *)
Definition no_dominant (g : group) := (npen g == 1)%N \/ forall j, (j < npen g)%N -> (\rank (SJ g j) < rank g)%N.

(** The smoothing parameters with the one of penalty [j] of group [g] replaced. *)
Definition with_param (l : nat -> nat -> R) (g j : nat) (t : R) : nat -> nat -> R :=
  fun h k => if (h == g) && (k == j) then t else l h k.

(** A curve of vectors and its velocity; [v] is the gradient of [f] at [x]: along every curve through [x], [f]
    changes at the rate that [v] predicts. *)
Definition velocity n (c : R -> 'cV[R]_n) (t : R) (u : 'cV[R]_n) := forall i, is_derive (fun s => c s i 0) t (u i 0).
Definition gradient_at n (f : 'cV[R]_n -> R) (x v : 'cV[R]_n) :=
  forall (c : R -> 'cV[R]_n) t u, c t = x -> velocity c t u -> is_derive (fun s => f (c s)) t ((v^T *m u) 0 0).

(** The sum of all penalties, each weighted by its smoothing parameter and placed [reps] times, one copy after
    another: the entry in row [i] and column [k]. *)
Definition total_penalty (n n_groups : nat) (gs : nat -> group) (l : nat -> nat -> R) : 'M[R]_n :=
  \matrix_(i, k) \sum_(g < n_groups) \sum_(j < npen (gs g)) \sum_(c < reps (gs g)) \sum_(a < dim (gs g)) \sum_(b < dim (gs g))
     (if (i == (start (gs g) + c * dim (gs g) + a)%N :> nat) && (k == (start (gs g) + c * dim (gs g) + b)%N :> nat)
      then l g j * SJ (gs g) j a b else 0).

(** The number a computation returns (and 0 if it raises an exception). *)
Definition value (r : option R) : R := if r is Some v then v else 0.

(** The log-likelihood of independent normal observations with variance [scale]. *)
Definition gaussian_llk N n (X : 'M[R]_(N, n)) (y : 'cV[R]_N) (scale : R) (b : 'cV[R]_n) : R :=
  - (\sum_i (y i 0 - (X *m b) i 0) ^+ 2) / (2%:R * scale) - N%:R / 2%:R * ln (2%:R * PI * scale).

(** The least-squares coefficients for the penalty [S]. *)
Definition pls N n (X : 'M[R]_(N, n)) (y : 'cV[R]_N) (S : 'M[R]_n) : 'cV[R]_n :=
  invmx (X^T *m X + S) *m (X^T *m y).
