(** Model of the coefficient update of additive models for given smoothing parameters: update_coef and the
    part of update_coef_and_scale and update_scale_edf that deals with the factor and its inverse.
    Sources (under /repo/src/mssm/src): python/gamm_solvers.py, cpp/eigen_solvers.cpp.
    Matrices are mathcomp matrices over a field with exact arithmetic.  Eigen's factorisations and triangular
    solves are parameters; their contracts live in QrSpec. *)
From mathcomp Require Import all_ssreflect all_algebra.
From Verif Require Import MatModel.
Set Implicit Arguments.
Unset Strict Implicit.
Unset Printing Implicit Defensive.
Import GRing.Theory Num.Theory.
Local Open Scope ring_scope.

(** What update_coef_and_scale returns of interest here: coef, L, InvCholXXS, keep and drop
    (None, None for the Cholesky branch, here all and no coefficients),
    gamm_solvers.py:1528-1543. *)
Record solution (R : rcfType) p := Solution {
  s_coef : 'cV[R]_p; s_L : 'M[R]_p; s_Linv : 'M[R]_p; s_keep : seq 'I_p; s_drop : seq 'I_p }.

Section Qr.
Variable R : rcfType.
(** Rows of X, the rank Eigen determines, and the number of columns beyond it. *)
Variables n r d : nat.
Local Notation p := (r + d)%N.

(** Eigen's SparseQR of RE * P1, eigen_solvers.cpp:679-694: ordering P1, pivots P2, the first r columns
    of Q and the leading r x r block of R. *)
Record qrfac := QrFac {
  q_P1 : 'I_p -> 'I_p; q_P2 : 'I_p -> 'I_p; q_Q : 'M[R]_(n + p, r); q_R : 'M[R]_r }.
Variable qr : 'M[R]_(n + p, p) -> qrfac.
(** triangularView<Upper>().solveInPlace, eigen_solvers.cpp:715 *)
Variable usolve : 'M[R]_r -> 'cV[R]_r -> 'cV[R]_r.
(** compute_Linv, matrix_solvers.py:864-924 *)
Variable linv : 'M[R]_r -> 'M[R]_r.

(** solve_coef_pqr2, eigen_solvers.cpp:631-718: rows of X above rows of E (:657-679), then
    R1 \ (Q^T (y, 0))[:rank].  Codes other than 0 are not modelled. *)
Definition solve_coef_pqr (y : 'cV[R]_n) (X : 'M[R]_(n, p)) (E : 'M[R]_p)
    : 'M[R]_r * ('I_p -> 'I_p) * ('I_p -> 'I_p) * 'cV[R]_r :=
  let f := qr (col_mx X E) in
  let yE := col_mx y (0 : 'cV[R]_p) in
  (q_R f, q_P1 f, q_P2 f, usolve (q_R f) ((q_Q f)^T *m yE)).

(** np.concatenate((coef, [nan] * (p - rank))), gamm_solvers.py:1306-1309; None is nan. *)
Definition pad (c : 'cV[R]_r) (i : 'I_p) : option R :=
  match split i with inl k => Some (c k 0) | inr _ => None end.

(** A sum with nan as a summand is nan. *)
Definition oadd (a b : option R) : option R :=
  match a, b with Some u, Some v => Some (u + v) | _, _ => None end.

(** coef @ P, gamm_solvers.py:1312: scipy sums over the stored entries of the sparse P, which are its ones. *)
Definition times_perm (c : 'I_p -> option R) (P : 'M[R]_p) (j : 'I_p) : option R :=
  foldr (fun i acc => if P i j == 0 then acc else oadd (omap (fun v => v * P i j) (c i)) acc)
        (Some 0) (enum 'I_p).

(** translate_sparse of P[:, keep], second component, gamm_solvers.py:1330-1331: the row indices of the stored
    entries, column by column. *)
Definition rows_stored (P : 'M[R]_p) (keep : seq 'I_p) : seq nat :=
  flatten [seq [seq val i | i <- enum 'I_p & P i j != 0] | j <- keep].

(** compute_eigen_perm for a list of indices, matrix_solvers.py:135-148; here of length r. *)
Definition eigen_perm_of (Pr : seq nat) : 'M[R]_r := \matrix_(a, c) (val a == nth 0%N Pr c)%:R.

(** csc_array((dat, (keep[row], keep[col])), shape=(p, p)), gamm_solvers.py:1500-1507 and 1194-1201: entries
    of L at the kept rows and columns.  The code only does so if r < p; for r = p all coefficients are kept and
    nothing moves. *)
Definition embed (keep : seq 'I_p) (L : 'M[R]_r) : 'M[R]_p :=
  \matrix_(i, j) \sum_(a < r) \sum_(b < r)
    (if (nth i keep a == i) && (nth j keep b == j) && (a < size keep)%N && (b < size keep)%N
     then L a b else 0).

(** update_coef with S_root (gamm_solvers.py:1294-1332), L (:1493-1507) and InvCholXXS (:1188-1201).
    None: the product P.T @ LP (:1493) raises because of its shape. *)
Definition update_coef_qr (yb : 'cV[R]_n) (Xb : 'M[R]_(n, p)) (S_root : 'M[R]_p)
    : option (solution R p) :=
  let '(RP, Pr1, Pr2, c) := solve_coef_pqr yb Xb S_root^T in
  let P1 := compute_eigen_perm R Pr1 in
  let P2 := compute_eigen_perm R Pr2 in
  let P := P2^T *m P1^T in
  let c := times_perm (pad c) P in
  let drop := [seq i <- enum 'I_p | c i == None] in
  let keep := [seq i <- enum 'I_p | c i != None] in
  let coef := \col_i odflt 0 (c i) in
  let LP := RP^T in
  let Pr := rows_stored P keep in
  let P := eigen_perm_of Pr in
  if size Pr == r then
    Some (Solution coef (embed keep (P^T *m LP)) (embed keep (linv LP *m P)) keep drop)
  else None.
End Qr.

Section Chol.
Variable R : rcfType.
Variables n p : nat.
(** SimplicialLLT, eigen_solvers.cpp:431-436: factor, permutation and code; solver.solve, :451. *)
Variable llt : 'M[R]_p -> factor R p.
Variable llt_solve : 'M[R]_p -> 'cV[R]_p -> 'cV[R]_p.
Variable linv : 'M[R]_p -> 'M[R]_p.

(** solve_coef, eigen_solvers.cpp:403-459: factor, permutation, coefficients and code.  (solve does not fail
    after a successful factorisation: :453-458 is left out.) *)
Definition solve_coef (y : 'cV[R]_n) (X : 'M[R]_(n, p)) (S : 'M[R]_p)
    : 'M[R]_p * ('I_p -> 'I_p) * 'cV[R]_p * nat :=
  let A := X^T *m X + S in
  let f := llt A in
  if fac_code f != 0%N then (1%:M, fac_P f, 0, 1%N)
  else (fac_L f, fac_P f, llt_solve A (X^T *m y), 0%N).

(** update_coef without S_root, gamm_solvers.py:1289-1292, L (:1493) and InvCholXXS (:1188-1190).  The code is
    not looked at. *)
Definition update_coef_chol (yb : 'cV[R]_n) (Xb : 'M[R]_(n, p)) (S_emb : 'M[R]_p) : solution R p :=
  let '(LP, Pr, coef, code) := solve_coef yb Xb S_emb in
  let P := compute_eigen_perm R Pr in
  Solution coef (P^T *m LP) (apply_eigen_perm Pr (linv LP)) (enum 'I_p) [::].
End Chol.
