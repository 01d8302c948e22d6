(** Model of the dense and sparse matrix code around the coefficient update: permutations returned
    by the sparse factorisation, translation of sparse matrices, the Newton step, sampling from a
    normal distribution, the compact quasi-Newton matrices and the absorbed constraint.
    Sources (under /repo/src/mssm/src): python/matrix_solvers.py, python/gamm_solvers.py,
    python/utils.py, python/compact_rep.py, python/formula.py, python/terms.py.

    Matrices are mathcomp matrices over a field (exact arithmetic, no rounding; sparse and dense
    formats are not told apart).  Calls into Eigen, LAPACK and numpy that factorise, invert or
    solve are parameters; their documented contracts live in MatSpec. *)
From mathcomp Require Import all_ssreflect all_algebra.
Set Implicit Arguments.
Unset Strict Implicit.
Unset Printing Implicit Defensive.
Import GRing.Theory Num.Theory.
Local Open Scope ring_scope.

(** ** translate_sparse, matrix_solvers.py:94-132

    [elements], [idx] and [iptr] are mat.data, mat.indices and mat.indptr; [n] is mat.shape[1].
    The format check (:109-115) is not modelled: only csc matrices are passed. *)
Section Translate.
Variable T : Type.

(** a[lo:hi], numpy slicing with 0 <= lo, matrix_solvers.py:127-128. *)
Definition slice (A : Type) (lo hi : nat) (l : seq A) : seq A := take (hi - lo) (drop lo l).

(** One pass of the loop over columns, matrix_solvers.py:125-132: the lists data, rows, cols are
    extended by the column's elements. *)
Definition translate_column (elements : seq T) (idx iptr : seq nat)
    (acc : seq T * seq nat * seq nat) (ci : nat) : seq T * seq nat * seq nat :=
  let '(data, rows, cols) := acc in
  let c_data := slice (nth 0%N iptr ci) (nth 0%N iptr ci.+1) elements in
  let c_rows := slice (nth 0%N iptr ci) (nth 0%N iptr ci.+1) idx in
  (data ++ c_data, rows ++ c_rows, cols ++ nseq (size c_rows) ci).

(** translate_sparse, matrix_solvers.py:117-132. *)
Definition translate_sparse (n : nat) (elements : seq T) (idx iptr : seq nat) :=
  foldl (translate_column elements idx iptr) ([::], [::], [::]) (iota 0 n).
End Translate.

(** ** Permutations returned by Eigen *)
Section Perm.
Variable F : fieldType.

(** compute_eigen_perm, matrix_solvers.py:135-148: ones at (Pr[c], c).  Pr is a list of n column
    indices below n, modelled as a function on 'I_n. *)
Definition compute_eigen_perm n (Pr : 'I_n -> 'I_n) : 'M[F]_n := \matrix_(r, c) (r == Pr c)%:R.

(** apply_eigen_perm, matrix_solvers.py:151-166: A @ Perm. *)
Definition apply_eigen_perm n m (Pr : 'I_n -> 'I_n) (A : 'M[F]_(m, n)) : 'M[F]_(m, n) :=
  A *m compute_eigen_perm Pr.

(** What cpp_cholP returns, cpp/eigen_solvers.cpp:50-78: lower factor, permutation indices, code
    (1 on failure, with the identity as factor). *)
Record factor n := Factor { fac_L : 'M[F]_n; fac_P : 'I_n -> 'I_n; fac_code : nat }.
End Perm.

(** ** Newton step, newton_coef_smooth, gamm_solvers.py:4466-4574 *)
Section Newton.
Variable R : rcfType.
Variable n : nat.
Variable cholP : 'M[R]_n -> factor R n.          (* cpp_cholP, oracle *)
Variable compute_Linv : 'M[R]_n -> 'M[R]_n.      (* compute_Linv, matrix_solvers.py:864-924, oracle *)

(** np.power(np.abs(nH.diagonal()), -0.5), gamm_solvers.py:4532-4533.  A zero on the diagonal gives
    inf in numpy; here it gives 0, so theorems require a diagonal without zeros. *)
Definition precond (nH : 'M[R]_n) : 'rV[R]_n := \row_i (Num.sqrt `|nH i i|)^-1.

(** 1e-14, gamm_solvers.py:4553. *)
Definition tiny : R := (10%:R ^+ 14)^-1.

(** The while loop, gamm_solvers.py:4541-4560.  [fuel] bounds the number of passes; None means the
    loop is still running. *)
Fixpoint newton_loop (fuel : nat) (nH2 : 'M[R]_n) (eps : R) : option (factor R n * R) :=
  if fuel is k.+1 then
    let f := cholP (nH2 + eps *: 1%:M) in
    if fac_code f != 0%N then
      newton_loop k nH2 (if eps == 0 then eps + tiny else eps * 2%:R)
    else Some (f, eps)
  else None.

(** newton_coef_smooth: (n_coef, DI @ P.T @ Lp, LV, eps), gamm_solvers.py:4499-4574. *)
Definition newton_coef_smooth (fuel : nat) (coef grad : 'cV[R]_n) (H S_emb : 'M[R]_n) :
    option ('cV[R]_n * 'M[R]_n * 'M[R]_n * R) :=
  let pgrad := \col_i (grad i 0 - (row i S_emb *m coef) 0 0) in
  let nH := (-1) *: H + S_emb in
  let nHdgr := precond nH in
  let D := diag_mx nHdgr in
  let DI := diag_mx (\row_i (1 / nHdgr 0 i)) in
  let nH2 := D *m nH *m D in
  if newton_loop fuel nH2 0 is Some (f, eps) then
    let P := compute_eigen_perm R (fac_P f) in
    let LVp := compute_Linv (fac_L f) in
    let LV := apply_eigen_perm (fac_P f) LVp in
    let V := LV^T *m LV in
    let V := D *m V *m D in
    let LV := LV *m D in
    Some (coef + V *m pgrad, DI *m P^T *m fac_L f, LV, eps)
  else None.
End Newton.

(** ** sample_MVN, utils.py:516-672 *)
Section Sample.
Variable R : rcfType.
Variables p n : nat.                                        (* parameters, samples *)
Variable backsolve_tr : 'M[R]_p -> 'M[R]_(p, n) -> 'M[R]_(p, n).   (* cpp_backsolve_tr, oracle *)

(** mu is an int or an array, utils.py:606-607. *)
Inductive mean := MeanInt of int | MeanVec of 'cV[R]_p.

(** Outcome: rows of the returned array or the ValueErrors of utils.py:624-636. *)
Inductive sampled := Raised | Samples of seq 'rV[R]_n.

Definition rows_of (M : 'M[R]_(p, n)) (use : option (seq 'I_p)) : seq 'rV[R]_n :=
  if use is Some u then [seq row i M | i <- u] else [seq row i M | i <- enum 'I_p].

(** mu[:, None] + A: the mean is added to every column, utils.py:656, 672. *)
Definition add_mean (mu : 'cV[R]_p) (A : 'M[R]_(p, n)) : 'M[R]_(p, n) :=
  \matrix_(i, j) (mu i 0 + A i j).

(** sample_MVN, utils.py:624-672.  [z] are the draws of utils.py:645-647.  L and LI are taken
    square.  Taking rows [use] of Cs and of mu and then multiplying (:663-672) is modelled as
    taking those rows of the product.  When mu is an int the product is returned without a mean
    (:653-654, :666-667). *)
Definition sample_MVN (mu : mean) (scale : R) (P L LI : option 'M[R]_p)
    (use : option (seq 'I_p)) (z : 'M[R]_(p, n)) : sampled :=
  match L, LI with
  | None, None => Raised
  | _, Some LIm =>
      let Cs := Num.sqrt scale *: LIm^T in
      let Cs := if P is Some Pm then Pm^T *m Cs else Cs in
      match mu with
      | MeanInt _ => Samples (rows_of (Cs *m z) use)
      | MeanVec m => Samples (rows_of (add_mean m (Cs *m z)) use)
      end
  | Some Lm, None =>
      if P is Some Pm then
        if use is Some _ then Raised
        else
          let Cs := Num.sqrt (1 / scale) *: Lm^T in
          let y := backsolve_tr Cs z in
          match mu with
          | MeanInt _ => Samples (rows_of (Pm^T *m y) None)
          | MeanVec m => Samples (rows_of (add_mean m (Pm^T *m y)) None)
          end
      else Raised
  end.
End Sample.

(** ** Compact symmetric rank one matrices, compact_rep.py:56-313 *)
Section SR1.
Variable F : fieldType.
Variables n m : nat.                (* coefficients; stored pairs are m.+1 (the code indexes s[0]) *)
Variables s y : 'I_m.+1 -> 'rV[F]_n.   (* rows of s and y *)
Variable rho : 'I_m.+1 -> F.

(** np.dot(s[i], y[j]). *)
Definition dot (a b : 'rV[F]_n) : F := \sum_k a 0 k * b 0 k.

(** S = s.T and Y = y.T, compact_rep.py:107-108 and 236-237. *)
Definition Smat : 'M[F]_(n, m.+1) := \matrix_(i, j) s j 0 i.
Definition Ymat : 'M[F]_(n, m.+1) := \matrix_(i, j) y j 0 i.

(** DK, compact_rep.py:111-112, 119 and 240-241, 248: identity with entry k scaled by s[k].y[k]. *)
Definition DK : 'M[F]_m.+1 := \matrix_(i, j) (if i == j then 1 * dot (s i) (y i) else 0).

(** One pass of the loop building R, compact_rep.py:117-133 and 246-262: R0 is bordered by the
    column S[:, :k].T @ Y[:, [k]], a zero row and 1 / rho[k].  A growing array is modelled as a
    function of two indices that is only read below the current size. *)
Definition border (R0 : nat -> nat -> F) (k : 'I_m.+1) : nat -> nat -> F :=
  fun i j =>
    if (i < k)%N && (j < k)%N then R0 i j
    else if (i < k)%N && (j == k) then dot (s (inord i)) (y k)
    else if (i == k) && (j < k)%N then 0
    else if (i == k) && (j == k) then 1 / rho k
    else 0.

(** R after the loop over k = 1 .. m-1; starts from the 1 x 1 array s[0].y[0],
    compact_rep.py:115-133 and 244-262. *)
Definition Rmat : 'M[F]_m.+1 :=
  let R0 := fun _ _ : nat => dot (s ord0) (y ord0) in
  let R := foldl border R0 (behead (enum 'I_m.+1)) in
  \matrix_(i, j) R i j.

Variable inv : 'M[F]_m.+1 -> 'M[F]_m.+1.      (* scp.linalg.inv, oracle *)

(** computeVSR1 without make_psd, compact_rep.py:105-143 and 175-179: (t1, t2, t3). *)
Definition VSR1_terms (V0 : 'M[F]_n) :=
  let YTY := Ymat^T *m V0 *m Ymat in
  let t2 := inv (Rmat + Rmat^T - DK - YTY) in
  let t1 := Smat - V0 *m Ymat in
  (t1, t2, t1^T).
Definition computeVSR1 (V0 : 'M[F]_n) : 'M[F]_n :=
  let '(t1, t2, t3) := VSR1_terms V0 in V0 + t1 *m t2 *m t3.

(** computeHSR1 without make_psd, compact_rep.py:234-272 and 309-313: (t1, t2, t3). *)
Definition HSR1_terms (H0 : 'M[F]_n) :=
  let STS := Smat^T *m H0 *m Smat in
  let L := Smat^T *m Ymat - Rmat in
  let t2 := inv (DK + L + L^T - STS) in
  let t1 := Ymat - H0 *m Smat in
  (t1, t2, t1^T).
Definition computeHSR1 (H0 : 'M[F]_n) : 'M[F]_n :=
  let '(t1, t2, t3) := HSR1_terms H0 in H0 + t1 *m t2 *m t3.
End SR1.

(** make_psd, compact_rep.py:145-173 and 274-307 (same code; only computeHSR1 has make_pd).
    [Q] is the first economic QR factor of t1 = Q Rq and [ev], [P] are the eigenvalues and vectors
    of Rq t2 Rq^T (:147-151, :276-280); both decompositions are oracles whose results are passed
    in. *)
Section MakePsd.
Variable R : realFieldType.
Variables n m : nat.

(** compact_rep.py:153-157 and 282-286. *)
Definition fix_ev (ev : 'rV[R]_m) (omega : R) : 'rV[R]_m :=
  \row_i (if ev 0 i + omega <= 0 then -1 * omega else ev 0 i).

(** np.max(ev + omega), compact_rep.py:291. *)
Definition max_ev (ev : 'rV[R]_m) (omega : R) : R :=
  let l := [seq ev 0 i + omega | i <- enum 'I_m] in foldr Num.max (head 0 l) l.

(** compact_rep.py:289-291; [root_eps] is the square root of the machine epsilon. *)
Definition lift_ev (ev fixed : 'rV[R]_m) (omega root_eps : R) : 'rV[R]_m :=
  \row_i (if ev 0 i + omega <= 0 then fixed 0 i + root_eps * max_ev fixed omega
          else fixed 0 i).

(** The approximation [base] + t1 @ t2 @ t3 with the terms replaced when any eigenvalue needs
    fixing, compact_rep.py:155-179 and 284-313.  [make_pd] is None in computeVSR1 and when the
    argument is False. *)
Definition make_psd (base : 'M[R]_n) (t1 : 'M[R]_(n, m)) (t2 : 'M[R]_m)
    (Q : 'M[R]_(n, m)) (P : 'M[R]_m) (ev : 'rV[R]_m) (omega : R)
    (make_pd : option R) : 'M[R]_n :=
  if [exists i, ev 0 i + omega <= 0] then
    let ev1 := fix_ev ev omega in
    let ev2 := if make_pd is Some root_eps then lift_ev ev ev1 omega root_eps else ev1 in
    base + Q *m P *m diag_mx ev2 *m (P^T *m Q^T)
  else base + t1 *m t2 *m t1^T.
End MakePsd.

(** ** Block Hessian with quasi-Newton Schur complement, computeSH, compact_rep.py:500-644

    After the ordering by P1 the columns are (fcols, acols); nF + nA columns.  [HBB], [HBb] are the
    blocks of onHfd (:528-529), [IHBB] the inverse IonHBB handed in, [H0] and [q1],[q2],[q3] the
    initial matrix and the terms of computeHSR1.  P1 and P2 are permutation and selection matrices
    built from tcols (:516-522, :600-606). *)
Section SH.
Variable F : fieldType.
Variables nF nA m : nat.
Variables (HBB : 'M[F]_nF) (HBb : 'M[F]_(nF, nA)) (IHBB : 'M[F]_nF).
Variables (H0 : 'M[F]_nA) (q1 : 'M[F]_(nA, m)) (q2 : 'M[F]_m) (q3 : 'M[F]_(m, nA)).
Variable tcols : 'I_(nF + nA) -> 'I_(nF + nA).

(** P1, compact_rep.py:516-522. *)
Definition P1 : 'M[F]_(nF + nA) := compute_eigen_perm F tcols.
(** P2: ones at (acols[c], c), compact_rep.py:600-606. *)
Definition P2 : 'M[F]_(nF + nA, nA) := \matrix_(r, c) (r == tcols (rshift nF c))%:R.
(** P3: ones at (nF + c, c), compact_rep.py:574-580. *)
Definition P3 : 'M[F]_(nF + nA, nA) := \matrix_(r, c) (r == rshift nF c)%:R.

(** explicit=True, compact_rep.py:570-593.  onHfd holds HBB, HBb and HBb^T and zeros. *)
Definition SH_explicit : 'M[F]_(nF + nA) :=
  let onHfd := block_mx HBB HBb HBb^T 0 in
  let SonHbbqa := H0 + q1 *m q2 *m q3 in
  let onHbbqa := SonHbbqa + HBb^T *m IHBB *m HBb in
  let onH := onHfd + P3 *m onHbbqa *m P3^T in
  P1 *m onH *m P1^T.

(** The nine matrices of explicit=False, compact_rep.py:609-644. *)
Definition nH1 := P1 *m block_mx HBB 0 0 H0 *m P1^T.
Definition nH2t1 := P2 *m HBb^T.
Definition nH2t2 := IHBB.
Definition nH2t3 := HBb *m P2^T.
Definition nH3t1 : 'M[F]_(nF + nA, nF + nF) := P1 *m block_mx 1%:M 0 0 HBb^T.
Definition nH3t3 : 'M[F]_(nF + nF, nF + nA) := block_mx 0 HBb 1%:M 0 *m P1^T.
Definition nH4t1 := P2 *m q1.
Definition nH4t2 := q2.
Definition nH4t3 := q3 *m P2^T.

(** The return value of explicit=False, compact_rep.py:644, without the dampened case. *)
Record SH_terms := SHTerms {
  sh1 : 'M[F]_(nF + nA);
  sh2t1 : 'M[F]_(nF + nA, nF); sh2t2 : 'M[F]_nF; sh2t3 : 'M[F]_(nF, nF + nA);
  sh3t1 : 'M[F]_(nF + nA, nF + nF); sh3t3 : 'M[F]_(nF + nF, nF + nA);
  sh4t1 : 'M[F]_(nF + nA, m); sh4t2 : 'M[F]_m; sh4t3 : 'M[F]_(m, nF + nA) }.
Definition SH_implicit_terms : SH_terms :=
  SHTerms nH1 nH2t1 nH2t2 nH2t3 nH3t1 nH3t3 nH4t1 nH4t2 nH4t3.
End SH.

(** ** computeSVPS, compact_rep.py:647-892 *)
Section SVPS.
Variable R : rcfType.
Variables n a b c : nat.
Variable cholP : 'M[R]_n -> factor R n.
Variable compute_Linv : 'M[R]_n -> 'M[R]_n.
(** VT.T @ diag(1 / sv) @ U.T with singular values below eps replaced by eps, compact_rep.py:800-805:
    one oracle for each size. *)
Variable svd_inv : forall k, 'M[R]_k -> 'M[R]_k.

(** explicit=True, compact_rep.py:766-892.  The third update is absent ([None]) when
    fully_dampened_HBb.  The code returned by cpp_cholP is ignored (:790). *)
Definition computeSVPS (pre_cond : bool) (h1 S_emb : 'M[R]_n)
    (h2t1 : 'M[R]_(n, a)) (h2t2 : 'M[R]_a) (h2t3 : 'M[R]_(a, n))
    (h3 : option ('M[R]_(n, b) * 'M[R]_(b, n)))
    (h4t1 : 'M[R]_(n, c)) (h4t2 : 'M[R]_c) (h4t3 : 'M[R]_(c, n)) : 'M[R]_n :=
  let nH1S := h1 + S_emb in
  let nHdgr := if pre_cond then precond nH1S else \row_i 1 in
  let D := diag_mx nHdgr in
  let nH1S := D *m nH1S *m D in
  let h2t1 := D *m h2t1 in
  let h2t3 := h2t3 *m D in
  let h4t1 := D *m h4t1 in
  let h4t3 := h4t3 *m D in
  let f := cholP nH1S in
  let LVp0 := compute_Linv (fac_L f) in
  let LV0 := apply_eigen_perm (fac_P f) LVp0 in
  let V0 := LV0^T *m LV0 in
  let inv1t2 := svd_inv (1%:M + h2t2 *m h2t3 *m V0 *m h2t1) in
  let inv1t1 := V0 *m h2t1 in
  let inv1t3 := h2t2 *m (h2t3 *m V0) in
  match h3 with
  | None =>
      let V0nH4t1 := V0 *m h4t1 - inv1t1 *m inv1t2 *m (inv1t3 *m h4t1) in
      let inv3t2 := svd_inv (1%:M + h4t2 *m h4t3 *m V0nH4t1) in
      let inv3t1 := V0nH4t1 in
      let inv3t3 := h4t2 *m (h4t3 *m V0 - h4t3 *m inv1t1 *m inv1t2 *m inv1t3) in
      let V := V0 - inv1t1 *m inv1t2 *m inv1t3 in
      let V := V - inv3t1 *m inv3t2 *m inv3t3 in
      D *m V *m D
  | Some (h3t1, h3t3) =>
      let h3t1 := D *m h3t1 in
      let h3t3 := h3t3 *m D in
      let V0nH3t1 := V0 *m h3t1 - inv1t1 *m inv1t2 *m (inv1t3 *m h3t1) in
      let inv2t2 := svd_inv (1%:M + h3t3 *m V0nH3t1) in
      let inv2t1 := V0nH3t1 in
      let inv2t3 := h3t3 *m V0 - h3t3 *m inv1t1 *m inv1t2 *m inv1t3 in
      let V0nH4t1 := V0 *m h4t1 - inv1t1 *m inv1t2 *m (inv1t3 *m h4t1)
                     - inv2t1 *m inv2t2 *m (inv2t3 *m h4t1) in
      let inv3t2 := svd_inv (1%:M + h4t2 *m h4t3 *m V0nH4t1) in
      let inv3t1 := V0nH4t1 in
      let inv3t3 := h4t2 *m (h4t3 *m V0 - h4t3 *m inv1t1 *m inv1t2 *m inv1t3
                             - h4t3 *m inv2t1 *m inv2t2 *m inv2t3) in
      let V := V0 - inv1t1 *m inv1t2 *m inv1t3 in
      let V := V - inv2t1 *m inv2t2 *m inv2t3 in
      let V := V - inv3t1 *m inv3t2 *m inv3t3 in
      D *m V *m D
  end.
End SVPS.

(** ** Sum-to-zero constraint absorbed through QR, formula.py:1590-1593 and terms.py:1212-1213 *)
Section Absorb.
Variable F : fieldType.
Variables N k : nat.

(** C = np.sum(X, axis=0).reshape(-1, 1), formula.py:1591. *)
Definition column_sums (X : 'M[F]_(N, k.+1)) : 'cV[F]_k.+1 := \col_j \sum_i X i j.

(** Z = Q[:, 1:], formula.py:1592-1593, with Q the full orthogonal factor of C. *)
Definition constraint_Z (Q : 'M[F]_k.+1) : 'M[F]_(k.+1, k) := col' ord0 Q.

(** matrix_term_v @ Z, terms.py:1213. *)
Definition absorb_QR (X : 'M[F]_(N, k.+1)) (Q : 'M[F]_k.+1) : 'M[F]_(N, k) :=
  X *m constraint_Z Q.

(** Penalty and root under the constraint, penalties.py:531-533. *)
Definition absorb_QR_penalty (S : 'M[F]_k.+1) (Q : 'M[F]_k.+1) : 'M[F]_k :=
  (constraint_Z Q)^T *m S *m constraint_Z Q.
Definition absorb_QR_root q (D : 'M[F]_(k.+1, q)) (Q : 'M[F]_k.+1) : 'M[F]_(k, q) :=
  (constraint_Z Q)^T *m D.
End Absorb.
