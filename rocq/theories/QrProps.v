(** Theorems about QrModel: C111, C112. *)
From mathcomp Require Import all_ssreflect all_algebra.
From Verif Require Import MatModel MatSpec MatProofs QrModel QrSpec QrProofs QrProofs2 QrProofs3.
Set Implicit Arguments.
Unset Strict Implicit.
Unset Printing Implicit Defensive.
Import Order.TTheory GRing.Theory Num.Theory.
Local Open Scope ring_scope.

(** ** C111: coefficients for given smoothing parameters *)

(** By QR decomposition: for every model matrix, response, penalty with root S_root and every
    rank-revealing decomposition, the update succeeds, as many coefficients are dropped as the rank
    is short of the number of columns, and the coefficients minimise the penalised sum of squares.  They
    are the only minimiser with zeros at the dropped coefficients. *)
Theorem C111_qr (R : rcfType) (n r d : nat)
    (qr : 'M[R]_(n + (r + d), r + d) -> qrfac R n r d) usolve linv
    (y : 'cV[R]_n) (X : 'M[R]_(n, r + d)) (S S_root : 'M[R]_(r + d)) :
  usolve_ok usolve -> linv_nz linv -> is_qr (col_mx X S_root^T) (qr (col_mx X S_root^T)) ->
  (forall i j, \sum_k S_root i k * S_root j k = S i j) ->
  exists s, update_coef_qr qr usolve linv y X S_root = Some s /\ splits s d /\ best y X S s.
Proof.
move=> u l f s; have [x [e [h1 h2 _ _]]] := solution_qr (S := S) y u l f s.
by exists x.
Qed.
Print Assumptions C111_qr.

(** By Cholesky decomposition, if the decomposition succeeds. *)
Theorem C111_chol (R : rcfType) (n p : nat) (llt : 'M[R]_p -> factor R p) llt_solve linv
    (y : 'cV[R]_n) (X : 'M[R]_(n, p)) (S : 'M[R]_p) :
  cholP_ok llt -> linv_nz linv ->
  (forall A b, fac_code (llt A) = 0%N -> A *m llt_solve A b = b) ->
  fac_code (llt (X^T *m X + S)) = 0%N ->
  best y X S (update_coef_chol llt llt_solve linv y X S).
Proof. by move=> c l s h; have [_ b _ _] := solution_chol y c l s h. Qed.
Print Assumptions C111_chol.

(** C111 fails for the Cholesky branch when the decomposition fails, as it must for two equal columns without a
    penalty: the coefficients are zero although others fit better, without any error. *)
Theorem C111_chol_refuted (R : rcfType) (llt : 'M[R]_2 -> factor R 2) llt_solve linv :
  cholP_ok llt ->
  exists (y : 'cV[R]_1) (X : 'M[R]_(1, 2)) (S : 'M[R]_2) b,
    let s := update_coef_chol llt llt_solve linv y X S in
    s_coef s = 0 /\ penalised_ss y X S b < penalised_ss y X S (s_coef s).
Proof.
move=> c; exists (const_mx 1), (const_mx 1), 0.
have [c0 [b h]] := solution_unfit llt_solve linv c.
by exists b.
Qed.
Print Assumptions C111_chol_refuted.

(** ** C112: the factor and its inverse *)

(** By QR decomposition: L L^T is the penalised cross-product matrix for the kept coefficients and zero for
    dropped ones; InvCholXXS^T InvCholXXS inverts the former. *)
Theorem C112_qr (R : rcfType) (n r d : nat)
    (qr : 'M[R]_(n + (r + d), r + d) -> qrfac R n r d) usolve linv
    (y : 'cV[R]_n) (X : 'M[R]_(n, r + d)) (S S_root : 'M[R]_(r + d)) s :
  usolve_ok usolve -> linv_nz linv -> is_qr (col_mx X S_root^T) (qr (col_mx X S_root^T)) ->
  (forall i j, \sum_k S_root i k * S_root j k = S i j) ->
  update_coef_qr qr usolve linv y X S_root = Some s ->
  factor_of X S s /\ inverse_of X S s.
Proof.
by move=> u l f h; have [x [-> [_ _ h1 h2]]] := solution_qr (S := S) y u l f h; case=> <-.
Qed.
Print Assumptions C112_qr.

Theorem C112_chol (R : rcfType) (n p : nat) (llt : 'M[R]_p -> factor R p) llt_solve linv
    (y : 'cV[R]_n) (X : 'M[R]_(n, p)) (S : 'M[R]_p) :
  cholP_ok llt -> linv_nz linv ->
  (forall A b, fac_code (llt A) = 0%N -> A *m llt_solve A b = b) ->
  fac_code (llt (X^T *m X + S)) = 0%N ->
  let s := update_coef_chol llt llt_solve linv y X S in factor_of X S s /\ inverse_of X S s.
Proof. by move=> c l s h; have [_ _ f i] := solution_chol y c l s h. Qed.
Print Assumptions C112_chol.

(** C112 fails when the Cholesky decomposition fails: the factor is a permutation matrix. *)
Theorem C112_chol_refuted (R : rcfType) (llt : 'M[R]_2 -> factor R 2) llt_solve linv :
  cholP_ok llt -> (forall A, injective (fac_P (llt A))) ->
  exists (y : 'cV[R]_1) (X : 'M[R]_(1, 2)) (S : 'M[R]_2),
    ~ factor_of X S (update_coef_chol llt llt_solve linv y X S).
Proof.
by move=> c h; exists (const_mx 1), (const_mx 1), 0; exact: solution_unfactored.
Qed.
Print Assumptions C112_chol_refuted.

(** Two equal columns without penalty: rank 1, the second column is moved to the front and the first is
    dropped. *)
Example C111_case (R : rcfType) : let A := col_mx (const_mx 1 : 'M[R]_(1, 1 + 1)) (0 : 'M[R]_(1 + 1)) in
  is_qr A (QrFac (r := 1) (d := 1) (@rev_ord (1 + 1)) id (\matrix_(i, j) (i == 0)%:R : 'M[R]_(1 + (1 + 1), 1)) 1%:M) /\
  usolve_ok (fun (U : 'M[R]_1) b => invmx U *m b) /\ linv_nz (@invmx R 1).
Proof.
split; [|split].
- split=> //=.
  + exact: rev_ord_inj.
  + apply/matrixP => i j; rewrite !ord1 !mxE !big_ord_recl big_ord0 !mxE /=.
    by rewrite !(mulr1, mulr0, addr0).
  + by split=> [i j|i]; rewrite !ord1 // mxE oner_eq0.
  exists 1%:M => i j.
  rewrite big_ord_recl big_ord0 addr0.
  have -> : row_mx (1%:M : 'M[R]_1) 1%:M ord0 j = 1.
    by case: (split_ordP j) => k ->; rewrite ?row_mxEl ?row_mxEr !ord1 mxE.
  rewrite mulr1; case: (split_ordP i) => k ->; rewrite ?col_mxEu ?col_mxEd [LHS]mxE [RHS]mxE.
    by rewrite !ord1.
  by rewrite -(inj_eq val_inj).
- move=> U b low nz; rewrite mulmxA mulmxV ?mul1mx //.
  by rewrite -unitmx_tr; apply: lower_unit => // i; rewrite mxE.
- by move=> L low nz; apply: mulmxV; exact: lower_unit.
Qed.

(** One column. *)
Example C111_chol_case (R : rcfType) :
  let llt := fun A : 'M[R]_1 =>
    Factor (const_mx (Num.sqrt (A 0 0))) id (if 0 < A 0 0 then 0%N else 1%N) in
  let X := const_mx 1 : 'M[R]_(1, 1) in
  [/\ cholP_ok llt, linv_nz (@invmx R 1),
      (forall A b, fac_code (llt A) = 0%N -> A *m (invmx A *m b) = b :> 'cV[R]_1) &
      fac_code (llt (X^T *m X + 0)) = 0%N].
Proof.
split.
- move=> A /=; case: ifP => // pos _; split=> //=.
  + by move=> i j; rewrite !ord1.
  + by move=> i; rewrite mxE sqrtr_gt0.
  by move=> i j; rewrite !ord1 big_ord_recl big_ord0 !mxE addr0 -expr2 sqr_sqrtr // ltW.
- by move=> L low nz; apply: mulmxV; exact: lower_unit.
- move=> A b /=; case: ifP => // pos _; rewrite mulmxA mulmxV ?mul1mx //.
  apply: lower_unit => [i j|i]; rewrite !ord1 //; exact: lt0r_neq0.
- by rewrite /= addr0 mxE big_ord_recl big_ord0 !mxE mulr1 addr0 ltr01.
Qed.
