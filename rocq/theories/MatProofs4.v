From mathcomp Require Import all_ssreflect all_algebra.
From Coq Require Import Ring.
From Verif Require Import MatModel MatSpec MatProofs MatProofs2 MatProofs3.
Set Implicit Arguments.
Unset Strict Implicit.
Unset Printing Implicit Defensive.
Import Order.TTheory GRing.Theory Num.Theory.
Local Open Scope ring_scope.

(** ** Inverse of approximation plus penalty *)
Section SVPS.
Variable R : rcfType.
Variables n a b c : nat.
Variable cholP : 'M[R]_n -> factor R n.
Variable linv : 'M[R]_n -> 'M[R]_n.
Variable svd_inv : forall k, 'M[R]_k -> 'M[R]_k.
Hypothesis svdok : forall k, inv_ok (@svd_inv k).
Hypothesis linvok : linv_ok linv.

(** One update: the inverse of A + U C W from the inverse of A. *)
Lemma update k (A V : 'M[R]_n) (U : 'M[R]_(n, k)) C (W : 'M[R]_(k, n)) :
  A *m V = 1%:M -> A + U *m C *m W \in unitmx ->
  (A + U *m C *m W) *m
    (V - V *m U *m svd_inv (1%:M + C *m W *m V *m U) *m (C *m (W *m V))) = 1%:M.
Proof. by move=> AV u; apply: woodbury => //; apply: svdok; apply: capacitance_unit AV u. Qed.

Lemma diag_sandwich_unit (d : 'rV[R]_n) (A : 'M[R]_n) :
  (forall i, d 0 i != 0) -> A \in unitmx -> diag_mx d *m A *m diag_mx d \in unitmx.
Proof.
move=> nz u; have ud : diag_mx d \in unitmx.
  by rewrite unitmxE det_diag unitfE; apply/prodf_neq0.
by rewrite !unitmx_mul u ud.
Qed.

Section Fixed.
Variables (h1 S : 'M[R]_n) (h2t1 : 'M[R]_(n, a)) (h2t2 : 'M[R]_a) (h2t3 : 'M[R]_(a, n)).
Variables (h4t1 : 'M[R]_(n, c)) (h4t2 : 'M[R]_c) (h4t3 : 'M[R]_(c, n)).
Variable pre : bool.
Let A1 := h1 + S.
Let d := if pre then precond A1 else \row_i 1.
Let D := diag_mx d.
Hypothesis dnz : forall i, A1 i i != 0.
Hypothesis chol : is_factor (D *m A1 *m D) (cholP (D *m A1 *m D)).

Lemma d_nz i : d 0 i != 0.
Proof.
rewrite /d; case: pre; rewrite mxE ?oner_neq0 //.
by rewrite invr_neq0 // sqrtr_eq0 -ltNge normr_gt0 dnz.
Qed.

Lemma D_tr : D^T = D. Proof. exact: tr_diag_mx. Qed.

Lemma distribute k (A : 'M[R]_n) (U : 'M[R]_(n, k)) C (W : 'M[R]_(k, n)) :
  D *m A *m D + (D *m U) *m C *m (W *m D) = D *m (A + U *m C *m W) *m D.
Proof. by rewrite mulmxDr mulmxDl !mulmxA. Qed.

Lemma undo_D A V : D *m A *m D *m V = 1%:M -> A *m (D *m V *m D) = 1%:M.
Proof.
move=> e; have uD : D \in unitmx.
  by rewrite unitmxE det_diag unitfE; apply/prodf_neq0 => i _; exact: d_nz.
have e' := mulmx1C e.
have DI := mulmxV uD; have ID := mulVmx uD.
apply: mulmx1C; rewrite -[LHS]mulmx1 -[X in _ *m X]DI.
have -> : D *m V *m D *m A *m (D *m invmx D) = D *m (V *m (D *m A *m D)) *m invmx D.
  by rewrite !mulmxA.
by rewrite e' mulmx1.
Qed.

Let f := cholP (D *m A1 *m D).
Let LV0 := apply_eigen_perm (fac_P f) (linv (fac_L f)).
Let V0 := LV0^T *m LV0.

Lemma V0_inv : D *m A1 *m D *m V0 = 1%:M.
Proof.
apply: mulmx1C; apply: unpivot_inverse => //.
by case: chol => _ low pos _; apply: linvok.
Qed.

Let A2 := A1 + h2t1 *m h2t2 *m h2t3.

Lemma SVPS_none : A2 \in unitmx -> A2 + h4t1 *m h4t2 *m h4t3 \in unitmx ->
  (A2 + h4t1 *m h4t2 *m h4t3) *m
  computeSVPS (b := b) cholP linv svd_inv pre h1 S h2t1 h2t2 h2t3 None h4t1 h4t2 h4t3 = 1%:M.
Proof.
move=> u2 u4; rewrite /computeSVPS -/A1 -/d -/D -/f -/LV0 -/V0; apply: undo_D.
have V0E := V0_inv; clearbody V0.
have e2 := update V0E; have := e2 _ (D *m h2t1) h2t2 (h2t3 *m D).
rewrite distribute -/A2 => /(_ (diag_sandwich_unit d_nz u2)).
set V1 := V0 - _ => E1.
have := update E1 (U := D *m h4t1) (C := h4t2) (W := h4t3 *m D).
rewrite distribute => /(_ (diag_sandwich_unit d_nz u4)) E2.
rewrite -[RHS]E2; congr (_ *m _); rewrite -/V1.
have -> : V0 *m (D *m h4t1) - V0 *m (D *m h2t1) *m
    svd_inv (1%:M + h2t2 *m (h2t3 *m D) *m V0 *m (D *m h2t1)) *m
    (h2t2 *m (h2t3 *m D *m V0) *m (D *m h4t1)) = V1 *m (D *m h4t1).
  by rewrite /V1 mulmxBl !mulmxA.
have -> : h4t3 *m D *m V0 - h4t3 *m D *m (V0 *m (D *m h2t1)) *m
    svd_inv (1%:M + h2t2 *m (h2t3 *m D) *m V0 *m (D *m h2t1)) *m
    (h2t2 *m (h2t3 *m D *m V0)) = h4t3 *m D *m V1.
  by rewrite /V1 mulmxBr !mulmxA.
by rewrite !mulmxA.
Qed.

Variables (h3t1 : 'M[R]_(n, b)) (h3t3 : 'M[R]_(b, n)).
Let A3 := A2 + h3t1 *m h3t3.

Lemma SVPS_some : A2 \in unitmx -> A3 \in unitmx -> A3 + h4t1 *m h4t2 *m h4t3 \in unitmx ->
  (A3 + h4t1 *m h4t2 *m h4t3) *m
  computeSVPS cholP linv svd_inv pre h1 S h2t1 h2t2 h2t3 (Some (h3t1, h3t3)) h4t1 h4t2 h4t3 = 1%:M.
Proof.
move=> u2 u3 u4; rewrite /computeSVPS -/A1 -/d -/D -/f -/LV0 -/V0; apply: undo_D.
have V0E := V0_inv; clearbody V0.
have := update V0E (U := D *m h2t1) (C := h2t2) (W := h2t3 *m D).
rewrite distribute -/A2 => /(_ (diag_sandwich_unit d_nz u2)).
set X1 := svd_inv _; set V1 := V0 - _ => E1.
have e1 k (U : 'M_(n, k)) : V0 *m U - V0 *m (D *m h2t1) *m X1 *m
    (h2t2 *m (h2t3 *m D *m V0) *m U) = V1 *m U.
  by rewrite /V1 mulmxBl !mulmxA.
have e2 k (U : 'M_(k, n)) : U *m V0 - U *m (V0 *m (D *m h2t1)) *m X1 *m
    (h2t2 *m (h2t3 *m D *m V0)) = U *m V1.
  by rewrite /V1 mulmxBr !mulmxA.
rewrite -/X1 -/V1 !e1 !e2 (mulmxA (h3t3 *m D) V1); clearbody V1 X1.
have := update E1 (U := D *m h3t1) (C := 1%:M) (W := h3t3 *m D).
rewrite distribute mulmx1 -/A3 => /(_ (diag_sandwich_unit d_nz u3)).
rewrite !mul1mx; set X2 := svd_inv _; set V2 := V1 - _ => E2.
have e3 k (U : 'M_(n, k)) : V1 *m U - V1 *m (D *m h3t1) *m X2 *m (h3t3 *m D *m V1 *m U) =
    V2 *m U by rewrite /V2 mulmxBl !mulmxA.
have e4 k (U : 'M_(k, n)) : U *m V1 - U *m (V1 *m (D *m h3t1)) *m X2 *m (h3t3 *m D *m V1) =
    U *m V2 by rewrite /V2 mulmxBr !mulmxA.
rewrite -/X2 -/V2 !e3 !e4; clearbody V2 X2.
have := update E2 (U := D *m h4t1) (C := h4t2) (W := h4t3 *m D).
rewrite distribute => /(_ (diag_sandwich_unit d_nz u4)) E3.
by rewrite -[RHS]E3 !mulmxA.
Qed.
End Fixed.
End SVPS.
