(** Theorems about MatModel: C34-C38, C39 (constraint through QR), C75-C77. *)
From mathcomp Require Import all_ssreflect all_algebra.
From Verif Require Import MatModel MatSpec MatProofs MatProofs2 MatProofs3 MatProofs4 MatProofs5.
Set Implicit Arguments.
Unset Strict Implicit.
Unset Printing Implicit Defensive.
Import Order.TTheory GRing.Theory Num.Theory.
Local Open Scope ring_scope.

(** ** C34: compact symmetric rank one matrices *)

(** The Hessian approximation maps the most recent step to the most recent gradient change and is
    symmetric, for any number of stored pairs. *)
Theorem C34_hessian (F : fieldType) n m (s y : 'I_m.+1 -> 'rV[F]_n) rho inv (H0 : 'M[F]_n) :
  (forall k, rho k = 1 / dot (s k) (y k)) -> inv_ok inv -> H0^T = H0 ->
  sr1_H_middle s y H0 \in unitmx ->
  let H := computeHSR1 s y rho inv H0 in
  H *m (s ord_max)^T = (y ord_max)^T /\ H^T = H.
Proof.
move=> rE iok Hs; rewrite -(middle_H rE) => u.
by split; [exact: HSR1_secant|exact: HSR1_sym].
Qed.

(** The same for the inverse, which maps the gradient change to the step. *)
Theorem C34_inverse_secant (F : fieldType) n m (s y : 'I_m.+1 -> 'rV[F]_n) rho inv (V0 : 'M[F]_n) :
  (forall k, rho k = 1 / dot (s k) (y k)) -> inv_ok inv -> V0^T = V0 ->
  sr1_V_middle s y V0 \in unitmx ->
  let V := computeVSR1 s y rho inv V0 in
  V *m (y ord_max)^T = (s ord_max)^T /\ V^T = V.
Proof.
move=> rE iok Vs; rewrite -(middle_V rE) => u.
by split; [exact: VSR1_secant|exact: VSR1_sym].
Qed.

(** Hessian and inverse Hessian started from mutually inverse matrices are mutually inverse. *)
Theorem C34_mutually_inverse (F : fieldType) n m (s y : 'I_m.+1 -> 'rV[F]_n) rho inv
    (H0 V0 : 'M[F]_n) :
  (forall k, rho k = 1 / dot (s k) (y k)) -> inv_ok inv ->
  H0^T = H0 -> V0^T = V0 -> H0 *m V0 = 1%:M ->
  sr1_H_middle s y H0 \in unitmx -> sr1_V_middle s y V0 \in unitmx ->
  computeHSR1 s y rho inv H0 *m computeVSR1 s y rho inv V0 = 1%:M.
Proof.
move=> rE iok Hs Vs HV; rewrite -(middle_H rE) -(middle_V rE) => uM uN; exact: SR1_inverse.
Qed.

Lemma diag_unit2 (F : fieldType) n (A : 'M[F]_n) (d : 'I_n -> F) :
  (forall i j, A i j = if i == j then d i else 0) -> (forall i, d i != 0) -> A \in unitmx.
Proof.
move=> e nz; have -> : A = diag_mx (\row_i d i).
  by apply/matrixP => i j; rewrite e !mxE; case: eqP => [->|]; rewrite ?mulr1n ?mulr0n.
by rewrite unitmxE det_diag unitfE; apply/prodf_neq0 => i _; rewrite mxE.
Qed.

(** Two stored pairs in two dimensions: steps e_0, e_1 with gradient changes 2 e_0, 3 e_1. *)
Definition ex_s : 'I_2 -> 'rV[rat]_2 := fun k => delta_mx 0 k.
Definition ex_y : 'I_2 -> 'rV[rat]_2 := fun k => (k.+2)%:R *: delta_mx 0 k.

Lemma ex_dot i j : dot (ex_s i) (ex_y j) = if i == j then (i.+2)%:R else 0.
Proof.
rewrite /dot /ex_s /ex_y (bigD1 i) //= !mxE !eqxx /= mul1r big1 ?addr0.
  by case: (eqVneq i j) => [->|ne]; rewrite ?mulr1 // mulr0.
by move=> k /negbTE ne; rewrite !mxE ne andbF mul0r.
Qed.

Lemma ex_quad_s i j : (ex_s i *m 1%:M *m (ex_s j)^T) 0 0 = (i == j)%:R.
Proof.
by rewrite mulmx1 trmx_delta mul_delta_mx_cond; case: eqP; rewrite ?mulr1n ?mulr0n mxE.
Qed.

Lemma ex_quad_y i j :
  (ex_y i *m 1%:M *m (ex_y j)^T) 0 0 = if i == j then (i.+2)%:R * (i.+2)%:R else 0.
Proof.
rewrite mulmx1 /ex_y -scalemxAl mxE linearZ /= -scalemxAr mxE trmx_delta mul_delta_mx_cond.
by case: eqP => [->|_]; rewrite ?mulr1n ?mulr0n mxE ?eqxx ?mulr1 ?mulr0.
Qed.

Example C34_two_pairs :
  let rho := fun k => 1 / dot (ex_s k) (ex_y k) in
  [/\ sr1_H_middle ex_s ex_y 1%:M \in unitmx, sr1_V_middle ex_s ex_y 1%:M \in unitmx &
      computeHSR1 ex_s ex_y rho invmx 1%:M *m computeVSR1 ex_s ex_y rho invmx 1%:M = 1%:M].
Proof.
move=> rho.
have u1 : sr1_H_middle ex_s ex_y 1%:M \in unitmx.
  apply: (@diag_unit2 _ _ _ (fun i : 'I_2 => (i.+2)%:R - 1)) => [i j|i].
    rewrite mxE !ex_dot ex_quad_s (eq_sym j i); case: (eqVneq i j) => [->|ne].
      by rewrite ltnn.
    by rewrite if_same subr0.
  by rewrite subr_eq0; case: i => [[|[|]]].
have u2 : sr1_V_middle ex_s ex_y 1%:M \in unitmx.
  apply: (@diag_unit2 _ _ _ (fun i : 'I_2 => (i.+2)%:R - (i.+2)%:R * (i.+2)%:R)) => [i j|i].
    rewrite mxE !ex_dot ex_quad_y (eq_sym j i); case: (eqVneq i j) => [->|ne].
      by rewrite ltnn.
    by rewrite if_same subr0.
  by rewrite subr_eq0; case: i => [[|[|]]].
have iok : inv_ok (@invmx [fieldType of rat] 2) by move=> A uA; rewrite mulmxV.
by split=> //; apply: C34_mutually_inverse => //; rewrite ?trmx1 ?mulmx1.
Qed.

(** ** Routines used by the examples: factorisation, inversion and solving in dimension one *)
Definition chol1 (R : rcfType) (A : 'M[R]_1) : factor R 1 :=
  if 0 < A 0 0 then Factor (Num.sqrt (A 0 0))%:M id 0%N else Factor 1%:M id 1%N.

Lemma chol1_ok (R : rcfType) : cholP_ok (@chol1 R).
Proof.
move=> A; rewrite /chol1; case: ifP => // pos _; split => /=.
- by move=> i j.
- by move=> i j; rewrite !ord1.
- by move=> i; rewrite !ord1 mxE eqxx mulr1n sqrtr_gt0.
- by move=> i j; rewrite !ord1 big_ord1 !mxE eqxx mulr1n -expr2 sqr_sqrtr // ltW.
Qed.

Lemma invmx_linv_ok (R : rcfType) n : linv_ok (@invmx R n).
Proof. by move=> L low pos; rewrite mulmxV // lower_unit // => i; apply: lt0r_neq0. Qed.

Lemma invmx_backsolve_ok (R : rcfType) p n : backsolve_ok (fun (U : 'M[R]_p) C => invmx U *m C : 'M[R]_(p, n)).
Proof.
move=> U C low nz; rewrite mulmxA mulmxV ?mul1mx // -unitmx_tr lower_unit // => i.
by rewrite mxE.
Qed.

Lemma invmx_inv_ok (F : fieldType) n : inv_ok (@invmx F n).
Proof. by move=> A u; rewrite mulmxV. Qed.

(** ** C35: inverse of the approximated Hessian plus penalty *)

(** Without the third term (fully dampened): the result is the inverse of the sum. *)
Theorem C35_inverse_dampened (R : rcfType) n a b c cholP linv svd_inv pre
    (h1 S : 'M[R]_n) (h2t1 : 'M[R]_(n, a)) h2t2 h2t3 (h4t1 : 'M[R]_(n, c)) h4t2 h4t3 :
  linv_ok linv -> (forall k, inv_ok (@svd_inv k)) ->
  let A1 := h1 + S in
  let D := diag_mx (if pre then \row_i (Num.sqrt `|A1 i i|)^-1 else \row_i 1) in
  (forall i, A1 i i != 0) -> is_factor (D *m A1 *m D) (cholP (D *m A1 *m D)) ->
  let A2 := A1 + h2t1 *m h2t2 *m h2t3 in
  let A4 := A2 + h4t1 *m h4t2 *m h4t3 in
  A2 \in unitmx -> A4 \in unitmx ->
  A4 *m computeSVPS (b := b) cholP linv svd_inv pre h1 S h2t1 h2t2 h2t3 None h4t1 h4t2 h4t3 = 1%:M.
Proof. by move=> lok sok A1 D nz fac A2 A4 u2 u4; apply: SVPS_none. Qed.

(** With all four terms. *)
Theorem C35_inverse (R : rcfType) n a b c cholP linv svd_inv pre
    (h1 S : 'M[R]_n) (h2t1 : 'M[R]_(n, a)) h2t2 h2t3 (h3t1 : 'M[R]_(n, b)) h3t3
    (h4t1 : 'M[R]_(n, c)) h4t2 h4t3 :
  linv_ok linv -> (forall k, inv_ok (@svd_inv k)) ->
  let A1 := h1 + S in
  let D := diag_mx (if pre then \row_i (Num.sqrt `|A1 i i|)^-1 else \row_i 1) in
  (forall i, A1 i i != 0) -> is_factor (D *m A1 *m D) (cholP (D *m A1 *m D)) ->
  let A2 := A1 + h2t1 *m h2t2 *m h2t3 in
  let A3 := A2 + h3t1 *m h3t3 in
  let A4 := A3 + h4t1 *m h4t2 *m h4t3 in
  A2 \in unitmx -> A3 \in unitmx -> A4 \in unitmx ->
  A4 *m computeSVPS cholP linv svd_inv pre h1 S h2t1 h2t2 h2t3 (Some (h3t1, h3t3)) h4t1 h4t2 h4t3
    = 1%:M.
Proof. by move=> lok sok A1 D nz fac A2 A3 A4 u2 u3 u4; apply: SVPS_some. Qed.

Lemma nat_unit1 (R : rcfType) k : (k.+1%:R%:M : 'M[R]_1) \in unitmx.
Proof. by rewrite unitmxE det_scalar unitfE expf_neq0 // pnatr_eq0. Qed.

(** (2 + 1) + 1 + 1 + 1 = 6 with every routine meeting its contract: the result is 1/6. *)
Example C35_one_coefficient (R : rcfType) :
  computeSVPS (@chol1 R) invmx (fun k => @invmx R k) true 2%:R%:M 1%:M 1%:M 1%:M 1%:M
    (Some (1%:M, 1%:M)) 1%:M 1%:M 1%:M = (6%:R^-1)%:M.
Proof.
have n1 k : (k%:R%:M + 1%:M : 'M[R]_1) = k.+1%:R%:M by rewrite -raddfD /= -(natrD _ k 1) addn1.
have n2 : (1%:M : 'M[R]_1) = 1%:M *m 1%:M *m 1%:M by rewrite !mulmx1.
set V := computeSVPS _ _ _ _ _ _ _ _ _ _ _ _ _.
have e : (6%:R%:M : 'M[R]_1) *m V = 1%:M.
  have := @C35_inverse R 1 1 1 1 (@chol1 R) invmx (fun k => @invmx R k) true 2%:R%:M 1%:M 1%:M
    1%:M 1%:M 1%:M 1%:M 1%:M 1%:M 1%:M (@invmx_linv_ok _ _) (@invmx_inv_ok R).
  rewrite -/V; clearbody V; rewrite /= !mulmx1 !n1.
  apply; rewrite ?nat_unit1 //.
    by move=> i; rewrite ord1 mxE eqxx mulr1n pnatr_eq0.
  apply: chol1_ok; rewrite /chol1 ifT // mul_mx_diag mul_diag_mx !mxE eqxx mulr1n.
  have p : 0 < (Num.sqrt `|3%:R : R|)^-1 by rewrite invr_gt0 sqrtr_gt0 normr_gt0 pnatr_eq0.
  by rewrite !mulr_gt0 // ltr0n.
have -> : V = invmx 6%:R%:M.
  by rewrite -[LHS]mul1mx -(mulVmx (nat_unit1 R 5)) -mulmxA e mulmx1.
by rewrite invmx_scalar.
Qed.

(** The code reported by the factorisation is not looked at.  A factorisation that fails as Eigen's
    does and leaves some factor behind gives a matrix that inverts nothing: h1 + S = -1. *)
Theorem C35_failed_factor_refuted (R : rcfType) :
  exists cholP linv svd_inv (h1 S : 'M[R]_1),
    [/\ cholP_ok cholP, linv_ok linv, (forall k, inv_ok (@svd_inv k)),
        (h1 + S \in unitmx) &
        (h1 + S) *m computeSVPS (a := 1) (b := 1) (c := 1) cholP linv svd_inv true h1 S 0 0 0 None 0 0 0
          != 1%:M].
Proof.
exists (@chol1 R), invmx, (fun k => @invmx R k), (-1)%:M, 0; split.
- exact: chol1_ok.
- exact: invmx_linv_ok.
- exact: invmx_inv_ok.
- by rewrite addr0 unitmxE det_scalar unitfE expf_neq0 // oppr_eq0 oner_neq0.
rewrite /computeSVPS addr0 !(mulmx0, mul0mx, addr0, subr0).
have d1 : precond (-1)%:M = \row_i 1 :> 'rV[R]_1.
  by apply/rowP => i; rewrite !mxE eqxx mulr1n normrN1 sqrtr1 invr1.
rewrite d1.
have -> : diag_mx (\row_(i < 1) 1) = 1%:M :> 'M[R]_1.
  by apply/matrixP => i j; rewrite !mxE.
rewrite !(mul1mx, mulmx1) /chol1 mxE eqxx mulr1n ifF; last by rewrite oppr_gt0 ltr10.
rewrite /= invmx1 /apply_eigen_perm mul1mx.
have -> : compute_eigen_perm R id = 1%:M :> 'M[R]_1 by apply/matrixP => i j; rewrite !mxE.
rewrite trmx1 !mulmx1; apply/eqP => /matrixP/(_ 0 0); rewrite !mxE eqxx !mulr1n => /eqP.
by rewrite -subr_eq0 -opprD oppr_eq0 -(natrD _ 1 1) pnatr_eq0.
Qed.

(** ** C36: the Newton step *)

(** Whenever the loop ends, the step solves the ridge-augmented penalised system, the returned factor
    multiplies to its matrix and the returned root to its inverse, and the ridge is the first one on
    the ladder 0, 1e-14, 2e-14, 4e-14, ... for which the factorisation succeeded. *)
Theorem C36_newton_step (R : rcfType) n cholP linv fuel (coef grad : 'cV[R]_n) (H S : 'M[R]_n) c1 Lr LV eps :
  cholP_ok cholP -> linv_ok linv -> (forall i, (S - H) i i != 0) ->
  newton_coef_smooth cholP linv fuel coef grad H S = Some (c1, Lr, LV, eps) ->
  let A := S - H + eps *: abs_diag (S - H) in
  let D := diag_mx (\row_i (Num.sqrt `|(S - H) i i|)^-1) in
  let tried k := fac_code (cholP (D *m (S - H) *m D + ladder R k *: 1%:M)) in
  [/\ A *m (c1 - coef) = grad - S *m coef, Lr *m Lr^T = A, LV^T *m LV *m A = 1%:M &
      exists j, [/\ eps = ladder R j, tried j = 0%N & forall i, (i < j)%N -> tried i <> 0%N]].
Proof.
move=> cok lok nz run A D tried.
have e : (-1) *: H + S = S - H by rewrite scaleN1r addrC.
have nz' i : ((-1) *: H + S) i i != 0 by rewrite e.
have [a1 a2 a3 [j [jE [jc jb]]]] := newton_correct nz' cok lok run.
split=> //; exists j; move: jc jb; rewrite e jE -/D => jc jb; split=> //.
Qed.

(** The loop ends as soon as one ridge on the ladder works. *)
Theorem C36_terminates (R : rcfType) n cholP linv (coef grad : 'cV[R]_n) (H S : 'M[R]_n) j :
  let D := diag_mx (\row_i (Num.sqrt `|(S - H) i i|)^-1) in
  fac_code (cholP (D *m (S - H) *m D + ladder R j *: 1%:M)) = 0%N ->
  exists r, newton_coef_smooth cholP linv j.+1 coef grad H S = Some r.
Proof.
have e : (-1) *: H + S = S - H by rewrite scaleN1r addrC.
move=> D ok; have [f [eps]] := newton_loop_stops ok (leq0n j).
rewrite subn0 /newton_coef_smooth e -/D -/(precond _) => run; rewrite -/D run /=.
by eexists.
Qed.

(** H = -3, S = 1, gradient 5, coefficient 1: the step is (5 - 1) / 4 = 1, without ridge. *)
Example C36_one_coefficient (R : rcfType) :
  exists Lr LV, newton_coef_smooth (@chol1 R) invmx 1 1%:M 5%:R%:M (- 3%:R%:M) 1%:M
    = Some (2%:R%:M, Lr, LV, 0) /\ Lr *m Lr^T = 4%:R%:M.
Proof.
have e : 1%:M - (- 3%:R%:M) = 4%:R%:M :> 'M[R]_1.
  by rewrite opprK -raddfD /= -(natrD _ 1 3).
have nz i : (1%:M - (- 3%:R%:M) : 'M[R]_1) i i != 0 by rewrite e ord1 mxE eqxx mulr1n pnatr_eq0.
set D := diag_mx (\row_i (Num.sqrt `|(1%:M - (- 3%:R%:M) : 'M[R]_1) i i|)^-1).
have ok : fac_code (chol1 (D *m (1%:M - (- 3%:R%:M)) *m D + ladder R 0 *: 1%:M)) = 0%N.
  rewrite /D e scale0r addr0 /chol1 ifT // mul_mx_diag mul_diag_mx !mxE eqxx mulr1n.
  have p : 0 < (Num.sqrt `|4%:R : R|)^-1 by rewrite invr_gt0 sqrtr_gt0 normr_gt0 pnatr_eq0.
  by rewrite !mulr_gt0 // ltr0n.
have [[[[c1 Lr] LV] eps] run] := @C36_terminates R 1 (@chol1 R) invmx 1%:M 5%:R%:M _ _ 0 ok.
have [a1 a2 a3 [j [jE jc jb]]] := C36_newton_step (@chol1_ok R) (@invmx_linv_ok R 1) nz run.
have j0 : j = 0%N by case: j jb {jE jc} => // j /(_ 0%N isT); rewrite -/D ok.
move: a1 a2; rewrite jE j0 scale0r addr0 e mulmx1 => a1 a2.
exists Lr, LV; split=> //; rewrite run jE j0; congr (Some (_, _, _, _)).
have u := nat_unit1 R 3.
have -> : c1 = 1%:M + invmx 4%:R%:M *m (4%:R%:M *m (c1 - 1%:M)).
  by rewrite mulmxA mulVmx // mul1mx addrC subrK.
rewrite a1 -raddfB /= -(natrB _ (_ : 1 <= 5)%N) // mulVmx // -raddfD /=.
by rewrite -(natrD _ 1 1).
Qed.

(** ** C37: posterior samples *)

(** Rows of mean plus M z, all of them or those asked for. *)
Definition mean_plus (R : rcfType) p n (mu : 'cV[R]_p) (M : 'M[R]_p) (use : option (seq 'I_p))
    (z : 'M[R]_(p, n)) : seq 'rV[R]_n :=
  [seq \row_j (mu i 0 + \sum_k M i k * z k j) | i <- if use is Some u then u else enum 'I_p].

Lemma rows_of_mean (R : rcfType) p n (mu : 'cV[R]_p) (M : 'M[R]_p) use (z : 'M[R]_(p, n)) :
  rows_of (add_mean mu (M *m z)) use = mean_plus mu M use z.
Proof.
have e i : row i (add_mean mu (M *m z)) = \row_j (mu i 0 + \sum_k M i k * z k j).
  by apply/rowP => j; rewrite !mxE.
by case: use => [u|] /=; apply: eq_map => i; rewrite e.
Qed.

Lemma gram_scale (R : rcfType) p (s : R) (B : 'M[R]_p) : 0 <= s ->
  (Num.sqrt s *: B) *m (Num.sqrt s *: B)^T = s *: (B *m B^T).
Proof.
move=> s0; have -> : (Num.sqrt s *: B)^T = Num.sqrt s *: B^T by rewrite linearZ.
by rewrite -scalemxAl -scalemxAr scalerA -expr2 sqr_sqrtr.
Qed.

(** Inverse root LI, already in the original order (no P). *)
Theorem C37_inverse_root (R : rcfType) p n backsolve mu scale L (LI A : 'M[R]_p) use :
  0 <= scale -> LI^T *m LI *m A = 1%:M ->
  exists M, A *m (M *m M^T) = scale%:M /\
    forall z, sample_MVN (n := n) backsolve (MeanVec mu) scale None L (Some LI) use z
      = Samples (mean_plus mu M use z).
Proof.
move=> s0 inv; exists (Num.sqrt scale *: LI^T); split; last first.
  by move=> z; rewrite /sample_MVN -rows_of_mean; case: L.
rewrite gram_scale // trmxK -scalemxAr.
by rewrite (mulmx1C inv) scalemx1.
Qed.

(** Inverse of the pivoted factor together with the permutation. *)
Theorem C37_pivoted_inverse_root (R : rcfType) p n backsolve mu scale L (LI A : 'M[R]_p) f use :
  0 <= scale -> is_factor A f -> fac_L f *m LI = 1%:M ->
  exists M, A *m (M *m M^T) = scale%:M /\
    forall z, sample_MVN (n := n) backsolve (MeanVec mu) scale
                (Some (compute_eigen_perm R (fac_P f))) L (Some LI) use z
      = Samples (mean_plus mu M use z).
Proof.
move=> s0 fA e; set P := compute_eigen_perm R (fac_P f).
have inv := unpivot_inverse fA e.
exists (P^T *m (Num.sqrt scale *: LI^T)); split; last first.
  by move=> z; rewrite /sample_MVN -rows_of_mean; case: L.
rewrite -scalemxAr gram_scale // trmx_mul !trmxK -scalemxAr.
have -> : P^T *m LI^T *m (LI *m P) = (apply_eigen_perm (fac_P f) LI)^T *m apply_eigen_perm (fac_P f) LI.
  by rewrite /apply_eigen_perm trmx_mul.
by rewrite (mulmx1C inv) scalemx1.
Qed.

(** The pivoted factor itself together with the permutation. *)
Theorem C37_pivoted_factor (R : rcfType) p n backsolve mu scale (A : 'M[R]_p) f :
  backsolve_ok backsolve -> 0 < scale -> is_factor A f ->
  exists M, A *m (M *m M^T) = scale%:M /\
    forall z, sample_MVN (n := n) backsolve (MeanVec mu) scale
                (Some (compute_eigen_perm R (fac_P f))) (Some (fac_L f)) None None z
      = Samples (mean_plus mu M None z).
Proof.
move=> bok s0 fA; set P := compute_eigen_perm R (fac_P f).
have uL := factor_unit fA; have inv := unpivot_inverse fA (mulmxV uL).
exists (P^T *m (Num.sqrt scale *: (invmx (fac_L f))^T)); split; last first.
  move=> z; case: (fA) => _ low pos _.
  by rewrite /sample_MVN backsolve_linear // -rows_of_mean -/P !mulmxA.
set LI := invmx _; rewrite -scalemxAr gram_scale ?ltW // trmx_mul !trmxK -scalemxAr.
have -> : P^T *m LI^T *m (LI *m P) = (apply_eigen_perm (fac_P f) LI)^T *m apply_eigen_perm (fac_P f) LI.
  by rewrite /apply_eigen_perm trmx_mul.
by rewrite (mulmx1C inv) scalemx1.
Qed.

(** Exactly the unusable combinations of arguments are refused. *)
Theorem C37_refuses (R : rcfType) p n backsolve mu scale (P L LI : option 'M[R]_p) use z :
  sample_MVN (n := n) backsolve mu scale P L LI use z = Raised R n <->
  LI = None /\ (L = None \/ P = None \/ use <> None).
Proof.
split.
  case: LI => [LI|]; first by case: L; case: mu.
  case: L => [L|] /=; last by split=> //; left.
  case: P => [P|] /=; last by split=> //; right; left.
  case: use => [u|] /=; last by case: mu.
  by split=> //; right; right.
case=> ->; case: L => [L|//] [//|[->//|]] /=; case: P => [P|//].
by case: use.
Qed.

(** A = 4 = 2 * 2: the draw 6 becomes 1 + 6 / 2. *)
Example C37_one_coefficient (R : rcfType) :
  let f := Factor 2%:R%:M id 0 in
  is_factor (4%:R%:M : 'M[R]_1) f /\
  sample_MVN (n := 1) (fun U C => invmx U *m C) (MeanVec 1%:M) 1
     (Some (compute_eigen_perm R (fac_P f))) None (Some (2%:R^-1)%:M) None 6%:R%:M
  = Samples [:: 4%:R%:M].
Proof.
split.
  split=> /=.
  - by move=> i j.
  - by move=> i j; rewrite !ord1.
  - by move=> i; rewrite !ord1 mxE eqxx mulr1n ltr0n.
  - by move=> i j; rewrite !ord1 big_ord1 !mxE eqxx !mulr1n -natrM.
rewrite /sample_MVN rows_of_mean /mean_plus enum_ordS enum_ord0 /=; congr (Samples [:: _]).
apply/rowP => j; rewrite ord1 !mxE big_ord1 !mxE big_ord1 !mxE /=.
rewrite [j]ord1 sqrtr1 eqxx !mulr1n !mul1r.
apply: (mulfI (_ : 2%:R != 0 :> R)); first by rewrite pnatr_eq0.
by rewrite mulrDr mulrA mulfV ?pnatr_eq0 // mulr1 mul1r -natrD -natrM.
Qed.

(** An integer mean other than zero is documented and accepted but dropped. *)
Theorem C37_int_mean_refuted (R : rcfType) :
  exists (mu : int) (LI z : 'M[R]_1),
    sample_MVN (n := 1) (fun U C => invmx U *m C) (MeanInt R 1 mu) 1 None None (Some LI) None z
    <> Samples (mean_plus (\col_i mu%:~R) LI^T None z).
Proof.
exists 3, 1%:M, 0; rewrite /sample_MVN /mean_plus /rows_of enum_ordS enum_ord0 /= mulmx0 trmx1.
case=> /rowP/(_ 0); rewrite !mxE big1 ?addr0; last by move=> k _; rewrite !mxE mulr0.
by move/esym/eqP; rewrite -[_ == 0]/(3%:~R == 0) intr_eq0.
Qed.

(** ** C38: permutations *)

(** The permutation matrix is orthogonal, multiplying by it from the right reads columns through the
    permutation, from the left it sends row i to row Pr i, and its transpose undoes both. *)
Theorem C38_permutation (F : fieldType) n m (Pr : 'I_n -> 'I_n) (A : 'M[F]_(m, n)) (B : 'M[F]_(n, m)) :
  injective Pr ->
  let P := compute_eigen_perm F Pr in
  [/\ (forall i c, apply_eigen_perm Pr A i c = A i (Pr c)),
      (forall i c, (P *m B) (Pr i) c = B i c), (forall i c, (P^T *m B) i c = B (Pr i) c),
      apply_eigen_perm Pr A *m P^T = A & P^T *m (P *m B) = B].
Proof.
move=> inj P; split.
- by move=> i c; rewrite apply_perm_entry.
- by move=> i c; rewrite perm_row.
- by move=> i c; rewrite perm_tr_row.
- by rewrite /apply_eigen_perm -mulmxA perm_mul_tr // mulmx1.
- by rewrite mulmxA perm_tr_mul // mul1mx.
Qed.

(** Un-pivoting the inverse of the pivoted factor gives a root of the inverse in original order. *)
Theorem C38_unpivot (R : rcfType) n (A : 'M[R]_n) f LI : is_factor A f ->
  fac_L f *m LI = 1%:M ->
  A *m (\matrix_(i, j) \sum_k LI k (fac_P f i) * LI k (fac_P f j)) = 1%:M.
Proof.
move=> fA e; apply: mulmx1C; rewrite -[RHS](unpivot_inverse fA e); congr (_ *m _).
apply/matrixP => i j; rewrite !mxE; apply: eq_bigr => k _.
by rewrite mxE !apply_perm_entry.
Qed.

(** Rotation of three columns. *)
Example C38_rotation :
  let Pr := fun i : 'I_3 => (i + 1 : 'I_3) in
  injective Pr /\ apply_eigen_perm Pr (\row_(i < 3) (i : nat)%:R : 'rV[rat]_3) 0 0 = 1.
Proof. by move=> Pr; split; [exact: addIr|rewrite apply_perm_entry mxE]. Qed.

(** ** C39: sum-to-zero constraint through an orthogonal factor *)

(** Q is the orthogonal factor of the column sums, r its (non-zero) triangular part.  Every column of
    the constrained matrix sums to zero, every function of the basis that sums to zero is still
    represented, and a basis of full rank k+1 becomes one of full rank k. *)
Theorem C39_orthogonal_factor (F : fieldType) N k (X : 'M[F]_(N, k.+1)) (Q : 'M[F]_k.+1) (r : F) :
  Q^T *m Q = 1%:M -> r != 0 ->
  (forall j, \sum_i X i j = Q j ord0 * r) ->
  [/\ (forall j, \sum_i absorb_QR X Q i j = 0),
      (forall b : 'cV[F]_k.+1, \sum_i (X *m b) i 0 = 0 ->
         exists c : 'cV[F]_k, X *m b = absorb_QR X Q *m c) &
      (\rank X = k.+1 -> \rank (absorb_QR X Q) = k)].
Proof.
move=> orth r0 sums.
have qr : column_sums X = Q *m (r *: delta_mx ord0 0).
  apply/colP => j; rewrite -scalemxAr !mxE sums (bigD1 ord0) //= big1 ?addr0.
    by rewrite mxE !eqxx mulr1 mulrC.
  by move=> i /negbTE ne; rewrite mxE ne mulr0.
split.
- by move=> j; apply: (absorbed_sums orth qr).
- by move=> b z; exists ((constraint_Z Q)^T *m b); apply: (absorbed_span orth qr).
- exact: absorbed_rank.
Qed.

(** The penalty absorbed alongside is the penalty of the represented function and the absorbed root is
    a root of it. *)
Theorem C39_penalty_follows (F : fieldType) N k q (X : 'M[F]_(N, k.+1)) (Q S : 'M[F]_k.+1)
    (D : 'M[F]_(k.+1, q)) (c : 'cV[F]_k) :
  exists b : 'cV[F]_k.+1,
    [/\ absorb_QR X Q *m c = X *m b, quad (absorb_QR_penalty S Q) c = quad S b &
        D *m D^T = S -> absorb_QR_root D Q *m (absorb_QR_root D Q)^T = absorb_QR_penalty S Q].
Proof.
exists (constraint_Z Q *m c); split.
- by rewrite /absorb_QR mulmxA.
- by rewrite /quad /absorb_QR_penalty trmx_mul !mulmxA.
- by move=> <-; rewrite /absorb_QR_root /absorb_QR_penalty trmx_mul trmxK !mulmxA.
Qed.

(** X = [[1,0],[2,4]] has column sums (3,4) = 5 (3/5, 4/5). *)
Example C39_two_columns :
  let X : 'M[rat]_2 := \matrix_(i, j) (if i == 0 then (j == 0)%:R else if j == 0 then 2%:R else 4%:R) in
  let Q : 'M[rat]_2 := \matrix_(i, j) (if (i == 0) && (j == 0) then 3%:Q / 5%:Q
                                   else if (i == 1) && (j == 1) then - (3%:Q / 5%:Q) else 4%:Q / 5%:Q) in
  [/\ Q^T *m Q = 1%:M, 5%:Q != 0, (forall j, \sum_i X i j = Q j 0 * 5%:Q) &
      absorb_QR X Q 0 0 = 4%:Q / 5%:Q].
Proof.
move=> X Q; split=> //.
- by apply/matrixP => -[[|[|[]]] //= p] -[[|[|[]]] //= q]; apply/eqP;
     rewrite !mxE !big_ord_recl big_ord0 !mxE.
- by move=> -[[|[|[]]] //= p]; apply/eqP; rewrite !big_ord_recl big_ord0 !mxE.
- by apply/eqP; rewrite !mxE !big_ord_recl big_ord0 !mxE.
Qed.

(** ** C75: make_psd *)

(** Q Rq = t1 with orthonormal Q, and P diag(ev) P^T = Rq t2 Rq^T with orthogonal P: the result never
    has a negative quadratic form, and directions meeting no offending eigenvector are left alone. *)
Theorem C75_semidefinite (R : realFieldType) n m (t1 Q : 'M[R]_(n, m)) (t2 Rq P : 'M[R]_m)
    (ev : 'rV[R]_m) (omega : R) (make_pd : option R) :
  t1 = Q *m Rq -> Q^T *m Q = 1%:M -> P^T *m P = 1%:M ->
  Rq *m t2 *m Rq^T = P *m diag_mx ev *m P^T ->
  0 <= omega -> (if make_pd is Some e then 0 <= e else true) ->
  let H := make_psd omega%:M t1 t2 Q P ev omega make_pd in
  (forall x, 0 <= quad H x) /\
  (forall x : 'cV[R]_n, (forall i, ev 0 i + omega <= 0 -> ((Q *m P)^T *m x) i 0 = 0) ->
     quad H x = quad (omega%:M + t1 *m t2 *m t1^T) x).
Proof.
move=> qr Qo Po eig om e0 H; split=> x; first exact: (make_psd_ge0 qr Qo Po eig).
by move=> z; apply: (make_psd_keeps qr eig).
Qed.

(** With make_pd the result is positive definite as soon as one eigenvalue needs no fixing. *)
Lemma foldr_max_mem (R : realFieldType) (l : seq R) d x : x \in l -> x <= foldr Num.max d l.
Proof.
elim: l => //= a l IH; rewrite inE le_maxr => /orP[/eqP->|/IH ->]; first by rewrite lexx.
by rewrite orbT.
Qed.

Theorem C75_definite (R : realFieldType) n m (t1 Q : 'M[R]_(n, m)) (t2 Rq P : 'M[R]_m)
    (ev : 'rV[R]_m) (omega e : R) (x : 'cV[R]_n) :
  t1 = Q *m Rq -> Q^T *m Q = 1%:M -> P^T *m P = 1%:M ->
  Rq *m t2 *m Rq^T = P *m diag_mx ev *m P^T ->
  0 < omega -> 0 < e -> (exists i, 0 < ev 0 i + omega) -> x != 0 ->
  0 < quad (make_psd omega%:M t1 t2 Q P ev omega (Some e)) x.
Proof.
move=> qr Qo Po eig om e0 [i0 pos0] xn0.
have [v [-> vE]] := make_psd_eig omega qr eig (Some e).
have Wo : (Q *m P)^T *m (Q *m P) = 1%:M by rewrite trmx_mul -mulmxA (mulmxA Q^T) Qo mul1mx.
rewrite quad_split //.
have mx : 0 < max_ev (fix_ev ev omega) omega.
  apply: (lt_le_trans pos0); apply: foldr_max_mem; apply/mapP; exists i0; first by rewrite mem_enum.
  by rewrite mxE leNgt pos0.
have vpos i : 0 < v 0 i + omega.
  rewrite vE; case: (leP (ev 0 i + omega) 0) => // _.
  by rewrite mulN1r addrAC addNr add0r; apply: mulr_gt0.
set w := (Q *m P)^T *m x.
have xx : 0 < (x^T *m x) 0 0.
  rewrite lt0r quad_sq_ge0 andbT; apply: contra xn0 => /eqP; rewrite quad_sq => s0.
  apply/eqP/colP => i; rewrite mxE; apply/eqP; rewrite -sqrf_eq0.
  by rewrite (psumr_eq0P _ s0) // => j _; exact: sqr_ge0.
case: (eqVneq w 0) => [->|wn0].
  rewrite mulmx0 [(0 : 'M[R]_1) 0 0]mxE subr0 big1 ?addr0; last by move=> i _; rewrite mxE expr0n /= mulr0.
  exact: mulr_gt0.
apply: ltr_paddl; first by apply: mulr_ge0; [exact: ltW|rewrite subr_ge0; apply: bessel Wo x].
have [k wk] : exists k, w k 0 != 0.
  case/boolP: [exists k, w k 0 != 0] => [/existsP //|]; rewrite negb_exists => /forallP z.
  by case/eqP: wn0; apply/colP => k; rewrite [RHS]mxE; apply/eqP; move: (z k); rewrite negbK.
rewrite (bigD1 k) //=; apply: ltr_spaddl.
  by rewrite mulr_gt0 // lt0r sqrf_eq0 wk sqr_ge0.
by apply: sumr_ge0 => i _; rewrite mulr_ge0 ?sqr_ge0 ?ltW.
Qed.

(** Step 1 with gradient change -1, omega = 1: the only eigenvalue, -2, is fixed to -1 and the
    correction is eps * 0.  The result is 0 although positive definiteness was asked for. *)
Theorem C75_definite_refuted (R : realFieldType) (e : R) :
  exists (t1 Q : 'M[R]_1) (t2 Rq P : 'M[R]_1) (ev : 'rV[R]_1) (omega : R) (x : 'cV[R]_1),
    [/\ t1 = Q *m Rq, Q^T *m Q = 1%:M, P^T *m P = 1%:M & 
        Rq *m t2 *m Rq^T = P *m diag_mx ev *m P^T] /\
    [/\ 0 < omega, x != 0 & quad (make_psd omega%:M t1 t2 Q P ev omega (Some e)) x = 0].
Proof.
exists (- 2%:R)%:M, 1%:M, (- 2%:R^-1)%:M, (- 2%:R)%:M, 1%:M, (const_mx (- 2%:R)), 1, 1%:M.
have two : (2%:R : R) != 0 by rewrite pnatr_eq0.
split; split; rewrite ?trmx1 ?mulmx1 ?mul1mx //.
- rewrite diag_const_mx tr_scalar_mx -!scalar_mxM; congr (_%:M).
  by rewrite mulrNN divff // mul1r.
- exact: ltr01.
- by apply/eqP => /matrixP/(_ 0 0); rewrite !mxE eqxx mulr1n => /eqP; rewrite oner_eq0.
have neg : (- 2%:R : R) + 1 <= 0 by rewrite addrC subr_le0 ler1n.
rewrite /quad /make_psd ifT; last by apply/existsP; exists 0; rewrite mxE.
rewrite trmx1 !mul1mx !mulmx1.
have m0 : max_ev (fix_ev (const_mx (- 2%:R) : 'rV[R]_1) 1) (1 : R) = 0 :> R.
  rewrite /max_ev enum_ordSl enum_ord0 /= !mxE neg mulr1 addNr; exact: maxxx.
by rewrite !mxE m0 neg eqxx !mulr1n !mulr1 mulr0 addr0 subrr.
Qed.

(** Two pairs, one of negative and one of positive curvature, meet the hypotheses of
    [C75_definite]. *)
Example C75_two_pairs (R : realFieldType) (x : 'cV[R]_2) :
  let ev : 'rV[R]_2 := \row_i (if i == 0 then - 2%:R else 1) in
  [/\ ev 0 0 + 1 <= 0, 0 < ev 0 1 + 1 &
      x != 0 -> 0 < quad (make_psd 1%:M 1%:M (diag_mx ev) 1%:M 1%:M ev 1 (Some 2%:R)) x].
Proof.
move=> ev.
have e0 : ev 0 0 + 1 <= 0 by rewrite mxE /= addrC subr_le0 ler1n.
have e1 : 0 < ev 0 1 + 1 by rewrite mxE /= -(natrD _ 1 1) ltr0n.
split=> // xn0; apply: (@C75_definite R 2 2 _ _ _ 1%:M); rewrite ?trmx1 ?mulmx1 ?mul1mx ?ltr01 ?ltr0n //.
by exists 1.
Qed.

(** ** C76: the block Hessian *)

(** Explicit and implicit form agree. *)
Theorem C76_implicit_is_explicit (F : fieldType) nF nA m (HBB : 'M[F]_nF) (HBb : 'M[F]_(nF, nA)) IHBB
    (H0 : 'M[F]_nA) (q1 : 'M[F]_(nA, m)) q2 q3 tcols :
  let t := SH_implicit_terms HBB HBb IHBB H0 q1 q2 q3 tcols in
  sh1 t + sh2t1 t *m sh2t2 t *m sh2t3 t + sh3t1 t *m sh3t3 t + sh4t1 t *m sh4t2 t *m sh4t3 t
  = SH_explicit HBB HBb IHBB H0 q1 q2 q3 tcols.
Proof. exact: SH_implicit. Qed.

(** Entry by entry, at the original positions of the columns: HBB and HBb are kept as they are, and the
    rest is the quasi-Newton matrix plus HBb^T IHBB HBb, so that the quasi-Newton matrix is the Schur
    complement. *)
Theorem C76_blocks (F : fieldType) nF nA m (HBB : 'M[F]_nF) (HBb : 'M[F]_(nF, nA)) IHBB
    (H0 : 'M[F]_nA) (q1 : 'M[F]_(nA, m)) q2 q3 tcols :
  injective tcols ->
  let H := SH_explicit HBB HBb IHBB H0 q1 q2 q3 tcols in
  let fcol i := tcols (lshift nA i) in
  let acol i := tcols (rshift nF i) in
  [/\ (forall i j, H (fcol i) (fcol j) = HBB i j), (forall i j, H (fcol i) (acol j) = HBb i j),
      (forall i j, H (acol i) (fcol j) = HBb j i) &
      (forall i j, H (acol i) (acol j) - (HBb^T *m IHBB *m HBb) i j = (H0 + q1 *m q2 *m q3) i j)].
Proof.
move=> inj H fcol acol; rewrite /H SH_blocks /fcol /acol; split=> i j; rewrite SH_entry //.
- by rewrite block_mxEul.
- by rewrite block_mxEur.
- by rewrite block_mxEdl mxE.
- by rewrite block_mxEdr [in LHS]mxE addrK.
Qed.

(** Positive semi-definite parts give a positive semi-definite whole. *)
Theorem C76_semidefinite (R : realFieldType) nF nA m (HBB : 'M[R]_nF) (HBb : 'M[R]_(nF, nA)) IHBB
    (H0 : 'M[R]_nA) (q1 : 'M[R]_(nA, m)) q2 q3 tcols x :
  HBB^T = HBB -> HBB *m IHBB = 1%:M ->
  (forall u, 0 <= quad HBB u) -> (forall v, 0 <= quad (H0 + q1 *m q2 *m q3) v) ->
  0 <= quad (SH_explicit HBB HBb IHBB H0 q1 q2 q3 tcols) x.
Proof.
move=> sym inv pB pS; rewrite SH_blocks.
have -> B (P : 'M[R]_(nF + nA)) : quad (P *m B *m P^T) x = quad B (P^T *m x).
  by rewrite /quad trmx_mul trmxK !mulmxA.
exact: schur_psd.
Qed.

(** One fixed and one approximated column, in exchanged order: [[H_a, 1], [1, 2]] with
    H_a = 3 + 1/2. *)
Example C76_two_columns :
  let sw := fun i : 'I_(1 + 1) => rev_ord i in
  let H := SH_explicit (2%:Q%:M : 'M_1) 1%:M (2%:Q^-1)%:M (3%:Q%:M : 'M_1) (0 : 'M_1) 0 0 sw in
  injective sw /\ [/\ H 0 0 = 3%:Q + 2%:Q^-1, H 0 1 = 1, H 1 0 = 1 & H 1 1 = 2%:Q].
Proof.
move=> sw H; have inj : injective sw by exact: rev_ord_inj.
have [a1 a2 a3 a4] := @C76_blocks _ 1 1 1 (2%:Q%:M : 'M_1) 1%:M (2%:Q^-1)%:M (3%:Q%:M) 0 0 0 sw inj.
have f0 : sw (lshift 1 0) = 1 by apply/val_inj.
have f1 : sw (rshift 1 0) = 0 by apply/val_inj.
split=> //; split.
- have := a4 0 0; rewrite f1 -/H => /eqP; rewrite subr_eq => /eqP ->.
  by rewrite trmx1 mul1mx !mulmx1 mulmx0 !mxE.
- by have := a3 0 0; rewrite f0 f1 => ->; rewrite mxE.
- by have := a2 0 0; rewrite f0 f1 => ->; rewrite mxE.
- by have := a1 0 0; rewrite f0 => ->; rewrite mxE.
Qed.

(** ** C77: sparse matrices handed to C++ *)

(** The (value, row, column) triplets describe the matrix they were taken from. *)
Theorem C77_triplets (F : fieldType) (elements : seq F) idx iptr n r c :
  csc_ok n elements idx iptr -> (c < n)%N ->
  triplet_entry (translate_sparse n elements idx iptr) r c = csc_entry elements idx iptr r c.
Proof. exact: triplet_correct. Qed.

(** [[0,7],[5,0],[0,9]] with an empty column in between. *)
Example C77_three_columns :
  let e := [:: 5%:Q; 7%:Q; 9%:Q] in
  csc_ok 3 e [:: 1; 0; 2]%N [:: 0; 1; 1; 3]%N /\
  translate_sparse 3 e [:: 1; 0; 2]%N [:: 0; 1; 1; 3]%N = (e, [:: 1; 0; 2]%N, [:: 0; 2; 2]%N).
Proof. by split=> //; split=> //; case=> [|[|[|]]]. Qed.

Print Assumptions C34_hessian.
Print Assumptions C34_inverse_secant.
Print Assumptions C34_mutually_inverse.
Print Assumptions C35_inverse_dampened.
Print Assumptions C35_inverse.
Print Assumptions C35_failed_factor_refuted.
Print Assumptions C36_newton_step.
Print Assumptions C36_terminates.
Print Assumptions C37_inverse_root.
Print Assumptions C37_pivoted_inverse_root.
Print Assumptions C37_pivoted_factor.
Print Assumptions C37_refuses.
Print Assumptions C37_int_mean_refuted.
Print Assumptions C38_permutation.
Print Assumptions C38_unpivot.
Print Assumptions C39_orthogonal_factor.
Print Assumptions C39_penalty_follows.
Print Assumptions C75_semidefinite.
Print Assumptions C75_definite.
Print Assumptions C75_definite_refuted.
Print Assumptions C76_implicit_is_explicit.
Print Assumptions C76_blocks.
Print Assumptions C76_semidefinite.
Print Assumptions C77_triplets.
