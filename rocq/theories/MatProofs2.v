From mathcomp Require Import all_ssreflect all_algebra.
From Verif Require Import MatModel MatSpec MatProofs.
Set Implicit Arguments.
Unset Strict Implicit.
Unset Printing Implicit Defensive.
Import Order.TTheory GRing.Theory Num.Theory.
Local Open Scope ring_scope.

(** Undoing a two-sided preconditioner. *)
Lemma sandwich (F : fieldType) n (D DI V A : 'M[F]_n) :
  V *m A = 1%:M -> D *m DI = 1%:M -> D *m V *m D *m (DI *m A *m DI) = 1%:M.
Proof.
move=> VA dd; rewrite -!mulmxA (mulmxA D DI) dd mul1mx (mulmxA V A) VA mul1mx; exact: dd.
Qed.

(** ** The Newton step *)
Section Newton.
Variable R : rcfType.
Variable n : nat.
Variable cholP : 'M[R]_n -> factor R n.
Variable linv : 'M[R]_n -> 'M[R]_n.

Lemma ladder_step k :
  (if ladder R k == 0 then ladder R k + tiny R else ladder R k * 2%:R) = ladder R k.+1.
Proof.
case: k => [|k] /=; first by rewrite eqxx add0r expr0 mul1r.
have nz : 2%:R ^+ k / 10%:R ^+ 14 != 0 :> R.
  by rewrite mulf_neq0 ?invr_neq0 ?expf_neq0 // pnatr_eq0.
by rewrite (negbTE nz) (exprSr _ k) mulrAC.
Qed.

Lemma newton_loop_spec nH2 fuel : forall k f eps,
  newton_loop cholP fuel nH2 (ladder R k) = Some (f, eps) ->
  exists j, [/\ (k <= j)%N, eps = ladder R j, f = cholP (nH2 + eps *: 1%:M), fac_code f = 0%N &
     forall i, (k <= i < j)%N -> fac_code (cholP (nH2 + ladder R i *: 1%:M)) <> 0%N].
Proof.
elim: fuel => [//|fuel IH] k f eps /=.
case: eqP => [c0 [<- <-]|c1] /=.
  exists k; split => // i /andP[a b]; by move: (leq_ltn_trans a b); rewrite ltnn.
rewrite ladder_step => /IH[j [kj -> -> c0 bad]]; exists j; split=> //; first exact: ltnW.
move=> i /andP[]; rewrite leq_eqVlt => /orP[/eqP<- //|ki ij]; apply: bad; exact/andP.
Qed.

Lemma newton_loop_stops nH2 j : fac_code (cholP (nH2 + ladder R j *: 1%:M)) = 0%N ->
  forall k, (k <= j)%N -> exists f eps, newton_loop cholP (j - k).+1 nH2 (ladder R k) = Some (f, eps).
Proof.
move=> c0 k kj; have [d dE] : exists d, (j - k)%N = d by exists (j - k)%N.
rewrite dE; elim: d k kj dE => [|d IH] k kj dE.
  have -> : k = j by apply/eqP; rewrite eqn_leq kj -subn_eq0 dE eqxx.
  by exists (cholP (nH2 + ladder R j *: 1%:M)), (ladder R j); rewrite /= c0.
have kj' : (k < j)%N by rewrite -subn_gt0 dE.
rewrite -[newton_loop _ _ _ _]/(let f := cholP (nH2 + ladder R k *: 1%:M) in
    if fac_code f != 0%N then newton_loop cholP d.+1 nH2
      (if ladder R k == 0 then ladder R k + tiny R else ladder R k * 2%:R)
    else Some (f, ladder R k)) /=.
case: ifP => _; last by eexists; eexists.
have [] := IH k.+1 kj'; first by rewrite subnS dE.
by move=> f [eps E]; exists f, eps; rewrite -E -ladder_step.
Qed.

Section Precond.
Variable nH : 'M[R]_n.
Let D := diag_mx (precond nH).
Let DI := diag_mx (\row_i (1 / precond nH 0 i)).
Hypothesis dnz : forall i, nH i i != 0.

Lemma sqrt_nz i : Num.sqrt `|nH i i| != 0.
Proof. by rewrite sqrtr_eq0 -ltNge normr_gt0. Qed.

Lemma D_DI : D *m DI = 1%:M.
Proof.
rewrite mulmx_diag -[1%:M]diag_const_mx; congr diag_mx; apply/rowP => i.
by rewrite !mxE div1r invrK mulVf ?sqrt_nz.
Qed.

Lemma DI_D : DI *m D = 1%:M. Proof. by apply: mulmx1C; exact: D_DI. Qed.

Lemma DI_DI : DI *m DI = abs_diag nH.
Proof.
rewrite mulmx_diag; apply/matrixP => i j; rewrite !mxE; case: eqP => [->|_]; last by rewrite mulr0n.
by rewrite div1r invrK mulr1n -expr2 sqr_sqrtr.
Qed.

Lemma undo eps : DI *m (D *m nH *m D + eps *: 1%:M) *m DI = nH + eps *: abs_diag nH.
Proof.
rewrite mulmxDr mulmxDl -scalemxAr -scalemxAl mulmx1 DI_DI; congr (_ + _).
by rewrite !mulmxA DI_D mul1mx -mulmxA D_DI mulmx1.
Qed.

End Precond.

Variables H S : 'M[R]_n.
Let nH := (-1) *: H + S.
Let D := diag_mx (precond nH).
Let DI := diag_mx (\row_i (1 / precond nH 0 i)).
Hypothesis dnz : forall i, nH i i != 0.

Lemma newton_correct fuel coef grad c1 Lr LV eps :
  cholP_ok cholP -> linv_ok linv ->
  newton_coef_smooth cholP linv fuel coef grad H S = Some (c1, Lr, LV, eps) ->
  let A := S - H + eps *: abs_diag (S - H) in
  [/\ A *m (c1 - coef) = grad - S *m coef, Lr *m Lr^T = A, LV^T *m LV *m A = 1%:M &
   exists j, eps = ladder R j /\ fac_code (cholP (D *m nH *m D + eps *: 1%:M)) = 0%N /\
     forall i, (i < j)%N -> fac_code (cholP (D *m nH *m D + ladder R i *: 1%:M)) <> 0%N].
Proof.
move=> cok lok; rewrite /newton_coef_smooth -/nH -/D -/DI.
case L : newton_loop => [[f e]|//] [<- <- <- eE].
have [j [_ eL fE c0 bad]] := newton_loop_spec (k := 0) L; subst e.
have fA : is_factor (D *m nH *m D + eps *: 1%:M) f by rewrite fE; apply: cok; rewrite -fE.
have Li : fac_L f *m linv (fac_L f) = 1%:M by case: (fA) => _ low pos _; apply: lok.
have W := unpivot_inverse fA Li.
have nHE : S - H = nH by rewrite /nH scaleN1r addrC.
have FE := factor_eq fA.
have DT : D^T = D by rewrite tr_diag_mx.
have DIT : DI^T = DI by rewrite tr_diag_mx.
set A := S - H + _.
have AE : A = DI *m (D *m nH *m D + eps *: 1%:M) *m DI by rewrite (undo dnz) /A nHE.
set LV0 := apply_eigen_perm _ _ in W *.
set A2 := D *m nH *m D + eps *: 1%:M in W AE FE fA *.
have inv1 : D *m (LV0^T *m LV0) *m D *m A = 1%:M.
  rewrite AE; apply: sandwich W _; exact: D_DI dnz.
have inv2 := mulmx1C inv1.
split.
- have -> : forall a b : 'cV[R]_n, a + b - a = b by move=> a b; rewrite addrC addKr.
  rewrite mulmxA inv2 mul1mx; apply/matrixP => i k; rewrite !ord1 !mxE; congr (_ - _).
  by apply: eq_bigr => l _; rewrite !mxE.
- rewrite trmx_mul trmx_mul trmxK DIT AE FE; by rewrite !mulmxA.
- by rewrite trmx_mul DT -!mulmxA !mulmxA -inv1 !mulmxA.
- exists j; split => //; split => [|i ij]; first by rewrite -/A2 -fE.
  exact: bad.
Qed.
End Newton.

(** ** Sampling *)
Section Sample.
Variable R : rcfType.
Variables p n : nat.
Variable backsolve : 'M[R]_p -> 'M[R]_(p, n) -> 'M[R]_(p, n).

Lemma sqrt_inv (scale : R) : 0 < scale -> Num.sqrt (1 / scale) = (Num.sqrt scale)^-1.
Proof.
move=> s0; have nz : Num.sqrt scale != 0 by rewrite sqrtr_eq0 -ltNge.
apply: (mulfI nz); rewrite mulfV // -sqrtrM ?ltW //.
by rewrite div1r mulfV ?sqrtr1 // lt0r_neq0.
Qed.

Lemma backsolve_linear : backsolve_ok backsolve ->
  forall L scale z, lower L -> (forall i, 0 < L i i) -> 0 < scale ->
  backsolve (Num.sqrt (1 / scale) *: L^T) z = Num.sqrt scale *: (invmx L)^T *m z.
Proof.
move=> ok L scale z low pos s0.
have nz : Num.sqrt scale != 0 by rewrite sqrtr_eq0 -ltNge.
have uL : L^T \in unitmx.
  by rewrite unitmx_tr; apply: lower_unit => // i; apply: lt0r_neq0.
have U := ok (Num.sqrt (1 / scale) *: L^T) z.
have e : Num.sqrt (1 / scale) *: L^T *m backsolve (Num.sqrt (1 / scale) *: L^T) z = z.
  apply: U => [i j ij|i]; first by rewrite !mxE low ?mulr0.
  by rewrite !mxE mulf_neq0 // ?sqrt_inv ?invr_neq0 // lt0r_neq0.
rewrite -{2}e sqrt_inv // -!scalemxAl -!scalemxAr scalerA mulfV // scale1r.
by rewrite mulmxA trmx_inv mulVmx // mul1mx.
Qed.
End Sample.
