(** Symmetric real matrices have an orthonormal basis of eigenvectors. *)

From Coq Require Import Reals Lra.

Lemma downhill (c q : R) : (0 < c -> 0 <= q -> exists t, (1 + 1) * t * c + t * t * q < 0)%R.
Proof.
intros c0 q0. exists (- (c / (q + 1)))%R.
replace ((1 + 1) * - (c / (q + 1)) * c + - (c / (q + 1)) * - (c / (q + 1)) * q)%R
  with (- ((c * c) * (q + 2) / ((q + 1) * (q + 1))))%R by (field; lra).
apply Ropp_lt_gt_0_contravar. apply Rdiv_lt_0_compat; repeat apply Rmult_lt_0_compat; lra.
Qed.

Lemma sqrt_unit (s : R) : (0 < s -> / sqrt s * (/ sqrt s * s) = 1)%R.
Proof.
intros h. pose proof (sqrt_lt_R0 s h). rewrite <- (sqrt_sqrt s) at 3 by lra. field. lra.
Qed.

From mathcomp Require Import all_ssreflect all_algebra.
From Verif Require Import RealField RealMat.
Import GRing.Theory.
Set Implicit Arguments.
Unset Strict Implicit.
Unset Printing Implicit Defensive.
Local Open Scope ring_scope.

Definition psd n (A : 'M[R]_n) := A^T = A /\ forall x : 'cV[R]_n, Rle 0 (quad A x).
Definition dotp n (x y : 'cV[R]_n) : R := (x^T *m y) 0 0.

Section Vec.
Variable n : nat.
Implicit Types (x y : 'cV[R]_n) (A B : 'M[R]_n).

Lemma dotpE x y : dotp x y = \sum_i x i 0 * y i 0.
Proof. by rewrite /dotp mxE; apply: eq_bigr => i _; rewrite mxE. Qed.
Lemma dotpC x y : dotp x y = dotp y x.
Proof. by rewrite !dotpE; apply: eq_bigr => i _; rewrite mulrC. Qed.
Lemma dotpDl x y z : dotp (x + y) z = dotp x z + dotp y z.
Proof. by rewrite /dotp linearD mulmxDl mxE. Qed.
Lemma dotpDr x y z : dotp z (x + y) = dotp z x + dotp z y.
Proof. by rewrite /dotp mulmxDr mxE. Qed.
Lemma dotpZl c x y : dotp (c *: x) y = c * dotp x y.
Proof. by rewrite /dotp linearZ /= -scalemxAl mxE. Qed.
Lemma dotpZr c x y : dotp x (c *: y) = c * dotp x y.
Proof. by rewrite /dotp -scalemxAr mxE. Qed.
Lemma dotp_ge0 x : Rle 0 (dotp x x).
Proof. rewrite dotpE; apply: sum_ge0 => i; exact: sq_ge0. Qed.
Lemma dotp_gt0 x : x != 0 -> Rlt 0 (dotp x x).
Proof.
move=> x0; have [i hi] : exists i, x i 0 != 0.
  apply/existsP; apply: contraR x0; rewrite negb_exists => /forallP h; apply/eqP/matrixP => i k.
  by rewrite (ord1 k) mxE; apply/eqP; move: (h i); rewrite negbK.
rewrite dotpE; apply: (@sum_gt0 _ _ _ i) => [k||]; rewrite ?mem_index_enum //; [exact: sq_ge0|exact: sq_gt0].
Qed.
Lemma quad_dotp A x : quad A x = dotp x (A *m x).
Proof. by rewrite /quad /dotp mulmxA. Qed.
Lemma quad1 x : quad 1%:M x = dotp x x.
Proof. by rewrite quad_dotp mul1mx. Qed.
Lemma dotp_sym A x y : A^T = A -> dotp x (A *m y) = dotp y (A *m x).
Proof. by move=> s; rewrite dotpC /dotp trmx_mul s mulmxA. Qed.

Lemma psd_kernel B x : psd B -> quad B x = 0 -> B *m x = 0.
Proof.
move=> [s p] e; apply/eqP; apply/negPn/negP => ne.
set y := B *m x in ne; have c0 := dotp_gt0 ne; set c := dotp y y in c0.
have q0 := p y; set q := quad B y in q0.
have [t ht] := downhill c q c0 q0; have := p (x + t *: y).
rewrite quad_dotp mulmxDr dotpDl !dotpDr -scalemxAr !dotpZl !dotpZr -quad_dotp e.
rewrite [dotp x (B *m y)]dotp_sym // -/y -/c -quad_dotp -/q add0r.
have -> : t * c + (t * c + t * (t * q)) = (1 + 1) * t * c + t * t * q by eqR; ring.
by move=> /Rle_not_lt; apply.
Qed.

Lemma psd_unit_pd B : psd B -> B \in unitmx -> pd B.
Proof.
move=> h u; have [s p] := h; split => // x x0.
case: (Rle_lt_or_eq_dec _ _ (p x)) => // e; case/negP: x0; apply/eqP.
by rewrite -[x]mul1mx -(mulVmx u) -mulmxA (psd_kernel h (esym e)) mulmx0.
Qed.
End Vec.

Lemma quad_turn n (A W : 'M[R]_n) x : quad (W^T *m A *m W) x = quad A (W *m x).
Proof. by rewrite /quad trmx_mul !mulmxA. Qed.

Lemma quad_delta n (A : 'M[R]_n) k : quad A (delta_mx k 0) = A k k.
Proof. by rewrite /quad trmx_delta -rowE -colE !mxE. Qed.

Section Top.
Variables (n : nat) (A : 'M[R]_n.+1).
Hypothesis sA : A^T = A.

Let sphere (v : R) := exists x : 'cV[R]_n.+1, dotp x x = 1 /\ v = quad A x.

Lemma unit_vector (x : 'cV[R]_n.+1) : x != 0 -> exists c : R, c != 0 /\ dotp (c *: x) (c *: x) = 1.
Proof.
move=> x0; have p := dotp_gt0 x0; have sp := sqrt_lt_R0 _ p.
exists (Rinv (sqrt (dotp x x))); split; last by rewrite dotpZl dotpZr; exact: sqrt_unit.
by apply/eqP; apply: Rinv_neq_0_compat; apply: Rgt_not_eq.
Qed.

Lemma factor1 m : factor (1%:M : 'M[R]_m) 1%:M.
Proof.
split; first by apply/is_trig_mxP => i j lt; rewrite mxE; case: eqP => // e; rewrite e ltnn in lt.
by split; [move=> i; rewrite mxE eqxx; exact: Rlt_0_1|rewrite trmx1 mulmx1].
Qed.

Lemma quadN (B : 'M[R]_n.+1) x : quad (- B) x = - quad B x.
Proof. by rewrite -scaleN1r quadZ mulN1r. Qed.

Lemma sphere_bound : bound sphere.
Proof.
have sN : (- A)^T = - A by rewrite linearN /= sA.
have [d [d0 h]] := pd_open (factor1 n.+1) sN.
have hd : Rlt (Rabs (Rdiv d (IZR 2))) d by rewrite Rabs_pos_eq; Lra.
have [_ p] := h _ hd; exists (Rdiv (IZR 2) d) => v [x [u ->]].
have x0 : x != 0.
  apply/eqP => e; move: u; rewrite e /dotp mulmx0 mxE => /eqP; by rewrite eq_sym oner_eq0.
have := p x x0; rewrite quadD quadZ quadN quad1 u; toR => k.
apply: Rlt_le; apply: (Rmult_lt_reg_l (Rdiv d (IZR 2))); first Lra.
have -> : @eq R (Rmult (Rdiv d (IZR 2)) (Rdiv (IZR 2) d)) (IZR 1) by field; apply: Rgt_not_eq.
Lra.
Qed.

Lemma top_eigen : exists (m : R) (v : 'cV[R]_n.+1), dotp v v = 1 /\ A *m v = m *: v /\
  forall x, Rle (quad A x) (m * dotp x x).
Proof.
have e0 : dotp (delta_mx 0 0 : 'cV[R]_n.+1) (delta_mx 0 0) = 1.
  by rewrite /dotp trmx_delta mul_delta_mx mxE.
have ne : exists v, sphere v by exists (quad A (delta_mx 0 0)), (delta_mx 0 0).
have [m [ub lub]] := completeness sphere sphere_bound ne.
have le x : Rle (quad A x) (m * dotp x x).
  case: (eqVneq x 0) => [->|x0].
    by rewrite /quad /dotp trmx0 !mul0mx !mxE mulr0; apply: Rle_refl.
  have [c [c0 u]] := unit_vector x0; have := ub _ (ex_intro _ (c *: x) (conj u erefl)).
  rewrite quad_dotp -scalemxAr dotpZl dotpZr -quad_dotp mulrA => k.
  rewrite dotpZl dotpZr mulrA in u.
  have cc := sq_gt0 c0; apply: (Rmult_le_reg_l _ _ _ cc).
  have -> : Rmult (c * c) (m * dotp x x) = m * (c * c * dotp x x) by eqR; ring.
  by rewrite u mulr1.
have ps : psd (m%:M - A).
  split; first by rewrite linearB /= tr_scalar_mx sA.
  move=> x; rewrite quadD quadN -scalemx1 quadZ quad1; have := le x; Lra.
have nu : (m%:M - A) \notin unitmx.
  apply/negP => u; have pp := psd_unit_pd ps u; have [L f] := cholesky pp.
  have [d [d0 h]] := pd_open f (trmx1 _ _).
  have hd : Rlt (Rabs (Ropp (Rdiv d (IZR 2)))) d by rewrite Rabs_Ropp Rabs_pos_eq; Lra.
  have [_ p] := h _ hd.
  have ub' : is_upper_bound sphere (Rminus m (Rdiv d (IZR 2))).
    move=> v [x [ux ->]]; have x0 : x != 0.
      apply/eqP => e; move: ux; rewrite e /dotp mulmx0 mxE => /eqP; by rewrite eq_sym oner_eq0.
    have := p x x0; rewrite !quadD quadN quadZ -scalemx1 quadZ quad1 ux; Lra.
  have := lub _ ub'; Lra.
have /det0P[w w0 ew] : \det (m%:M - A) == 0 by move: nu; rewrite unitmxE unitfE negbK.
have w1 : w^T != 0 by rewrite -trmx0 (inj_eq trmx_inj).
have [c [c0 u]] := unit_vector w1; exists m, (c *: w^T); split => //; split => //.
rewrite -scalemxAr scalerA mulrC -scalerA; congr (_ *: _).
have : (m%:M - A) *m w^T = 0 by rewrite -[m%:M - A]trmxK -trmx_mul linearB /= tr_scalar_mx sA ew trmx0.
by rewrite mulmxBl mul_scalar_mx => /eqP; rewrite subr_eq0 => /eqP.
Qed.
End Top.

Lemma complete n (v : 'cV[R]_n.+1) : dotp v v = 1 -> exists H : 'M[R]_n.+1, H^T *m H = 1%:M /\ H *m delta_mx 0 0 = v.
Proof.
move=> uv; set e : 'cV[R]_n.+1 := delta_mx 0 0.
have ue : dotp e e = 1 by rewrite /dotp trmx_delta mul_delta_mx mxE.
case: (eqVneq v e) => [->|ne]; first by exists 1%:M; rewrite trmx1 mulmx1 mul1mx.
have w0 : v - e != 0 by rewrite subr_eq0.
set w := v - e in w0; have p := dotp_gt0 w0; have q : dotp w w != 0.
  by apply/eqP => z; move: p; rewrite z; apply: Rlt_irrefl.
have ww : w *m w^T *m (w *m w^T) = dotp w w *: (w *m w^T).
  rewrite !mulmxA -[w *m w^T *m w]mulmxA [w^T *m w]mx11_scalar -/(dotp w w).
  by rewrite mul_mx_scalar -scalemxAl.
set c := (1 + 1) / dotp w w.
exists (1%:M - c *: (w *m w^T)); split.
  set M := w *m w^T in ww *; have sM : M^T = M by rewrite /M trmx_mul trmxK.
  have -> : (1%:M - c *: M)^T = 1%:M - c *: M by rewrite [(_ - _)^T]linearB /= trmx1 [(c *: M)^T]linearZ /= sM.
  rewrite mulmxBl mul1mx mulmxBr mulmx1 -scalemxAl -scalemxAr ww !scalerA.
  have -> : c * c * dotp w w = c + c by rewrite -mulrA {2}/c mulfVK // mulrDr mulr1.
  by rewrite scalerDl; set z := c *: M; have -> : z - (z + z) = - z; rewrite ?opprK ?subrK // opprD addrA subrr add0r.

rewrite mulmxBl mul1mx -scalemxAl -mulmxA [w^T *m e]mx11_scalar -/(dotp w e) mul_mx_scalar scalerA.
have we : dotp w w = - (1 + 1) * dotp w e.
  have x : dotp w v = - dotp w e.
    apply/eqP; rewrite -subr_eq0 opprK -dotpDr /w dotpDl !dotpDr uv; apply/eqP.
    rewrite -scaleN1r dotpZl dotpZl ue [dotp e v]dotpC; eqR; ring.
  rewrite {2}/w dotpDr x -scaleN1r dotpZr; eqR; ring.
have d0 : dotp w e != 0.
  by apply: contra q => /eqP z; rewrite we z mulr0.
have -> : c * dotp w e = - 1.
  rewrite /c we mulNr invrN mulrN mulNr invfM mulrA mulfV; last first.
    by apply: contra q => /eqP z; rewrite we mulNr z mul0r oppr0.
  by rewrite mul1r mulVf.
by rewrite scaleN1r opprK /w addrC subrK.
Qed.

Lemma spectral n (A : 'M[R]_n) : A^T = A -> exists (D : 'rV[R]_n) (U : 'M[R]_n),
  U^T *m U = 1%:M /\ U^T *m A *m U = diag_mx D /\ forall i j : 'I_n, (i <= j)%N -> Rle (D 0 j) (D 0 i).
Proof.
elim: n A => [|n ih] A sA.
  by exists 0, 1%:M; split; [rewrite trmx1 mulmx1|split; [apply/matrixP => -[]|case]].
have [m [v [uv [ev le]]]] := top_eigen sA; have [H [oH He]] := complete uv.
have oH' : H *m H^T = 1%:M by apply: mulmx1C.
have [B dB] : exists B : 'M[R]_(1 + n), B = H^T *m A *m H by eexists.
have sB : B^T = B by rewrite dB !trmx_mul trmxK sA mulmxA.
pose e : 'cV[R]_n.+1 := delta_mx 0 0.
have c0 : (B : 'M[R]_n.+1) *m e = m *: e.
  by rewrite dB -!mulmxA He ev -scalemxAr -He mulmxA oH mul1mx.
have eB : B = block_mx (m%:M : 'M_1) 0 0 (drsubmx B).
  rewrite -{1}[B]submxK.
  have col i : B i (lshift n 0) = m * (i == lshift n 0)%:R.
    have l0 : lshift n (0 : 'I_1) = (0 : 'I_n.+1) by apply: val_inj.
    have := congr1 (fun M : 'cV[R]_n.+1 => M i 0) c0; rewrite /= -colE !mxE eqxx andbT -l0 => h.
    exact: h.
  congr block_mx; apply/matrixP => i j; rewrite !mxE !ord1.
  - by rewrite col eqxx mulr1.
  - by rewrite -sB mxE col -(inj_eq val_inj) /= mulr0.
  - by rewrite col -(inj_eq val_inj) /= mulr0.
have sD : (drsubmx B)^T = drsubmx B by rewrite trmx_drsub sB.
have [D [U [oU [dU dec]]]] := ih _ sD.
pose T : 'M[R]_(1 + n) := block_mx (1%:M : 'M_1) 0 0 U.
have oT : T^T *m T = 1%:M.
  by rewrite /T tr_block_mx !trmx0 trmx1 mulmx_block !mulmx0 !mul0mx !addr0 add0r mulmx1 oU -scalar_mx_block.
have eT : T^T *m B *m T = diag_mx (row_mx (m%:M : 'M_1) D).
  rewrite eB /T tr_block_mx !trmx0 trmx1 mulmx_block !(mulmx0, mul0mx, addr0, add0r) mulmx_block.
  rewrite !(mulmx0, mul0mx, addr0, add0r, mulmx1, mul1mx) dU.
  apply/matrixP => i j; rewrite !mxE; case: splitP => i' ei; rewrite !mxE; case: splitP => j' ej; rewrite !mxE -?(inj_eq val_inj) /= ?ei ?ej /= ?ord1 ?mulr1n ?eqxx //.
exists (row_mx (m%:M : 'M_1) D), (H *m T); split.
  by rewrite trmx_mul mulmxA -[T^T *m H^T *m H]mulmxA oH mulmx1.
have eA : (H *m T)^T *m A *m (H *m T) = diag_mx (row_mx (m%:M : 'M_1) D).
  by rewrite trmx_mul !mulmxA -eT dB !mulmxA.
split => //.
have oHT : (H *m T)^T *m (H *m T) = 1%:M by rewrite trmx_mul mulmxA -[T^T *m H^T *m H]mulmxA oH mulmx1.
move=> i j lij.
have top k : Rle ((row_mx (m%:M : 'M_1) D) 0 k) m.
  have := le ((H *m T : 'M[R]_n.+1) *m delta_mx k 0).
  rewrite -quad1 -!quad_turn eA mulmx1 oHT !quad_delta [1%:M k k]mxE eqxx mulr1.
  by rewrite [diag_mx _ _ _]mxE eqxx.
move: (top j); rewrite !mxE; case: splitP => j' ej; case: splitP => i' ei; rewrite ?mxE ?ord1 ?eqxx ?mulr1n //.
  by move: lij; rewrite ei ej ord1.
by move=> _; apply: dec; rewrite -(leq_add2l 1) -ei -ej.
Qed.
