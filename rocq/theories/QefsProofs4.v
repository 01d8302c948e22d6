From mathcomp Require Import all_ssreflect all_algebra.
From Verif Require Import MatModel MatSpec MatProofs MatProofs2 MatProofs3 MatProofs4 MatProofs5 QefsModel QefsSpec
  QefsProofs QefsProofs2 QefsProofs3.
Set Implicit Arguments.
Unset Strict Implicit.
Unset Printing Implicit Defensive.
Import Order.TTheory GRing.Theory Num.Theory.
Local Open Scope ring_scope.

Section Blocks.
Variable R : rcfType.
Variable qr : forall n m, 'M[R]_(n, m) -> economic R n m.
Variable eigh : forall k, 'M[R]_k -> 'rV[R]_k * 'M[R]_k.
Variable inv : forall k, 'M[R]_k -> 'M[R]_k.
Variable cholP : forall k, 'M[R]_k -> factor R k.
Variable compute_Linv : forall k, 'M[R]_k -> 'M[R]_k.
Variable qrr : forall k e, 'M[R]_(e, k) -> 'M[R]_k * ('I_k -> 'I_k).
Variable rank_one : forall k, 'M[R]_k -> 'cV[R]_k -> R -> 'M[R]_k.
Variable root_eps : R.
Hypothesis qrok : qr_ok qr.
Hypothesis invok : forall k, inv_ok (@inv k).
Variables nF nA : nat.
Variable tcols : 'I_(nF + nA) -> 'I_(nF + nA).
Hypothesis inj : injective tcols.
Notation n := (nF + nA)%N.
Hypothesis eighok : eigh_ok eigh.
Hypothesis cholok : chol_ok (@cholP n).
Hypothesis linvok : linv_ok (@compute_Linv n).
Hypothesis rankok : rank_one_ok (@rank_one n).
Notation P1 := (P1 R tcols).
Notation P2 := (P2 R tcols).
Notation P3 := (P3 R nF nA).
Variables (N : 'M[R]_n) (HBB IHBB : 'M[R]_nF) (HBb : 'M[R]_(nF, nA)).
Variable PD_HBB : bool.
Hypothesis NE : P1^T *m N *m P1 = block_mx HBB HBb HBb^T 0.
Hypothesis semiB : semi HBB.
Hypothesis pin : pseudo_inverse HBB IHBB.
Hypothesis range : HBB *m IHBB *m HBb = HBb.
Hypothesis bound : forall U (e : 'rV[R]_nF), PD_HBB -> HBB = U *m diag_mx e *m U^T -> U^T *m U = 1%:M ->
  forall i, root_eps * max_abs e <= e 0 i.

Lemma known_root_gram : known_root eigh root_eps tcols N PD_HBB *m (known_root eigh root_eps tcols N PD_HBB)^T =
  P1 *m block_mx HBB HBb HBb^T (HBb^T *m IHBB *m HBb) *m P1^T.
Proof.
rewrite /known_root NE block_mxKul block_mxKur.
have [sym pos] := semiB; have [BE UU] := eighok sym.
case: (eigh HBB) BE UU => eig U /= BE UU.
have e0 i : 0 <= eig 0 i.
  have [q1 _] := eigenvalue_quad eig i UU; by rewrite -q1 -BE pos.
have -> : \row_i (if eig 0 i < 0 then 0 else eig 0 i) = eig.
  by apply/rowP => i; rewrite mxE ltNge e0.
have -> : (if PD_HBB then \row_i (if eig 0 i < root_eps * max_abs eig then root_eps * max_abs eig else eig 0 i)
           else eig) = eig.
  case: ifP => // pd; apply/rowP => i; rewrite mxE ltNge (bound pd BE UU) //.
have -> : \row_i (if 0 < eig 0 i then 1 / eig 0 i else 0) = dinv eig.
  by apply/rowP => i; rewrite !mxE lt0r e0 andbT.
have di0 i : 0 <= dinv eig 0 i by rewrite mxE; case: ifP => // _; rewrite mul1r invr_ge0.
have sq (d : 'rV[R]_nF) : (forall i, 0 <= d 0 i) ->
    \row_i (if 0 < d 0 i then Num.sqrt (d 0 i) else 0) = \row_i Num.sqrt (d 0 i).
  move=> d0; apply/rowP => i; rewrite !mxE; case: ltP => // le.
  have -> : d 0 i = 0 by apply/le_anti; rewrite le d0.
  by rewrite sqrtr0.
rewrite !sq //.
set ds := \row_i Num.sqrt (eig 0 i); set ids := \row_i Num.sqrt (dinv eig 0 i).
have pinU : IHBB = U *m diag_mx (dinv eig) *m U^T.
  by apply: pinv_unique pin _; rewrite BE; exact: spectral_pinv.
have dd : diag_mx ds *m diag_mx ds = diag_mx eig.
  by rewrite mulmx_diag; congr diag_mx; apply/rowP => i; rewrite !mxE -expr2 sqr_sqrtr.
have ii : diag_mx ids *m diag_mx ids = diag_mx (dinv eig).
  by rewrite mulmx_diag; congr diag_mx; apply/rowP => i; rewrite [LHS]mxE [ids 0 i]mxE -expr2 sqr_sqrtr.
have di : diag_mx ds *m diag_mx ids = diag_mx (\row_i (eig 0 i * dinv eig 0 i)).
  rewrite mulmx_diag; congr diag_mx; apply/rowP => i; rewrite !mxE.
  case: (eqVneq (eig 0 i) 0) => [->|nz]; first by rewrite sqrtr0 !mul0r.
  rewrite /= mul1r -sqrtrM // divff // sqrtr1.
  by [].
have did : diag_mx ids *m diag_mx ds = diag_mx ds *m diag_mx ids.
  by rewrite !mulmx_diag; congr diag_mx; apply/rowP => i; rewrite !mxE mulrC.
have BI : HBB *m IHBB = U *m (diag_mx ds *m diag_mx ids) *m U^T.
  by rewrite pinU {1}BE spectral_mul // di.
have BIs : (HBB *m IHBB)^T = HBB *m IHBB by case: pin.
have ulE : U *m diag_mx ds *m (U *m diag_mx ds)^T = HBB.
  by rewrite trmx_mul tr_diag_mx mulmxA -(mulmxA U) dd -BE.
have urE : U *m diag_mx ds *m (HBb^T *m U *m diag_mx ids)^T = HBb.
  by rewrite !trmx_mul trmxK tr_diag_mx !mulmxA -(mulmxA U) -BI range.
have drE : HBb^T *m U *m diag_mx ids *m (HBb^T *m U *m diag_mx ids)^T = HBb^T *m IHBB *m HBb.
  rewrite !trmx_mul trmxK tr_diag_mx !mulmxA -(mulmxA _ (diag_mx ids) (diag_mx ids)) ii pinU.
  by rewrite !mulmxA.
have dlE : HBb^T *m U *m diag_mx ids *m (U *m diag_mx ds)^T = HBb^T.
  by rewrite -[LHS]trmxK trmx_mul trmxK urE.
rewrite trmx_mul tr_col_mx.
have -> (A : 'M[R]_nF) (B : 'M[R]_(nA, nF)) : P1 *m col_mx A B *m (row_mx A^T B^T *m P1^T) =
    P1 *m (col_mx A B *m row_mx A^T B^T) *m P1^T by rewrite !mulmxA.
by rewrite mul_col_row ulE urE dlE drE.
Qed.

Lemma scaled_root_gram (w : R) : 0 <= w ->
  scaled_root tcols w *m (scaled_root tcols w)^T = P2 *m w%:M *m P2^T.
Proof.
move=> w0; rewrite /scaled_root tr_diag_mx mulmx_diag; apply/matrixP => i j.
rewrite [RHS]mxE.
have e k : (P2 *m w%:M) i k = w * (i == tcols (rshift nF k))%:R.
  by rewrite mul_mx_scalar !mxE.
under [RHS]eq_bigr do rewrite e !mxE.
rewrite !mxE; case: existsP => [[c /eqP ->]|no].
  rewrite (bigD1 c) //= eqxx mulr1 big1 ?addr0; last first.
    move=> k kc; rewrite (inj_eq inj) (inj_eq (@rshift_inj _ _)) eq_sym (negbTE kc) mulr0 mul0r.
    by [].
  rewrite -expr2 sqr_sqrtr // eq_sym; case: eqP => _; by rewrite ?mulr1 ?mulr0.
rewrite mulr0 mul0rn big1 // => k _.
have -> : (i == tcols (rshift nF k)) = false by apply/negP => h; case: no; exists k.
by rewrite mulr0 mul0r.
Qed.

Section Fit.
Variables (m : nat) (s y : 'I_m.+1 -> 'rV[R]_n) (rho : 'I_m.+1 -> R) (lo : linop R n).
Variables (r : nat) (S_root : 'M[R]_(n, r)) (dampB : R) (pd : bool) (H : 'M[R]_n).
Hypothesis memE : lo_mem lo = Pairs s y rho.
Let w := part_omega tcols s y (lo_sampled lo) dampB.
Hypothesis w0 : 0 < w.
Hypothesis prop : proper (part tcols \o s) (part tcols \o y) (fun i => 1 / dot (part tcols (s i)) (part tcols (y i))) w.
Hypothesis HE : getExplicitnH_blocks qr eigh inv root_eps tcols lo N IHBB dampB true pd = Some H.
Hypothesis def : definite (H + S_root *m S_root^T).

Lemma chol_blocks_ok : exists LP,
  getCholnH_blocks qr eigh inv cholP qrr rank_one root_eps tcols lo N S_root dampB PD_HBB pd = Some LP /\
  factored_as (H + S_root *m S_root^T) LP.
Proof.
move: HE; rewrite /getExplicitnH_blocks /getCholnH_blocks memE NE block_mxKur -/w => -[HE'].
have [t3E t2s] := hsr1_sym qr eigh root_eps invok prop true pd.
rewrite -[hsr1 _ _ _ _ _ _ _ _ _ _ _]/(part_terms qr eigh inv root_eps tcols s y (lo_sampled lo) dampB true pd) in t3E t2s.
set q := part_terms _ _ _ _ _ _ _ _ _ _ _ in HE' t3E t2s *.
set E := row_mx _ _.
have EE : E *m E^T = S_root *m S_root^T + (P1 *m block_mx HBB HBb HBb^T (HBb^T *m IHBB *m HBb) *m P1^T
                     + P2 *m w%:M *m P2^T).
  by rewrite /E tr_row_mx mul_row_col tr_row_mx mul_row_col known_root_gram scaled_root_gram // ltW.
have lift (A : 'M[R]_nA) : P2 *m A *m P2^T = P1 *m block_mx 0 0 0 A *m P1^T.
  by rewrite P2E trmx_mul -P3_block !mulmxA.
have HS : H + S_root *m S_root^T = E *m E^T + (P2 *m tt1 q) *m tt2 q *m (P2 *m tt1 q)^T.
  rewrite EE -HE' P3_block.
  have -> : P2 *m tt1 q *m tt2 q *m (P2 *m tt1 q)^T = P2 *m (tt1 q *m tt2 q *m tt3 q) *m P2^T.
    by rewrite trmx_mul t3E !mulmxA.
  rewrite !lift [LHS]addrC -!addrA; congr (_ + _).
  rewrite -!mulmxDl -!mulmxDr !add_block_mx !addr0 !add0r; congr (_ *m block_mx _ _ _ _ *m _).
  by rewrite addrA addrC.
have dE : definite (E *m E^T).
  split; first by rewrite trmx_mul trmxK.
  move=> x x0; rewrite lt0r q_gram_ge0 andbT; apply/eqP => z.
  have z2 : P2^T *m x = 0.
    have : quad (P2 *m w%:M *m P2^T) x = 0.
      have ge : 0 <= quad (P2 *m w%:M *m P2^T) x.
        by rewrite q_turn q_scalar mulr_ge0 ?quad_sq_ge0 // ltW.
      apply/le_anti; rewrite ge andbT -z EE !qD addrA ler_addr addr_ge0 ?q_gram_ge0 //.
      by rewrite -known_root_gram q_gram_ge0.
    rewrite q_turn q_scalar => /eqP; rewrite mulf_eq0 gt_eqF //= => /eqP; exact: sq_eq0.
  have [_ dp] := def; have := dp x x0; rewrite HS qD z add0r.
  have -> : P2 *m tt1 q *m tt2 q *m (P2 *m tt1 q)^T = P2 *m (tt1 q *m tt2 q *m (tt1 q)^T) *m P2^T.
    by rewrite trmx_mul !mulmxA.
  by rewrite q_turn z2 /quad mulmx0 mxE ltxx.
case rE : (root_factor cholP qrr E) (root_factor_ok qrr cholok dE) => [L P] [c PP e] /=.
eexists; split; first by reflexivity.
have := @up_down_ok _ qr eigh rank_one qrok n eighok rankok L P _ (P2 *m tt1 q) (tt2 q) c PP t2s.
rewrite /= in e; rewrite e -HS => /(_ def) [c' PE e'].
by split=> //; rewrite PE.
Qed.
End Fit.
End Blocks.
