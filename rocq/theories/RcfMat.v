(** Decompositions exist over every real closed field: Cholesky factors of positive definite matrices,
    orthonormal eigenvectors of symmetric matrices, singular values of invertible matrices. *)
From mathcomp Require Import all_ssreflect all_algebra complex.
From Verif Require Import MatModel MatSpec QefsModel QefsSpec QefsProofs QefsProofs3.
Set Implicit Arguments.
Unset Strict Implicit.
Unset Printing Implicit Defensive.
Import Order.TTheory GRing.Theory Num.Theory.
Local Open Scope ring_scope.

Section Decompositions.
Variable R : rcfType.
Implicit Types n m : nat.

Lemma q_block n (a : 'M[R]_1) (b : 'cV[R]_n) (C : 'M[R]_n) (s : 'M[R]_1) (x : 'cV[R]_n) :
  quad (block_mx a b^T b C : 'M_(1 + n)) (col_mx s x)
  = s 0 0 * a 0 0 * s 0 0 + 2%:R * (s 0 0 * (b^T *m x) 0 0) + quad C x.
Proof.
rewrite [s]mx11_scalar [a]mx11_scalar; move: (s 0 0) (a 0 0) => {s} s {a} a.
rewrite /quad tr_col_mx mul_row_block mul_row_col tr_scalar_mx !mulmxDl.
rewrite -scalar_mxM !mul_mx_scalar !mul_scalar_mx -!scalemxAl.
have e : x^T *m b = b^T *m x.
  by rewrite -[x^T *m b]trmxK trmx_mul trmxK [b^T *m x]mx11_scalar tr_scalar_mx.
rewrite e; set u := b^T *m x; set v := x^T *m C *m x; clearbody u v.
rewrite !mxE !eqxx !mulr1n mulr_natl mulr2n !addrA; congr (_ + _); congr (_ + _ + _); by rewrite mulrC.
Qed.

Lemma complete_sq (a u v : R) : a != 0 ->
  - (a^-1 * u) * a * - (a^-1 * u) + 2%:R * (- (a^-1 * u) * u) + v = v - a^-1 * (u * u).
Proof.
move=> a0; rewrite !mulNr mulrN opprK mulr_natl mulr2n.
have -> : a^-1 * u * a * (a^-1 * u) = a^-1 * u * u by rewrite -[LHS]mulrA (mulrA a) mulfV // mul1r.
by rewrite mulrA addrA subrr sub0r addrC.
Qed.

Lemma chol_exists n (A : 'M[R]_n) : definite A -> exists L, [/\ lower L, (forall i, 0 < L i i) & L *m L^T = A].
Proof.
elim: n A => [|n ih] A p.
  by exists 0; split=> [[]//|[]//|]; apply/matrixP => -[].
rewrite -[n.+1]/(1 + n)%N in A p *.
have sy : A^T = A by case: p.
have eA : A = block_mx (ulsubmx A) (dlsubmx A)^T (dlsubmx A) (drsubmx A).
  by rewrite trmx_dlsub sy submxK.
move: p; rewrite eA; set b := dlsubmx A; set C := drsubmx A; rewrite [ulsubmx A]mx11_scalar.
set a := ulsubmx A 0 0; have sC : C^T = C by rewrite /C trmx_drsub sy.
clearbody a b C => p.
have a0 : 0 < a.
  have [_ q] := p; have := q (col_mx 1%:M 0) _; rewrite q_block mulmx0 /quad mulmx0 !mxE !eqxx !mulr1n.
  rewrite !mulr0 !addr0 mul1r mulr1; apply; apply/eqP => /(congr1 usubmx) /matrixP /(_ 0 0).
  by rewrite col_mxKu !mxE eqxx => /eqP; rewrite oner_eq0.
have an : a != 0 by rewrite gt_eqF.
pose C1 := C - a^-1 *: (b *m b^T).
have p1 : definite C1.
  split; first by rewrite /C1 linearB linearZ /= trmx_mul trmxK sC.
  move=> x x0; have [_ q] := p.
  have -> : quad C1 x = quad C x - a^-1 * ((b^T *m x) 0 0 * (b^T *m x) 0 0).
    rewrite /C1 qD -scaleNr qZ q_gram mulNr; congr (_ - _ * _).
    by rewrite mxE big_ord1 mxE.
  have := q (col_mx (- (a^-1 * (b^T *m x) 0 0))%:M x) _.
  rewrite q_block; set u := (b^T *m x) 0 0; set v := quad C x; clearbody u v.
  rewrite !mxE !eqxx !mulr1n complete_sq //.
  apply; apply/eqP => /(congr1 dsubmx); rewrite col_mxKd linear0 => e; by rewrite e eqxx in x0.
have [L1 [t1 d1 f1]] := ih _ p1.
have sa : 0 < Num.sqrt a by rewrite sqrtr_gt0.
have ss : Num.sqrt a * Num.sqrt a = a by rewrite -expr2 sqr_sqrtr // ltW.
have sn : Num.sqrt a != 0 by rewrite gt_eqF.
exists (block_mx (Num.sqrt a)%:M 0 ((Num.sqrt a)^-1 *: b) L1); split.
- move=> i j; rewrite mxE; case: splitP => k e; rewrite mxE; case: splitP => l e2 h.
  + by move: h; rewrite e e2 !ord1.
  + by rewrite mxE.
  + move: h; rewrite e e2 => h; move: (ltn_ord l); rewrite ltnS leqn0 => /eqP z; by rewrite z in h.
  + by apply: t1; move: h; rewrite e e2 ltn_add2l.
- move=> i; rewrite mxE; case: splitP => j e; rewrite mxE; case: splitP => k e2.
  + by rewrite mxE !ord1 eqxx mulr1n.
  + by move: (ltn_ord j); rewrite -e e2 ltnNge leq_addr.
  + by move: (ltn_ord k); rewrite -e2 e ltnNge leq_addr.
  + have -> : k = j by apply/val_inj/eqP; rewrite -(eqn_add2l 1) -e -e2.
    exact: d1.
- rewrite tr_block_mx mulmx_block !tr_scalar_mx !trmx0 !mulmx0 !mul0mx !addr0 f1 -scalar_mxM ss.
  rewrite linearZ /= mul_scalar_mx mul_mx_scalar !scalerA mulfV // !scale1r -scalemxAl -scalemxAr scalerA.
  by rewrite -invfM ss /C1 addrC subrK.
Qed.

Lemma real_eigen n (A : 'M[R]_n.+1) : A^T = A ->
  exists (a : R) (x : 'cV[R]_n.+1), x != 0 /\ A *m x = a *: x.
Proof.
move=> sA; pose AC : 'M[R[i]]_n.+1 := map_mx (real_complex R) A.
have [z rz] : exists z, root (char_poly AC) z by apply/closed_rootP; rewrite size_char_poly.
set a := complex.Re z; set b := complex.Im z.
pose M := (A - a%:M) *m (A - a%:M) + (b ^+ 2)%:M.
have dM : \det M = 0.
  have : (real_complex R) (\det M) = 0.
    rewrite -det_map_mx.
    have -> : map_mx (real_complex R) M = (AC - z%:M) *m (AC - (z^*)%C%:M).
      rewrite /M map_mxD map_mxM !map_mxB !map_scalar_mx -/AC.
      have zE : z = real_complex R a + 'i%C * real_complex R b.
        by rewrite /a /b; case: (z) => p q; apply/eqP; rewrite eq_complex /= !(mul0r, mul1r, mulr0, addr0, subr0, add0r, oppr0) !eqxx.
      have zE' : (z^*)%C = real_complex R a - 'i%C * real_complex R b.
        by rewrite /a /b; case: (z) => p q; apply/eqP; rewrite eq_complex /= !(mul0r, mul1r, mulr0, addr0, subr0, add0r, oppr0) !eqxx.
      have ii : ('i%C * real_complex R b) ^+ 2 = - real_complex R (b ^+ 2).
        by rewrite exprMn sqr_i mulN1r -rmorphX.
      set p := real_complex R a in zE zE' *; set q := 'i%C * _ in zE zE' ii.
      have -> : AC - z%:M = (AC - p%:M) - q%:M by rewrite zE raddfD opprD addrA.
      have -> : AC - (z^*)%C%:M = (AC - p%:M) + q%:M by rewrite zE' raddfB opprB addrA addrAC.
      move: (AC - p%:M) => X; rewrite mulmxDr !mulmxBl -[q%:M *m q%:M]scalar_mxM -expr2 ii.
      rewrite mul_scalar_mx mul_mx_scalar raddfN /= opprK.
      by rewrite addrA subrK.
    rewrite det_mulmx.
    have -> : \det (AC - z%:M) = 0.
      move: rz; rewrite -eigenvalue_root_char => /eigenvalueP [v e v0].
      apply/eqP/det0P; exists v => //.
      by rewrite mulmxBr e mul_mx_scalar subrr.
    by rewrite mul0r.
  by move/eqP; rewrite fmorph_eq0 => /eqP.
have [v v0 e] := det0P (introT eqP dM).
move: e; rewrite /M; set B := A - a%:M => e.
have sB : B^T = B by rewrite /B linearB /= sA tr_scalar_mx.
have q0 : ((B *m v^T)^T *m (B *m v^T)) 0 0 + b ^+ 2 * (v *m v^T) 0 0 = 0.
  have := congr1 (fun X => X *m v^T) e.
  rewrite mulmxDr mulmxDl mul0mx mul_mx_scalar -scalemxAl => zz.
  have -> : (B *m v^T)^T *m (B *m v^T) = v *m (B *m B) *m v^T by rewrite trmx_mul trmxK sB !mulmxA.
  have E (X Y : 'M[R]_1) c : (X + c *: Y) 0 0 = X 0 0 + c * Y 0 0 by rewrite !mxE.
  by rewrite -E zz mxE.
have g1 : 0 <= ((B *m v^T)^T *m (B *m v^T)) 0 0.
  by rewrite mxE; apply: sumr_ge0 => i _; rewrite mxE -expr2 sqr_ge0.
have g2 : 0 <= b ^+ 2 * (v *m v^T) 0 0.
  rewrite mulr_ge0 ?sqr_ge0 // mxE; apply: sumr_ge0 => i _; by rewrite mxE -expr2 sqr_ge0.
move/eqP: q0; rewrite paddr_eq0 // => /andP[/eqP h _].
exists a, v^T; split; first by rewrite trmx_eq0.
have := sq_eq0 h; rewrite /B mulmxBl mul_scalar_mx => /eqP; rewrite subr_eq0 => /eqP.
by [].
Qed.

Lemma normalised n (x : 'cV[R]_n) : x != 0 -> exists c : R, ((c *: x)^T *m (c *: x)) 0 0 = 1.
Proof.
move=> x0; have g := sq_gt0 x0; exists (Num.sqrt ((x^T *m x) 0 0))^-1.
set c := (Num.sqrt _)^-1.
have -> : (c *: x)^T *m (c *: x) = (c * c) *: (x^T *m x).
  by rewrite [(c *: x)^T]linearZ /= -scalemxAl -scalemxAr scalerA.
rewrite mxE /c -invfM -expr2 sqr_sqrtr ?ltW //.
by rewrite mulVf // gt_eqF.
Qed.

Lemma reflection n (v : 'cV[R]_n.+1) : (v^T *m v) 0 0 = 1 ->
  exists H : 'M[R]_n.+1, H^T *m H = 1%:M /\ H *m delta_mx 0 0 = v.
Proof.
move=> uv; set e : 'cV[R]_n.+1 := delta_mx 0 0.
have ue : (e^T *m e) 0 0 = 1 by rewrite trmx_delta mul_delta_mx mxE.
case: (eqVneq v e) => [->|ne]; first by exists 1%:M; rewrite trmx1 mulmx1 mul1mx.
have w0 : v - e != 0 by rewrite subr_eq0.
set w := v - e in w0; have p := sq_gt0 w0; set d := (w^T *m w) 0 0 in p.
have q : d != 0 by rewrite gt_eqF.
have wd : w^T *m w = d%:M by rewrite [LHS]mx11_scalar.
have ww : w *m w^T *m (w *m w^T) = d *: (w *m w^T).
  by rewrite !mulmxA -[w *m w^T *m w]mulmxA wd mul_mx_scalar -scalemxAl.
set c := 2%:R / d.
exists (1%:M - c *: (w *m w^T)); split.
  set M := w *m w^T in ww *; have sM : M^T = M by rewrite /M trmx_mul trmxK.
  have -> : (1%:M - c *: M)^T = 1%:M - c *: M by rewrite [(_ - _)^T]linearB /= trmx1 [(c *: M)^T]linearZ /= sM.
  rewrite mulmxBl mul1mx mulmxBr mulmx1 -scalemxAl -scalemxAr ww !scalerA.
  have -> : c * c * d = c + c by rewrite -mulrA {2}/c mulfVK // mulr_natr mulr2n.
  by rewrite scalerDl; set z := c *: M; have -> : z - (z + z) = - z; rewrite ?opprK ?subrK // opprD addrA subrr add0r.
rewrite mulmxBl mul1mx -scalemxAl -mulmxA.
have ev : (e^T *m v) 0 0 = (v^T *m e) 0 0.
  by rewrite -[e^T *m v]trmxK trmx_mul trmxK mxE.
have dE : d = - (2%:R * (w^T *m e) 0 0).
  rewrite /d /w [(v - e)^T]linearB /= !mulmxBl !mulmxBr.
  have E (X Y Z W : 'M[R]_1) : (X - Y - (Z - W)) 0 0 = X 0 0 - Y 0 0 - (Z 0 0 - W 0 0) by rewrite !mxE.
  have E2 (X Y : 'M[R]_1) : (X - Y) 0 0 = X 0 0 - Y 0 0 by rewrite !mxE.
  rewrite E E2 uv ue ev; set t := (v^T *m e) 0 0.
  have -> : - (2%:R * (t - 1)) = - ((t - 1) + (t - 1)) by rewrite mulr_natl mulr2n.
  by rewrite [RHS]opprD !opprB.
have -> : w^T *m e = (- (d / 2%:R))%:M.
  have -> : - (d / 2%:R) = (w^T *m e) 0 0.
    by rewrite dE mulNr opprK mulrC mulrA mulVf ?mul1r // pnatr_eq0.
  by rewrite -mx11_scalar.
rewrite mul_mx_scalar scalerA mulrN.
have -> : c * (d / 2%:R) = 1 by rewrite /c mulrA mulfVK // mulfV // pnatr_eq0.
by rewrite scaleN1r opprK /w addrC subrK.
Qed.

Lemma spectral_exists n (A : 'M[R]_n) : A^T = A -> exists (d : 'rV[R]_n) (U : 'M[R]_n),
  A = U *m diag_mx d *m U^T /\ U^T *m U = 1%:M.
Proof.
elim: n A => [|n ih] A sA.
  by exists 0, 1%:M; split; [apply/matrixP => -[]|rewrite trmx1 mulmx1].
have [m [x [x0 ex]]] := real_eigen sA; have [c uc] := normalised x0.
set v := c *: x in uc; have ev : A *m v = m *: v by rewrite -scalemxAr ex scalerA mulrC -scalerA.
have [H [oH He]] := reflection uc.
have oH' : H *m H^T = 1%:M by apply: mulmx1C.
have [B dB] : exists B : 'M[R]_(1 + n), B = H^T *m A *m H by eexists.
have sB : B^T = B by rewrite dB !trmx_mul trmxK sA mulmxA.
pose e : 'cV[R]_n.+1 := delta_mx 0 0.
have c0 : (B : 'M[R]_n.+1) *m e = m *: e.
  by rewrite dB -!mulmxA He ev -scalemxAr -He mulmxA oH mul1mx.
have eB : B = block_mx (m%:M : 'M_1) 0 0 (drsubmx B).
  rewrite -{1}[B]submxK.
  have col i : B i (lshift n 0) = m * (i == lshift n 0)%:R.
    have l0 : lshift n (0 : 'I_1) = (0 : 'I_n.+1) by apply: val_inj.
    have := congr1 (fun M : 'cV[R]_n.+1 => M i 0) c0; rewrite /= -colE !mxE eqxx andbT -l0 => h.
    exact: h.
  congr block_mx; apply/matrixP => i j; rewrite !mxE !ord1.
  - by rewrite col eqxx mulr1.
  - by rewrite -sB mxE col -(inj_eq val_inj) /= mulr0.
  - by rewrite col -(inj_eq val_inj) /= mulr0.
have sD : (drsubmx B)^T = drsubmx B by rewrite trmx_drsub sB.
have [D [U [dU oU]]] := ih _ sD.
pose T : 'M[R]_(1 + n) := block_mx (1%:M : 'M_1) 0 0 U.
have oT : T^T *m T = 1%:M.
  by rewrite /T tr_block_mx !trmx0 trmx1 mulmx_block !mulmx0 !mul0mx !addr0 add0r mulmx1 oU -scalar_mx_block.
have eT : T *m diag_mx (row_mx (m%:M : 'M_1) D) *m T^T = B.
  have -> : diag_mx (row_mx (m%:M : 'M_1) D) = block_mx (m%:M : 'M_1) 0 0 (diag_mx D).
    apply/matrixP => i j; rewrite !mxE; case: splitP => i' ei; rewrite !mxE; case: splitP => j' ej; rewrite !mxE -?(inj_eq val_inj) /= ?ei ?ej /= ?ord1 ?mulr1n ?eqxx //.
  rewrite [RHS]eB dU /T tr_block_mx !trmx0 trmx1 mulmx_block !(mulmx0, mul0mx, addr0, add0r) mulmx_block.
  by rewrite !(mulmx0, mul0mx, addr0, add0r, mulmx1, mul1mx).
exists (row_mx (m%:M : 'M_1) D), (H *m T); split.
  rewrite trmx_mul !mulmxA -(mulmxA H T) -(mulmxA H (T *m _)) eT dB !mulmxA oH' mul1mx -mulmxA oH' mulmx1.
  by [].
by rewrite trmx_mul mulmxA -[T^T *m H^T *m H]mulmxA oH mulmx1.
Qed.

Lemma svd_exists n (A : 'M[R]_n) : A \in unitmx -> exists (U : 'M[R]_n) (d : 'rV[R]_n) (VT : 'M[R]_n),
  [/\ A = U *m diag_mx d *m VT, U^T *m U = 1%:M & VT *m VT^T = 1%:M].
Proof.
move=> u; have sG : (A^T *m A)^T = A^T *m A by rewrite trmx_mul trmxK.
have [d [V [e o]]] := spectral_exists sG.
have o' : V *m V^T = 1%:M by exact: mulmx1C.
have dg : V^T *m (A^T *m A) *m V = diag_mx d by rewrite e !mulmxA o mul1mx -mulmxA o mulmx1.
have pos i : 0 < d 0 i.
  pose e1 : 'cV[R]_n := delta_mx i 0.
  have -> : d 0 i = ((A *m V *m e1)^T *m (A *m V *m e1)) 0 0.
    have -> : d 0 i = diag_mx d i i by rewrite mxE eqxx.
    by rewrite -dg !trmx_mul trmx_delta -!mulmxA -rowE !mulmxA -colE !mxE.
  apply: sq_gt0; apply/eqP => z.
  have uV : V \in unitmx by case: (mulmx1_unit o').
  have : e1 = 0.
    by rewrite -[LHS](mulKmx uV) -[V *m _](mulKmx u) (mulmxA A) z !mulmx0.
  by move/matrixP => /(_ i 0) /eqP; rewrite !mxE !eqxx oner_eq0.
pose s := \row_i Num.sqrt (d 0 i); pose t := \row_i (Num.sqrt (d 0 i))^-1.
have st : diag_mx t *m diag_mx s = 1%:M.
  rewrite mulmx_diag -diag_const_mx; congr diag_mx; apply/rowP => i; rewrite !mxE mulVf //.
  by rewrite gt_eqF // sqrtr_gt0.
have tdt : diag_mx t *m diag_mx d *m diag_mx t = 1%:M.
  rewrite !mulmx_diag -diag_const_mx; congr diag_mx; apply/rowP => i; rewrite !mxE.
  rewrite -{2}[d 0 i]sqr_sqrtr ?ltW // expr2 mulrA mulVf ?mul1r ?mulfV // gt_eqF // sqrtr_gt0 //.
exists (A *m V *m diag_mx t), s, V^T; split.
- by rewrite -(mulmxA (A *m V)) st mulmx1 -mulmxA o' mulmx1.
- rewrite !trmx_mul tr_diag_mx.
  have -> : diag_mx t *m (V^T *m A^T) *m (A *m V *m diag_mx t) = diag_mx t *m (V^T *m (A^T *m A) *m V) *m diag_mx t.
    by rewrite !mulmxA.
  by rewrite dg tdt.
- by rewrite trmxK.
Qed.

(** ** Routines that keep the contracts *)
Definition pick_or (T : choiceType) (b : bool) (P : pred T) (ex : b -> exists x, P x) (d : T) : T :=
  match b as b0 return (b0 -> exists x, P x) -> T with
  | true => fun ex => xchoose (ex isT)
  | false => fun _ => d
  end ex.
Lemma pick_orP (T : choiceType) (b : bool) (P : pred T) (ex : b -> exists x, P x) (d : T) : b -> P (pick_or ex d).
Proof. by case: b ex => // ex _; exact: xchooseP. Qed.

Definition full_qr n m (A : 'M[R]_(n, m)) : economic R n m := Economic 1%:M A.

Definition eigh_rel n (A : 'M[R]_n) (p : 'rV[R]_n * 'M[R]_n) : bool :=
  (A == p.2 *m diag_mx p.1 *m p.2^T) && (p.2^T *m p.2 == 1%:M).
Lemma eigh_rel_exists n (A : 'M[R]_n) : A^T == A -> exists p, eigh_rel A p.
Proof.
move=> /eqP s; have [d [U [e o]]] := spectral_exists s; exists (d, U).
by rewrite /eigh_rel -e o !eqxx.
Qed.
Definition some_eigh n (A : 'M[R]_n) : 'rV[R]_n * 'M[R]_n :=
  pick_or (@eigh_rel_exists n A) (0, 1%:M).

Definition svd_rel n (A : 'M[R]_n) (p : 'M[R]_n * 'rV[R]_n * 'M[R]_n) : bool :=
  [&& A == p.1.1 *m diag_mx p.1.2 *m p.2, p.1.1^T *m p.1.1 == 1%:M & p.2 *m p.2^T == 1%:M].
Lemma svd_rel_exists n (A : 'M[R]_n) : A \in unitmx -> exists p, svd_rel A p.
Proof.
move=> u; have [U [d [V [e o o']]]] := svd_exists u; exists (U, d, V).
by rewrite /svd_rel -e o o' !eqxx.
Qed.
Definition some_svd n (A : 'M[R]_n) : 'M[R]_n * 'rV[R]_n * 'M[R]_n :=
  pick_or (@svd_rel_exists n A) (1%:M, 0, 1%:M).

Definition definite_b n (A : 'M[R]_n) : bool := (A^T == A) && [forall i, 0 < (some_eigh A).1 0 i].
Definition chol_rel n (A L : 'M[R]_n) : bool :=
  [&& [forall i : 'I_n, forall j : 'I_n, (i < j)%N ==> (L i j == 0)], [forall i, 0 < L i i] & L *m L^T == A].

Lemma some_eigh_ok : eigh_ok some_eigh.
Proof.
move=> k A s.
by case/andP: (pick_orP (@eigh_rel_exists k A) (0, 1%:M) (introT eqP s)) => /eqP e /eqP o.
Qed.
Lemma full_qr_ok : qr_ok full_qr.
Proof. by move=> n m A; rewrite /= mul1mx trmx1 mulmx1. Qed.
Lemma some_svd_ok : svd_ok some_svd.
Proof.
move=> k A u; move: (pick_orP (@svd_rel_exists k A) (1%:M, 0, 1%:M) u); rewrite -/(some_svd A).
by case: some_svd => [[U d] V] /and3P[/eqP ? /eqP ? /eqP ?].
Qed.

Lemma definiteP n (A : 'M[R]_n) : definite_b A <-> definite A.
Proof.
split.
  case/andP => /eqP s /forallP p; split=> // x x0; have [e o] := some_eigh_ok s; rewrite {1}e spectral_quad.
  set d := (some_eigh A).1 in p *; set U := (some_eigh A).2 in o *.
  have y0 : U^T *m x != 0.
    by apply: contra x0 => /eqP z; rewrite -[x]mul1mx -(mulmx1C o) -mulmxA z mulmx0.
  have [i yi] : exists i, (U^T *m x) i 0 != 0.
    apply/existsP; apply: contraR y0; rewrite negb_exists => /forallP h; apply/eqP/colP => i.
    by rewrite [RHS]mxE; apply/eqP; move: (h i); rewrite negbK.
  rewrite (bigD1 i) //= ltr_paddr //; last by rewrite mulr_gt0 // lt0r sqrf_eq0 yi sqr_ge0.
  by apply: sumr_ge0 => k _; rewrite mulr_ge0 ?sqr_ge0 // ltW.
case=> s p; apply/andP; split; first exact/eqP.
apply/forallP => i; have [e o] := some_eigh_ok s.
have [q1 q2] := eigenvalue_quad (some_eigh A).1 i o.
rewrite -q1 -e; apply: p; apply/eqP => z; move: q2; rewrite z mulmx0 mxE => /eqP.
by rewrite eq_sym oner_eq0.
Qed.

Lemma chol_rel_exists n (A : 'M[R]_n) : definite_b A -> exists L, chol_rel A L.
Proof.
move=> /definiteP d; have [L [l p e]] := chol_exists d; exists L; rewrite /chol_rel e eqxx andbT.
apply/andP; split; last by apply/forallP.
by apply/forallP => i; apply/forallP => j; apply/implyP => /l ->.
Qed.
Definition some_chol n (A : 'M[R]_n) : factor R n :=
  Factor (pick_or (@chol_rel_exists n A) 1%:M) id (if definite_b A then 0 else 1)%N.
Definition some_rank_one n (L : 'M[R]_n) (u : 'cV[R]_n) (sigma : R) : 'M[R]_n :=
  fac_L (some_chol (L *m L^T + sigma *: (u *m u^T))).

Lemma some_cholE n (A : 'M[R]_n) : definite A -> let f := some_chol A in
  [/\ fac_code f = 0%N, fac_P f = id, lower (fac_L f), (forall i, 0 < fac_L f i i) & fac_L f *m (fac_L f)^T = A].
Proof.
move=> /definiteP d.
case/and3P: (pick_orP (@chol_rel_exists n A) 1%:M d) => /forallP l /forallP p /eqP e; split=> //=; first by rewrite d.
move=> i j ij.
by move/forallP: (l i) => /(_ j); rewrite ij => /eqP.
Qed.
Lemma some_chol_ok n : chol_ok (@some_chol n).
Proof.
split=> [A|A d]; last by case: (some_cholE d).
move=> c; have h : definite_b A by move: c => /=; case: definite_b.
clear c.
case/and3P: (pick_orP (@chol_rel_exists n A) 1%:M h) => /forallP l /forallP p /eqP e; split=> //= i j.
  by move=> ij; move/forallP: (l i) => /(_ j); rewrite ij => /eqP.
by rewrite -{1}e mxE; apply: eq_bigr => k _; rewrite mxE.
Qed.
Lemma some_rank_one_ok n : rank_one_ok (@some_rank_one n).
Proof. by move=> L u sigma _ _ d; case: (some_cholE d) => *; split. Qed.
End Decompositions.
