From mathcomp Require Import all_ssreflect all_algebra.
From Coq Require Import Ring.
From Verif Require Import MatModel MatSpec MatProofs MatProofs2 MatProofs3.
Set Implicit Arguments.
Unset Strict Implicit.
Unset Printing Implicit Defensive.
Import Order.TTheory GRing.Theory Num.Theory.
Local Open Scope ring_scope.

(** ** Positive semi-definite replacement *)
Section Psd.
Variable R : realFieldType.

Lemma quad_sq n (x : 'cV[R]_n) : (x^T *m x) 0 0 = \sum_i x i 0 ^+ 2.
Proof. by rewrite mxE; apply: eq_bigr => i _; rewrite mxE expr2. Qed.

Lemma quad_sq_ge0 n (x : 'cV[R]_n) : 0 <= (x^T *m x) 0 0.
Proof. by rewrite quad_sq; apply: sumr_ge0 => i _; exact: sqr_ge0. Qed.

Lemma quad_diag n (v : 'rV[R]_n) (x : 'cV[R]_n) :
  quad (diag_mx v) x = \sum_i v 0 i * x i 0 ^+ 2.
Proof.
rewrite /quad -mulmxA mul_diag_mx mxE; apply: eq_bigr => i _.
by rewrite !mxE mulrCA expr2.
Qed.

Section Eig.
Variables n m : nat.
Variables (W : 'M[R]_(n, m)) (omega : R).
Hypothesis orth : W^T *m W = 1%:M.

Lemma quad_split (v : 'rV[R]_m) (x : 'cV[R]_n) :
  quad (omega%:M + W *m diag_mx v *m W^T) x =
  omega * ((x^T *m x) 0 0 - ((W^T *m x)^T *m (W^T *m x)) 0 0)
  + \sum_i (v 0 i + omega) * (W^T *m x) i 0 ^+ 2.
Proof.
rewrite /quad mulmxDr mulmxDl mxE.
have -> : (x^T *m omega%:M *m x) 0 0 = omega * (x^T *m x) 0 0.
  by rewrite mul_mx_scalar -scalemxAl mxE.
have -> : x^T *m (W *m diag_mx v *m W^T) *m x =
          (W^T *m x)^T *m diag_mx v *m (W^T *m x) by rewrite trmx_mul trmxK !mulmxA.
rewrite -/(quad (diag_mx v) (W^T *m x)) quad_diag (quad_sq (W^T *m x)).
have -> : \sum_i (v 0 i + omega) * (W^T *m x) i 0 ^+ 2 =
   \sum_i v 0 i * (W^T *m x) i 0 ^+ 2 + omega * \sum_i (W^T *m x) i 0 ^+ 2.
  by rewrite mulr_sumr -big_split; apply: eq_bigr => i _; rewrite mulrDl.
by rewrite mulrBr [X in _ = _ + X]addrC addrA subrK.
Qed.

(** Bessel's inequality. *)
Lemma bessel (x : 'cV[R]_n) : ((W^T *m x)^T *m (W^T *m x)) 0 0 <= (x^T *m x) 0 0.
Proof.
rewrite -subr_ge0; have := quad_sq_ge0 (x - W *m (W^T *m x)).
have -> : (x - W *m (W^T *m x))^T *m (x - W *m (W^T *m x)) =
          x^T *m x - (W^T *m x)^T *m (W^T *m x).
  set w := W^T *m x.
  have -> : (x - W *m w)^T = x^T - (W *m w)^T by rewrite raddfB.
  rewrite mulmxBl !mulmxBr.
  have -> : (W *m w)^T *m (W *m w) = w^T *m w.
    by rewrite trmx_mul -!mulmxA (mulmxA W^T) orth mul1mx.
  have -> : (W *m w)^T *m x = w^T *m w by rewrite trmx_mul -mulmxA.
  have -> : x^T *m (W *m w) = w^T *m w by rewrite {1}/w trmx_mul trmxK mulmxA.
  by rewrite subrr subr0.
by rewrite !mxE.
Qed.
End Eig.

Section Fix.
Variables n m : nat.
Variables (t1 Q : 'M[R]_(n, m)) (t2 Rq P : 'M[R]_m) (ev : 'rV[R]_m) (omega : R).
Hypothesis qr : t1 = Q *m Rq.
Hypothesis Qo : Q^T *m Q = 1%:M.
Hypothesis Po : P^T *m P = 1%:M.
Hypothesis eig : Rq *m t2 *m Rq^T = P *m diag_mx ev *m P^T.
Let W := Q *m P.

Lemma W_orth : W^T *m W = 1%:M.
Proof. by rewrite trmx_mul -mulmxA (mulmxA Q^T) Qo mul1mx. Qed.

Lemma terms_eig : t1 *m t2 *m t1^T = W *m diag_mx ev *m W^T.
Proof.
rewrite qr !trmx_mul.
have -> : Q *m Rq *m t2 *m (Rq^T *m Q^T) = Q *m (Rq *m t2 *m Rq^T) *m Q^T by rewrite !mulmxA.
by rewrite eig !mulmxA.
Qed.

Lemma make_psd_eig pd : exists v : 'rV[R]_m,
  make_psd omega%:M t1 t2 Q P ev omega pd = omega%:M + W *m diag_mx v *m W^T /\
  (forall i, v 0 i = if ev 0 i + omega <= 0 then
                if pd is Some e then -1 * omega + e * max_ev (fix_ev ev omega) omega
                else -1 * omega else ev 0 i).
Proof.
rewrite /make_psd; case: existsP => [ex|nex].
  exists (if pd is Some e then lift_ev ev (fix_ev ev omega) omega e else fix_ev ev omega).
  split; first by rewrite !trmx_mul !mulmxA.
  by move=> i; case: pd => [e|]; rewrite !mxE; case: ifP => // ->.
exists ev; split; first by rewrite terms_eig.
by move=> i; case: ifP => // h; case: nex; exists i.
Qed.

Lemma foldr_max_ge (l : seq R) d : 0 <= d -> 0 <= foldr Num.max d l.
Proof.
by move=> d0; elim: l => //= x l IH; rewrite le_maxr IH orbT.
Qed.

Lemma max_ev_ge0 : 0 <= max_ev (fix_ev ev omega) omega.
Proof.
rewrite /max_ev; apply: foldr_max_ge; case: (enum 'I_m) => [|i l] //=.
rewrite mxE; case: ifP => [_|/negbT]; first by rewrite mulN1r addNr.
by rewrite -ltNge => /ltW.
Qed.

Lemma make_psd_ge0 pd x : 0 <= omega -> (if pd is Some e then 0 <= e else true) ->
  0 <= quad (make_psd omega%:M t1 t2 Q P ev omega pd) x.
Proof.
move=> om e0; have [v [-> vE]] := make_psd_eig pd.
rewrite quad_split addr_ge0 //.
  by rewrite mulr_ge0 // subr_ge0; apply: bessel W_orth x.
apply: sumr_ge0 => i _; rewrite mulr_ge0 ?sqr_ge0 // vE.
case: ifP => [_|/negbT]; last by rewrite -ltNge => /ltW.
case: pd e0 {vE} => [e e0|_]; last by rewrite mulN1r addNr.
by rewrite mulN1r addrAC addNr add0r mulr_ge0 // max_ev_ge0.
Qed.

(** On directions that need no fixing nothing changes. *)
Lemma make_psd_keeps pd (x : 'cV[R]_n) :
  (forall i, ev 0 i + omega <= 0 -> (W^T *m x) i 0 = 0) ->
  quad (make_psd omega%:M t1 t2 Q P ev omega pd) x = quad (omega%:M + t1 *m t2 *m t1^T) x.
Proof.
move=> z; have [v [-> vE]] := make_psd_eig pd; rewrite terms_eig !quad_split; congr (_ + _).
apply: eq_bigr => i _; rewrite vE; case: ifP => // h.
by rewrite z // expr0n /= !mulr0.
Qed.
End Fix.
End Psd.

(** ** Block Hessian *)
Section SH.
Variable F : fieldType.
Variables nF nA m : nat.
Variables (HBB : 'M[F]_nF) (HBb : 'M[F]_(nF, nA)) (IHBB : 'M[F]_nF).
Variables (H0 : 'M[F]_nA) (q1 : 'M[F]_(nA, m)) (q2 : 'M[F]_m) (q3 : 'M[F]_(m, nA)).
Variable tcols : 'I_(nF + nA) -> 'I_(nF + nA).
Local Notation P1 := (P1 F tcols).
Local Notation P2 := (P2 F tcols).
Local Notation P3 := (P3 F nF nA).

Lemma P3E : P3 = col_mx 0 1%:M.
Proof.
apply/matrixP => i j; rewrite mxE; case: (split_ordP i) => k ->.
  by rewrite col_mxEu mxE eq_lrshift.
by rewrite col_mxEd mxE (inj_eq (@rshift_inj _ _)).
Qed.

Lemma P2E : P2 = P1 *m P3.
Proof.
apply/matrixP => i j; rewrite !mxE (bigD1 (rshift nF j)) //= !mxE eqxx mulr1 big1 ?addr0 //.
by move=> k /negbTE e; rewrite !mxE e mulr0.
Qed.

Lemma P3_block (A : 'M[F]_nA) : P3 *m A *m P3^T = block_mx 0 0 0 A.
Proof.
rewrite P3E tr_col_mx trmx0 trmx1 mul_col_mx mul0mx mul1mx mul_col_row !mul0mx mulmx0 mulmx1.
by [].
Qed.

Lemma SH_blocks : SH_explicit HBB HBb IHBB H0 q1 q2 q3 tcols =
  P1 *m block_mx HBB HBb HBb^T (H0 + q1 *m q2 *m q3 + HBb^T *m IHBB *m HBb) *m P1^T.
Proof. by rewrite /SH_explicit P3_block add_block_mx !addr0 add0r. Qed.

Lemma SH_implicit :
  nH1 HBB H0 tcols + nH2t1 HBb tcols *m nH2t2 IHBB *m nH2t3 HBb tcols
  + nH3t1 HBb tcols *m nH3t3 HBb tcols
  + nH4t1 q1 tcols *m nH4t2 q2 *m nH4t3 q3 tcols
  = SH_explicit HBB HBb IHBB H0 q1 q2 q3 tcols.
Proof.
rewrite SH_blocks /nH1 /nH2t1 /nH2t2 /nH2t3 /nH3t1 /nH3t3 /nH4t1 /nH4t2 /nH4t3.
have lift (A : 'M[F]_nA) : P2 *m A *m P2^T = P1 *m block_mx 0 0 0 A *m P1^T.
  by rewrite P2E trmx_mul -P3_block !mulmxA.
have -> : P2 *m HBb^T *m IHBB *m (HBb *m P2^T) = P2 *m (HBb^T *m IHBB *m HBb) *m P2^T.
  by rewrite !mulmxA.
have -> : P2 *m q1 *m q2 *m (q3 *m P2^T) = P2 *m (q1 *m q2 *m q3) *m P2^T by rewrite !mulmxA.
rewrite !lift.
have -> : P1 *m block_mx 1%:M 0 0 HBb^T *m (block_mx 0 HBb 1%:M 0 *m P1^T) =
          P1 *m block_mx 0 HBb HBb^T 0 *m P1^T.
  rewrite mulmxA -(mulmxA P1) mulmx_block !mul1mx !mul0mx !mulmx0 mulmx1 !addr0 !add0r.
  by [].
rewrite -!mulmxDl -!mulmxDr !add_block_mx !addr0 !add0r.
congr (_ *m block_mx _ _ _ _ *m _).
by rewrite -!addrA; congr (_ + _); rewrite addrC.
Qed.

(** Where the blocks end up. *)
Lemma SH_entry (inj : injective tcols) B i j :
  (P1 *m B *m P1^T) (tcols i) (tcols j) = B i j.
Proof.
rewrite -mulmxA perm_row // -[_ *m _]trmxK trmx_mul trmxK mxE perm_row // mxE.
by [].
Qed.
End SH.

Section SHpsd.
Variable R : realFieldType.
Variables nF nA : nat.
Variables (HBB IHBB : 'M[R]_nF) (HBb : 'M[R]_(nF, nA)) (Sc : 'M[R]_nA).
Hypothesis sym : HBB^T = HBB.
Hypothesis inv : HBB *m IHBB = 1%:M.

Lemma schur_quad (u : 'cV[R]_nF) (v : 'cV[R]_nA) :
  quad (block_mx HBB HBb HBb^T (Sc + HBb^T *m IHBB *m HBb)) (col_mx u v) =
  quad HBB (u + IHBB *m HBb *m v) + quad Sc v.
Proof.
have ivT : IHBB^T = IHBB.
  have e : IHBB^T *m HBB = 1%:M by rewrite -sym -trmx_mul inv trmx1.
  by rewrite -[LHS]mulmx1 -inv mulmxA e mul1mx.
have vi := mulmx1C inv.
rewrite /quad tr_col_mx mul_row_block mul_row_col.
have -> : (u + IHBB *m HBb *m v)^T = u^T + v^T *m HBb^T *m IHBB.
  by rewrite raddfD /= !trmx_mul ivT !mulmxA.
rewrite !mulmxDl !mulmxDr !mulmxA !mulmxDl.
rewrite -(mulmxA u^T HBB IHBB) inv mulmx1 -(mulmxA (v^T *m HBb^T) IHBB HBB) vi mulmx1.
move: (u^T *m HBB *m u) (v^T *m HBb^T *m u) (u^T *m HBb *m v) (v^T *m Sc *m v)
      (v^T *m HBb^T *m IHBB *m HBb *m v) => a b c d e.
rewrite !mxE -!addrA; congr (_ + _); rewrite addrCA; congr (_ + (_ + _)); exact: addrC.
Qed.

Lemma schur_psd x : (forall u, 0 <= quad HBB u) -> (forall v, 0 <= quad Sc v) ->
  0 <= quad (block_mx HBB HBb HBb^T (Sc + HBb^T *m IHBB *m HBb)) x.
Proof.
move=> pB pS; rewrite -[x]vsubmxK schur_quad addr_ge0 //.
Qed.
End SHpsd.

(** ** Sum-to-zero constraint *)
Section Absorb.
Variable F : fieldType.
Variables N k : nat.
Variables (X : 'M[F]_(N, k.+1)) (Q : 'M[F]_k.+1) (r : F).
Hypothesis orth : Q^T *m Q = 1%:M.
Hypothesis qr : column_sums X = Q *m (r *: delta_mx ord0 0).
Local Notation Z := (constraint_Z Q).

Lemma Z_orth : Z^T *m Z = 1%:M.
Proof.
apply/matrixP => i j; rewrite !mxE.
transitivity ((Q^T *m Q) (lift ord0 i) (lift ord0 j)).
  by rewrite mxE; apply: eq_bigr => l _; rewrite !mxE.
by rewrite orth !mxE (inj_eq lift_inj).
Qed.

Lemma split_Q (w : 'cV[F]_k.+1) : w ord0 0 = 0 -> Q *m w = Z *m row' ord0 w.
Proof.
move=> w0; apply/matrixP => i j; rewrite !mxE big_ord_recl ord1 w0 mulr0 add0r.
by apply: eq_bigr => l _; rewrite !mxE.
Qed.

Lemma sums_mul p (A : 'M[F]_(k.+1, p)) j : \sum_i (X *m A) i j = ((column_sums X)^T *m A) 0 j.
Proof.
rewrite mxE; under eq_bigr do rewrite mxE.
rewrite exchange_big; apply: eq_bigr => l _; by rewrite !mxE mulr_suml.
Qed.

Lemma absorbed_sums j : \sum_i absorb_QR X Q i j = 0.
Proof.
rewrite /absorb_QR sums_mul qr trmx_mul -mulmxA mxE big1 // => i _.
have -> : (Q^T *m Z) i j = (i == lift ord0 j)%:R.
  rewrite -[(i == _)%:R]/(_) mxE.
  transitivity ((Q^T *m Q) i (lift ord0 j)).
    by rewrite mxE; apply: eq_bigr => l _; rewrite !mxE.
  by rewrite orth mxE.
case: eqP => [->|_]; last by rewrite mulr0.
by rewrite !mxE /= !mulr0 ?mul0r.
Qed.

Lemma absorbed_span (b : 'cV[F]_k.+1) : r != 0 -> \sum_i (X *m b) i 0 = 0 ->
  X *m b = absorb_QR X Q *m (Z^T *m b).
Proof.
move=> rn0; rewrite sums_mul qr trmx_mul -mulmxA => z.
have w0 : (Q^T *m b) ord0 0 = 0.
  apply: (mulfI rn0); rewrite mulr0 -[RHS]z [RHS]mxE (bigD1 ord0) //= big1 ?addr0.
    by rewrite !mxE eqxx mulr1.
  by move=> i /negbTE ne; rewrite !mxE ne !mulr0 mul0r.
have QQ := mulmx1C orth.
rewrite -[b in LHS]mul1mx -QQ -(mulmxA Q) (split_Q w0) /absorb_QR -mulmxA; congr (_ *m (_ *m _)).
by apply/matrixP => i j; rewrite !mxE; apply: eq_bigr => l _; rewrite !mxE.
Qed.

Lemma absorbed_rank : \rank X = k.+1 -> \rank (absorb_QR X Q) = k.
Proof.
move=> full; have /row_fullP[B BX] : row_full X by rewrite /row_full full.
apply/eqP; rewrite -/(row_full _); apply/row_fullP; exists (Z^T *m B).
by rewrite /absorb_QR mulmxA -(mulmxA Z^T) BX mulmx1 Z_orth.
Qed.
End Absorb.
