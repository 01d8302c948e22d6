(** Proofs about VcorModel. *)

From Coq Require Import Reals Lra.
From mathcomp Require Import all_ssreflect all_algebra.
From Verif Require Import RealField RealMat RealEigen EdfProofs2 VcorModel VcorSpec.
Import GRing.Theory.
Set Implicit Arguments.
Unset Strict Implicit.
Unset Printing Implicit Defensive.
Local Open Scope ring_scope.

(** ** Positive semi-definite matrices *)

Lemma psdD n (A B : 'M[R]_n) : psd A -> psd B -> psd (A + B).
Proof.
move=> [sA pA] [sB pB]; split; first by rewrite [(A + B)^T]linearD /= sA sB.
by move=> x; rewrite quadD; have := pA x; have := pB x; Lra.
Qed.

Lemma psdZ n (A : 'M[R]_n) (c : R) : Rle 0 c -> psd A -> psd (c *: A).
Proof.
move=> c0 [sA pA]; split; first by rewrite [(c *: A)^T]linearZ /= sA.
by move=> x; rewrite quadZ; apply: Rmult_le_pos.
Qed.

Lemma psd0 n : psd (0 : 'M[R]_n).
Proof. by split; [rewrite trmx0|move=> x; rewrite /quad mulmx0 mul0mx mxE; exact: Rle_refl]. Qed.

Lemma psd_sum n (I : Type) (s : seq I) (F : I -> 'M[R]_n) : (forall i, psd (F i)) -> psd (\sum_(i <- s) F i).
Proof. by move=> h; elim: s => [|i s ih]; [rewrite big_nil; exact: psd0|rewrite big_cons; exact: psdD]. Qed.

Lemma psd_tt m n (M : 'M[R]_(m, n)) : psd (M^T *m M).
Proof.
split; first by rewrite trmx_mul trmxK.
by move=> x; have := quad_gram M^T x; rewrite trmxK => ->; apply: sum_ge0 => i; exact: sq_ge0.
Qed.

Lemma psd_mt m n (M : 'M[R]_(n, m)) : psd (M *m M^T).
Proof. by have := psd_tt M^T; rewrite trmxK. Qed.

Lemma psd_turn m n (A : 'M[R]_n) (W : 'M[R]_(n, m)) : psd A -> psd (W^T *m A *m W).
Proof.
move=> [sA pA]; split; first by rewrite !trmx_mul trmxK sA mulmxA.
by move=> x; have -> : quad (W^T *m A *m W) x = quad A (W *m x) by rewrite /quad trmx_mul !mulmxA.
Qed.

Lemma diag_ge0 n (A : 'M[R]_n) i : psd A -> Rle 0 (A i i).
Proof. by move=> [_ p]; rewrite -quad_delta. Qed.

Lemma tr_ge0 n (A : 'M[R]_n) : psd A -> Rle 0 (\tr A).
Proof. by move=> p; apply: sum_ge0 => i; exact: diag_ge0. Qed.

Lemma tr_psd n (P Q : 'M[R]_n) : psd P -> psd Q -> Rle 0 (\tr (P *m Q)).
Proof.
move=> pP pQ; have [sP _] := pP; have [d [U [uu [ud _]]]] := spectral sP.
have u2 : U *m U^T = 1%:M by exact: mulmx1C.
have -> : P = U *m diag_mx d *m U^T by rewrite -ud !mulmxA u2 mul1mx -mulmxA u2 mulmx1.
rewrite -!mulmxA mxtrace_mulC -!mulmxA mul_diag_mx; apply: sum_ge0 => i; rewrite mxE; apply: Rmult_le_pos.
  by have := diag_ge0 i (psd_turn U pP); rewrite ud mxE eqxx mulr1n.
by rewrite mulmxA; exact/diag_ge0/psd_turn.
Qed.

(** ** The pieces *)

Section Pieces.
Variables (n k N : nat) (lvi H : 'M[R]_n) (edf scale : R).
Implicit Types (Vr Vpr : 'M[R]_k) (dB : 'M[R]_(n, k)) (D : 'I_k -> 'M[R]_n) (ws : 'I_N -> R) (Vs : 'I_N -> 'M[R]_n) (bs : 'I_N -> 'cV[R]_n).

Lemma Vb_psd : Rle 0 scale -> psd (Vb lvi scale).
Proof. by move=> s0; apply: psdZ => //; exact: psd_tt. Qed.

(** The second correction is a sum over the columns of the derivatives. *)
Lemma Vcc_sum Vpr D : \sum_p \sum_q Vpr p q *: (D p *m (D q)^T)
  = \sum_m (let B := \matrix_(q, i) D q i m in B^T *m Vpr *m B).
Proof.
apply/matrixP => a b; rewrite !summxE.
transitivity (\sum_p \sum_q \sum_m Vpr p q * (D p a m * D q b m)).
  apply: eq_bigr => p _; rewrite summxE; apply: eq_bigr => q _; rewrite !mxE mulr_sumr.
  by apply: eq_bigr => m _; rewrite mxE.
rewrite (eq_bigr (fun p => \sum_m \sum_q Vpr p q * (D p a m * D q b m))); last by move=> p _; exact: exchange_big.
rewrite exchange_big; apply: eq_bigr => m _ /=; rewrite mxE.
rewrite exchange_big; apply: eq_bigr => q _ /=; rewrite !mxE mulr_suml.
by apply: eq_bigr => p _; rewrite !mxE [_ * Vpr p q]mulrC mulrA.
Qed.

Lemma Vcc_psd c Vpr D : Rle 0 scale -> psd Vpr -> psd (Vcc scale c Vpr D).
Proof.
move=> s0 p; rewrite /Vcc; case: c; last exact: psd0.
by apply: psdZ => //; rewrite Vcc_sum; apply: psd_sum => m; exact: psd_turn.
Qed.

Lemma JJJ1_psd c Vr Vpr dB D : Rle 0 scale -> psd Vpr ->
  psd (V_JJJ1 lvi scale c Vr Vpr dB D) /\ below (Vb lvi scale) (V_JJJ1 lvi scale c Vr Vpr dB D).
Proof.
move=> s0 p; have p1 : psd (Vc Vr dB) by exact: psd_tt.
have p2 := @Vcc_psd c Vpr D s0 p; split; first by apply: psdD; [exact: psdD|exact: Vb_psd].
by move=> x; rewrite /V_JJJ1 !quadD; have := p1.2 x; have := p2.2 x; Lra.
Qed.

Lemma Vr1_psd ws Vs : (forall i, Rle 0 (ws i)) -> (forall i, psd (Vs i)) -> psd (Vr1 ws Vs).
Proof. by move=> w0 p; apply: psd_sum => i; exact: psdZ. Qed.

Lemma entry3 (A B C : 'M[R]_n) a b : (A + B - C) a b = A a b + B a b - C a b.
Proof. by rewrite !mxE. Qed.

Lemma entry_scaled (w : R) (A B : 'M[R]_n) a b : (w *: (A + B)) a b = w * (A a b + B a b).
Proof. by rewrite !mxE. Qed.

Lemma entry_sub (u v : 'cV[R]_n) a : (u - v) a 0 = u a 0 - v a 0.
Proof. by rewrite !mxE. Qed.

Lemma outer (u v : 'cV[R]_n) a b : (u *m v^T) a b = u a 0 * v b 0.
Proof. by rewrite mxE big_ord1 mxE. Qed.

Lemma mixture_value ws Vs bs : \sum_i ws i = 1 ->
  Vr1 ws Vs + Vr2 ws bs - Vr3 ws bs *m (Vr3 ws bs)^T = \matrix_(a, b) total_covariance ws Vs bs a b.
Proof.
move=> w1; apply/matrixP => a b; rewrite [RHS]mxE /total_covariance.
set ma := \sum_j ws j * bs j a 0; set mb := \sum_j ws j * bs j b 0.
have -> : (Vr1 ws Vs + Vr2 ws bs - Vr3 ws bs *m (Vr3 ws bs)^T) a b
   = \sum_i ws i * Vs i a b + \sum_i ws i * (bs i a 0 * bs i b 0) - ma * mb.
  rewrite entry3 outer /Vr1 /Vr2 /Vr3 !summxE.
  congr (_ + _ - _ * _); apply: eq_bigr => i _; rewrite !mxE ?big_ord1 ?mxE //.
have -> p q : \sum_i ws i * (Vs i a b + (bs i a 0 - p) * (bs i b 0 - q))
   = \sum_i ws i * Vs i a b + (\sum_i ws i * (bs i a 0 * bs i b 0) - q * (\sum_i ws i * bs i a 0) - p * (\sum_i ws i * bs i b 0) + p * q * (\sum_i ws i)).
  rewrite !mulr_sumr.
  rewrite -!sumrN -!big_split /=; apply: eq_bigr => i _.
  by set w := ws i; set v := Vs i a b; set x := bs i a 0; set z := bs i b 0; eqR; ring.
rewrite w1 -/ma -/mb; set s1 := \sum_i _ * _; set s2 := \sum_i _ * (_ * _); eqR; ring.
Qed.

Lemma mixture_psd ws Vs bs : (forall i, Rle 0 (ws i)) -> (forall i, psd (Vs i)) -> psd (\matrix_(a, b) total_covariance ws Vs bs a b).
Proof.
move=> w0 p; pose m : 'cV[R]_n := \sum_j ws j *: bs j.
have -> : (\matrix_(a, b) total_covariance ws Vs bs a b) = \sum_i ws i *: (Vs i + (bs i - m) *m (bs i - m)^T).
  apply/matrixP => a b; rewrite mxE /total_covariance summxE; apply: eq_bigr => i _.
  rewrite entry_scaled outer !entry_sub /m !summxE.
  by congr (_ * (_ + (_ - _) * (_ - _))); apply: eq_bigr => j _; rewrite mxE.
by apply: psd_sum => i; apply: psdZ => //; apply: psdD => //; exact: psd_mt.
Qed.

Lemma Rsum_gt0 (F : 'I_N -> R) : (0 < N)%N -> (forall i, Rlt 0 (F i)) -> Rlt 0 (\sum_i F i).
Proof.
move=> n0 h; have i0 : 'I_N by exact: Ordinal n0.
apply: (@sum_gt0 _ _ _ i0) => //; first by move=> i; apply: Rlt_le.
by rewrite mem_index_enum.
Qed.

Lemma softmax_dist (a : 'I_N -> R) : (0 < N)%N -> distribution (softmax a).
Proof.
move=> n0; have s0 : Rlt 0 (\sum_j exp (a j)) by apply: Rsum_gt0 => // i; exact: exp_pos.
split.
  by move=> i; rewrite /softmax; apply: Rmult_le_pos; [apply: Rlt_le; exact: exp_pos|rewrite -RinvE; [apply: Rlt_le; exact: Rinv_0_lt_compat|exact: Rgt_not_eq]].
by rewrite /softmax -mulr_suml mulfV //; apply/eqP; exact: Rgt_not_eq.
Qed.
End Pieces.
