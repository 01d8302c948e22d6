(** Bounds for the trace of a covariance matrix times a penalty. *)

From Coq Require Import Reals Lra.
From mathcomp Require Import all_ssreflect all_algebra.
From Verif Require Import RealField RealMat RealEigen.
Import GRing.Theory.
Set Implicit Arguments.
Unset Strict Implicit.
Unset Printing Implicit Defensive.
Local Open Scope ring_scope.

Lemma nat_ge0 (k : nat) : Rle 0 (k%:R : R).
Proof. elim: k => [|k ih]; first exact: Rle_refl. rewrite -addn1 natrD mulr1n; apply: Rle_trans ih _; apply: le_addl; exact: Rle_0_1. Qed.

(** Number of nonzero eigenvalues. *)
Lemma rank_diag n (D : 'rV[R]_n) : (#|[pred i | D 0%K i != 0%K]| <= \rank (diag_mx D))%N.
Proof.
set k := #|_|; pose f (i : 'I_k) : 'I_n := enum_val i.
have fi i j : (f i == f j) = (i == j) by rewrite (inj_eq enum_val_inj).
have nz i : D 0 (f i) != 0 by have := enum_valP i; rewrite inE.
pose L : 'M[R]_(k, n) := \matrix_(i, j) (f i == j)%:R.
have e : L *m diag_mx D *m L^T = diag_mx (\row_i D 0 (f i)).
  apply/matrixP => i j; rewrite mxE (bigD1 (f j)) //= [X in _ + X]big1 => [|q /negbTE h]; last by rewrite [L^T _ _]mxE [L _ _]mxE eq_sym h mulr0.
  rewrite addr0 [L^T _ _]mxE [L _ _]mxE eqxx mulr1 mul_mx_diag !mxE fi.
  by case: eqP => [->|_]; rewrite ?mul1r ?mul0r.
have u : diag_mx (\row_i D 0 (f i)) \in unitmx.
  rewrite unitmxE det_diag unitfE; apply/prodf_neq0 => i _; by rewrite mxE.
rewrite -(mxrank_unit u) -e; apply: leq_trans (mxrankM_maxl _ _) _; exact: mxrankM_maxr.
Qed.

Section Bound.
Variables (n : nat) (A V S : 'M[R]_n).
Hypotheses (sA : A^T = A) (inv : V *m A = 1%:M) (pS : psd S) (le : forall x, Rle (quad S x) (quad A x)).

Lemma V_sym : V^T = V.
Proof.
have e : A *m V = 1%:M by apply: mulmx1C.
have e' : V^T *m A = 1%:M by rewrite -sA -trmx_mul e trmx1.
by rewrite -[LHS]mulmx1 -e mulmxA e' mul1mx.
Qed.

Lemma V_psd : psd V.
Proof.
split; first exact: V_sym.
move=> x; have e : A *m V = 1%:M by apply: mulmx1C.
have -> : quad V x = quad A (V *m x).
  by rewrite /quad trmx_mul V_sym !mulmxA -[x^T *m V *m A]mulmxA inv mulmx1.
apply: Rle_trans (le _); exact: pS.2.
Qed.

(** A vector that the penalty acts on with weight [l]. *)
Lemma share_le1 (l : R) (v : 'cV[R]_n) : Rle 0 l -> (forall x, Rle (l * (dotp v x * dotp v x)) (quad S x)) -> Rle (l * quad V v) 1.
Proof.
move=> l0 h.
have e : A *m V = 1%:M by apply: mulmx1C.
have q : quad A (V *m v) = quad V v.
  by rewrite /quad trmx_mul V_sym !mulmxA -[v^T *m V *m A]mulmxA inv mulmx1.
have d : dotp v (V *m v) = quad V v by rewrite quad_dotp.
have b := Rle_trans _ _ _ (h (V *m v)) (le (V *m v)).
have p : Rle 0 (quad V v) by exact: V_psd.2.
move: b p; rewrite q d; move: (quad V v) => z; toR => b p.
case: (Rle_lt_dec (Rmult l z) 1) => [//|c].
have zp : Rlt 0 z by case: (Rle_lt_or_eq_dec _ _ p) => // ez; move: c; rewrite -ez Rmult_0_r; Lra.
have : Rlt (Rmult 1 z) (Rmult (Rmult l z) z) by apply: Rmult_lt_compat_r.
rewrite Rmult_assoc; Lra.
Qed.

Lemma trace_bound : Rle 0 (\tr (V *m S)) /\ Rle (\tr (V *m S)) (\rank S)%:R.
Proof.
have [D [U [oU [dU _]]]] := spectral pS.1.
have oU' : U *m U^T = 1%:M by apply: mulmx1C.
have eS : S = U *m diag_mx D *m U^T.
  by rewrite -dU !mulmxA oU' mul1mx -mulmxA oU' mulmx1.
have D0 i : Rle 0 (D 0 i).
  have := pS.2 (U *m delta_mx i 0); rewrite -quad_turn dU quad_delta [diag_mx _ _ _]mxE eqxx mulr1n; exact.
pose v i : 'cV[R]_n := U *m delta_mx i 0.
have tE : \tr (V *m S) = \sum_i D 0 i * quad V (v i).
  rewrite eS mulmxA mxtrace_mulC !mulmxA /mxtrace; apply: eq_bigr => i _.
  rewrite mul_mx_diag mxE mulrC; congr (_ * _).
  by rewrite -quad_turn quad_delta.
have qS x : quad S x = \sum_i D 0 i * (dotp (v i) x * dotp (v i) x).
  have -> : quad S x = quad (diag_mx D) (U^T *m x).
    by rewrite -quad_turn trmxK -eS.
  rewrite /quad mul_mx_diag mxE; apply: eq_bigr => i _; rewrite !mxE.
  have -> : dotp (v i) x = \sum_j U^T i j * x j 0.
    rewrite dotpE; apply: eq_bigr => j _; rewrite /v -colE !mxE //.
  move: (\sum_j _) (D 0 i) => a c; eqR; ring.
have b i : Rle 0 (D 0 i * quad V (v i)) /\ Rle (D 0 i * quad V (v i)) (D 0 i != 0)%:R.
  split; first by apply: Rmult_le_pos => //; exact: V_psd.2.
  case: (D 0 i =P 0) => [->|_] /=; first by rewrite mul0r; exact: Rle_refl.
  apply: (share_le1 (D0 i)) => x; rewrite qS (bigD1 i) //=; apply: le_addl.
  rewrite -big_filter; apply: sum_ge0 => j; apply: Rmult_le_pos => //; exact: sq_ge0.
rewrite tE; split; first by apply: sum_ge0 => i; exact: (b i).1.
apply: Rle_trans (_ : Rle (\sum_i (D 0 i != 0)%:R) _); first by apply: sum_le => i; exact: (b i).2.
have -> : \sum_i (D 0 i != 0)%:R = #|[pred i | D 0 i != 0]|%:R :> R.
  by rewrite -sum1_card natr_sum [RHS]big_mkcond /=; apply: eq_bigr => i _; rewrite inE; case: (_ != _).
have rS : \rank S = \rank (diag_mx D).
  have uU : U \in unitmx by case: (mulmx1_unit oU').
  have uU' : U^T \in unitmx by case: (mulmx1_unit oU').
  by rewrite eS mxrankMfree ?row_free_unit // -mxrank_tr trmx_mul mxrankMfree ?row_free_unit // mxrank_tr.
have := rank_diag D; rewrite -rS; move: #|_| (\rank S) => a c /subnK <-.
rewrite natrD addrC; apply: le_addl; exact: nat_ge0.
Qed.
End Bound.
