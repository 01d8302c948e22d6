(** Proofs for QrProps, continued: the Cholesky branch. *)
From mathcomp Require Import all_ssreflect all_algebra.
From Verif Require Import MatModel MatSpec MatProofs QrModel QrSpec QrProofs.
Set Implicit Arguments.
Unset Strict Implicit.
Unset Printing Implicit Defensive.
Import Order.TTheory GRing.Theory Num.Theory.
Local Open Scope ring_scope.

Section Chol.
Variable R : rcfType.
Variables n p : nat.
Variable llt : 'M[R]_p -> factor R p.
Variable llt_solve : 'M[R]_p -> 'cV[R]_p -> 'cV[R]_p.
Variable linv : 'M[R]_p -> 'M[R]_p.
Variables (y : 'cV[R]_n) (X : 'M[R]_(n, p)) (S : 'M[R]_p).
Local Notation H := (X^T *m X + S).
Hypotheses (cok : cholP_ok llt) (lok : linv_nz linv).
Hypothesis sok : forall A b, fac_code (llt A) = 0%N -> A *m llt_solve A b = b.

Lemma solution_chol : fac_code (llt H) = 0%N ->
  let s := update_coef_chol llt llt_solve linv y X S in
  [/\ splits s 0, best y X S s, factor_of X S s & inverse_of X S s].
Proof.
move=> c0; have fH := cok c0; rewrite /update_coef_chol /solve_coef c0 /=.
have hE := factor_eq fH; set P := compute_eigen_perm R _ in hE.
have Hs : H^T = H by rewrite hE !trmx_mul !trmxK !mulmxA.
have Ss : S^T = S.
  by move: Hs; rewrite linearD /= trmx_mul trmxK => /addrI.
have HM (e : 'cV[R]_p) : dotp e (H *m e)
    = dotp ((fac_L (llt H))^T *m P *m e) ((fac_L (llt H))^T *m P *m e).
  by rewrite {1}hE [in RHS]dotM trmx_mul trmxK !mulmxA.
have nz i : fac_L (llt H) i i != 0 by case: fH => _ _ /(_ i)/lt0r_neq0.
have LI : fac_L (llt H) *m linv (fac_L (llt H)) = 1%:M by case: fH => _ low _ _; exact: lok.
have VH := unpivot_inverse fH LI; rewrite /= in VH.
split.
- split=> //=; first exact: enum_uniq.
  by move=> i; rewrite mem_enum.
- split=> //=.
  + by move=> b; apply: best_of; [exact: Ss|exact: sok|move=> e; rewrite HM dot_ge0].
  + move=> b _ bmin; have := gap_zero Ss (sok _ c0) bmin; rewrite HM => /dot_le0 z.
    have z2 : H *m (b - llt_solve H (X^T *m y)) = 0.
      by rewrite {1}hE -!mulmxA (mulmxA (fac_L _)^T) z !mulmx0.
    apply/eqP; rewrite -subr_eq0; apply/eqP.
    by rewrite -[LHS]mul1mx -VH -[_ *m H *m _]mulmxA z2 mulmx0.
- move=> i j /=; rewrite !mem_enum /= crossE; pose M := P^T *m fac_L (llt H).
  transitivity ((M *m M^T) i j); last by rewrite {1}hE /M trmx_mul trmxK !mulmxA.
  by rewrite [RHS]mxE; apply: eq_bigr => k _; congr (_ * _); rewrite [RHS]mxE.
- move=> i j _ _ /=; transitivity ((1%:M : 'M[R]_p) i j); last by rewrite mxE.
  rewrite -VH.
  rewrite [RHS]mxE big_enum /=; apply: eq_bigr => l _; rewrite crossE; congr (_ * _).
  by rewrite [RHS]mxE; apply: eq_bigr => k _; congr (_ * _); rewrite [RHS]mxE.
Qed.
End Chol.

(** A failed factorisation. *)
Section Failed.
Variable R : rcfType.
Variable llt : 'M[R]_2 -> factor R 2.
Variable llt_solve : 'M[R]_2 -> 'cV[R]_2 -> 'cV[R]_2.
Variable linv : 'M[R]_2 -> 'M[R]_2.
Hypothesis cok : cholP_ok llt.
Let y : 'cV[R]_1 := const_mx 1.
Let X : 'M[R]_(1, 2) := const_mx 1.

Lemma fails : fac_code (llt (X^T *m X + 0)) != 0%N.
Proof.
apply/negP => /eqP /cok fH.
have u := factor_unit fH.
have VH := unpivot_inverse fH (mulmxV u); rewrite /= in VH.
pose v : 'cV[R]_2 := \col_i (if i == 0 then 1 else -1).
have z : (X^T *m X + 0) *m v = 0.
  rewrite addr0 -mulmxA (_ : X *m v = 0) ?mulmx0 //; apply/matrixP => i j.
  by rewrite !mxE !big_ord_recl big_ord0 !mxE /= !mul1r addr0 subrr.
have : v = 0 by rewrite -[LHS]mul1mx -VH -[_ *m (X^T *m X + 0) *m _]mulmxA z mulmx0.
by move/colP/(_ 0); rewrite !mxE /= => /eqP; rewrite oner_eq0.
Qed.

Lemma solution_unfit : let s := update_coef_chol llt llt_solve linv y X 0 in
  s_coef s = 0 /\ exists b, penalised_ss y X 0 b < penalised_ss y X 0 (s_coef s).
Proof.
rewrite /update_coef_chol /solve_coef fails /=; split=> //.
exists (\col_i (if i == 0 then 1 else 0)).
rewrite /penalised_ss !big_ord_recl !big_ord0 !mxE /=.
by rewrite !(mulr0, mul0r, mulr1, mul1r, addr0, add0r, subr0, subrr) expr0n expr1n ltr01.
Qed.

Lemma solution_unfactored : (forall A, injective (fac_P (llt A))) ->
  ~ factor_of X 0 (update_coef_chol llt llt_solve linv y X 0).
Proof.
rewrite /update_coef_chol /solve_coef fails /=.
move=> perm h; have := h 0 1; rewrite /= !mem_enum /= crossE.
set L := _^T *m _.
have -> : \sum_k L 0 k * L 1 k = (L *m L^T) 0 1.
  by rewrite mxE; apply: eq_bigr => k _; rewrite [L^T _ _]mxE.
have -> : L *m L^T = 1%:M.
  rewrite /L !mulmx1 trmxK; exact: (perm_tr_mul R (perm _)).
rewrite addr0 !mxE big_ord_recl big_ord0 !mxE mulr1 addr0 => /eqP.
by rewrite eq_sym oner_eq0.
Qed.
End Failed.
