(** Covariance matrices from an eigenvalue decomposition; the excess for repeated blocks. *)

From Coq Require Import Reals Lra.
From Coquelicot Require Import Coquelicot.
From mathcomp Require Import all_ssreflect all_algebra perm.
From Verif Require Import RealField RealMat RealDet RealEigen RemlReals RemlModel RemlSpec RemlProofs RemlProofs2 RemlProofs3 RemlProofs4 JointSpec JointProofs HessModel HessSpec HessProofs HessProofs2.
Import GRing.Theory.
Set Implicit Arguments.
Unset Strict Implicit.
Unset Printing Implicit Defensive.
Local Open Scope ring_scope.

Lemma ten : (10%:R : R) = IZR 10.
Proof.
have h k : (k.+1%:R : R) = Rplus (IZR 1) (k%:R) by rewrite mulrS.
have z : (0%:R : R) = IZR 0 by [].
rewrite !h z; lra.
Qed.

Lemma tenth : Rlt 0 (10%:R^-1 : R).
Proof. by apply: inv_gt0; rewrite ten; Lra. Qed.

(** A single penalty contributes nothing. *)
Lemma det2_single g gs l j k : (j < npen (gs g))%N -> (k < npen (gs g))%N -> npen (gs g) = 1%N -> 
  pd (Sbar (gs g) (l g)) -> l g j != 0 -> det2 gs l g j g k = 0.
Proof.
move=> hj hk e1 p l0.
have j0 : j = 0%N by move: hj; rewrite e1; case: (j).
have k0 : k = 0%N by move: hk; rewrite e1; case: (k).
subst j k; rewrite /det2 /gamma eqxx /=.
have eS : Sbar (gs g) (l g) = l g 0%N *: SJbar (gs g) 0 by rewrite /Sbar e1 big_ord1.
have u : SJbar (gs g) 0 \in unitmx by have := pd_unit p; rewrite eS unitmxZ // unitfE.
rewrite eS invmxZ ?unitmxZ ?unitfE // -!scalemxAl mulVmx // -!scalemxAr -!scalemxAl !scalerA mul1mx mulVmx //.
rewrite !mxtraceZ; set t := \tr _; set r : R := (reps _)%:R; set f : R := 2%:R^-1.
have e : l g 0%N * (l g 0%N)^-1 = 1 by rewrite mulfV.
set x := l g 0%N in e *; set z := x^-1 in e *.
have -> : x * (f * (r * (z * t))) + x * x * - (f * (r * (z * z * t))) = (x * z) * (f * r * t) - (x * z) * (x * z) * (f * r * t).
  by eqR; ring.
by rewrite e !mul1r subrr.
Qed.

Section Decomposition.
Variable eigh : forall m, 'M[R]_m -> 'rV[R]_m * 'M[R]_m.
Hypothesis ee : exact_eigh eigh.

Lemma root_gram f m (A : 'M[R]_m) : A^T = A -> exists (e : 'rV[R]_m) (U : 'M[R]_m),
  [/\ U^T *m U = 1%:M, U *m U^T = 1%:M, A = U *m diag_mx e *m U^T & 
      (root eigh f A)^T *m root eigh f A = U *m diag_mx (\row_i (f (e 0 i) * f (e 0 i))) *m U^T].
Proof.
move=> s; have := ee s; rewrite /root; case: (eigh A) => e U [uu eA]; exists e, U; split => //; first exact: mulmx1C.
rewrite trmx_mul trmxK !mulmxA tr_diag_mx -[_ *m diag_mx _ *m diag_mx _]mulmxA; congr (_ *m _ *m _).
rewrite mulmx_diag; congr diag_mx; apply/matrixP => i j; by rewrite !mxE.
Qed.

Lemma psd_gram m (M : 'M[R]_m) : psd (M^T *m M).
Proof.
split; first by rewrite trmx_mul trmxK.
move=> x; have := quad_gram M^T x; rewrite trmxK => ->; apply: sum_ge0 => i; exact: sq_ge0.
Qed.

Lemma eig_quad m (e : 'rV[R]_m) (U : 'M[R]_m) i : U^T *m U = 1%:M -> 
  quad (U *m diag_mx e *m U^T) (U *m delta_mx i 0) = e 0 i.
Proof.
move=> uu; have := quad_turn (diag_mx e) U^T (U *m delta_mx i 0); rewrite trmxK => ->.
by rewrite mulmxA uu mul1mx quad_delta mxE eqxx mulr1n.
Qed.

Lemma eig_vec m (U : 'M[R]_m) (i : 'I_m) : U^T *m U = 1%:M -> U *m delta_mx i 0 != 0 :> 'cV[R]_m.
Proof.
move=> uu; apply/eqP => /(congr1 (fun v => U^T *m v)); rewrite mulmxA uu mul1mx mulmx0.
by move=> /matrixP /(_ i 0); rewrite !mxE !eqxx /= => /eqP; rewrite oner_eq0.
Qed.

Lemma eig_pos m (A : 'M[R]_m) (e : 'rV[R]_m) (U : 'M[R]_m) i : U^T *m U = 1%:M -> A = U *m diag_mx e *m U^T ->
  pd A -> Rlt 0 (e 0 i).
Proof. by move=> uu eA [_ q]; rewrite -(eig_quad e i uu) -eA; apply: q; exact: eig_vec. Qed.

Lemma eig_ge m (A : 'M[R]_m) (e : 'rV[R]_m) (U : 'M[R]_m) i : U^T *m U = 1%:M -> A = U *m diag_mx e *m U^T ->
  psd A -> Rle 0 (e 0 i).
Proof. by move=> uu eA [_ q]; rewrite -(eig_quad e i uu) -eA; exact: q. Qed.

Lemma turn_mul m (U : 'M[R]_m) (d d' : 'rV[R]_m) : U^T *m U = 1%:M -> 
  (U *m diag_mx d *m U^T) *m (U *m diag_mx d' *m U^T) = U *m diag_mx (\row_i (d 0 i * d' 0 i)) *m U^T.
Proof.
move=> uu; rewrite !mulmxA -[U *m diag_mx d *m U^T *m U]mulmxA uu mulmx1.
by rewrite -[U *m diag_mx d *m diag_mx d']mulmxA mulmx_diag.
Qed.

Lemma turn_const m (U : 'M[R]_m) (d : 'rV[R]_m) : U *m U^T = 1%:M -> (forall i, d 0 i = 1) -> U *m diag_mx d *m U^T = 1%:M.
Proof.
move=> uu h; have -> : d = const_mx 1 by apply/matrixP => a b; rewrite (ord1 a) h mxE.
by rewrite diag_const_mx mulmx1.
Qed.

Lemma quad_spec m (U : 'M[R]_m) (d : 'rV[R]_m) x : quad (U *m diag_mx d *m U^T) x = \sum_i d 0 i * ((U^T *m x) i 0 * (U^T *m x) i 0).
Proof.
have := quad_turn (diag_mx d) U^T x; rewrite trmxK => ->; set z := U^T *m x.
rewrite quadE; apply: eq_bigr => i _; rewrite (bigD1 i) //= big1 ?addr0.
  by rewrite [diag_mx _ _ _]mxE eqxx mulr1n [z i 0 * d 0 i]mulrC mulrA.
by move=> k ne; rewrite [diag_mx _ _ _]mxE eq_sym (negbTE ne) mulr0n mulr0 mul0r.
Qed.

Lemma sq_inv (e : R) : Rlt 0 e -> (1 / sqrt e) * (1 / sqrt e) = e^-1.
Proof.
move=> e0; have q0 : Rlt 0 (sqrt e) by exact: sqrt_lt_R0.
have e1 : e <> 0 by apply: Rgt_not_eq.
have q1 : sqrt e <> 0 by apply: Rgt_not_eq.
have h : Rmult (sqrt e) (sqrt e) = e by apply: sqrt_sqrt; exact: Rlt_le.
by rewrite !mul1r -invfM; congr (_^-1).
Qed.

Lemma inverse_value m (A : 'M[R]_m) : pd A -> Vp_WPS eigh A *m A = 1%:M.
Proof.
move=> p; have sA : A^T = A by case: p.
have [e [U [uu u2 eA eR]]] := root_gram ire sA; rewrite /Vp_WPS eR eA turn_mul //; apply: turn_const => // i.
have e0 := eig_pos i uu eA p; rewrite !mxE /ire; case: Rlt_dec => [h|h] /=; last by [].
by rewrite sq_inv // mulVf //; exact: gt0_neq.
Qed.

Lemma reg_value m (A : 'M[R]_m) : pd A -> Vpr_WPS eigh A *m (A + 10%:R^-1 *: 1%:M) = 1%:M.
Proof.
move=> p; have sA : A^T = A by case: p.
have t0 := tenth.
have [e [U [uu u2 eA eR]]] := root_gram ire2 sA; rewrite /Vpr_WPS eR.
have -> : A + 10%:R^-1 *: 1%:M = U *m diag_mx (\row_i (e 0 i + 10%:R^-1)) *m U^T.
  have -> : diag_mx (\row_i (e 0 i + 10%:R^-1)) = diag_mx e + 10%:R^-1 *: 1%:M.
    by apply/matrixP => a b; rewrite !mxE; case: eqP => _; rewrite ?mulr1n ?mulr0n ?mulr1 ?mulr0 ?addr0.
  by rewrite mulmxDr mulmxDl -eA -scalemxAr -scalemxAl mulmx1 u2.
rewrite turn_mul //; apply: turn_const => // i.
have e0 := eig_pos i uu eA p; rewrite !mxE /ire2; case: Rlt_dec => [h|h] /=; last by [].
have e1 : Rlt 0 (e 0 i + 10%:R^-1) by exact: Rplus_lt_0_compat.
by rewrite sq_inv // mulVf //; exact: gt0_neq.
Qed.

Lemma ginv_value m (A : 'M[R]_m) : A^T = A -> Vp_WPS eigh A *m A *m Vp_WPS eigh A = Vp_WPS eigh A.
Proof.
move=> sA; have [e [U [uu u2 eA eR]]] := root_gram ire sA; rewrite /Vp_WPS eR eA !turn_mul //.
congr (_ *m diag_mx _ *m _); apply/matrixP => a i; rewrite !mxE /ire; case: Rlt_dec => [e0|h] /=; last by rewrite !mulr0.
by rewrite sq_inv // mulVf ?mul1r //; exact: gt0_neq.
Qed.

Lemma reg_le m (A : 'M[R]_m) x : A^T = A -> Rle (quad (Vpr_WPS eigh A) x) (quad (Vp_WPS eigh A) x).
Proof.
move=> sA; have := ee sA; rewrite /Vpr_WPS /Vp_WPS /root; case: (eigh A) => e U [uu eA].
have G f : (diag_mx (map_mx f e) *m U^T)^T *m (diag_mx (map_mx f e) *m U^T) = U *m diag_mx (\row_i (f (e 0 i) * f (e 0 i))) *m U^T.
  rewrite trmx_mul trmxK !mulmxA tr_diag_mx -[_ *m diag_mx _ *m diag_mx _]mulmxA; congr (_ *m _ *m _).
  rewrite mulmx_diag; congr diag_mx; apply/matrixP => i j; by rewrite !mxE.
rewrite !G !quad_spec; apply: sum_le => i; rewrite !mxE; apply: Rmult_le_compat_r; first exact: sq_ge0.
rewrite /ire /ire2; case: Rlt_dec => [e0|h] /=; last by rewrite mulr0; exact: Rle_refl.
have t0 := tenth.
have e1 : Rlt 0 (e 0 i + 10%:R^-1) by exact: Rplus_lt_0_compat.
have n0 : e 0 i <> 0 by apply: Rgt_not_eq.
have n1 : e 0 i + 10%:R^-1 <> 0 by apply: Rgt_not_eq.
rewrite !sq_inv // -(RinvE n0) -(RinvE n1); apply: Rinv_le_contravar => //.
by rewrite -[X in Rle X _]addr0; apply: Rplus_le_compat_l; exact: Rlt_le.
Qed.

Lemma update_psd m N (ep : 'cV[R]_m) (ws : 'I_N -> R) r : (forall i, Rle 0 (ws i)) -> psd (updateVp ep ws r).
Proof.
move=> w0; split.
  rewrite /updateVp (raddf_sum (trmx_additive _ _ _)) /=; apply: eq_bigr => i _.
  by rewrite linearZ /= trmx_mul trmxK.
move=> x; rewrite /updateVp /quad mulmx_sumr mulmx_suml summxE; apply: sum_ge0 => i.
rewrite -scalemxAr -scalemxAl mxE; apply: Rmult_le_pos => //.
have -> : x^T *m ((r i - ep) *m (r i - ep)^T) *m x = (x^T *m (r i - ep)) *m (x^T *m (r i - ep))^T.
  by rewrite trmx_mul trmxK !mulmxA.
by rewrite mxE big_ord1 [_^T _ _]mxE; exact: sq_ge0.
Qed.

Lemma mix_value m N (ws : 'I_N -> R) (r : 'I_N -> 'cV[R]_m) : (forall i, Rle 0 (ws i)) -> 
  Vp_mix eigh ws r = updateVp (mean_rho ws r) ws r.
Proof.
move=> w0; have p := update_psd (mean_rho ws r) r w0; set V := updateVp _ _ _ in p *.
have sV : V^T = V by case: p.
have [e [U [uu u2 eA eR]]] := root_gram sqrt_pos sV; rewrite /Vp_mix -/V eR eA; congr (_ *m diag_mx _ *m _).
apply/matrixP => a i; rewrite (ord1 a) mxE /sqrt_pos; have e0 := eig_ge i uu eA p.
case: Rlt_dec => h; first by apply: sqrt_sqrt.
by rewrite mulr0; apply: Rle_antisym => //; exact: Rnot_lt_le.
Qed.
End Decomposition.
