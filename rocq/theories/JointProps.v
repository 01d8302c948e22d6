(** The properties of the sampled density and of its gradient. *)

From Coq Require Import Reals Lra.
From Coquelicot Require Import Coquelicot.
Lemma half_of (z : R) : ((1 + 1) * ((1 + 1) * z) = 1 + 1 -> z = / 2)%R.
Proof. intros; lra. Qed.
Lemma quarter_of : (- (0 * / 2) + / 2 * / 2 + 0 = / 4)%R.
Proof. lra. Qed.

From mathcomp Require Import all_ssreflect all_algebra perm.
From Verif Require Import RealField RealMat RealDet RealEigen RemlReals RemlModel RemlSpec RemlProofs RemlProofs2 RemlProofs3 RemlProofs4 RemlProps JointModel JointSpec JointProofs.
Import GRing.Theory.
Set Implicit Arguments.
Unset Strict Implicit.
Unset Printing Implicit Defensive.
Local Open Scope ring_scope.

Section Statements.
Variables (n n_groups : nat) (gs : nat -> group).
Variables (chol : forall m, 'M[R]_m -> option 'M[R]_m) (qr_r : forall m, 'M[R]_m -> 'M[R]_m)
          (pinv : forall m, 'M[R]_m -> 'M[R]_m).
Variables (llk : 'cV[R]_n -> R) (gradient : 'cV[R]_n -> 'cV[R]_n)
          (logpdf : (nat -> nat -> R) -> R) (dlpdrho : (nat -> nat -> R) -> nat -> nat -> R) (S_f : 'M[R]_n).

(** The sampled density is the log-likelihood, plus the log of the prior density of the log smoothing parameters,
    plus the log of the normal density of the coefficients given the smoothing parameters (up to a constant): the
    normal density's precision matrix is the total penalty, and its log-determinant the generalised one. *)
Theorem C101_value coef rho X :
  exact_cholesky chol -> placed n n_groups gs -> (forall g, (g < n_groups)%N -> well_formed (gs g)) ->
  (forall g, (g < n_groups)%N -> no_dominant (gs g)) -> (forall g, (g < n_groups)%N -> proper_group (gs g)) ->
  let S := total_penalty n n_groups gs (fun g j => exp (rho g j)) in
  penrose S X ->
  llk_wrapper n_groups gs chol qr_r llk logpdf S_f coef rho
  = llk coef + logpdf rho - quad (S + S_f) coef / 2%:R + ln (\det (S + (1%:M - S *m X))) / 2%:R.
Proof.
move=> ec pl wf nd pr S; rewrite /S -total_S_emb => px.
have pb g : (g < n_groups)%N -> pd (Sbar (gs g) (lam rho g)) by exact: bar_pd.
have px1 : penrose ((1 : R)^-1 *: S_emb n n_groups gs (lam rho)) X by rewrite invr1 scale1r.
have pv := pdet_value pl Rlt_0_1 wf pb px1; rewrite invr1 scale1r in pv; rewrite pv.
rewrite /llk_wrapper /quad; congr (_ - _ + _ / _).
have p g : (g < n_groups)%N -> Rlt 0 (\det ((1 : R)^-1 *: Sbar (gs g) (lam rho g))).
  by move=> hg; apply/pd_det/pd_scale; [apply: inv_gt0; exact: Rlt_0_1|exact: pb].
rewrite invr1 in p *.
rewrite ln_prod; last by move=> g; have [] := ln_pow (reps (gs g)) (p g (ltn_ord g)).
apply: eq_bigr => g _; rewrite ldetSI_value //; try exact: Rlt_0_1; try exact: nd; try exact: wf; try exact: pb.
by rewrite invr1; have [_ ->] := ln_pow (reps (gs g)) (p g (ltn_ord g)).
Qed.

(** The gradient the sampler works with is the one of the sampled density: along every curve of coefficients and
    log smoothing parameters the density changes at the rate the gradient predicts. *)
Theorem C101_gradient (b : R -> 'cV[R]_n) u (rho : R -> nat -> nat -> R) w t :
  exact_cholesky chol -> placed n n_groups gs -> (forall g, (g < n_groups)%N -> well_formed (gs g)) ->
  (forall g, (g < n_groups)%N -> no_dominant (gs g)) -> (forall g, (g < n_groups)%N -> proper_group (gs g)) ->
  S_f^T = S_f -> 
  (forall g, (g < n_groups)%N -> let A := S_term (gs g) (fun j => exp (rho t g j)) in penrose A (pinv A)) ->
  gradient_at llk (b t) (gradient (b t)) -> rho_gradient_at n_groups gs logpdf (rho t) (dlpdrho (rho t)) ->
  velocity b t u -> drift n_groups gs rho t w ->
  is_derive (fun s => llk_wrapper n_groups gs chol qr_r llk logpdf S_f (b s) (rho s)) t
    (((pgrad n_groups gs gradient S_f (b t) (fun g j => exp (rho t g j)))^T *m u) 0 0
     + \sum_(g < n_groups) \sum_(j < npen (gs g))
         pen_grads n_groups gs pinv dlpdrho (fun g j => reps (gs g) * \rank (SJ (gs g) j))%N (b t) (rho t) g j * w g j).
Proof. move=> ec pl wf nd pr sf pp gl gp vb dr; exact: (joint_derive qr_r ec pl wf nd pr sf vb dr pp gl gp). Qed.

(** The same for fixed smoothing parameters, whatever their values. *)
Theorem C101_fixed (l : nat -> nat -> R) coef :
  (forall g, (g < n_groups)%N -> well_formed (gs g)) -> S_f^T = S_f ->
  gradient_at llk coef (gradient coef) ->
  gradient_at (llk_wrapper_fixed n_groups gs llk S_f l) coef (pgrad n_groups gs gradient S_f coef l).
Proof. 
move=> wf sf gl c t u ct vc; have D1 := gl c t u ct vc.
have sS : (S_emb n n_groups gs l + S_f)^T = S_emb n n_groups gs l + S_f.
  by rewrite [(_ + _)^T]linearD /= sf S_emb_sym.
have D3 := @quad_curve n c u (fun _ => S_emb n n_groups gs l + S_f) 0 t sS vc.
have {}D3 := D3 (fun i k => isd_eq (isd_const _ _) (esym (mxE _ _ _ _))).
have e2 : (2%:R : R) = IZR 2 by rewrite mulr2n; Lra.
have two0 : (2%:R : R) <> 0 by rewrite e2; Lra.
pose hf : R := 2%:R^-1.
apply: (isd_eq (isd_ext _ (isd_add D1 (isd_scale (- hf) D3)))).
  by move=> s; rewrite /llk_wrapper_fixed /quad /hf mulNr [_ * _^-1]mulrC.
have sub00 (A B : 'M[R]_1) : (A - B) 0 0 = A 0 0 - B 0 0 by rewrite !mxE.
rewrite /pgrad [(_ - _)^T]linearB /= mulmxBl sub00 ct; congr (_ + _).
have h2 : hf * 2%:R = 1 by rewrite /hf mulVf //; apply/eqP.
by rewrite /quad mulmx0 mul0mx [X in _ + X]mxE addr0 mulrA mulNr h2 mulN1r.
Qed.
End Statements.

(** ** Cases *)

Lemma two_proper : proper_group two.
Proof.
split => [j hj|].
- split; first by rewrite /= trmx_delta.
  move=> x; rewrite quadE; apply: sum_ge0 => i; apply: sum_ge0 => k; rewrite !mxE /=.
  case: (altP (i =P inord j)) => [->|_]; last by rewrite mulr0 mul0r; exact: Rle_refl.
  case: (altP (k =P inord j)) => [->|_]; last by rewrite mulr0 mul0r; exact: Rle_refl.
  by rewrite mulr1; exact: sq_ge0.
- have -> : \sum_(j < npen two) SJ two j = 1%:M.
    by rewrite -two_term /S_term; apply: eq_bigr => j _; rewrite /ones scale1r.
  by rewrite mulmx1 /= trmx1 mul1mx; exact: pd1.
Qed.

(** All hypotheses of C101_gradient can hold at once: two coefficients with a penalty each, the log-likelihood of
    a single observation of the first, and a prior. *)
Example C101_case : let gs := fun _ : nat => two in 
  let b : R -> 'cV[R]_2 := fun t => t *: const_mx 1 in
  let rho : R -> nat -> nat -> R := fun t _ _ => t in
  exact_cholesky some_chol /\ placed 2 1 gs /\ well_formed two /\ no_dominant two /\ proper_group two /\
  penrose (S_term two (fun _ => exp 0)) (S_term two (fun _ => exp 0)) /\
  gradient_at (fun _ : 'cV[R]_2 => 0) (b 0) 0 /\
  rho_gradient_at 1 gs (fun r => - r 0%N 1%N) (rho 0) (fun g j => if j is 1%N then -1 else 0) /\
  velocity b 0 (const_mx 1) /\ drift 1 gs rho 0 (fun _ _ => 1).
Proof.
do 5 (split; first by [exact: some_exact|exact: two_placed|exact: two_wf|exact: two_nd|exact: two_proper]).
split.
  have -> : S_term two (fun _ => exp 0) = 1%:M by rewrite -two_term /S_term; apply: eq_bigr => j _; rewrite exp_0.
  by split; rewrite ?mulmx1 ?trmx1.
split; first by move=> c t u _ _; rewrite trmx0 mul0mx mxE; exact: isd_const.
split.
  move=> c t w _ d; rewrite big_ord1 big_ord_recl big_ord1 /= mul0r add0r.
  apply: (@isd_ext (fun s => -1 * c s 0%N 1%N)); first by move=> s; rewrite mulN1r.
  by apply: isd_scale; exact: d.
split => [i|g j _ _]; last exact: is_derive_id.
apply: (@isd_ext (fun s => s)); first by move=> s; rewrite !mxE mulr1.
by rewrite mxE; exact: is_derive_id.
Qed.

(** If one penalty of a term alone acts on all directions of the term, the log-determinant ignores the others, but
    the gradient does not: here the density does not change with the second smoothing parameter, while its
    gradient says that it does. *)
Theorem C101_dominant_refuted : exists (gs : nat -> group) (b : 'cV[R]_1) (rho : R -> nat -> nat -> R) w t,
  placed 1 1 gs /\ well_formed (gs 0%N) /\ proper_group (gs 0%N) /\ drift 1 gs rho t w /\
  forall chol qr_r (pinv : forall m, 'M[R]_m -> 'M[R]_m), exact_cholesky chol ->
  (let A := S_term (gs 0%N) (fun j => exp (rho t 0%N j)) in penrose A (pinv _ A)) ->
  is_derive (fun s => llk_wrapper 1 gs chol qr_r (fun _ => 0) (fun _ => 0) 0 b (rho s)) t 0 /\
  \sum_(g < 1) \sum_(j < npen (gs g))
     pen_grads 1 gs pinv (fun _ _ _ => 0) (fun g j => reps (gs g) * \rank (SJ (gs g) j))%N b (rho t) g j * w g j
  = Rinv (IZR 4).
Proof.
pose r : R -> nat -> nat -> R := fun t _ j => if j is 1%N then t else 0.
exists (fun _ => twice), 0, r, (fun _ j => if j is 1%N then 1 else 0), 0.
split; [by split => // -[|g] [|h]|split; [exact: twice_wf|split]].
  split => [j _|]; first by split; [rewrite trmx1|move=> x; rewrite quadE !big_ord1 mxE mulr1; exact: sq_ge0].
  by rewrite big_ord_recl big_ord1 /= trmx1 mul1mx mulmx1 -raddfD /=; apply: pd_scalar; Lra.
split; first by move=> g [|[|j]] // _ _; [exact: isd_const|exact: is_derive_id].
move=> chol qr_r pinv ec; rewrite /r => px; split.
  apply: (@isd_ext (fun _ => 0)); last exact: isd_const.
  move=> s; rewrite /llk_wrapper big_ord1 ldet_rep //; try exact: Rlt_0_1; rewrite twice_rep /lam exp_0; last exact: pd1.
  rewrite invr1 scale1r det1 [ln 1]ln_1 trmx0 !mul0mx mxE !mul0r; eqR; ring.
rewrite big_ord1 big_ord_recl big_ord1 /= mulr0 add0r mulr1 /pen_grads.

have embed1 (M : 'M[R]_1) : embed 1 (M : 'M[R]_(dim twice)) = M.
  rewrite /embed big_ord1; have -> : columns 1 twice 0 = 1%:M by apply/matrixP => a b; rewrite !mxE /= !ord1.
  by rewrite trmx1 mulmx1 mul1mx.
rewrite /S_pinv big_ord1_cond /= !embed1 trmx0 !mul0mx mul1mx.
rewrite /lam exp_0 trace_mx11.
move: px; rewrite !twice_term /= exp_0 => -[h _ _ _]; move/matrixP/(_ 0 0): h.
rewrite mul_mx_scalar mul_scalar_mx; set x := pinv 1%N _; rewrite !mxE /= mulr1n.
move: (x 0 0 : R) => z; have e2 : (2%:R : R) = IZR 2 by rewrite mulr2n; Lra.
have t1 : (IZR 2 : R) <> 0 by Lra.
rewrite e2 -(RinvE t1); toR => h; have -> : z = Rinv (IZR 2) by apply: half_of.
by rewrite !Rmult_0_r Rmult_1_l; apply: quarter_of.
Qed.

(** ** The sampler and the fitted model *)

Section Fit.
Variables (n n_groups : nat) (gs : nat -> group) (scale : R) (l : nat -> nat -> R).
Notation S := (total_penalty n n_groups gs l).

Lemma S_emb_start : (forall g j, (g < n_groups)%N -> (j < npen (gs g))%N -> Rlt 0 (l g j)) -> Rlt 0 scale ->
  S_emb n n_groups gs (start_lam true true scale l) = scale^-1 *: S.
Proof.
move=> l0 s0; rewrite -total_S_emb /S_emb scaler_sumr; apply: eq_bigr => g _; rewrite scaler_sumr; apply: eq_bigr => j _.
rewrite scalerA /start_lam /=; congr (_ *: _).
have s1 : scale <> 0 by apply/eqP/gt0_neq.
rewrite exp_ln; last by rewrite -(RinvE s1); apply: Rmult_lt_0_compat; [exact: exp_pos|exact: Rinv_0_lt_compat].
by rewrite exp_ln; [rewrite mulrC|exact: l0].
Qed.

(** If the smoothing parameters are sampled, or the family has no scale parameter, the coefficients of the fitted
    model are a stationary point of the density at the smoothing parameters (and the scale) of the fit: there, the
    score equals the gradient of the penalty of the model, the smoothing parameters being relative to the scale. *)
Theorem C102_stationary gradient coef sample_rho twopar :
  (forall g j, (g < n_groups)%N -> (j < npen (gs g))%N -> Rlt 0 (l g j)) -> Rlt 0 scale ->
  (sample_rho = true /\ twopar = true) \/ (twopar = false /\ scale = 1) ->
  gradient coef = scale^-1 *: (S *m coef) ->
  pgrad n_groups gs gradient 0 coef (start_lam sample_rho twopar scale l) = 0.
Proof.
move=> l0 s0 c e; rewrite /pgrad addr0 e.
have -> : S_emb n n_groups gs (start_lam sample_rho twopar scale l) = scale^-1 *: S.
  case: c => [[-> ->]|[-> ->]]; first exact: S_emb_start l0 s0.
  by rewrite /start_lam andbF invr1 scale1r total_S_emb.
by rewrite -scalemxAl subrr.
Qed.

(** For normal observations: the fitted coefficients. *)
Theorem C102_gaussian N (X : 'M[R]_(N, n)) (y : 'cV[R]_N) :
  (forall g, (g < n_groups)%N -> well_formed (gs g)) ->
  (forall g j, (g < n_groups)%N -> (j < npen (gs g))%N -> Rlt 0 (l g j)) -> Rlt 0 scale ->
  pd (X^T *m X + S) ->
  gradient_at (llk_wrapper_fixed n_groups gs (gaussian_llk X y scale) 0 (start_lam true true scale l)) (pls X y S) 0.
Proof.
move=> wf l0 s0 pH.
pose gr (b : 'cV[R]_n) := scale^-1 *: (X^T *m (y - X *m b)).
have st : gr (pls X y S) = scale^-1 *: (S *m pls X y S).
  by rewrite /gr {1 2}/pls gauss_stationary //; exact: pd_unit.
have <- : pgrad n_groups gs gr 0 (pls X y S) (start_lam true true scale l) = 0.
  by apply: C102_stationary => //; left.
apply: C101_fixed => //; first exact: trmx0.
exact: (@gauss_gradient _ _ X y scale (- (N%:R / 2%:R * ln (2%:R * PI * scale))) s0).
Qed.
End Fit.

Example C102_case : pd ((1%:M : 'M[R]_2)^T *m 1%:M + total_penalty 2 1 (fun _ => two) ones) /\
  (forall g j, Rlt 0 (ones g j)) /\ well_formed two.
Proof. 
rewrite trmx1 mulmx1 two_total; split; last by split; [move=> *; exact: Rlt_0_1|exact: two_wf].
by rewrite -raddfD /=; apply: pd_scalar; Lra.
Qed.

(** With fixed smoothing parameters and a family with a scale parameter the penalty is not divided by the scale:
    the fitted coefficients are not stationary.  One observation with the value 2, one coefficient, a smoothing
    parameter of 1 and a scale of 2: the fitted coefficient is 1 and the slope of the density there -1/2. *)
Theorem C102_fixed_refuted : exists (gs : nat -> group) (l : nat -> nat -> R) (scale : R) (X : 'M[R]_1) (y : 'cV[R]_1),
  let S := total_penalty 1 1 gs l in
  well_formed (gs 0%N) /\ proper_group (gs 0%N) /\ (forall g j, Rlt 0 (l g j)) /\ Rlt 0 scale /\ pd (X^T *m X + S) /\
  gradient_at (llk_wrapper_fixed 1 gs (gaussian_llk X y scale) 0 (start_lam false true scale l)) (pls X y S)
    (const_mx (- Rinv (IZR 2))).
Proof.
have w : well_formed single by split => //=; move=> *; rewrite ?trmx1 ?mulmx1.
have st : S_term single (ones 0) = 1%:M by rewrite /S_term big_ord1 scale1r.
have embed1 (M : 'M[R]_1) : embed 1 (M : 'M[R]_(dim single)) = M.
  rewrite /embed big_ord1; have -> : columns 1 single 0 = 1%:M by apply/matrixP => a b; rewrite !mxE /= !ord1.
  by rewrite trmx1 mulmx1 mul1mx.
have tot : total_penalty 1 1 (fun _ => single) ones = 1%:M.
  by rewrite -total_S_emb S_emb_terms big_ord1 embed1 st.
have p2 : pd (1%:M + 1%:M : 'M[R]_1) by rewrite -raddfD /=; apply: pd_scalar; Lra.
exists (fun _ => single), ones, (IZR 2), 1%:M, (const_mx (IZR 2)).
rewrite tot trmx1 mulmx1; split => //; split.
  split => [j _|]; first by split; [rewrite trmx1|move=> x; rewrite quadE !big_ord1 mxE mulr1; exact: sq_ge0].
  by rewrite big_ord1 /= trmx1 mul1mx mulmx1; exact: pd1.
split; [by move=> *; exact: Rlt_0_1|split; [exact: Rlt_0_2|split => //]].
have b1 : pls 1%:M (const_mx (IZR 2)) (1%:M : 'M[R]_1) = const_mx 1.
  rewrite /pls trmx1 mulmx1 mul1mx; apply: (can_inj (mulKmx (pd_unit p2))); rewrite mulKVmx; last exact: pd_unit.
  by rewrite mulmxDl !mul1mx; apply/matrixP => i k; rewrite !mxE; Lra.
rewrite b1.
pose gr (b : 'cV[R]_1) : 'cV[R]_1 := (IZR 2)^-1 *: ((1%:M)^T *m (const_mx (IZR 2) - 1%:M *m b)).
have <- : pgrad 1 (fun _ => single) gr 0 (const_mx 1) (start_lam false true (IZR 2) ones) = const_mx (- Rinv (IZR 2)).
  have t1 : (IZR 2 : R) <> 0 by Lra.
  rewrite /pgrad /start_lam /= total_S_emb tot addr0 /gr trmx1 !mul1mx; apply/matrixP => i k; rewrite !mxE.
  by rewrite -(RinvE t1); Lra.
apply: C101_fixed => //; first exact: trmx0.
exact: (@gauss_gradient _ _ (1%:M : 'M[R]_1) (const_mx (IZR 2)) (IZR 2) (- (1%:R / 2%:R * ln (2%:R * PI * (IZR 2)))) Rlt_0_2).
Qed.

Print Assumptions C101_value.
Print Assumptions C101_gradient.
Print Assumptions C101_fixed.
Print Assumptions C101_dominant_refuted.
Print Assumptions C102_stationary.
Print Assumptions C102_gaussian.
Print Assumptions C102_fixed_refuted.
