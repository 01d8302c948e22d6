From Coq Require Import Reals Lra.
From Coquelicot Require Import Coquelicot.
From mathcomp Require Import all_ssreflect all_algebra perm.
From Verif Require Import RealField RealMat RealDet RealEigen RemlReals RemlModel RemlSpec RemlProofs RemlProofs2 RemlProofs3 RemlProofs4 JointModel JointSpec.
Import GRing.Theory.
Set Implicit Arguments.
Unset Strict Implicit.
Unset Printing Implicit Defensive.
Local Open Scope ring_scope.

Lemma Sbar_pd g l : proper_group g -> (forall j, (j < npen g)%N -> Rlt 0 (l j)) -> pd (Sbar g l).
Proof.
move=> [ps [sy p1]] l0.
have psb j : (j < npen g)%N -> psd (SJbar g j).
  move=> h; have [s q] := ps _ h; split; first by rewrite /SJbar !trmx_mul trmxK s mulmxA.
  move=> x; rewrite (_ : quad (SJbar g j) x = quad (SJ g j) (Ur g *m x)); first exact: q.
  by rewrite /quad /SJbar trmx_mul !mulmxA.
have qs (f : nat -> R) x : quad (Sbar g f) x = \sum_(j < npen g) f j * quad (SJbar g j) x.
  rewrite /Sbar /quad mulmx_sumr mulmx_suml summxE; apply: eq_bigr => j _.
  by rewrite -scalemxAr -scalemxAl mxE.
split.
  rewrite /Sbar (raddf_sum (trmx_additive _ _ _)) /=; apply: eq_bigr => j _; rewrite linearZ /=.
  by have [-> _] := psb j (ltn_ord j).
move=> x x0.
have := p1 x x0.
have -> : quad ((Ur g)^T *m (\sum_(j < npen g) SJ g j) *m Ur g) x = quad (Sbar g (fun _ => 1)) x.
  congr quad; rewrite /Sbar mulmx_sumr mulmx_suml; apply: eq_bigr => j _; by rewrite scale1r.
rewrite !qs => h.
have [j hj] : exists j : 'I_(npen g), Rlt 0 (quad (SJbar g j) x).
  apply: Classical_Prop.NNPP => no.
  have z : \sum_(j < npen g) 1 * quad (SJbar g j) x = 0.
    apply: big1 => j _; rewrite mul1r; have [_ q] := psb j (ltn_ord j).
    by case: (Rle_lt_or_eq_dec _ _ (q x)) => // lt; case: no; exists j.
  by move: h; rewrite z => /Rlt_irrefl.
apply: (@sum_gt0 _ _ _ j) => [k||]; rewrite ?mem_index_enum //.
- by apply: Rmult_le_pos; [apply: Rlt_le; exact: l0|have [_ q] := psb k (ltn_ord k); exact: q].
- by apply: Rmult_lt_0_compat => //; exact: l0.
Qed.

Lemma quad_curve n (b : R -> 'cV[R]_n) (u : 'cV[R]_n) (S : R -> 'M[R]_n) (S' : 'M[R]_n) (t0 : R) : (S t0)^T = S t0 ->
  velocity b t0 u -> (forall i k, is_derive (fun t => S t i k) t0 (S' i k)) ->
  is_derive (fun t : R => quad (S t) (b t)) t0 (2%:R * ((S t0 *m b t0)^T *m u) 0 0 + quad S' (b t0)).
Proof.
move=> sS v D.
apply: (@isd_ext (fun t : R => \sum_i \sum_k b t i 0 * S t i k * b t k 0)); first by move=> t; rewrite quadE.
apply: (isd_eq (isd_sum _ (fun i _ => isd_sum _ (fun k _ => isd_mul (isd_mul (v i) (D i k)) (v k))))).
transitivity (\sum_i \sum_k (u i 0 * S t0 i k * b t0 k 0 + b t0 i 0 * S' i k * b t0 k 0 + b t0 i 0 * S t0 i k * u k 0)).
  apply: eq_bigr => i _; apply: eq_bigr => k _; by rewrite mulrDl.
have e1 : ((S t0 *m b t0)^T *m u) 0 0 = \sum_i \sum_k u i 0 * S t0 i k * b t0 k 0.
  rewrite mxE; apply: eq_bigr => i _; rewrite !mxE mulr_suml; apply: eq_bigr => k _.
  by rewrite mulrC mulrA.
have e2 : \sum_i \sum_k b t0 i 0 * S t0 i k * u k 0 = \sum_i \sum_k u i 0 * S t0 i k * b t0 k 0.
  rewrite exchange_big /=; apply: eq_bigr => k _; apply: eq_bigr => i _.
  by rewrite -{1}sS mxE mulrC mulrA mulrAC.
rewrite e1 quadE mulr_natl mulr2n -{2}e2 -addrA [X in _ + X]addrC addrA -!big_split /=.
by apply: eq_bigr => i _; rewrite -!big_split /=.
Qed.

Lemma exp_derive (f : R -> R) t (d : R) : is_derive f t d -> is_derive (fun s => exp (f s)) t (exp (f t) * d).
Proof.
move=> D; apply: (isd_eq (is_derive_comp exp f t (exp (f t)) d (is_derive_exp (f t)) D)).
by rewrite /scal /= /mult /= mulrC.
Qed.

Section Joint.
Variables (n n_groups : nat) (gs : nat -> group).
Variables (chol : forall m, 'M[R]_m -> option 'M[R]_m) (qr_r : forall m, 'M[R]_m -> 'M[R]_m)
          (pinv : forall m, 'M[R]_m -> 'M[R]_m).
Variables (llk : 'cV[R]_n -> R) (gradient : 'cV[R]_n -> 'cV[R]_n)
          (logpdf : (nat -> nat -> R) -> R) (dlpdrho : (nat -> nat -> R) -> nat -> nat -> R) (S_f : 'M[R]_n).
Hypotheses (ec : exact_cholesky chol) (pl : placed n n_groups gs).
Hypotheses (wf : forall g, (g < n_groups)%N -> well_formed (gs g)) (nd : forall g, (g < n_groups)%N -> no_dominant (gs g)).
Hypotheses (pr : forall g, (g < n_groups)%N -> proper_group (gs g)) (sf : S_f^T = S_f).
Variables (b : R -> 'cV[R]_n) (u : 'cV[R]_n) (rho : R -> nat -> nat -> R) (w : nat -> nat -> R) (t0 : R).
Hypotheses (vb : velocity b t0 u) (dr : drift n_groups gs rho t0 w).
Notation l := (lam (rho t0)).
Hypothesis (pp : forall g, (g < n_groups)%N -> penrose (S_term (gs g) (l g)) (pinv (S_term (gs g) (l g)))).

Lemma lam_pos r g j : Rlt 0 (lam r g j). Proof. exact: exp_pos. Qed.
Lemma bar_pd r g : (g < n_groups)%N -> pd (Sbar (gs g) (lam r g)).
Proof. by move=> h; apply: Sbar_pd => [|j _]; [exact: pr|exact: lam_pos]. Qed.
Lemma lam_derive g j : (g < n_groups)%N -> (j < npen (gs g))%N -> is_derive (fun t => lam (rho t) g j) t0 (l g j * w g j).
Proof. by move=> hg hj; apply: exp_derive; exact: dr. Qed.

Definition dS : 'M[R]_n := \sum_(g < n_groups) \sum_(j < npen (gs g)) (l g j * w g j) *: embed n (SJ (gs g) j).
Lemma S_derive i k : is_derive (fun t => (S_emb n n_groups gs (lam (rho t)) + S_f) i k) t0 (dS i k).
Proof.
apply: (@isd_ext (fun t => (\sum_(g < n_groups) \sum_(j < npen (gs g)) (embed n (SJ (gs g) j)) i k * lam (rho t) g j) + S_f i k)).
  move=> t; rewrite mxE /S_emb summxE; congr (_ + _); apply: eq_bigr => g _; rewrite summxE; apply: eq_bigr => j _.
  by rewrite [RHS]mxE mulrC.
apply: (isd_eq (isd_add (isd_sum (d := fun g : 'I_n_groups => \sum_(j < npen (gs g)) (embed n (SJ (gs g) j)) i k * (l g j * w g j)) _ _) (isd_const _ _))).
  move=> g _; apply: isd_sum => j _; apply: isd_scale; exact: lam_derive.
rewrite addr0 /dS summxE; apply: eq_bigr => g _; rewrite summxE; apply: eq_bigr => j _.
by rewrite [RHS]mxE mulrC.
Qed.
Lemma det_derive1 (g : 'I_n_groups) : is_derive (fun t => ldetSI chol qr_r 1 (gs g) (lam (rho t) g)) t0
  (\sum_(j < npen (gs g)) l g j * w g j * ((reps (gs g))%:R * \tr (invmx (Sbar (gs g) (l g)) *m SJbar (gs g) j))).
Proof.
apply: (@isd_ext (fun t => (reps (gs g))%:R * ln (\det (Sbar (gs g) (lam (rho t) g))))).
  move=> t; rewrite ldetSI_value //; try exact: Rlt_0_1; try exact: nd; try exact: wf; try exact: bar_pd.
  by rewrite invr1 scale1r mulrC.
pose B' : 'M[R]_(rank (gs g)) := \sum_(j < npen (gs g)) (l g j * w g j) *: SJbar (gs g) j.
have D i k : is_derive (fun t => Sbar (gs g) (lam (rho t) g) i k) t0 (B' i k).
  apply: (@isd_ext (fun t => \sum_(j < npen (gs g)) SJbar (gs g) j i k * lam (rho t) g j)).
    by move=> t; rewrite /Sbar summxE; apply: eq_bigr => j _; rewrite [RHS]mxE mulrC.
  apply: (isd_eq (isd_sum (d := fun j : 'I_(npen (gs g)) => SJbar (gs g) j i k * (l g j * w g j)) _ _)).
    by move=> j _; apply: isd_scale; apply: lam_derive.
  by rewrite /B' summxE; apply: eq_bigr => j _; rewrite [RHS]mxE mulrC.
apply: (isd_eq (isd_scale _ (lndet_derive D _))); first by apply: pd_det; exact: bar_pd.
rewrite /B' mulmx_sumr (raddf_sum (mxtrace_additive _ _)) /= mulr_sumr; apply: eq_bigr => j _.
by rewrite -scalemxAr mxtraceZ mulrCA.
Qed.
Lemma joint_derive : gradient_at llk (b t0) (gradient (b t0)) -> rho_gradient_at n_groups gs logpdf (rho t0) (dlpdrho (rho t0)) ->
  is_derive (fun t => llk_wrapper n_groups gs chol qr_r llk logpdf S_f (b t) (rho t)) t0
    (((pgrad n_groups gs gradient S_f (b t0) l)^T *m u) 0 0
     + \sum_(g < n_groups) \sum_(j < npen (gs g))
         pen_grads n_groups gs pinv dlpdrho (fun g j => reps (gs g) * \rank (SJ (gs g) j))%N (b t0) (rho t0) g j * w g j).
Proof.
move=> gl gp; have D1 := gl b t0 u erefl vb; have D2 := gp rho t0 w erefl dr.
have sS : (S_emb n n_groups gs l + S_f)^T = S_emb n n_groups gs l + S_f.
  by rewrite [(_ + _)^T]linearD /= sf S_emb_sym.
have D3 := quad_curve sS vb S_derive.
have D4 := @isd_sum _ (index_enum (ordinal_finType n_groups)) xpredT _ _ _ (fun g _ => det_derive1 g).
have e2 : (2%:R : R) = IZR 2 by rewrite mulr2n; Lra.
have two0 : (2%:R : R) <> 0 by rewrite e2; Lra.
pose hf : R := 2%:R^-1.
have D := isd_add (isd_add (isd_add D1 D2) (isd_scale (- hf) D3)) (isd_scale hf D4).
apply: (isd_eq (isd_ext _ D)).
  by move=> t; rewrite /llk_wrapper /quad /hf mulNr [_ * _^-1]mulrC [X in _ = _ + X]mulrC.
have sub00 (A B : 'M[R]_1) : (A - B) 0 0 = A 0 0 - B 0 0 by rewrite !mxE.
rewrite /pgrad [(_ - _)^T]linearB /= mulmxBl sub00.
have h2 : hf * 2%:R = 1 by rewrite /hf mulVf //; apply/eqP.
rewrite mulNr mulrDr mulrA h2 mul1r.
have eq3 : quad dS (b t0) = \sum_(g < n_groups) \sum_(j < npen (gs g)) l g j * w g j * quad (embed n (SJ (gs g) j)) (b t0).
  rewrite /quad /dS mulmx_sumr mulmx_suml summxE; apply: eq_bigr => g _.
  rewrite mulmx_sumr mulmx_suml summxE; apply: eq_bigr => j _.
  by rewrite -scalemxAr -scalemxAl mxE.
rewrite eq3; set A := ((gradient (b t0))^T *m u) 0 0; set P := (\sum_(g < n_groups) \sum_(j < npen (gs g)) dlpdrho (rho t0) g j * w g j).
set C := (_ *m u) 0 0; set Q := (\sum_(g < n_groups) _); set T := (\sum_(g < n_groups) _); set G := (\sum_(g < n_groups) _).
have -> : A + P + - (C + hf * Q) + hf * T = A - C + (P - hf * Q + hf * T) by eqR; ring.
congr (_ + _).
rewrite /P /Q /T /G !mulr_sumr -sumrB -big_split /=; apply: eq_bigr => g _.
rewrite !mulr_sumr -sumrB -big_split /=; apply: eq_bigr => j _.
rewrite /pen_grads; have v := lgdet_deriv_value pl (ltn_ord g) (ltn_ord j) (wf (ltn_ord g)) (bar_pd (rho t0) (ltn_ord g)) (lam_pos (rho t0) g j) (pp (ltn_ord g)) (b t0).
rewrite /compute_lgdetD_bsb /= in v.
have -> : (if FS_use_rank gs g then (reps (gs g) * \rank (SJ (gs g) j))%:R / l g j else \tr (embed n (SJ (gs g) j) *m S_pinv n n_groups gs pinv l))
    = (reps (gs g))%:R * \tr (invmx (Sbar (gs g) (l g)) *m SJbar (gs g) j).
  by rewrite -v; case: FS_use_rank => //; rewrite mxtrace_mulC.
rewrite -/(quad (embed n (SJ (gs g) j)) (b t0)) -/hf; set q := quad _ _; set T1 := _%:R * \tr _.
by eqR; ring.
Qed.
End Joint.
