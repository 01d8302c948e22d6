(** The terms of the derivative that the solver computes, and the derivative of the whole criterion. *)

From Coq Require Import Reals Lra.
From Coquelicot Require Import Coquelicot.
From mathcomp Require Import all_ssreflect all_algebra perm.
From Verif Require Import RealField RealMat RealDet LamModel RemlModel RemlSpec RemlProofs RemlProofs2.
Import GRing.Theory.
Set Implicit Arguments.
Unset Strict Implicit.
Unset Printing Implicit Defensive.
Local Open Scope ring_scope.

Lemma pinv_basis g l X : well_formed g -> pd (Sbar g l) -> penrose (S_term g l) X ->
  X = Ur g *m invmx (Sbar g l) *m (Ur g)^T.
Proof.
move=> wf p px; have [_ uu _ _ _] := wf.
have e : S_term g l = Ur g *m Sbar g l *m (Ur g)^T.
  rewrite /S_term /Sbar mulmx_sumr mulmx_suml; apply: eq_bigr => j _.
  by rewrite (SJ_bar wf (ltn_ord j)) -scalemxAr -scalemxAl.
apply: penrose_unique px _; rewrite e; set U := Ur g in uu *; set B := Sbar g l in p *.
have u : B \in unitmx by apply: pd_unit.
have sB : B^T = B by case: p.
have ax : U *m B *m U^T *m (U *m invmx B *m U^T) = U *m U^T.
  by rewrite !mulmxA -[U *m B *m U^T *m U]mulmxA uu mulmx1 mulmxK.
have xa : U *m invmx B *m U^T *m (U *m B *m U^T) = U *m U^T.
  by rewrite !mulmxA -[U *m invmx B *m U^T *m U]mulmxA uu mulmx1 -[U *m invmx B *m B]mulmxA mulVmx // mulmx1.
split.
- by rewrite ax !mulmxA -[U *m U^T *m U]mulmxA uu mulmx1.
- by rewrite xa !mulmxA -[U *m U^T *m U]mulmxA uu mulmx1.
- by rewrite ax trmx_mul trmxK.
- by rewrite xa trmx_mul trmxK.
Qed.

Lemma trace_basis g l j : well_formed g -> (j < npen g)%N -> 
  \tr (Ur g *m invmx (Sbar g l) *m (Ur g)^T *m SJ g j) = \tr (invmx (Sbar g l) *m SJbar g j).
Proof.
move=> wf h; have [_ uu _ _ _] := wf.
by rewrite -mulmxA -mulmxA mxtrace_mulC /SJbar !mulmxA.
Qed.

Section Deriv.
Variables (n n_groups : nat) (gs : nat -> group) (pinv : forall m, 'M[R]_m -> 'M[R]_m).
Variables (l : nat -> nat -> R) (g j : nat).
Hypotheses (pl : placed n n_groups gs) (gG : (g < n_groups)%N) (jg : (j < npen (gs g))%N).
Hypotheses (wf : well_formed (gs g)) (p : pd (Sbar (gs g) (l g))) (lp : Rlt 0 (l g j)).
Hypothesis (pp : penrose (S_term (gs g) (l g)) (pinv (S_term (gs g) (l g)))).

Lemma lgdet_deriv_value coef :
  (compute_lgdetD_bsb (if FS_use_rank gs g then Some (reps (gs g) * \rank (SJ (gs g) j))%N else None)
     (l g j) (S_pinv n n_groups gs pinv l) (embed n (SJ (gs g) j)) coef).1
  = (reps (gs g))%:R * \tr (invmx (Sbar (gs g) (l g)) *m SJbar (gs g) j).
Proof.
have ln0 : l g j != 0 by apply: gt0_neq.
rewrite /FS_use_rank /=; case: eqP => e1.
  have j0 : j = 0%N by move: jg; rewrite e1; case: (j).
  have eS : Sbar (gs g) (l g) = l g j *: SJbar (gs g) j by rewrite /Sbar e1 big_ord1 j0.
  have u : SJbar (gs g) j \in unitmx.
    by have := pd_unit p; rewrite eS unitmxZ // unitfE.
  rewrite eS invmxZ ?unitmxZ ?unitfE // -scalemxAl mulVmx // mxtraceZ mxtrace1.
  by rewrite -rank_bar // mxrank_unit // natrM -mulrA [_^-1 * _]mulrC.
have gt1 : (1 < npen (gs g))%N by case: (npen (gs g)) jg e1 => [|[|]].
rewrite /S_pinv mulmx_suml (raddf_sum (mxtrace_additive _ _)) /= (bigD1 (Ordinal gG)) //= big1 ?addr0.
  by rewrite (trace_same pl) // (pinv_basis wf p pp) trace_basis.
move=> h /andP[_ ne]; apply: (trace_other pl) => //; by rewrite -(inj_eq val_inj) /= in ne.
Qed.

Lemma trace_term_value m (LI : 'M[R]_n) (D : 'M[R]_(n, m)) (A : 'M[R]_n) :
  A \in unitmx -> LI^T *m LI *m A = 1%:M -> trace_term LI D = \tr (invmx A *m (D *m D^T)).
Proof.
move=> u e; have -> : invmx A = LI^T *m LI.
  by rewrite -[RHS]mulmx1 -(mulmxV u) mulmxA e mul1mx.
rewrite -mulmxA mxtrace_mulC -!mulmxA -trmx_mul mulmxA /trace_term /mxtrace; apply: eq_bigr => i _.
by rewrite [RHS]mxE; apply: eq_bigr => k _; rewrite [X in _ = _ * X]mxE expr2.
Qed.
End Deriv.

Section Quad.
Variables (n : nat).

Lemma quad_derive (b : R -> 'cV[R]_n) (u : 'cV[R]_n) (S B : 'M[R]_n) (t0 : R) : S^T = S ->
  velocity b t0 u ->
  is_derive (fun t : R => quad (S + (t - t0) *: B) (b t)) t0
            (2%:R * ((S *m b t0)^T *m u) 0 0 + quad B (b t0)).
Proof.
move=> sS v.
apply: (@isd_ext (fun t : R => \sum_i \sum_k b t i 0 * (S + (t - t0) *: B) i k * b t k 0)).
  by move=> t; rewrite quadE.
apply: (isd_eq (isd_sum _ (fun i _ => isd_sum _ (fun k _ => isd_mul (isd_mul (v i) (affine_derive S B t0 i k)) (v k))))).
rewrite subrr scale0r addr0.
transitivity (\sum_i \sum_k (u i 0 * S i k * b t0 k 0 + b t0 i 0 * B i k * b t0 k 0 + b t0 i 0 * S i k * u k 0)).
  apply: eq_bigr => i _; apply: eq_bigr => k _; by rewrite mulrDl.
have e1 : ((S *m b t0)^T *m u) 0 0 = \sum_i \sum_k u i 0 * S i k * b t0 k 0.
  rewrite mxE; apply: eq_bigr => i _; rewrite !mxE mulr_suml; apply: eq_bigr => k _.
  by rewrite mulrC mulrA.
have e2 : \sum_i \sum_k b t0 i 0 * S i k * u k 0 = \sum_i \sum_k u i 0 * S i k * b t0 k 0.
  rewrite exchange_big /=; apply: eq_bigr => k _; apply: eq_bigr => i _.
  by rewrite -{1}sS mxE mulrC mulrA mulrAC.
rewrite e1 quadE mulr_natl mulr2n -{2}e2 -addrA [X in _ + X]addrC addrA -!big_split /=.
by apply: eq_bigr => i _; rewrite -!big_split /=.
Qed.
End Quad.

Section Whole.
Variables (n n_groups : nat) (gs : nat -> group).
Variables (chol : forall m, 'M[R]_m -> option 'M[R]_m) (cholP : forall m, 'M[R]_m -> option ('M[R]_m * 'S_m))
          (qr_r : forall m, 'M[R]_m -> 'M[R]_m).
Hypotheses (ec : exact_cholesky chol) (ep : exact_cholesky_perm cholP).

Lemma lgdetXXS_value (H : 'M[R]_n) : pd H -> lgdetXXS cholP H = Some (ln (\det H)).
Proof.
move=> p; rewrite /lgdetXXS; have [snd cmp] := ep (scaled H).
case e : (cholP _) => [[L s]|]; last by case: (cmp (pd_scaled p)).
by rewrite (ln_det_factor_perm p (snd _ _ e)).
Qed.

Lemma embed_sym (g : group) (M : 'M[R]_(dim g)) : M^T = M -> (embed n M)^T = embed n M.
Proof.
move=> s; rewrite /embed (raddf_sum (trmx_additive _ _ _)) /=; apply: eq_bigr => c _.
by rewrite !trmx_mul trmxK s mulmxA.
Qed.

Hypotheses (wf : forall g, (g < n_groups)%N -> well_formed (gs g)).

Lemma S_emb_sym l : (S_emb n n_groups gs l)^T = S_emb n n_groups gs l.
Proof.
rewrite /S_emb (raddf_sum (trmx_additive _ _ _)) /=; apply: eq_bigr => g _.
rewrite (raddf_sum (trmx_additive _ _ _)) /=; apply: eq_bigr => j _.
rewrite linearZ /= embed_sym //; have [s _ _ _ _] := wf (ltn_ord g); exact: s.
Qed.

Variables (scale : R) (l : nat -> nat -> R) (g j : nat).
Hypotheses (s0 : Rlt 0 scale) (gG : (g < n_groups)%N) (jg : (j < npen (gs g))%N).
Hypotheses (nd : forall h, (h < n_groups)%N -> no_dominant (gs h)).
Hypotheses (pb : forall h, (h < n_groups)%N -> pd (Sbar (gs h) (l h))).

Let SJg : (SJ (gs g) j)^T = SJ (gs g) j.
Proof. have [s _ _ _ _] := wf gG; exact: s. Qed.

Lemma near_blocks : locally (l g j) (fun t : R => forall h, (h < n_groups)%N -> pd (Sbar (gs h) (with_param l g j t h))).
Proof.
have := near_pd (l g j) (pb gG) (sym_bar (wf gG) jg); case=> d hd; exists d => t ht h hh.
case: (altP (h =P g)) => [->|ne]; first by rewrite Sbar_moved //; exact: hd.
by rewrite Sbar_same //; exact: pb.
Qed.

Lemma lgdetS_derive :
  is_derive (fun t : R => \sum_(h < n_groups) ldetSI chol qr_r scale (gs h) (with_param l g j t h)) (l g j)
            ((reps (gs g))%:R * \tr (invmx (Sbar (gs g) (l g)) *m SJbar (gs g) j)).
Proof.
apply: (@is_derive_ext_loc _ _
  (fun t : R => \sum_(h < n_groups) (if h == g :> nat then 
     (reps (gs g))%:R * ln (\det (scale^-1 *: (Sbar (gs g) (l g) + (t - l g j) *: SJbar (gs g) j)))
     else ldetSI chol qr_r scale (gs h) (l h)))).
  apply: filter_imp near_blocks => t ht; apply: eq_bigr => h _.
  case: (altP (_ =P _)) => [e|ne].
    rewrite ldetSI_value // ?e; try exact: nd; try exact: ht; try exact: wf.
    by rewrite Sbar_moved // mulrC.
  rewrite !ldetSI_value //; try exact: nd; try exact: ht; try exact: wf; try exact: pb.
  by rewrite Sbar_same.
apply: (isd_eq (isd_sum (d := fun h : 'I_n_groups => if h == g :> nat then 
   (reps (gs g))%:R * \tr (invmx (Sbar (gs g) (l g)) *m SJbar (gs g) j) else 0) _ _)).
  move=> h _; case: eqP => _; last exact: isd_const.
  by apply: isd_scale; apply: lndet_affine; [exact: inv_gt0|exact: pb].
rewrite (bigD1 (Ordinal gG)) //= eqxx big1 ?addr0 // => h /negbTE e.
by rewrite -(inj_eq val_inj) /= in e; rewrite e.
Qed.

Variables (nH : 'M[R]_n).
Hypotheses (pH : pd (nH + scale^-1 *: S_emb n n_groups gs l)).

Lemma H_moved t : nH + scale^-1 *: S_emb n n_groups gs (with_param l g j t)
  = (nH + scale^-1 *: S_emb n n_groups gs l) + (t - l g j) *: (scale^-1 *: embed n (SJ (gs g) j)).
Proof. by rewrite S_emb_moved // scalerDr addrA !scalerA [scale^-1 * _]mulrC. Qed.

Lemma near_H : locally (l g j) (fun t : R => pd (nH + scale^-1 *: S_emb n n_groups gs (with_param l g j t))).
Proof.
have : (scale^-1 *: embed n (SJ (gs g) j))^T = scale^-1 *: embed n (SJ (gs g) j) by rewrite linearZ /= embed_sym.
move=> /(near_pd (l g j) pH); apply: filter_imp => t; by rewrite H_moved.
Qed.

Lemma lgdetH_derive :
  is_derive (fun t : R => ln (\det (nH + scale^-1 *: S_emb n n_groups gs (with_param l g j t)))) (l g j)
            (\tr (invmx (scale *: nH + S_emb n n_groups gs l) *m embed n (SJ (gs g) j))).
Proof.
have := lndet_affine (scale^-1 *: embed n (SJ (gs g) j)) (l g j) (Rlt_0_1 : Rlt 0 1) pH.
move=> D; apply: (isd_eq (@isd_ext _ _ _ _ _ D)).
  by move=> t; rewrite scale1r H_moved.
have e : scale *: nH + S_emb n n_groups gs l = scale *: (nH + scale^-1 *: S_emb n n_groups gs l).
  by rewrite scalerDr scalerA mulfV ?scale1r //; exact: gt0_neq.
rewrite e invmxZ; last by rewrite unitmxZ ?unitfE ?gt0_neq //; exact: pd_unit.
by rewrite -scalemxAr -scalemxAl.
Qed.

Variables (llk : 'cV[R]_n -> R) (b : R -> 'cV[R]_n) (u : 'cV[R]_n).
Hypotheses (vb : velocity b (l g j) u)
  (st : gradient_at llk (b (l g j)) (scale^-1 *: (S_emb n n_groups gs l *m b (l g j)))).

Lemma penalised_derive :
  is_derive (fun t : R => llk (b t) - quad (S_emb n n_groups gs (with_param l g j t)) (b t) / scale / 2%:R) (l g j)
            (- (quad (embed n (SJ (gs g) j)) (b (l g j)) / scale / 2%:R)).
Proof.
have D1 := st erefl vb.
have D2 := isd_scale (- (scale^-1 / 2%:R)) (quad_derive (embed n (SJ (gs g) j)) (S_emb_sym l) vb).
apply: (isd_eq (@isd_ext _ _ _ _ _ (isd_add D1 D2))).
  move=> t; rewrite S_emb_moved // mulNr; congr (_ - _); by rewrite mulrC mulrA.
set q := quad _ _; rewrite linearZ /= -scalemxAl [X in X + _]mxE; set w := (_ *m u) 0 0.
have h : (2%:R : R)^-1 * 2%:R = 1 by rewrite mulVf //; apply/gt0_neq; rewrite mulr2n; Lra.
rewrite mulNr mulrDr mulrA -[scale^-1 / 2%:R * 2%:R]mulrA h mulr1 opprD addrA subrr add0r; congr (- _).
by rewrite mulrC mulrA.
Qed.

Lemma reml_derive (m : nat) (LI : 'M[R]_n) (D : 'M[R]_(n, m)) (pinv : forall m, 'M[R]_m -> 'M[R]_m) :
  placed n n_groups gs -> Rlt 0 (l g j) ->
  penrose (S_term (gs g) (l g)) (pinv _ (S_term (gs g) (l g))) ->
  LI^T *m LI *m (scale *: nH + S_emb n n_groups gs l) = 1%:M ->
  D *m D^T = embed n (SJ (gs g) j) ->
  let db := compute_lgdetD_bsb (if FS_use_rank gs g then Some (reps (gs g) * \rank (SJ (gs g) j))%N else None)
     (l g j) (S_pinv n n_groups gs pinv l) (embed n (SJ (gs g) j)) (b (l g j)) in
  is_derive (fun t : R => value (REML n_groups gs chol cholP qr_r (llk (b t)) nH (b t) scale (with_param l g j t)))
     (l g j) (grad_lambda db.1 (trace_term LI D) db.2 scale) /\
  locally (l g j) (fun t : R => REML n_groups gs chol cholP qr_r (llk (b t)) nH (b t) scale (with_param l g j t) <> None).
Proof.
move=> pl l0 pp eL eD db; split; last first.
  by apply: filter_imp near_H => t ht; rewrite /REML lgdetXXS_value.
have un : scale *: nH + S_emb n n_groups gs l \in unitmx by case: (mulmx1_unit eL).
apply: (@is_derive_ext_loc _ _ (fun t : R => 
  (llk (b t) - quad (S_emb n n_groups gs (with_param l g j t)) (b t) / scale / 2%:R)
  + (2%:R^-1 * (\sum_(h < n_groups) ldetSI chol qr_r scale (gs h) (with_param l g j t h))
  + (- 2%:R^-1 * ln (\det (nH + scale^-1 *: S_emb n n_groups gs (with_param l g j t)))
  + (Mp n_groups gs)%:R * ln (2%:R * PI) / 2%:R)))).
  apply: filter_imp near_H => t ht; rewrite /REML lgdetXXS_value //= /quad mulNr !addrA.
  by rewrite [2%:R^-1 * _]mulrC [2%:R^-1 * ln _]mulrC.
apply: (isd_eq (isd_add penalised_derive (isd_add (isd_scale _ lgdetS_derive)
  (isd_add (isd_scale _ lgdetH_derive) (isd_const _ _))))).
rewrite addr0 -(lgdet_deriv_value pl gG jg (wf gG) (pb gG) l0 pp (b (l g j))) -/db.
rewrite -eD -(trace_term_value D un eL).
have -> : quad (D *m D^T) (b (l g j)) = db.2 by rewrite eD.
have ns : scale != 0 by apply: gt0_neq.
have s1 : scale <> 0 by apply/eqP.
have t0 : (2%:R : R) = IZR 2 by rewrite mulr2n; toR; Lra.
have t1 : (IZR 2 : R) <> 0 by Lra.
rewrite /grad_lambda; move: db.1 db.2 (trace_term LI D) => d1 q T.
rewrite t0 -(RinvE t1) -(RinvE s1); eqR; field; exact: s1.
Qed.
End Whole.
