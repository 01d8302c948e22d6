(** The properties of the restricted likelihood criterion and of the derivative the updates work with. *)

From Coq Require Import Reals Lra ClassicalEpsilon.
From Coquelicot Require Import Coquelicot.
From mathcomp Require Import all_ssreflect all_algebra fingroup perm.
From Verif Require Import RealField RealMat RealDet LamModel LamSpec LamProps RemlReals RemlModel RemlSpec RemlProofs RemlProofs2 RemlProofs3 RemlProofs4.
Import GRing.Theory.
Set Implicit Arguments.
Unset Strict Implicit.
Unset Printing Implicit Defensive.
Local Open Scope ring_scope.

Section Statements.
Variables (n n_groups : nat) (gs : nat -> group).
Variables (chol : forall m, 'M[R]_m -> option 'M[R]_m) (cholP : forall m, 'M[R]_m -> option ('M[R]_m * 'S_m))
          (qr_r : forall m, 'M[R]_m -> 'M[R]_m).

(** The criterion is the log-likelihood, minus half the penalty, plus half the log of the generalised
    determinant of the penalty, minus half the log-determinant of the penalised Hessian, plus a constant. *)
Theorem C97_value llk nH coef scale l X :
  exact_cholesky chol -> exact_cholesky_perm cholP ->
  placed n n_groups gs -> (forall g, (g < n_groups)%N -> well_formed (gs g)) ->
  (forall g, (g < n_groups)%N -> no_dominant (gs g)) -> Rlt 0 scale ->
  (forall g, (g < n_groups)%N -> pd ((Ur (gs g))^T *m S_term (gs g) (l g) *m Ur (gs g))) ->
  let S := scale^-1 *: total_penalty n n_groups gs l in
  pd (nH + S) -> penrose S X ->
  REML n_groups gs chol cholP qr_r llk nH coef scale l
  = Some (llk - quad S coef / 2%:R + ln (\det (S + (1%:M - S *m X))) / 2%:R - ln (\det (nH + S)) / 2%:R
          + (Mp n_groups gs)%:R * ln (2%:R * PI) / 2%:R).
Proof.
move=> ec ep pl wf nd s0 pb S; rewrite /S -total_S_emb => pH px.
have pb' g : (g < n_groups)%N -> pd (Sbar (gs g) (l g)) by move=> hg; rewrite SbarE; exact: pb.
rewrite (reml_value qr_r ec ep llk coef pl wf nd s0 pb' pH px); congr (Some (_ - _ + _ - _ + _)).
by rewrite quadZ [_^-1 * quad _ _]mulrC.
Qed.

(** If the penalised Hessian is not positive definite, no score is returned. *)
Theorem C97_indefinite llk nH coef scale l :
  exact_cholesky_perm cholP -> ~ pd (nH + scale^-1 *: total_penalty n n_groups gs l) ->
  REML n_groups gs chol cholP qr_r llk nH coef scale l = None.
Proof.
move=> ep; rewrite -total_S_emb => np; rewrite /REML /lgdetXXS; case e : (cholP _) => [[L s]|] //.
have [snd _] := ep _ (scaled (nH + scale^-1 *: S_emb n n_groups gs l)).
by case: np; apply: pd_unscaled; apply: pd_perm; exact: factor_pd (snd _ _ e).
Qed.

(** Without repeated blocks, and with every column after the first penalised one penalised, the constant counts
    the dimensions that no penalty acts on. *)
Theorem C97_null_space scale l X :
  placed n n_groups gs -> (forall g, (g < n_groups)%N -> well_formed (gs g)) -> Rlt 0 scale ->
  (forall g, (g < n_groups)%N -> pd ((Ur (gs g))^T *m S_term (gs g) (l g) *m Ur (gs g))) ->
  (forall g, (g < n_groups)%N -> reps (gs g) = 1%N) ->
  n = (start (gs 0) + \sum_(g < n_groups) dim (gs g))%N ->
  let S := scale^-1 *: total_penalty n n_groups gs l in
  penrose S X -> (Mp n_groups gs)%:R = \tr (1%:M - S *m X).
Proof.
move=> pl wf s0 pb r1 en S; rewrite /S -total_S_emb => px.
have pb' g : (g < n_groups)%N -> pd (Sbar (gs g) (l g)) by move=> hg; rewrite SbarE; exact: pb.
rewrite (nullity_value pl s0 wf pb' px) /Mp {1}en !natrD -addrA; congr (_ + _).
rewrite !natr_sum -sumrB; apply: eq_bigr => g _; rewrite r1 // mul1n natrB //.
have [_ uu _ _ _] := wf g (ltn_ord g).
have := mxrankM_maxr (Ur (gs g))^T (Ur (gs g)); rewrite uu mxrank1 => h.
exact: leq_trans h (rank_leq_row _).
Qed.

(** At a maximum of the penalised likelihood, the number grad_lambda computes is the derivative of the criterion
    with respect to the smoothing parameter, the coefficients being adjusted to it; the criterion is defined
    around it. *)
Theorem C98_gradient (scale : R) (l : nat -> nat -> R) (g j : nat) nH llk b u m (LI : 'M[R]_n) (D : 'M[R]_(n, m)) (pinv : forall k, 'M[R]_k -> 'M[R]_k) :
  exact_cholesky chol -> exact_cholesky_perm cholP ->
  placed n n_groups gs -> (forall h, (h < n_groups)%N -> well_formed (gs h)) ->
  (forall h, (h < n_groups)%N -> no_dominant (gs h)) -> Rlt 0 scale ->
  (g < n_groups)%N -> (j < npen (gs g))%N -> Rlt 0 (l g j) ->
  (forall h, (h < n_groups)%N -> pd ((Ur (gs h))^T *m S_term (gs h) (l h) *m Ur (gs h))) ->
  let S := total_penalty n n_groups gs l in
  pd (nH + scale^-1 *: S) ->
  velocity b (l g j) u -> gradient_at llk (b (l g j)) (scale^-1 *: (S *m b (l g j))) ->
  penrose (S_term (gs g) (l g)) (pinv _ (S_term (gs g) (l g))) ->
  LI^T *m LI *m (scale *: nH + S) = 1%:M ->
  D *m D^T = embed n (SJ (gs g) j) ->
  let db := compute_lgdetD_bsb (if FS_use_rank gs g then Some (reps (gs g) * \rank (SJ (gs g) j))%N else None)
     (l g j) (S_pinv n n_groups gs pinv l) (embed n (SJ (gs g) j)) (b (l g j)) in
  is_derive (fun t : R => value (REML n_groups gs chol cholP qr_r (llk (b t)) nH (b t) scale (with_param l g j t)))
     (l g j) (grad_lambda db.1 (trace_term LI D) db.2 scale) /\
  locally (l g j) (fun t : R => REML n_groups gs chol cholP qr_r (llk (b t)) nH (b t) scale (with_param l g j t) <> None).
Proof.
move=> ec ep pl wf nd s0 gG jg l0 pb S; rewrite /S -total_S_emb => pH vb st pp eL eD.
have pb' h : (h < n_groups)%N -> pd (Sbar (gs h) (l h)) by move=> hg; rewrite SbarE; exact: pb.
exact: (reml_derive qr_r ec ep wf s0 gG jg nd pb' pH vb st pl l0 pp eL eD).
Qed.

(** For normal observations with a known scale the coefficients do depend differentiably on the smoothing
    parameter and satisfy the condition: the number is the derivative of the criterion of the fitted model. *)
Theorem C98_gaussian N (X : 'M[R]_(N, n)) (y : 'cV[R]_N) (scale : R) (l : nat -> nat -> R) (g j : nat)
    m (LI : 'M[R]_n) (D : 'M[R]_(n, m)) (pinv : forall k, 'M[R]_k -> 'M[R]_k) :
  exact_cholesky chol -> exact_cholesky_perm cholP ->
  placed n n_groups gs -> (forall h, (h < n_groups)%N -> well_formed (gs h)) ->
  (forall h, (h < n_groups)%N -> no_dominant (gs h)) -> Rlt 0 scale ->
  (g < n_groups)%N -> (j < npen (gs g))%N -> Rlt 0 (l g j) ->
  (forall h, (h < n_groups)%N -> pd ((Ur (gs h))^T *m S_term (gs h) (l h) *m Ur (gs h))) ->
  let S := total_penalty n n_groups gs in
  pd (X^T *m X + S l) ->
  penrose (S_term (gs g) (l g)) (pinv _ (S_term (gs g) (l g))) ->
  LI^T *m LI *m (X^T *m X + S l) = 1%:M ->
  D *m D^T = embed n (SJ (gs g) j) ->
  let fit t := pls X y (S (with_param l g j t)) in
  let db := compute_lgdetD_bsb (if FS_use_rank gs g then Some (reps (gs g) * \rank (SJ (gs g) j))%N else None)
     (l g j) (S_pinv n n_groups gs pinv l) (embed n (SJ (gs g) j)) (pls X y (S l)) in
  is_derive (fun t : R => value (REML n_groups gs chol cholP qr_r (gaussian_llk X y scale (fit t))
                                      (scale^-1 *: (X^T *m X)) (fit t) scale (with_param l g j t)))
     (l g j) (grad_lambda db.1 (trace_term LI D) db.2 scale).
Proof.
move=> ec ep pl wf nd s0 gG jg l0 pb S pH pp eL eD fit db.
have ns : scale != 0 by apply: gt0_neq.
have moved t : S (with_param l g j t) = S l + (t - l g j) *: embed n (SJ (gs g) j).
  by rewrite /S -!total_S_emb S_emb_moved.
have e0 : S (with_param l g j (l g j)) = S l by rewrite moved subrr scale0r addr0.
have f0 : fit (l g j) = pls X y (S l) by rewrite /fit e0.
have sy : (embed n (SJ (gs g) j))^T = embed n (SJ (gs g) j).
  by apply: embed_sym; have [s _ _ _ _] := wf _ gG; exact: s.
have [u vu] := ex_solve (X^T *m y) (l g j) pH sy.
have vb : velocity fit (l g j) u.
  by move=> i; apply: isd_ext (vu i) => t; rewrite /fit /pls moved addrA.
have p1 : pd (scale^-1 *: (X^T *m X) + scale^-1 *: S l) by rewrite -scalerDr; exact: pd_scale (inv_gt0 s0) pH.
have e1 : LI^T *m LI *m (scale *: (scale^-1 *: (X^T *m X)) + S l) = 1%:M by rewrite scalerA mulfV // scale1r.
have st : gradient_at (gaussian_llk X y scale) (fit (l g j)) (scale^-1 *: (S l *m fit (l g j))).
  rewrite f0 {2}/pls -gauss_stationary; last exact: pd_unit.
  exact: (@gauss_gradient _ _ X y scale (- (N%:R / 2%:R * ln (2%:R * PI * scale))) s0).
by have [] := C98_gradient ec ep pl wf nd s0 gG jg l0 pb p1 vb st pp e1 eD; rewrite f0.
Qed.

(** An unclipped Fellner-Schall update of one smoothing parameter goes in a direction in which the criterion of
    the fitted model increases. *)
Theorem C98_ascent N (X : 'M[R]_(N, n)) (y : 'cV[R]_N) (scale : R) (l : nat -> nat -> R) (g j : nat)
    m (LI : 'M[R]_n) (D : 'M[R]_(n, m)) (pinv : forall k, 'M[R]_k -> 'M[R]_k) :
  exact_cholesky chol -> exact_cholesky_perm cholP ->
  placed n n_groups gs -> (forall h, (h < n_groups)%N -> well_formed (gs h)) ->
  (forall h, (h < n_groups)%N -> no_dominant (gs h)) -> Rlt 0 scale ->
  (g < n_groups)%N -> (j < npen (gs g))%N ->
  (forall h, (h < n_groups)%N -> pd ((Ur (gs h))^T *m S_term (gs h) (l h) *m Ur (gs h))) ->
  let S := total_penalty n n_groups gs in
  pd (X^T *m X + S l) ->
  penrose (S_term (gs g) (l g)) (pinv _ (S_term (gs g) (l g))) ->
  LI^T *m LI *m (X^T *m X + S l) = 1%:M ->
  D *m D^T = embed n (SJ (gs g) j) ->
  let fit t := pls X y (S (with_param l g j t)) in
  let crit t := value (REML n_groups gs chol cholP qr_r (gaussian_llk X y scale (fit t))
                            (scale^-1 *: (X^T *m X)) (fit t) scale (with_param l g j t)) in
  let db := compute_lgdetD_bsb (if FS_use_rank gs g then Some (reps (gs g) * \rank (SJ (gs g) j))%N else None)
     (l g j) (S_pinv n n_groups gs pinv l) (embed n (SJ (gs g) j)) (pls X y (S l)) in
  let ld := trace_term LI D in
  Rlt 0 db.2 -> in_range (l g j) -> Rle 0 (db.1 - ld) -> in_range (scale * ((db.1 - ld) / db.2) * l g j) ->
  let step := step_fellner_schall db.1 ld db.2 (l g j) scale in
  step <> 0 -> exists e, Rlt 0 e /\ forall s, Rlt 0 s -> Rlt s e -> Rlt (crit (l g j)) (crit (l g j + s * step)).
Proof.
move=> ec ep pl wf nd s0 gG jg pb S pH pp eL eD fit crit db ld b0 ir ge ir2 step ne.
have l0 : Rlt 0 (l g j) by case: ir => h _; apply: Rlt_le_trans h; apply: Rinv_0_lt_compat; Lra.
have D1 := C98_gaussian y ec ep pl wf nd s0 gG jg l0 pb pH pp eL eD; rewrite -/fit -/db -/ld in D1.
have b1 : db.2 <> 0 by apply/eqP/gt0_neq.
have ss := @C08_direction db.1 ld db.2 (l g j) scale b0 s0 ir ge.
rewrite -(RinvE b1) in ir2; have {ss} := ss ir2; rewrite -/step => ss.
have pr : Rlt 0 (step * grad_lambda db.1 ld db.2 scale) by exact: same_sign_prod.
by have [e [e0 h]] := @ascent crit _ _ _ D1 pr; exists e; split => // s; exact: h.
Qed.
End Statements.

(** ** Cases *)

(** Factorisations that meet the contracts. *)
Definition some_chol m (A : 'M[R]_m) : option 'M[R]_m :=
  if excluded_middle_informative (exists L, factor A L) is left h
  then Some (proj1_sig (constructive_indefinite_description _ h)) else None.
Definition some_cholP m (A : 'M[R]_m) : option ('M[R]_m * 'S_m) :=
  if some_chol A is Some L then Some (L, 1%g) else None.

Lemma some_exact : exact_cholesky some_chol.
Proof.
move=> m A; rewrite /some_chol; case: excluded_middle_informative => h; split => //.
- by move=> L [<-]; case: constructive_indefinite_description.
- by move=> /cholesky.
Qed.

Lemma some_exact_perm : exact_cholesky_perm some_cholP.
Proof.
move=> m A; have [h1 h2] := some_exact A; rewrite /some_cholP; case e : (some_chol A) => [L|]; split => //.
- by move=> L' s [<- <-]; rewrite row_perm1 col_perm1; exact: h1.
- by move=> /h2.
Qed.

(** Two coefficients, each with its own penalty; both penalties belong to one term. *)
Definition two : group := @Group 2 0 1 2 (fun j => delta_mx (inord j) (inord j)) 2 1%:M (fun _ => 1%:M).
Definition ones : nat -> nat -> R := fun _ _ => 1.

Lemma eq_inord (a : 'I_2) k : (k < 2)%N -> (a == inord k) = (a == k :> nat).
Proof. by move=> h; rewrite -(inj_eq val_inj) /= inordK. Qed.

Lemma two_term : S_term two (ones 0) = 1%:M.
Proof.
rewrite /S_term /= big_ord_recl big_ord1 /=; apply/matrixP => a b; rewrite !mxE /bump /= /ones !mul1r !eq_inord //.
by case: a => [[|[|]]] //= ?; case: b => [[|[|]]] //= ?; rewrite -?(inj_eq val_inj) /= ?addr0 ?add0r.
Qed.

Lemma pd1 m : pd (1%:M : 'M[R]_m).
Proof.
split; first exact: trmx1.
move=> x x0; rewrite /quad mulmx1 mxE; have [i hi] : exists i, x i 0 != 0.
  by apply/existsP; apply: contraR x0; rewrite negb_exists => /forallP h; apply/eqP/matrixP => i k; rewrite (ord1 k) mxE; apply/eqP; move: (h i); rewrite negbK.
apply: (@sum_gt0 _ _ _ i) => [k||]; rewrite ?mem_index_enum // mxE; [exact: sq_ge0|exact: sq_gt0].
Qed.

Lemma two_wf : well_formed two.
Proof.
split => //=.
- by move=> j _; rewrite trmx_delta.
- by rewrite trmx1 mulmx1.
- by move=> j _; rewrite trmx1 mulmx1 mul1mx.
- by move=> _; rewrite trmx1 mulmx1.
Qed.

Lemma two_placed : placed 2 1 (fun _ => two).
Proof. by split => // -[|g] [|h]. Qed.

Lemma two_nd : no_dominant two.
Proof. by right => j _ /=; rewrite mxrank_delta. Qed.

Lemma two_embed (M : 'M[R]_2) : embed 2 (M : 'M[R]_(dim two)) = M.
Proof.
rewrite /embed big_ord1; have -> : columns 2 two 0 = 1%:M.
  by apply/matrixP => a b; rewrite !mxE /= -(inj_eq val_inj).
by rewrite trmx1 mulmx1 mul1mx.
Qed.

Lemma two_total : total_penalty 2 1 (fun _ => two) ones = 1%:M.
Proof. by rewrite -total_S_emb S_emb_terms big_ord1 two_embed two_term. Qed.

Lemma two_pd : pd ((Ur two)^T *m S_term two (ones 0) *m Ur two).
Proof. by rewrite two_term mulmx1 /= trmx1 mul1mx; exact: pd1. Qed.

(** All hypotheses of C97_value, C97_null_space, C98_gradient and C98_gaussian can hold at once: two observations,
    one per coefficient, and two penalties. *)
Example C97_case : let S := (1 : R)^-1 *: total_penalty 2 1 (fun _ => two) ones in
  exact_cholesky some_chol /\ exact_cholesky_perm some_cholP /\ placed 2 1 (fun _ => two) /\ well_formed two /\
  no_dominant two /\ pd ((Ur two)^T *m S_term two (ones 0) *m Ur two) /\ pd (1%:M + S) /\ penrose S S /\
  2%N = (start two + \sum_(g < 1) dim two)%N.
Proof.
have d : pd (1%:M + 1%:M : 'M[R]_2).
  by rewrite -mulr2n -scaler_nat; apply: pd_scale; [rewrite mulr2n; Lra|exact: pd1].
rewrite invr1 scale1r two_total; do 6 (split; first by [exact: some_exact|exact: some_exact_perm|exact: two_placed|exact: two_wf|exact: two_nd|exact: two_pd]).
split => //; split; last by rewrite big_ord1.
by split; rewrite ?mulmx1 ?trmx1.
Qed.

Example C98_case : let X : 'M[R]_2 := 1%:M in let LI : 'M[R]_2 := (/ sqrt (IZR 2))%R *: 1%:M in
  let D : 'M[R]_2 := delta_mx (inord 0) (inord 0) in
  pd (X^T *m X + total_penalty 2 1 (fun _ => two) ones) /\
  penrose (S_term two (ones 0)) (S_term two (ones 0)) /\
  LI^T *m LI *m (X^T *m X + total_penalty 2 1 (fun _ => two) ones) = 1%:M /\
  D *m D^T = embed 2 (SJ two 0).
Proof.
have d : pd (1%:M + 1%:M : 'M[R]_2).
  by rewrite -mulr2n -scaler_nat; apply: pd_scale; [rewrite mulr2n; Lra|exact: pd1].
rewrite /= trmx1 mulmx1 two_total two_term; split => //; split; first by split; rewrite ?mulmx1 ?trmx1.
split; last by rewrite trmx_delta mul_delta_mx two_embed.
rewrite [(_ *: _)^T]linearZ /= trmx1 -scalemxAl mul1mx scalerA -scalemxAl mul1mx -mulr2n -scaler_nat scalerA -[RHS]scale1r; congr (_ *: _).
have s2 : (sqrt (IZR 2) * sqrt (IZR 2) = IZR 2)%R by apply: sqrt_sqrt; Lra.
have n2 : sqrt (IZR 2) <> 0 by apply: Rgt_not_eq; apply: sqrt_lt_R0; Lra.
rewrite mulr2n; eqR; rewrite -Rinv_mult_distr // s2; field.
Qed.

Example C97_indefinite_case : ~ pd (- 1%:M + (1 : R)^-1 *: total_penalty 2 1 (fun _ => two) ones).
Proof.
rewrite invr1 scale1r two_total addNr => -[_ /(_ (delta_mx 0 0))].
by rewrite /quad mulmx0 mul0mx mxE => h; apply: (Rlt_irrefl 0); apply: h; apply/eqP => /matrixP /(_ 0 0); rewrite !mxE /= => /eqP; rewrite oner_eq0.
Qed.

(** ** Refutations *)

(** One coefficient with two penalties, each of which alone penalises it fully: the criterion's determinant
    leaves one of them out. *)
Definition twice : group := @Group 1 0 1 2 (fun _ => 1%:M) 1 1%:M (fun _ => 1%:M).

Lemma twice_bar j : SJbar twice j = 1%:M.
Proof. by rewrite /SJbar /= trmx1 !mulmx1. Qed.

Lemma twice_rep l : S_rep twice l = (l 0%N)%:M.
Proof. by rewrite /S_rep !twice_bar mxrank1 eqxx /= scalemx1. Qed.

Lemma twice_term l : S_term twice l = (l 0%N + l 1%N)%:M.
Proof. by rewrite /S_term big_ord_recl big_ord1 /= !scalemx1 raddfD. Qed.

Lemma twice_wf : well_formed twice.
Proof. by split => //=; move=> *; rewrite ?trmx1 ?mulmx1. Qed.

Lemma pd_scalar m (a : R) : Rlt 0 a -> pd (a%:M : 'M[R]_m).
Proof. by move=> a0; rewrite -scalemx1; apply: pd_scale => //; exact: pd1. Qed.

Lemma ldet_rep chol qr_r (scale : R) g l : exact_cholesky chol -> Rlt 0 scale -> pd (S_rep g l) ->
  ldetSI chol qr_r scale g l = ln (\det (scale^-1 *: S_rep g l)) * (reps g)%:R.
Proof.
move=> ec s0 p; have p1 := pd_scale (inv_gt0 s0) p.
rewrite /ldetSI; have [snd cmp] := ec _ (scaled (scale^-1 *: S_rep g l)).
case e : (chol _) => [L|]; last by case: (cmp (pd_scaled p1)).
by rewrite (ln_det_factor p1 (snd _ e)).
Qed.

(** The two criteria of C97_value differ; moreover the determinant the criterion uses does not change with the
    second smoothing parameter at all. *)
Theorem C97_dominant_refuted : exists (gs : nat -> group) (nH : 'M[R]_1) (coef : 'cV[R]_1) (l : nat -> nat -> R),
  placed 1 1 gs /\ well_formed (gs 0%N) /\ pd ((Ur (gs 0%N))^T *m S_term (gs 0%N) (l 0%N) *m Ur (gs 0%N)) /\
  let S := total_penalty 1 1 gs l in
  pd (nH + S) /\ forall chol cholP qr_r llk X, exact_cholesky chol -> exact_cholesky_perm cholP -> penrose S X ->
  REML 1 gs chol cholP qr_r llk nH coef 1 l
  <> Some (llk - quad S coef / 2%:R + ln (\det (S + (1%:M - S *m X))) / 2%:R - ln (\det (nH + S)) / 2%:R
          + (Mp 1 gs)%:R * ln (2%:R * PI) / 2%:R) /\
  forall (t : R), ldetSI chol qr_r 1 (gs 0%N) (with_param l 0 1 t 0%N) = ldetSI chol qr_r 1 (gs 0%N) (l 0%N).
Proof.
have e2 : (1 + 1 : R) = IZR 2 by Lra.
have embed1 (M : 'M[R]_1) : embed 1 (M : 'M[R]_(dim twice)) = M.
  rewrite /embed big_ord1; have -> : columns 1 twice 0 = 1%:M by apply/matrixP => a b; rewrite !mxE /= !ord1.
  by rewrite trmx1 mulmx1 mul1mx.
have tot : total_penalty 1 1 (fun _ => twice) ones = (1 + 1)%:M.
  by rewrite -total_S_emb S_emb_terms big_ord1 embed1 twice_term.
have p1 : pd (1%:M + (1 + 1)%:M : 'M[R]_1).
  by rewrite -raddfD /=; apply: pd_scalar; Lra.
exists (fun _ => twice), 1%:M, 0, ones; split; [by split => // -[|g] [|h]|split; [exact: twice_wf|]].
rewrite tot twice_term /= trmx1 mul1mx mulmx1; split; [by apply: pd_scalar; rewrite /ones; Lra|split => //].
move=> chol cholP qr_r llk X ec ep px.
have rep l : l 0%N = 1 -> ldetSI chol qr_r 1 twice l = 0.
  move=> l0; rewrite ldet_rep //; try exact: Rlt_0_1; last by rewrite twice_rep l0; exact: pd1.
  by rewrite twice_rep l0 invr1 scale1r det1 [ln 1]ln_1 mul0r.
split; last by move=> t; rewrite !rep.
rewrite /REML -total_S_emb in tot *; rewrite tot invr1 !scale1r lgdetXXS_value // big_ord1 rep //.
have u : ((1 + 1)%:M : 'M[R]_1) \in unitmx by apply: pd_unit; apply: pd_scalar; Lra.
have -> : (1 + 1)%:M *m X = 1%:M :> 'M[R]_1.
  have [h _ _ _] := px; by rewrite -[LHS]mulmx1 -(mulmxV u) mulmxA h.
rewrite subrr addr0 trmx0 !mul0mx /quad trmx0 !mul0mx mxE !mul0r det_scalar1 => -[].
set z := _ * ln (2%:R * PI) / _; set w := ln (\det _) / _.
have t0 : (2%:R : R) = IZR 2 by rewrite mulr2n; Lra.
have t1 : (IZR 2 : R) <> 0 by Lra.
have : Rlt (ln 1) (ln (IZR 2)) by apply: ln_increasing; Lra.
rewrite [ln 1]ln_1 e2 t0 -(RinvE t1) => h /addIr /addIr /addrI e.
by have q := Rdiv_lt_0_compat _ _ h Rlt_0_2; apply: (Rlt_not_eq _ _ q e).
Qed.

(** A penalty on the first of two coefficients, used for two blocks: one of the two unpenalised dimensions is not
    counted. *)
Definition half : group :=
  @Group 2 0 2 1 (fun _ => delta_mx 0 0) 1 (\matrix_(a, b) (a == 0)%:R) (fun _ => 1%:M).

Lemma half_wf : well_formed half.
Proof.
have u : \matrix_(a < 2, b < 1) (a == 0)%:R = delta_mx 0 0 :> 'M[R]_(2, 1).
  by apply/matrixP => a b; rewrite !mxE (ord1 b) eqxx andbT.
split => //=; rewrite ?u.
- by move=> j _; rewrite trmx_delta.
- by rewrite trmx_delta mul_delta_mx; apply/matrixP => a b; rewrite !mxE !ord1.
- by move=> j _; rewrite trmx_delta !mul_delta_mx.
- by move=> _; rewrite trmx1 mulmx1.
Qed.

Lemma half_pd : pd ((Ur half)^T *m S_term half (ones 0) *m Ur half).
Proof.
have -> : (Ur half)^T *m S_term half (ones 0) *m Ur half = 1%:M; last exact: pd1.
have u : \matrix_(a < 2, b < 1) (a == 0)%:R = delta_mx 0 0 :> 'M[R]_(2, 1).
  by apply/matrixP => a b; rewrite !mxE (ord1 b) eqxx andbT.
rewrite /S_term big_ord1 /= u /ones scale1r trmx_delta !mul_delta_mx.
by apply/matrixP => a b; rewrite !mxE !ord1.
Qed.

Theorem C97_repeated_refuted : exists (gs : nat -> group) (l : nat -> nat -> R) X,
  placed 4 1 gs /\ well_formed (gs 0%N) /\ pd ((Ur (gs 0%N))^T *m S_term (gs 0%N) (l 0%N) *m Ur (gs 0%N)) /\
  penrose (total_penalty 4 1 gs l) X /\
  4%N = (start (gs 0%N) + reps (gs 0%N) * dim (gs 0%N))%N /\
  Mp 1 gs = 1%N /\ \tr (1%:M - total_penalty 4 1 gs l *m X) = 2%:R.
Proof.
have pl : placed 4 1 (fun _ => half) by split => // -[|g] [|h].
have st : S_term half (ones 0) = delta_mx 0 0 by rewrite /S_term big_ord1 scale1r.
have px : penrose (total_penalty 4 1 (fun _ => half) ones) (total_penalty 4 1 (fun _ => half) ones).
  rewrite -total_S_emb S_emb_terms; apply: (@blocks_penrose 4 1 (fun _ => half) pl (fun g => S_term half (ones g)) (fun g => S_term half (ones g))).
  by move=> [|g] // _; rewrite st; split; rewrite ?mul_delta_mx ?trmx_delta.
exists (fun _ => half), ones, (total_penalty 4 1 (fun _ => half) ones).
split => //; split; [exact: half_wf|split; [exact: half_pd|split => //; split => //; split]].
  by rewrite /Mp big_ord1.
have pb g : (g < 1)%N -> pd (Sbar half (ones g)) by case: g => // _; rewrite SbarE; exact: half_pd.
have wf g : (g < 1)%N -> well_formed half by move=> _; exact: half_wf.
have := @nullity_value 4 1 (fun _ => half) pl 1 ones Rlt_0_1 wf pb (total_penalty 4 1 (fun _ => half) ones).
rewrite invr1 scale1r total_S_emb => /(_ px) ->; rewrite big_ord1 /= -natrB //.
Qed.

(** A penalised coefficient followed by one that no penalty acts on: it is not counted either. *)
Definition single : group := @Group 1 0 1 1 (fun _ => 1%:M) 1 1%:M (fun _ => 1%:M).

Theorem C97_later_refuted : exists (gs : nat -> group) (l : nat -> nat -> R) X,
  placed 2 1 gs /\ well_formed (gs 0%N) /\ pd ((Ur (gs 0%N))^T *m S_term (gs 0%N) (l 0%N) *m Ur (gs 0%N)) /\
  reps (gs 0%N) = 1%N /\ penrose (total_penalty 2 1 gs l) X /\
  Mp 1 gs = 0%N /\ \tr (1%:M - total_penalty 2 1 gs l *m X) = 1.
Proof.
have pl : placed 2 1 (fun _ => single) by split => // -[|g] [|h].
have st : S_term single (ones 0) = 1%:M by rewrite /S_term big_ord1 scale1r.
have w : well_formed single by split => //=; move=> *; rewrite ?trmx1 ?mulmx1.
have p : pd ((Ur single)^T *m S_term single (ones 0) *m Ur single).
  by rewrite st /= trmx1 !mulmx1; exact: pd1.
have px : penrose (total_penalty 2 1 (fun _ => single) ones) (total_penalty 2 1 (fun _ => single) ones).
  rewrite -total_S_emb S_emb_terms; apply: (@blocks_penrose 2 1 (fun _ => single) pl (fun g => S_term single (ones g)) (fun g => S_term single (ones g))).
  by move=> [|g] // _; rewrite st; split; rewrite ?mulmx1 ?trmx1.
exists (fun _ => single), ones, (total_penalty 2 1 (fun _ => single) ones).
split => //; split => //; split => //; split => //; split => //; split; first by rewrite /Mp big_ord1.
have pb g : (g < 1)%N -> pd (Sbar single (ones g)) by case: g => // _; rewrite SbarE.
have wf g : (g < 1)%N -> well_formed single by [].
have := @nullity_value 2 1 (fun _ => single) pl 1 ones Rlt_0_1 wf pb (total_penalty 2 1 (fun _ => single) ones).
rewrite invr1 scale1r total_S_emb => /(_ px) ->; by rewrite big_ord1 /= -natrB.
Qed.

(** If the Cholesky factorisation fails, the determinant is that of the penalty without the division by the
    scale, although the QR decomposition is exact. *)
Theorem C97_fallback_refuted : exists (l : nat -> R) (scale : R) (qr_r : forall m, 'M[R]_m -> 'M[R]_m),
  (forall A : 'M[R]_1, (qr_r 1%N A)^T *m qr_r 1%N A = A^T *m A) /\
  well_formed single /\ no_dominant single /\ Rlt 0 scale /\ pd ((Ur single)^T *m S_term single l *m Ur single) /\
  ldetSI (fun _ _ => None) qr_r scale single l = ln (\det (S_term single l)) /\
  ldetSI (fun _ _ => None) qr_r scale single l <> ln (\det (scale^-1 *: S_term single l)).
Proof.
have w : well_formed single by split => //=; move=> *; rewrite ?trmx1 ?mulmx1.
have st : S_term single (fun _ => 1) = 1%:M by rewrite /S_term big_ord1 scale1r.
exists (fun _ => 1), (IZR 2), (fun _ A => A); split => //; split => //; split; first by left.
split; first exact: Rlt_0_2.
split; first by rewrite st /= trmx1 !mulmx1; exact: pd1.
have v : ldetSI (fun _ _ => None) (fun _ A => A) (IZR 2) single (fun _ => 1) = 0.
  rewrite /ldetSI big_ord1 /S_rep /= /SJbar /= trmx1 !mulmx1 scale1r mxE eqxx /= mulr1 Rabs_pos_eq; last exact: Rle_0_1.
  exact: ln_1.
have t1 : (IZR 2 : R) <> 0 by Lra.
rewrite v st det1; split; first by rewrite [ln 1]ln_1.
have -> : \det ((IZR 2)^-1 *: (1%:M : 'M[R]_1)) = Rinv (IZR 2) by rewrite scalemx1 det_scalar1 RinvE.
rewrite ln_Rinv; last exact: Rlt_0_2.
have : Rlt (ln 1) (ln (IZR 2)) by apply: ln_increasing; Lra.
rewrite [ln 1]ln_1 => h e; have := Ropp_lt_gt_0_contravar _ h; rewrite -e; exact: Rlt_irrefl.
Qed.

Print Assumptions C97_value.
Print Assumptions C97_indefinite.
Print Assumptions C97_null_space.
Print Assumptions C97_dominant_refuted.
Print Assumptions C97_repeated_refuted.
Print Assumptions C97_later_refuted.
Print Assumptions C97_fallback_refuted.
Print Assumptions C98_gradient.
Print Assumptions C98_gaussian.
Print Assumptions C98_ascent.
