(** Derivatives of inverses, and the first derivatives of the criterion. *)

From Coq Require Import Reals Lra FunctionalExtensionality.
From Coquelicot Require Import Coquelicot.
From mathcomp Require Import all_ssreflect all_algebra perm.
From Verif Require Import RealField RealMat RealDet RealEigen RemlReals RemlModel RemlSpec RemlProofs RemlProofs2 RemlProofs3 RemlProofs4 JointSpec JointProofs HessModel HessSpec.
Import GRing.Theory.
Set Implicit Arguments.
Unset Strict Implicit.
Unset Printing Implicit Defensive.
Local Open Scope ring_scope.

Lemma inv_derive m (A B : 'M[R]_m) (t0 : R) i k : pd A -> B^T = B ->
  is_derive (fun t : R => invmx (A + (t - t0) *: B) i k) t0 ((- (invmx A *m B *m invmx A)) i k).
Proof.
move=> p s; pose r : 'cV[R]_m := delta_mx k 0.
have colE (M : 'M[R]_m) a : (M *m r) a 0 = M a k.
  rewrite mxE (bigD1 k) //= big1 ?addr0; first by rewrite mxE !eqxx mulr1.
  by move=> c /negbTE h; rewrite mxE h mulr0.
have [u hu] := ex_solve r t0 p s.
have uA := pd_unit p.
have e0 : invmx (A + (t0 - t0) *: B) *m r = invmx A *m r by rewrite subrr scale0r addr0.
have eq : B *m (invmx A *m r) + A *m u = 0.
  apply/matrixP => a c; rewrite (ord1 c) {c}.
  have D1 : is_derive (fun t : R => ((A + (t - t0) *: B) *m (invmx (A + (t - t0) *: B) *m r)) a 0) t0
             ((B *m (invmx A *m r) + A *m u) a 0).
    apply: (@isd_ext (fun t : R => \sum_b (A + (t - t0) *: B) a b * (invmx (A + (t - t0) *: B) *m r) b 0)).
      by move=> t; rewrite [RHS]mxE.
    apply: (isd_eq (isd_sum _ (fun b _ => isd_mul (affine_derive A B t0 a b) (hu b)))).
    rewrite e0 subrr scale0r addr0 big_split /=; by rewrite [RHS]mxE; congr (_ + _); rewrite [RHS]mxE.
  have D2 : is_derive (fun t : R => ((A + (t - t0) *: B) *m (invmx (A + (t - t0) *: B) *m r)) a 0) t0 0.
    apply: (@is_derive_ext_loc _ _ (fun _ => r a 0)); last exact: isd_const.
    apply: filter_imp (near_pd t0 p s) => t ht.
    by rewrite mulmxA mulmxV ?mul1mx //; exact: pd_unit.
  by rewrite -(is_derive_unique _ _ _ D1) (is_derive_unique _ _ _ D2) mxE.
have eu : u = - (invmx A *m B *m invmx A) *m r.
  have h : A *m u = - (B *m (invmx A *m r)) by apply/eqP; rewrite -addr_eq0 addrC eq.
  by rewrite -[LHS]mul1mx -(mulVmx uA) -[LHS]mulmxA h mulmxN mulNmx !mulmxA.
apply: (isd_ext _ (isd_eq (hu i) _)); first by move=> t; rewrite colE.
by rewrite eu colE.
Qed.

Lemma tr_derive m (M : R -> 'M[R]_m) (M' C : 'M[R]_m) (t0 : R) :
  (forall i k, is_derive (fun t => M t i k) t0 (M' i k)) ->
  is_derive (fun t => \tr (M t *m C)) t0 (\tr (M' *m C)).
Proof.
move=> h; apply: (@isd_ext (fun t => \sum_i \sum_k C k i * M t i k)).
  by move=> t; rewrite /mxtrace; apply: eq_bigr => i _; rewrite mxE; apply: eq_bigr => k _; rewrite mulrC.
apply: (isd_eq (isd_sum _ (fun i _ => isd_sum _ (fun k _ => isd_scale (C k i) (h i k))))).
by rewrite /mxtrace; apply: eq_bigr => i _; rewrite [RHS]mxE; apply: eq_bigr => k _; rewrite mulrC.
Qed.

Lemma solve_derive m (A B : 'M[R]_m) (r : 'cV[R]_m) (t0 : R) : pd A -> B^T = B ->
  velocity (fun t : R => invmx (A + (t - t0) *: B) *m r) t0 (- (invmx A *m B *m (invmx A *m r))).
Proof.
move=> p s i; apply: (@isd_ext (fun t : R => \sum_k r k 0 * invmx (A + (t - t0) *: B) i k)).
  by move=> t; rewrite [RHS]mxE; apply: eq_bigr => k _; rewrite mulrC.
apply: (isd_eq (isd_sum _ (fun k _ => isd_scale (r k 0) (inv_derive t0 i k p s)))).
by rewrite [in RHS]mulmxA -[in RHS]mulNmx [RHS]mxE; apply: eq_bigr => k _; rewrite mulrC.
Qed.

Lemma comp_exp (f : R -> R) (x d : R) : is_derive f (exp x) d -> is_derive (fun s => f (exp s)) x (exp x * d).
Proof.
move=> D; apply: (isd_eq (is_derive_comp f exp x d (exp x) D (is_derive_exp x))).
by rewrite /scal /= /mult /=.
Qed.

Lemma with_expo r g j t : expo (with_param r g j t) = with_param (expo r) g j (exp t).
Proof.
apply: functional_extensionality => h; apply: functional_extensionality => k.
by rewrite /expo /with_param; case: ifP.
Qed.

Section Criterion.
Variables (n n_groups : nat) (gs : nat -> group).
Variables (chol : forall m, 'M[R]_m -> option 'M[R]_m) (cholP : forall m, 'M[R]_m -> option ('M[R]_m * 'S_m))
          (qr_r : forall m, 'M[R]_m -> 'M[R]_m).
Hypotheses (ec : exact_cholesky chol) (ep : exact_cholesky_perm cholP) (pl : placed n n_groups gs).
Hypotheses (wf : forall g, (g < n_groups)%N -> well_formed (gs g)) (nd : forall g, (g < n_groups)%N -> no_dominant (gs g)).
Hypotheses (pr : forall g, (g < n_groups)%N -> proper_group (gs g)).
Variables (N : nat) (X : 'M[R]_(N, n)) (y : 'cV[R]_N) (scale : R).
Hypothesis (s0 : Rlt 0 scale).

Notation S l := (S_emb n n_groups gs l).
Notation A l := (X^T *m X + S l).
Notation E g j := (emb n gs g j).

Lemma emb_psd g j : (g < n_groups)%N -> (j < npen (gs g))%N -> psd (E g j).
Proof.
move=> hg hj; have [ps _] := pr hg; have [s q] := ps j hj; split; first exact: embed_sym.
move=> x; rewrite /quad /emb /embed mulmx_sumr mulmx_suml summxE; apply: sum_ge0 => c.
have := q ((columns n (gs g) c)^T *m x); rewrite /quad trmx_mul trmxK !mulmxA; exact.
Qed.

Lemma quad_S l x : quad (S l) x = \sum_(g < n_groups) \sum_(j < npen (gs g)) l g j * quad (E g j) x.
Proof.
rewrite /quad /S_emb mulmx_sumr mulmx_suml summxE; apply: eq_bigr => g _.
rewrite mulmx_sumr mulmx_suml summxE; apply: eq_bigr => j _; by rewrite -scalemxAr -scalemxAl mxE.
Qed.

Lemma pd_any l l' : (forall g j, Rlt 0 (l g j)) -> (forall g j, Rlt 0 (l' g j)) -> pd (A l) -> pd (A l').
Proof.
move=> l0 l0' [_ q]; split.
  by rewrite [(_ + _)^T]linearD /= trmx_mul trmxK S_emb_sym.
move=> x x0; have := q x x0; rewrite !quadD.
have XX : Rle 0 (quad (X^T *m X) x).
  have -> : quad (X^T *m X) x = \sum_i (X *m x) i 0 * (X *m x) i 0.
    rewrite /quad mulmxA -trmx_mul -mulmxA mxE; apply: eq_bigr => i _; by rewrite [_^T _ _]mxE.
  by apply: sum_ge0 => i; exact: sq_ge0.
have SS m : (forall g j, Rlt 0 (m g j)) -> Rle 0 (quad (S m) x).
  move=> m0; rewrite quad_S; apply: sum_ge0 => g; apply: sum_ge0 => j.
  apply: Rmult_le_pos; first by apply: Rlt_le; exact: m0.
  by have [_ h] := emb_psd (ltn_ord g) (ltn_ord j).
move=> h; apply: Rnot_le_lt => le.
have z1 : quad (X^T *m X) x = 0 by have := SS _ l0'; Lra.
have z2 : quad (S l') x = 0 by have := SS _ l0'; Lra.
have z3 g j : (g < n_groups)%N -> (j < npen (gs g))%N -> quad (E g j) x = 0.
  move=> hg hj; have [_ e] := emb_psd hg hj.
  case: (Rle_lt_or_eq_dec _ _ (e x)) => [lt|//]; exfalso.
  have : Rlt 0 (quad (S l') x); last by rewrite z2 => /Rlt_irrefl.
  rewrite quad_S; apply: (@sum_gt0 _ _ _ (Ordinal hg)) => [k||]; rewrite ?mem_index_enum //.
    apply: sum_ge0 => i; apply: Rmult_le_pos; first by apply: Rlt_le; exact: l0'.
    by have [_ h'] := emb_psd (ltn_ord k) (ltn_ord i).
  apply: (@sum_gt0 _ _ _ (Ordinal hj)) => [i||]; rewrite ?mem_index_enum //=.
    apply: Rmult_le_pos; first by apply: Rlt_le; exact: l0'.
    by have [_ h'] := emb_psd hg (ltn_ord i).
  by apply: Rmult_lt_0_compat; [exact: l0'|].
have z4 : quad (S l) x = 0.
  by rewrite quad_S; apply: big1 => g _; apply: big1 => j _; rewrite z3 // mulr0.
by move: h; rewrite z1 z4; Lra.
Qed.

(** The first derivative. *)
Definition slope (g j : nat) (l : nat -> nat -> R) : R :=
  l g j * (2%:R^-1 * ((reps (gs g))%:R * \tr (invmx (Sbar (gs g) (l g)) *m SJbar (gs g) j))
           + (- 2%:R^-1 * \tr (invmx (A l) *m E g j) + - 2%:R^-1 * (scale^-1 * quad (E g j) (invmx (A l) *m (X^T *m y))))).

Definition crit (l : nat -> nat -> R) : R :=
  let b := pls X y (S l) in
  value (REML n_groups gs chol cholP qr_r (gaussian_llk X y scale b) (scale^-1 *: (X^T *m X)) b scale l).

Lemma crit_fitted r : fitted_reml n_groups gs chol cholP qr_r X y scale r = crit (expo r).
Proof. by rewrite /fitted_reml /crit -total_S_emb. Qed.

Lemma crit_derive l g j : (forall h k, Rlt 0 (l h k)) -> (g < n_groups)%N -> (j < npen (gs g))%N -> pd (A l) ->
  is_derive (fun t => crit (with_param l g j t)) (l g j)
    (2%:R^-1 * ((reps (gs g))%:R * \tr (invmx (Sbar (gs g) (l g)) *m SJbar (gs g) j))
     + (- 2%:R^-1 * \tr (invmx (A l) *m E g j) + - 2%:R^-1 * (scale^-1 * quad (E g j) (invmx (A l) *m (X^T *m y))))).
Proof.
move=> l0 gG jg pA.
have ns : scale != 0 by apply: gt0_neq.
have pb h : (h < n_groups)%N -> pd (Sbar (gs h) (l h)) by move=> hh; apply: Sbar_pd; [exact: pr|move=> k _; exact: l0].
have pH : pd (scale^-1 *: (X^T *m X) + scale^-1 *: S l) by rewrite -scalerDr; exact: pd_scale (inv_gt0 s0) pA.
have sy : (E g j)^T = E g j by have [] := emb_psd gG jg.
pose fit t := pls X y (S (with_param l g j t)).
have fitE t : fit t = invmx (A l + (t - l g j) *: E g j) *m (X^T *m y).
  by rewrite /fit /pls S_emb_moved // addrA.
have f0 : fit (l g j) = invmx (A l) *m (X^T *m y) by rewrite fitE subrr scale0r addr0.
have vb : velocity fit (l g j) (- (invmx (A l) *m E g j *m (invmx (A l) *m (X^T *m y)))).
  by move=> i; apply: isd_ext (solve_derive (X^T *m y) (l g j) pA sy i) => t; rewrite fitE.
have st : gradient_at (gaussian_llk X y scale) (fit (l g j)) (scale^-1 *: (S l *m fit (l g j))).
  rewrite f0 -gauss_stationary; last exact: pd_unit.
  exact: (@gauss_gradient _ _ X y scale (- (N%:R / 2%:R * ln (2%:R * PI * scale))) s0).
apply: (@is_derive_ext_loc _ _ (fun t : R => 
  (gaussian_llk X y scale (fit t) - quad (S (with_param l g j t)) (fit t) / scale / 2%:R)
  + (2%:R^-1 * (\sum_(h < n_groups) ldetSI chol qr_r scale (gs h) (with_param l g j t h))
  + (- 2%:R^-1 * ln (\det (scale^-1 *: (X^T *m X) + scale^-1 *: S (with_param l g j t)))
  + (Mp n_groups gs)%:R * ln (2%:R * PI) / 2%:R)))).
  apply: filter_imp (near_H wf gG jg pH) => t ht.
  rewrite /crit /REML (lgdetXXS_value ep ht) /= -/(fit t) /quad mulNr !addrA.
  by rewrite [2%:R^-1 * _]mulrC [2%:R^-1 * ln _]mulrC.
apply: (isd_eq (isd_add (penalised_derive wf gG jg vb st) (isd_add (isd_scale _ (lgdetS_derive qr_r ec wf s0 gG jg nd pb))
  (isd_add (isd_scale _ (lgdetH_derive s0 gG jg pH)) (isd_const _ _))))).
rewrite addr0 f0 scalerA mulfV // scale1r -/(emb n gs g j).
set q := quad _ _; set a := 2%:R^-1 * (_ * _); set c := \tr _.
rewrite addrCA; congr (_ + _); rewrite addrC; congr (_ + _).
by rewrite mulNr; congr (- _); rewrite mulrC; congr (_ * _); rewrite mulrC.
Qed.

Lemma first_derive r g j : (g < n_groups)%N -> (j < npen (gs g))%N -> pd (A (expo r)) ->
  is_derive (fun t => fitted_reml n_groups gs chol cholP qr_r X y scale (with_param r g j t)) (r g j) (slope g j (expo r)).
Proof.
move=> gG jg pA.
apply: (@isd_ext (fun t => crit (with_param (expo r) g j (exp t)))).
  by move=> t; rewrite crit_fitted with_expo.
apply: (@comp_exp (fun t => crit (with_param (expo r) g j t))).
by apply: crit_derive => // h k; exact: exp_pos.
Qed.

Lemma partial_slope r g j : (g < n_groups)%N -> (j < npen (gs g))%N -> pd (A (expo r)) ->
  partial (fitted_reml n_groups gs chol cholP qr_r X y scale) g j r = slope g j (expo r).
Proof. by move=> hg hj p; apply: is_derive_unique; exact: first_derive. Qed.

(** The second derivative. *)
Definition curve (g j h k : nat) (l : nat -> nat -> R) : R :=
  (if gamma g j h k then slope g j l else 0)
  + l g j * l h k * (
      (if g == h then - (2%:R^-1 * ((reps (gs g))%:R * \tr (invmx (Sbar (gs g) (l g)) *m SJbar (gs g) k *m invmx (Sbar (gs g) (l g)) *m SJbar (gs g) j))) else 0)
      + (2%:R^-1 * \tr (invmx (A l) *m E h k *m invmx (A l) *m E g j)
         + scale^-1 * ((E g j *m (invmx (A l) *m (X^T *m y)))^T *m (invmx (A l) *m E h k *m (invmx (A l) *m (X^T *m y)))) 0 0)).

Lemma slope_derive l g j h k : (forall h k, Rlt 0 (l h k)) -> (g < n_groups)%N -> (j < npen (gs g))%N ->
  (h < n_groups)%N -> (k < npen (gs h))%N -> pd (A l) ->
  is_derive (fun t => slope g j (with_param l h k t)) (l h k) (curve g j h k l / l h k).
Proof.
move=> l0 gG jg hG kh pA; have ns : scale != 0 by apply: gt0_neq.
have lh : l h k != 0 by apply: gt0_neq.
have pb i : (i < n_groups)%N -> pd (Sbar (gs i) (l i)) by move=> hh; apply: Sbar_pd; [exact: pr|move=> ? _; exact: l0].
have sy g' j' : (g' < n_groups)%N -> (j' < npen (gs g'))%N -> (E g' j')^T = E g' j' by move=> a b; have [] := emb_psd a b.
pose w t := with_param l h k t g j.
have Dw : is_derive w (l h k) (if gamma g j h k then 1 else 0).
  rewrite /w /with_param /gamma; case: ifP => _; [exact: is_derive_id|exact: isd_const].
have w0 : w (l h k) = l g j.
  by rewrite /w /with_param; case: ifP => // /andP[/eqP -> /eqP ->].
have D1 : is_derive (fun t => \tr (invmx (Sbar (gs g) (with_param l h k t g)) *m SJbar (gs g) j)) (l h k)
  (if g == h then - \tr (invmx (Sbar (gs g) (l g)) *m SJbar (gs g) k *m invmx (Sbar (gs g) (l g)) *m SJbar (gs g) j) else 0).
  case: (altP (g =P h)) => [e|ne].
    subst h; apply: (@isd_ext (fun t => \tr (invmx (Sbar (gs g) (l g) + (t - l g k) *: SJbar (gs g) k) *m SJbar (gs g) j))).
      by move=> t; rewrite Sbar_moved.
    have sb : (SJbar (gs g) k)^T = SJbar (gs g) k by apply: sym_bar => //; exact: wf.
    apply: (isd_eq (tr_derive _ (fun a b => inv_derive (l g k) a b (pb _ gG) sb))).
    by rewrite mulNmx raddfN.
  by apply: (isd_ext _ (isd_const _ _)) => t; rewrite Sbar_same.
have AE t : A (with_param l h k t) = A l + (t - l h k) *: E h k by rewrite S_emb_moved // addrA.
have D2 : is_derive (fun t => \tr (invmx (A (with_param l h k t)) *m E g j)) (l h k)
  (- \tr (invmx (A l) *m E h k *m invmx (A l) *m E g j)).
  apply: (@isd_ext (fun t => \tr (invmx (A l + (t - l h k) *: E h k) *m E g j))).
    by move=> t; rewrite AE.
  apply: (isd_eq (tr_derive _ (fun a b => inv_derive (l h k) a b pA (sy _ _ hG kh)))).
  by rewrite mulNmx raddfN.
have v := solve_derive (X^T *m y) (l h k) pA (sy _ _ hG kh).
have D3 : is_derive (fun t => quad (E g j) (invmx (A (with_param l h k t)) *m (X^T *m y))) (l h k)
  (- (2%:R * ((E g j *m (invmx (A l) *m (X^T *m y)))^T *m (invmx (A l) *m E h k *m (invmx (A l) *m (X^T *m y)))) 0 0)).
  have D := @quad_derive _ _ _ (E g j) 0 (l h k) (sy _ _ gG jg) v.
  apply: (isd_eq (isd_ext _ D)); first by move=> t; rewrite scaler0 addr0 AE.
  rewrite subrr scale0r addr0 /quad mulmx0 mul0mx [(0 : 'M[R]__) _ _]mxE addr0.
  by rewrite mulmxN [(- _ : 'M[R]__) _ _]mxE mulrN.
have D := isd_mul Dw (isd_add (isd_scale (2%:R^-1) (isd_scale ((reps (gs g))%:R) D1))
   (isd_add (isd_scale (- 2%:R^-1) D2) (isd_scale (- 2%:R^-1) (isd_scale scale^-1 D3)))).
apply: (isd_eq D).
have e0 : with_param l h k (l h k) = l.
  apply: functional_extensionality => a; apply: functional_extensionality => b.
  by rewrite /with_param; case: ifP => // /andP[/eqP -> /eqP ->].
rewrite w0 e0 /curve; set T1 := \tr (_ *m _ *m _ *m SJbar _ _); set T2 := \tr (_ *m _ *m _ *m E _ _); set Q := (_ *m _) 0 0.
rewrite /slope; set P := _ + (_ + _).
have n2 : (2%:R : R) != 0 by apply/gt0_neq; rewrite mulr2n; Lra.
have t2 : - 2%:R^-1 * (scale^-1 * - (2%:R * Q)) = scale^-1 * Q.
  by rewrite !mulrN mulNr opprK mulrCA [2%:R^-1 * _]mulrA mulVf // mul1r.
rewrite t2 [- _ * - _]mulrNN mulrDl; congr (_ + _).
  rewrite /gamma; case: ifP => [/andP[/eqP e1 /eqP e2]|_]; last by rewrite !mul0r.
  by subst h k; rewrite mul1r mulrC mulKf.
rewrite [l g j * l h k * _]mulrAC mulfK //; congr (_ * _).
by case: (g == h); rewrite ?mulrN ?mulr0.
Qed.

Theorem second_derive r g j h k : (g < n_groups)%N -> (j < npen (gs g))%N -> (h < n_groups)%N -> (k < npen (gs h))%N ->
  pd (A (expo r)) ->
  second_partial (fitted_reml n_groups gs chol cholP qr_r X y scale) r g j h k (curve g j h k (expo r)).
Proof.
move=> gG jg hG kh pA.
have px r' : pd (A (expo r')) by apply: pd_any pA => ? ?; exact: exp_pos.
split.
  by apply: filter_forall => t; eexists; apply: first_derive.
apply: (@isd_ext (fun t => slope g j (with_param (expo r) h k (exp t)))).
  by move=> t; rewrite partial_slope // with_expo.
have lh : exp (r h k) != 0 by apply: gt0_neq; exact: exp_pos.
have D := @slope_derive (expo r) g j h k (fun _ _ => exp_pos _) gG jg hG kh pA.
apply: (isd_eq (@comp_exp (fun t => slope g j (with_param (expo r) h k t)) _ _ D)).
by rewrite mulrC mulfVK.
Qed.
End Criterion.
