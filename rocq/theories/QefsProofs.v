From mathcomp Require Import all_ssreflect all_algebra.
From Verif Require Import MatModel MatSpec MatProofs MatProofs2 MatProofs3 MatProofs4 MatProofs5 QefsModel QefsSpec.
Set Implicit Arguments.
Unset Strict Implicit.
Unset Printing Implicit Defensive.
Import Order.TTheory GRing.Theory Num.Theory.
Local Open Scope ring_scope.

(** ** Quadratic forms *)
Section Quad.
Variable R : rcfType.
Variable n : nat.
Implicit Types (A B : 'M[R]_n) (x : 'cV[R]_n).

Lemma qD A B x : quad (A + B) x = quad A x + quad B x.
Proof. by rewrite /quad mulmxDr mulmxDl mxE. Qed.

Lemma qZ c A x : quad (c *: A) x = c * quad A x.
Proof. by rewrite /quad -scalemxAr -scalemxAl mxE. Qed.

Lemma q_turn m (A : 'M[R]_m) (W : 'M[R]_(n, m)) x : quad (W *m A *m W^T) x = quad A (W^T *m x).
Proof. by rewrite /quad trmx_mul trmxK !mulmxA. Qed.

Lemma q_gram m (E : 'M[R]_(n, m)) x : quad (E *m E^T) x = ((E^T *m x)^T *m (E^T *m x)) 0 0.
Proof. by rewrite /quad trmx_mul trmxK !mulmxA. Qed.

Lemma q_gram_ge0 m (E : 'M[R]_(n, m)) x : 0 <= quad (E *m E^T) x.
Proof. by rewrite q_gram quad_sq_ge0. Qed.

Lemma sq_eq0 m (v : 'cV[R]_m) : (v^T *m v) 0 0 = 0 -> v = 0.
Proof.
rewrite quad_sq => s0; apply/colP => i; rewrite mxE; apply/eqP; rewrite -sqrf_eq0.
by rewrite (psumr_eq0P _ s0) // => j _; exact: sqr_ge0.
Qed.

Lemma sq_gt0 m (v : 'cV[R]_m) : v != 0 -> 0 < (v^T *m v) 0 0.
Proof.
move=> v0; rewrite lt0r quad_sq_ge0 andbT; apply: contra v0 => /eqP/sq_eq0 ->; exact: eqxx.
Qed.

Lemma q_scalar (c : R) x : quad c%:M x = c * (x^T *m x) 0 0.
Proof. by rewrite /quad mul_mx_scalar -scalemxAl mxE. Qed.

Lemma shifted_definite (c : R) A : 0 < c -> semi A -> definite (c%:M + A).
Proof.
move=> c0 [sym pos]; split; first by rewrite raddfD /= tr_scalar_mx sym.
by move=> x x0; rewrite qD q_scalar ltr_spaddl // mulr_gt0 // sq_gt0.
Qed.

Lemma definite_unit A : definite A -> A \in unitmx.
Proof.
move=> [sym pos]; rewrite -row_free_unit -kermx_eq0; apply/eqP/row_matrixP => i.
set v := row i (kermx A).
have vA : v *m A = 0 by rewrite /v -row_mul mulmx_ker row0.
rewrite row0 -/v; case: (eqVneq v 0) => // v0.
have : 0 < quad A v^T by apply: pos; rewrite -(inj_eq trmx_inj) trmxK trmx0.
by rewrite /quad trmxK vA mul0mx mxE ltxx.
Qed.
End Quad.

(** ** The terms of the update *)
Section Terms.
Variable R : rcfType.
Variable qr : forall n m, 'M[R]_(n, m) -> economic R n m.
Variable eigh : forall k, 'M[R]_k -> 'rV[R]_k * 'M[R]_k.
Variable inv : forall k, 'M[R]_k -> 'M[R]_k.
Variable root_eps : R.
Hypothesis invok : forall k, inv_ok (@inv k).
Variables n m : nat.
Variables s y : 'I_m.+1 -> 'rV[R]_n.
Variable rho : 'I_m.+1 -> R.
Variable omega : R.
Hypothesis prop : proper s y rho omega.

Lemma hsr1_sym mpsd mpd : let t := hsr1 qr eigh inv root_eps s y rho omega%:M omega mpsd mpd in
  tt3 t = (tt1 t)^T /\ (tt2 t)^T = tt2 t.
Proof.
have [rE u] := prop.
have s2 (t := HSR1_terms s y rho (@inv m.+1) omega%:M) : t.2 = (t.1.1)^T /\ (t.1.2)^T = t.1.2.
  rewrite /t /HSR1_terms /=; split=> //.
  rewrite -(middle_H rE) /= in u.
  by rewrite (inv_okE (@invok _) u) trmx_inv M_sym // tr_scalar_mx.
rewrite /hsr1; case: HSR1_terms s2 => [[t1 t2] t3] /= [-> t2s].
case: mpsd => //=.
case: (eigh _) => ev P; case: ifP => //= _; split; first by rewrite trmx_mul.
by rewrite tr_diag_mx.
Qed.
End Terms.

(** ** Effective degrees of freedom *)
Section Edf.
Variable R : rcfType.
Variable qr : forall n m, 'M[R]_(n, m) -> economic R n m.
Variable eigh : forall k, 'M[R]_k -> 'rV[R]_k * 'M[R]_k.
Variable inv : forall k, 'M[R]_k -> 'M[R]_k.
Variable svd : forall k, 'M[R]_k -> 'M[R]_k * 'rV[R]_k * 'M[R]_k.
Variable cholP : forall k, 'M[R]_k -> factor R k.
Variable compute_Linv : forall k, 'M[R]_k -> 'M[R]_k.
Variable root_eps : R.
Hypothesis svdok : svd_ok svd.

Lemma svd_inverse k (A U VT : 'M[R]_k) sv : svd A = (U, sv, VT) -> A \in unitmx ->
  A *m (VT^T *m diag_mx (\row_i (1 / sv 0 i)) *m U^T) = 1%:M.
Proof.
move=> e u; have := svdok u; rewrite e => -[AE UU VV].
have UU' := mulmx1C UU.
have us : diag_mx sv \in unitmx.
  have -> : diag_mx sv = U^T *m A *m VT^T.
    by rewrite AE !mulmxA UU mul1mx -mulmxA VV mulmx1.
  by rewrite !unitmx_mul u !unitmx_tr; case: (mulmx1_unit UU) => _ ->; case: (mulmx1_unit VV) => -> _.
have nz i : sv 0 i != 0.
  by move: us; rewrite unitmxE det_diag unitfE => /prodf_neq0; apply.
rewrite {1}AE.
have -> : U *m diag_mx sv *m VT *m (VT^T *m diag_mx (\row_i (1 / sv 0 i)) *m U^T) =
  U *m (diag_mx sv *m (VT *m VT^T) *m diag_mx (\row_i (1 / sv 0 i))) *m U^T by rewrite !mulmxA.
rewrite VV mulmx1 mulmx_diag.
have -> : diag_mx (\row_j (sv 0 j * (\row_i (1 / sv 0 i)) 0 j)) = 1%:M.
  by apply/matrixP => i j; rewrite !mxE mul1r divff.
by rewrite mulmx1.
Qed.

Section Fit.
Variables n m : nat.
Variables s y : 'I_m.+1 -> 'rV[R]_n.
Variable rho : 'I_m.+1 -> R.
Variables (lo : linop R n) (S_emb H : 'M[R]_n).
Hypothesis cholok : chol_ok (@cholP n).
Hypothesis linvok : linv_ok (@compute_Linv n).
Hypothesis memE : lo_mem lo = Pairs s y rho.
Hypothesis corrs : lo_corrs lo != 0%N.
Hypothesis om : 0 < compute_omega s y (lo_sampled lo).
Hypothesis semiS : semi S_emb.
Hypothesis HE : getExplicitnH qr eigh inv root_eps lo true false = Some H.
Hypothesis u : H + S_emb \in unitmx.

Lemma implicit_value : exists V0 t,
  getImplicitV qr eigh inv svd cholP compute_Linv root_eps lo S_emb = Some (V0, Some t) /\
  V0 - tt1 t *m tt2 t *m tt3 t = invmx (H + S_emb).
Proof.
move: HE; rewrite /getExplicitnH memE => -[HE'].
rewrite /getImplicitV /omega_of memE (negbTE corrs).
have w0 := om; set w := compute_omega s y (lo_sampled lo) in w0 HE' *.
set f := cholP _; set V0 := _^T *m _.
set nt := hsr1 _ _ _ _ _ _ _ _ _ _ _ in HE' *.
case sE : (svd _) => [[U sv] VT]; do 2 eexists; split; first by reflexivity.
have V0E : (w%:M + S_emb) *m V0 = 1%:M.
  apply: mulmx1C; have [ok tot] := cholok.
  have fok : is_factor (w%:M + S_emb) f by apply: ok; apply: tot; apply: shifted_definite.
  by apply: unpivot_inverse => //; case: fok => _ low pos _; apply: linvok.
have e1 : H + S_emb = w%:M + S_emb + tt1 nt *m tt2 nt *m tt3 nt by rewrite -HE' addrAC.
have u' : w%:M + S_emb + tt1 nt *m tt2 nt *m tt3 nt \in unitmx by rewrite -e1.
have := woodbury V0E (svd_inverse sE (capacitance_unit V0E u')).
rewrite -e1 => e /=.
have e2 : tt2 nt *m tt3 nt *m V0 = tt2 nt *m (tt3 nt *m V0) by rewrite mulmxA.
rewrite e2.
set X := _ - _ in e *; by rewrite -[X]mul1mx -(mulVmx u) -mulmxA e mulmx1.
Qed.

Lemma trace_value V0 t p : in_place p -> V0 - tt1 t *m tt2 t *m tt3 t = invmx (H + S_emb) ->
  computetrVS3 V0 (Some t) p = Some (\tr (invmx (H + S_emb) *m pn_S p)).
Proof.
move=> ip e; rewrite /computetrVS3 -e; congr Some; rewrite /mxtrace big_filter big_enum_cond /=.
rewrite big_mkcond /=; apply: eq_bigr => c _; case: ifP => [_|/negbT out].
  rewrite mulmxBl [RHS]mxE [X in _ = _ + X]mxE; congr (_ - _).
    by rewrite !mxE; apply: eq_bigr => k _; rewrite !mxE.
  by rewrite -!row_mul !mxE; apply: eq_bigr => k _; rewrite !mxE.
by rewrite mxE big1 // => k _; rewrite ip // mulr0.
Qed.

Lemma edf_loop_value V0 t pens : List.Forall (@in_place R n) pens ->
  V0 - tt1 t *m tt2 t *m tt3 t = invmx (H + S_emb) -> forall total terms,
  edf_loop V0 (Some t) pens total terms =
  Some (total - \sum_(p <- pens) pn_lam p * \tr (invmx (H + S_emb) *m pn_S p),
        terms ++ [seq pn_lam p * \tr (invmx (H + S_emb) *m pn_S p) | p <- pens]).
Proof.
move=> ip e; elim: pens ip => [_ total terms|p pens ih ip total terms].
  by rewrite /= big_nil subr0 cats0.
inversion ip as [|x l ip1 ip2]; subst.
rewrite -[edf_loop _ _ _ _ _]/(match computetrVS3 V0 (Some t) p with
  | None => None
  | Some Bps => edf_loop V0 (Some t) pens (total - pn_lam p * Bps) (rcons terms (pn_lam p * Bps)) end).
rewrite (trace_value ip1 e) (ih ip2) big_cons opprD addrA /=.
by rewrite -cats1 -catA.
Qed.

Lemma edf_value pens : List.Forall (@in_place R n) pens -> S_emb = total_penalty pens ->
  calculate_edf qr eigh inv svd cholP compute_Linv root_eps lo S_emb pens =
  Some (\tr (invmx (H + S_emb) *m H), [seq pn_lam p * \tr (invmx (H + S_emb) *m pn_S p) | p <- pens]).
Proof.
move=> ip SE; have [V0 [t [iE vE]]] := implicit_value.
rewrite /calculate_edf iE (edf_loop_value ip vE) /=; congr (Some (_, _)).
have -> : \tr (invmx (H + S_emb) *m H) = \tr (invmx (H + S_emb) *m (H + S_emb))
   - \tr (invmx (H + S_emb) *m S_emb).
  by rewrite mulmxDr raddfD /= addrK.
rewrite mulVmx // mxtrace1; congr (_ - _).
set V := invmx (H + S_emb); rewrite SE /total_penalty mulmx_sumr raddf_sum /=.
by apply: eq_bigr => p _; rewrite -scalemxAr linearZ.
Qed.
End Fit.
End Edf.
