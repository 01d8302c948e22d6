(** Log-determinants from Cholesky factors, and their derivatives. *)

From Coq Require Import Reals Lra.
From Coquelicot Require Import Coquelicot.
From mathcomp Require Import all_ssreflect all_algebra perm.
From Verif Require Import RealField RealMat RealDet RemlModel RemlSpec.
Import GRing.Theory.
Set Implicit Arguments.
Unset Strict Implicit.
Unset Printing Implicit Defensive.
Local Open Scope ring_scope.

Lemma gt0_neq (x : R) : Rlt 0 x -> x != 0.
Proof. by move=> p; apply/eqP => e; move: p; rewrite e; apply: Rlt_irrefl. Qed.

Lemma inv_gt0 (x : R) : Rlt 0 x -> Rlt 0 x^-1.
Proof.
move=> p; rewrite -RinvE; last by apply/eqP/gt0_neq.
exact: Rinv_0_lt_compat.
Qed.

Section Pd.
Variable m : nat.
Implicit Types A B T : 'M[R]_m.

Lemma quad_congr k A (T : 'M[R]_(m, k)) x : quad (T^T *m A *m T) x = quad A (T *m x).
Proof. by rewrite /quad trmx_mul !mulmxA. Qed.

Lemma pd_congr A T : pd A -> T \in unitmx -> pd (T^T *m A *m T).
Proof.
move=> [s p] u; split; first by rewrite !trmx_mul trmxK s mulmxA.
move=> x x0; rewrite quad_congr; apply: p; apply: contra x0 => /eqP e.
by rewrite -[x]mul1mx -(mulVmx u) -mulmxA e mulmx0.
Qed.

Lemma pd_scale A (c : R) : Rlt 0 c -> pd A -> pd (c *: A).
Proof.
move=> c0 [s p]; split; first by rewrite linearZ /= s.
move=> x x0; rewrite quadZ; apply: Rmult_lt_0_compat => //; exact: p.
Qed.

Lemma pd_det A : pd A -> Rlt 0 (\det A).
Proof.
move=> p; have [L f] := cholesky p; rewrite (factor_det f); case: f => _ [d _].
apply: Rmult_lt_0_compat; exact: prod_gt0.
Qed.

Lemma pd_unit A : pd A -> A \in unitmx.
Proof. by move=> /pd_det p; rewrite unitmxE unitfE gt0_neq. Qed.

Lemma Sdiag_gt0 A i : pd A -> Rlt 0 (Sdiag A i).
Proof.
move=> p; have d := pd_diag i p; rewrite /Sdiag Rabs_pos_eq; last exact: Rlt_le.
exact: sqrt_lt_R0.
Qed.

Lemma det_scaled A : pd A -> \det A = \det (scaled A) * ((\prod_i Sdiag A i) * (\prod_i Sdiag A i)).
Proof.
move=> p; rewrite /scaled !det_mulmx det_diag.
have e : (\prod_i Sdiag A i) * \prod_i (\row_i (Sdiag A i)^-1) 0 i = 1.
  rewrite -big_split /=; apply: big1 => i _; rewrite mxE mulfV //; exact/gt0_neq/Sdiag_gt0.
set q := \prod_i (\row_i _) 0 i in e *; set r := \prod_i Sdiag A i in e *.
have -> : q * \det A * q * (r * r) = \det A * (r * q) * (r * q) by eqR; ring.
by rewrite e !mulr1.
Qed.

Lemma pd_scaled A : pd A -> pd (scaled A).
Proof.
move=> p; rewrite /scaled; set T := diag_mx _.
have -> : T *m A *m T = T^T *m A *m T by rewrite /T tr_diag_mx.
apply: pd_congr => //; rewrite unitmxE unitfE det_diag.
apply/gt0_neq/prod_gt0 => i; rewrite mxE; exact/inv_gt0/Sdiag_gt0.
Qed.

Lemma ln_det_factor A L : pd A -> factor (scaled A) L ->
  2%:R * (\sum_i ln (L i i * Sdiag A i)) = ln (\det A).
Proof.
move=> p f; rewrite (det_scaled p) (factor_det f); case: f => _ [d _].
have q i : Rlt 0 (L i i * Sdiag A i) by apply: Rmult_lt_0_compat (d i) (Sdiag_gt0 i p).
rewrite -(ln_prod (index_enum _) q) mulr_natl mulr2n mulrACA -big_split /=.
set z := \prod_i _; have z0 : Rlt 0 z by apply: prod_gt0.
by rewrite [RHS](ln_mult z z z0 z0).
Qed.
End Pd.

Lemma det_perm2 m (A : 'M[R]_m) (s : 'S_m) : \det (row_perm s (col_perm s A)) = \det A.
Proof.
rewrite row_permE col_permE !det_mulmx !det_perm odd_permV mulrC -mulrA -signr_addb addbb expr0.
by rewrite mulr1.
Qed.

Lemma ln_det_factor_perm m (A L : 'M[R]_m) s : pd A -> factor (row_perm s (col_perm s (scaled A))) L ->
  2%:R * (\sum_i ln (Sdiag A i * L i i)) = ln (\det A).
Proof.
move=> p f; rewrite (det_scaled p) -(det_perm2 (scaled A) s) (factor_det f); case: f => _ [d _].
have q i : Rlt 0 (Sdiag A i * L i i) by apply: Rmult_lt_0_compat (Sdiag_gt0 i p) (d i).
rewrite -(ln_prod (index_enum _) q) mulr_natl mulr2n mulrC mulrACA -big_split /=.
set z := \prod_i _; have z0 : Rlt 0 z by apply: prod_gt0.
by rewrite [RHS](ln_mult z z z0 z0).
Qed.

Section Group.
Variables (g : group) (wf : well_formed g).

(** The penalty in the coordinates of the basis. *)
Definition Sbar (l : nat -> R) : 'M[R]_(rank g) := \sum_(j < npen g) l j *: SJbar g j.

Lemma SbarE l : Sbar l = (Ur g)^T *m S_term g l *m Ur g.
Proof.
rewrite /Sbar /S_term mulmx_sumr mulmx_suml; apply: eq_bigr => j _.
by rewrite -scalemxAr -scalemxAl.
Qed.

Lemma SJ_bar j : (j < npen g)%N -> SJ g j = Ur g *m SJbar g j *m (Ur g)^T.
Proof.
move=> h; case: wf => s _ u _ _; rewrite /SJbar !mulmxA u //.
by have := congr1 trmx (u j h); rewrite !trmx_mul trmxK s // mulmxA.
Qed.

Lemma rank_bar j : (j < npen g)%N -> \rank (SJbar g j) = \rank (SJ g j).
Proof.
move=> h; apply/eqP; rewrite eqn_leq; apply/andP; split.
  by rewrite /SJbar; apply: leq_trans (mxrankM_maxl _ _) _; apply: mxrankM_maxr.
by rewrite {1}SJ_bar //; apply: leq_trans (mxrankM_maxl _ _) _; apply: mxrankM_maxr.
Qed.

Lemma sym_bar j : (j < npen g)%N -> (SJbar g j)^T = SJbar g j.
Proof. by case: wf => s _ _ _ _ h; rewrite /SJbar !trmx_mul trmxK s // mulmxA. Qed.

Lemma am_lt l : (am_norm g l < npen g)%N.
Proof.
case: wf => _ _ _ _ p; rewrite /am_norm.
have : forall s b, (b < npen g)%N -> all (fun j => j < npen g)%N s ->
  (foldl (fun best j => if Rlt_dec (norm_group g l best) (norm_group g l j) then j else best) b s < npen g)%N.
  elim=> [|j s ih] b hb //= /andP[hj hs]; apply: ih => //; by case: Rlt_dec.
apply=> //; apply/allP => j; by rewrite mem_iota.
Qed.

Lemma S_rep_det l (c : R) : no_dominant g -> \det (c *: S_rep g l) = \det (c *: Sbar l).
Proof.
move=> nd; rewrite /S_rep; case: eqP => e1.
  by rewrite /Sbar e1 big_ord1.
case: eqP => e2.
  case: nd => [/eqP //|nd]; have := nd _ (am_lt l); by rewrite -rank_bar ?am_lt // e2 ltnn.
case: wf => _ _ _ q _; have := q l => /(congr1 determinant); rewrite det1 det_mulmx det_tr => dq.
rewrite !detZ !det_mulmx det_tr mulrAC; congr (_ * _).
by rewrite dq mul1r.
Qed.

Lemma S_rep_pd l : no_dominant g -> pd (Sbar l) -> pd (S_rep g l).
Proof.
move=> nd p; rewrite /S_rep; case: eqP => e1.
  by move: p; rewrite /Sbar e1 big_ord1.
case: eqP => e2.
  case: nd => [/eqP //|nd]; have := nd _ (am_lt l); by rewrite -rank_bar ?am_lt // e2 ltnn.
apply: pd_congr => //; case: wf => _ _ _ q _; have := q l => h.
by have [] := mulmx1_unit h.
Qed.

Variables (chol : forall m, 'M[R]_m -> option 'M[R]_m) (qr_r : forall m, 'M[R]_m -> 'M[R]_m).
Hypothesis ec : exact_cholesky chol.

Lemma ldetSI_value (scale : R) l : Rlt 0 scale -> no_dominant g -> pd (Sbar l) ->
  ldetSI chol qr_r scale g l = ln (\det (scale^-1 *: Sbar l)) * (reps g)%:R.
Proof.
move=> s0 nd p; have p1 := pd_scale (inv_gt0 s0) (S_rep_pd nd p).
rewrite /ldetSI; have [snd cmp] := ec (scaled (scale^-1 *: S_rep g l)).
case e : (chol _) => [L|]; last by case: (cmp (pd_scaled p1)).
by rewrite (ln_det_factor p1 (snd _ e)) S_rep_det.
Qed.
End Group.
