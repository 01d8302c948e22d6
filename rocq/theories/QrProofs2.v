(** Proofs for QrProps, continued: the update itself. *)
From mathcomp Require Import all_ssreflect all_algebra.
From Verif Require Import MatModel MatSpec MatProofs QrModel QrSpec QrProofs.
Set Implicit Arguments.
Unset Strict Implicit.
Unset Printing Implicit Defensive.
Import Order.TTheory GRing.Theory Num.Theory.
Local Open Scope ring_scope.

Section Qr.
Variable R : rcfType.
Variables n r d : nat.
Local Notation p := (r + d)%N.
Variable qr : 'M[R]_(n + p, p) -> qrfac R n r d.
Variable usolve : 'M[R]_r -> 'cV[R]_r -> 'cV[R]_r.
Variable linv : 'M[R]_r -> 'M[R]_r.
Variables (y : 'cV[R]_n) (X : 'M[R]_(n, p)) (S S_root : 'M[R]_p).
Local Notation A := (col_mx X S_root^T).
Local Notation f := (qr A).
Hypotheses (uok : usolve_ok usolve) (lok : linv_nz linv) (fok : is_qr A f).
Hypothesis Sok : forall i j, \sum_k S_root i k * S_root j k = S i j.
Local Notation H := (X^T *m X + S).

Lemma i1 : injective (q_P1 f). Proof. by case: fok. Qed.
Lemma i2 : injective (q_P2 f). Proof. by case: fok. Qed.
Local Notation sg := (sg (q_P1 f) (q_P2 f)).
Local Notation tau := (tau i1 i2).
Local Notation T := (T R (q_P1 f) (q_P2 f)).

Lemma mulT m (M : 'M[R]_(m, p)) i a : (M *m T) i a = M i (sg (lshift d a)).
Proof.
rewrite mxE (bigD1 (sg (lshift d a))) //= big1 => [|k ne]; first by rewrite mxE eqxx mulr1 addr0.
by rewrite mxE (negbTE ne) mulr0.
Qed.

Lemma decompose : exists B : 'M[R]_(r, p), A = q_Q f *m B /\ B *m T = q_R f.
Proof.
case: fok => _ _ _ _ [R12 e].
exists (\matrix_(k, j) row_mx (q_R f) R12 k (tau j)); split.
  apply/matrixP => i j; rewrite -{1}(sg_tau i1 i2 j) e [in RHS]mxE.
  by apply: eq_bigr => k _; rewrite [in RHS]mxE.
apply/matrixP => k a; rewrite mulT mxE tau_sg.
by rewrite row_mxEl.
Qed.

Lemma SE : S = S_root *m S_root^T.
Proof. by apply/matrixP => i j; rewrite -Sok mxE; apply: eq_bigr => k _; rewrite mxE. Qed.

Lemma S_sym : S^T = S. Proof. by rewrite SE trmx_mul trmxK. Qed.

Lemma HA : H = A^T *m A.
Proof. by rewrite tr_col_mx mul_row_col trmxK SE. Qed.

Lemma R_unit : q_R f \in unitmx.
Proof.
case: fok => _ _ _ [low nz] _; rewrite -unitmx_tr; apply: lower_unit => // i.
by rewrite mxE.
Qed.

Lemma HB B : A = q_Q f *m B -> H = B^T *m B.
Proof.
case: fok => _ _ QQ _ _ e; rewrite HA e trmx_mul mulmxA.
by rewrite -(mulmxA B^T) QQ mulmx1.
Qed.

Definition chead : 'cV[R]_r := usolve (q_R f) ((q_Q f)^T *m col_mx y (0 : 'cV[R]_p)).

Lemma chead_eq : q_R f *m chead = (q_Q f)^T *m col_mx y 0.
Proof. by case: fok => _ _ _ [low nz] _; exact: uok. Qed.

Lemma normal : H *m (T *m chead) = X^T *m y.
Proof.
have [B [e bt]] := decompose.
rewrite (HB e) mulmxA -(mulmxA B^T) bt -mulmxA chead_eq mulmxA -trmx_mul -e.
by rewrite tr_col_mx mul_row_col mulmx0 addr0.
Qed.

Lemma H_pos (e : 'cV[R]_p) : 0 <= dotp e (H *m e).
Proof. by have [B [eB _]] := decompose; rewrite (HB eB) -mulmxA -dotM dot_ge0. Qed.

Lemma solution_qr : exists s, update_coef_qr qr usolve linv y X S_root = Some s /\
  [/\ splits s d, best y X S s, factor_of X S s & inverse_of X S s].
Proof.
rewrite /update_coef_qr /solve_coef_pqr -/chead.
set P := (_^T *m _^T); set c' := times_perm _ _.
set keep := [seq i <- _ | c' i != None]; set drop := [seq i <- _ | c' i == None].
have sz : size (rows_stored P keep) == r.
  by rewrite (rows_storedE i1 i2 chead) size_map (size_keep i1 i2 chead) eqxx.
rewrite sz.
set sol := Solution _ _ _ _ _; exists sol; split; first by [].
have ce : (\col_i odflt 0 (c' i)) = T *m chead by exact: (coefE i1 i2).
pose P' := eigen_perm_of R r (rows_stored P keep).
pose D := T *m T^T.
have DMD M i j : (D *m M *m D) i j = if (i \in keep) && (j \in keep) then M i j else 0.
  rewrite mxE (bigD1 j) //= big1 => [|k ne]; last first.
    by rewrite [D k j](TT i1 i2 chead) (negbTE ne) mulr0.
  rewrite [D j j](TT i1 i2 chead) eqxx mxE (bigD1 i) //= big1 => [|k ne]; last first.
    by rewrite [D i k](TT i1 i2 chead) eq_sym (negbTE ne) mul0r.
  rewrite [D i i](TT i1 i2 chead) eqxx -/keep /= !addr0.
  by case: (i \in keep); case: (j \in keep); rewrite /= ?mul1r ?mulr1 ?mul0r ?mulr0.
have embE L : embed keep L = T *m (P' *m L *m P'^T) *m T^T.
  by rewrite (embedE i1 i2 chead) (KE i1 i2 chead) trmx_mul !mulmxA.
have PP : P' *m P'^T = 1%:M := P'_mul i1 i2 chead.
have PP' : P'^T *m P' = 1%:M := P'_tr i1 i2 chead.
have tT : T^T *m T = 1%:M := T_tr R i1 i2.
have embL : embed keep (P'^T *m (q_R f)^T) = T *m ((q_R f)^T *m P'^T) *m T^T.
  by rewrite embE; congr (_ *m _ *m _); rewrite (mulmxA P') PP mul1mx.
have embI : embed keep (linv (q_R f)^T *m P') = T *m (P' *m linv (q_R f)^T) *m T^T.
  by rewrite embE; congr (_ *m _ *m _); rewrite mulmxA -[_ *m P' *m _]mulmxA PP mulmx1.
have LL : embed keep (P'^T *m (q_R f)^T) *m (embed keep (P'^T *m (q_R f)^T))^T = D *m H *m D.
  have [B [eB bt]] := decompose.
  have -> : D *m H *m D = T *m ((q_R f)^T *m q_R f) *m T^T.
    by rewrite (HB eB) -bt trmx_mul /D !mulmxA.
  rewrite embL !trmx_mul !trmxK -!mulmxA; congr (_ *m (_ *m _)).
  by rewrite (mulmxA T^T) tT mul1mx (mulmxA P'^T) PP' mul1mx.
have VV : (embed keep (linv (q_R f)^T *m P'))^T *m embed keep (linv (q_R f)^T *m P')
    *m (D *m H *m D) = D.
  have [B [eB bt]] := decompose.
  have -> : D *m H *m D = T *m ((q_R f)^T *m q_R f) *m T^T.
    by rewrite (HB eB) -bt trmx_mul /D !mulmxA.
  have W : (q_R f)^T *m linv (q_R f)^T = 1%:M.
    by case: fok => _ _ _ [low nz] _; apply: lok => // i; rewrite mxE.
  have W' := mulmx1C W.
  rewrite embI !trmx_mul !trmxK /D -!mulmxA; congr (_ *m _).
  rewrite (mulmxA T^T) tT mul1mx (mulmxA T^T T) tT mul1mx.
  rewrite (mulmxA P'^T) PP' mul1mx (mulmxA (linv _)) W' mul1mx mulmxA.
  by rewrite -[X in X *m _]trmxK trmx_mul trmxK W trmx1 mul1mx.
have kd i : (i \in keep) = (i \notin drop).
  by rewrite (in_keep i1 i2 chead) (in_drop i1 i2 chead) -ltnNge.
split.
- split=> /=; [exact: (filter_uniq _ (enum_uniq _))|exact: (filter_uniq _ (enum_uniq _))| |exact: kd].
  exact: (size_drop i1 i2 chead).
- split=> /=.
  + by move=> b; rewrite ce; apply: best_of; [exact: S_sym|exact: normal|exact: H_pos].
  + by move=> i; rewrite mem_filter => /andP[/eqP e _]; rewrite mxE e.
  + move=> b bz bmin; rewrite ce.
    have := gap_zero S_sym normal bmin.
    have [B [eB bt]] := decompose.
    rewrite (HB eB) -mulmxA -dotM => /dot_le0.
    have bE : b = T *m (T^T *m b).
      apply/colP => i; rewrite mulmxA mxE (bigD1 i) //= big1 => [|k ne]; last first.
        by rewrite (TT i1 i2 chead) eq_sym (negbTE ne) mul0r.
      rewrite (TT i1 i2 chead) eqxx /= addr0 -/keep kd; case: (boolP (i \in drop)) => /= [/bz ->|_].
        by rewrite mulr0.
      by rewrite mul1r.
    move: (T^T *m b) bE => q ->.
    rewrite mulmxBr !mulmxA bt => /eqP; rewrite subr_eq0 => /eqP /(can_inj (mulKmx R_unit)) -> //.
- move=> i j; rewrite crossE -(DMD _ i j) -LL mxE.
  by apply: eq_bigr => k _; rewrite [(embed _ _)^T _ _]mxE.
- move=> i j ik jk.
  transitivity (((s_Linv sol)^T *m s_Linv sol *m (D *m H *m D)) i j); last first.
    by rewrite VV (TT i1 i2 chead) -/keep jk andbT.
  rewrite mxE big_filter /= enumT.
  rewrite [RHS](bigID (fun l => l \in keep)) /= [X in _ = _ + X]big1 ?addr0 => [|l nl]; last first.
    by rewrite (DMD _ l j) (negbTE nl) mulr0.
  apply: eq_big => [l|l lk]; first by rewrite mem_filter mem_enum andbT.
  rewrite (DMD _ l j) mem_filter lk mem_enum jk /= -crossE; congr (_ * _).
  by rewrite mxE; apply: eq_bigr => k _; rewrite [(embed _ _)^T _ _]mxE.
Qed.
End Qr.
