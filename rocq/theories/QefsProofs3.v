From mathcomp Require Import all_ssreflect all_algebra.
From Verif Require Import MatModel MatSpec MatProofs MatProofs2 MatProofs3 MatProofs4 MatProofs5 QefsModel QefsSpec
  QefsProofs QefsProofs2.
Set Implicit Arguments.
Unset Strict Implicit.
Unset Printing Implicit Defensive.
Import Order.TTheory GRing.Theory Num.Theory.
Local Open Scope ring_scope.

(** ** Pseudo-inverses *)
Section Pinv.
Variable R : rcfType.
Variable n : nat.
Implicit Types (A X Y U : 'M[R]_n) (x : 'cV[R]_n).

Lemma pinv_unique A X Y : pseudo_inverse A X -> pseudo_inverse A Y -> X = Y.
Proof.
move=> [x1 x2 x3 x4] [y1 y2 y3 y4].
have AX : A *m X = A *m Y.
  by rewrite -[LHS]x3 -{1}y1 -mulmxA trmx_mul x3 y3 !mulmxA x1.
have XA : X *m A = Y *m A.
  rewrite -[LHS]x4 -{1}y1.
  have -> : X *m (A *m Y *m A) = X *m A *m (Y *m A) by rewrite !mulmxA.
  by rewrite trmx_mul x4 y4 -!mulmxA (mulmxA A) x1.
by rewrite -x2 -mulmxA AX mulmxA XA.
Qed.

(** The diagonal of the pseudo-inverse of a diagonal matrix. *)
Definition dinv k (d : 'rV[R]_k) : 'rV[R]_k := \row_i (if d 0 i != 0 then 1 / d 0 i else 0).

Lemma spectral_mul U (d e : 'rV[R]_n) : U^T *m U = 1%:M ->
  U *m diag_mx d *m U^T *m (U *m diag_mx e *m U^T) = U *m diag_mx (\row_i (d 0 i * e 0 i)) *m U^T.
Proof.
move=> UU; rewrite !mulmxA -(mulmxA _ U^T U) UU mulmx1 -(mulmxA U) mulmx_diag.
by [].
Qed.

Lemma spectral_pinv U (d : 'rV[R]_n) : U^T *m U = 1%:M ->
  pseudo_inverse (U *m diag_mx d *m U^T) (U *m diag_mx (dinv d) *m U^T).
Proof.
move=> UU.
have sym (e : 'rV[R]_n) : (U *m diag_mx e *m U^T)^T = U *m diag_mx e *m U^T.
  by rewrite !trmx_mul trmxK tr_diag_mx mulmxA.
split; rewrite ?spectral_mul ?sym //; congr (_ *m diag_mx _ *m _); apply/rowP => i; rewrite !mxE.
  by case: eqP => [->|/eqP h] /=; rewrite ?mulr0 // mul1r mulfV // mul1r.
by case: eqP => [->|/eqP h] /=; rewrite ?mulr0 ?mul0r // mul1r mulVf // mul1r.
Qed.

Lemma spectral_sym U (d : 'rV[R]_n) : (U *m diag_mx d *m U^T)^T = U *m diag_mx d *m U^T.
Proof. by rewrite !trmx_mul trmxK tr_diag_mx mulmxA. Qed.

Lemma spectral_quad U (d : 'rV[R]_n) x : quad (U *m diag_mx d *m U^T) x = \sum_i d 0 i * (U^T *m x) i 0 ^+ 2.
Proof. by rewrite q_turn quad_diag. Qed.

Lemma turned_norm U x : U^T *m U = 1%:M -> \sum_i (U^T *m x) i 0 ^+ 2 = (x^T *m x) 0 0.
Proof.
move=> /mulmx1C UU; rewrite -quad_sq trmx_mul trmxK !mulmxA -(mulmxA x^T) UU mulmx1.
by [].
Qed.

Lemma spectral_ge U (d : 'rV[R]_n) lo x : U^T *m U = 1%:M -> (forall i, lo <= d 0 i) ->
  lo * (x^T *m x) 0 0 <= quad (U *m diag_mx d *m U^T) x.
Proof.
move=> UU h; rewrite spectral_quad -(turned_norm x UU) mulr_sumr; apply: ler_sum => i _.
by rewrite ler_wpmul2r // sqr_ge0.
Qed.

Lemma spectral_le U (d : 'rV[R]_n) hi x : U^T *m U = 1%:M -> (forall i, d 0 i <= hi) ->
  quad (U *m diag_mx d *m U^T) x <= hi * (x^T *m x) 0 0.
Proof.
move=> UU h; rewrite spectral_quad -(turned_norm x UU) mulr_sumr; apply: ler_sum => i _.
by rewrite ler_wpmul2r // sqr_ge0.
Qed.

(** An eigenvalue is the value of the form at its vector. *)
Lemma eigenvalue_quad U (d : 'rV[R]_n) i : U^T *m U = 1%:M ->
  quad (U *m diag_mx d *m U^T) (col i U) = d 0 i /\ ((col i U)^T *m col i U) 0 0 = 1.
Proof.
move=> UU; have e : U^T *m col i U = delta_mx i 0 by rewrite colE mulmxA UU mul1mx.
split.
  rewrite spectral_quad e (bigD1 i) //= mxE !eqxx expr1n mulr1 big1 ?addr0 // => j /negbTE ji.
  by rewrite mxE ji expr0n mulr0.
by rewrite -(turned_norm _ UU) e (bigD1 i) //= mxE !eqxx expr1n big1 ?addr0 // => j /negbTE ji;
   rewrite mxE ji expr0n.
Qed.

Lemma max_abs_ge k (e : 'rV[R]_k) i : `|e 0 i| <= max_abs e.
Proof.
rewrite /max_abs; have : i \in enum 'I_k by rewrite mem_enum.
elim: (enum _) => //= j l ih; rewrite inE le_maxr => /orP[/eqP ->|/ih ->]; first by rewrite lexx.
by rewrite orbT.
Qed.

Lemma max_abs_ge0 k (e : 'rV[R]_k) : 0 <= max_abs e.
Proof. by rewrite /max_abs; elim: (enum _) => //= j l ih; rewrite le_maxr ih orbT. Qed.

Lemma max_abs_le k (e : 'rV[R]_k) (b : R) : 0 <= b -> (forall i, `|e 0 i| <= b) -> max_abs e <= b.
Proof. by move=> b0 h; rewrite /max_abs; elim: (enum _) => //= j l ih; rewrite le_maxl h ih. Qed.

Lemma max_abs_eq0 k (e : 'rV[R]_k) : max_abs e = 0 -> e = 0.
Proof. by move=> z; apply/rowP => i; rewrite mxE; apply/eqP; rewrite -normr_le0 -z max_abs_ge. Qed.
End Pinv.

(** ** makepdd_fd2llk *)
Section Makepdd.
Variable R : rcfType.
Variable eigh : forall k, 'M[R]_k -> 'rV[R]_k * 'M[R]_k.
Variable root_eps : R.
Hypothesis eps0 : 0 < root_eps.
Hypothesis eps1 : root_eps <= 1.
Variables nF nA : nat.
Hypothesis eighok : eigh_ok eigh.
Variable tcols : 'I_(nF + nA) -> 'I_(nF + nA).
Hypothesis inj : injective tcols.
Notation P1 := (P1 R tcols).
Variables (J : 'M[R]_(nF + nA)) (damp : R) (PD : bool).
Hypothesis Js : J^T = J.
Let J' := P1^T *m J *m P1.
Hypothesis nonzero : PD -> ulsubmx J' != 0.

Lemma J's : J'^T = J'.
Proof. by rewrite /J' !trmx_mul trmxK Js mulmxA. Qed.

Lemma ul_sym : (ulsubmx J')^T = ulsubmx J'.
Proof. by rewrite trmx_ulsub J's. Qed.

(** What the correction returns: the blocks, their order and definiteness, the bound used later. *)
Lemma makepdd_ok : exists N HBB IHBB HBb,
  makepdd eigh root_eps tcols J damp true PD = (N, HBB, IHBB, HBb) /\
  [/\ P1^T *m N *m P1 = block_mx HBB HBb HBb^T (drsubmx J'), semi HBB, pseudo_inverse HBB IHBB &
      HBB *m IHBB *m HBb = HBb] /\
  [/\ PD -> definite HBB, PD -> HBb = damp *: ursubmx J' &
      forall U (e : 'rV[R]_nF), PD -> HBB = U *m diag_mx e *m U^T -> U^T *m U = 1%:M ->
        forall i, root_eps * max_abs e <= e 0 i].
Proof.
rewrite /makepdd -/J' andbT.
have [JE UU] := eighok ul_sym.
case eE : (eigh (ulsubmx J')) JE UU => [eig U] /= JE UU.
have PP := perm_tr_mul R inj; rewrite -/P1 in PP.
have undo (B : 'M[R]_(nF + nA)) : P1^T *m (P1 *m B *m P1^T) *m P1 = B.
  by rewrite !mulmxA PP mul1mx -mulmxA PP mulmx1.
case: PD nonzero => [nz|_] /=.
  have mx0 : 0 < max_abs eig.
    rewrite lt0r max_abs_ge0 andbT; apply/eqP => /max_abs_eq0 z; case/eqP: (nz isT).
    by rewrite JE z raddf0 mulmx0 mul0mx.
  set th := root_eps * max_abs eig; have th0 : 0 < th by rewrite mulr_gt0.
  set e2 := \row_i (if _ <= th then _ else _).
  have e2th i : th <= e2 0 i by rewrite mxE; case: (leP (eig 0 i) th) => // /ltW.
  have e2pos i : 0 < e2 0 i by apply: lt_le_trans th0 (e2th i).
  have e2hi i : e2 0 i <= max_abs eig.
    rewrite mxE; case: (leP (eig 0 i) th) => _; last by apply: le_trans (max_abs_ge eig i); exact: ler_norm.
    by rewrite /th -[X in _ <= X]mul1r ler_wpmul2r // ltW.
  have ireE : \row_i (1 / e2 0 i) = dinv e2.
    by apply/rowP => i; rewrite [LHS]mxE [RHS]mxE gt_eqF.
  rewrite ireE.
  set HBB := U *m diag_mx e2 *m U^T; set IHBB := U *m diag_mx (dinv e2) *m U^T.
  have pin : pseudo_inverse HBB IHBB by exact: spectral_pinv.
  have def : definite HBB.
    split; first exact: spectral_sym.
    move=> x x0; apply: lt_le_trans (spectral_ge x UU e2th).
    by rewrite mulr_gt0 // sq_gt0.
  have u := definite_unit def.
  have HI : HBB *m IHBB = 1%:M.
    by case: pin => a _ _ _; rewrite -[LHS]mulmx1 -(mulmxV u) mulmxA a.
  do 4 eexists; split; first by reflexivity.
  split.
    split=> //; last by rewrite HI mul1mx.
    by case: def => ds dp; split=> // x; case: (eqVneq x 0) => [->|/dp/ltW //]; rewrite /quad mulmx0 mxE.
  split=> //.
  move=> V e _ HE VV i.
  have lo j : th <= e 0 j.
    have [q1 q2] := eigenvalue_quad e j VV.
    by have := spectral_ge (col j V) UU e2th; rewrite -/HBB HE q1 q2 mulr1.
  have hi j : e 0 j <= max_abs eig.
    have [q1 q2] := eigenvalue_quad e j VV.
    by have := spectral_le (col j V) UU e2hi; rewrite -/HBB HE q1 q2 mulr1.
  apply: le_trans (lo i); rewrite /th; apply: ler_wpmul2l; [exact: ltW|]; apply: max_abs_le => [|j]; first exact: ltW.
  by rewrite ger0_norm //; apply: le_trans (lo j); exact: ltW.
set e2 := \row_i (if _ <= 0 then 0 else _).
have e2pos i : 0 <= e2 0 i by rewrite mxE; case: (leP (eig 0 i) 0) => // /ltW.
have -> : \row_i (if e2 0 i != 0 then 1 / e2 0 i else 0) = dinv e2 by [].
set HBB := U *m diag_mx e2 *m U^T; set IHBB := U *m diag_mx (dinv e2) *m U^T.
have pin : pseudo_inverse HBB IHBB by exact: spectral_pinv.
do 4 eexists; split; first by reflexivity.
split; last by split.
split=> //.
- split; first exact: spectral_sym.
  by move=> x; rewrite spectral_quad sumr_ge0 // => i _; rewrite mulr_ge0 // sqr_ge0.
- case: pin => a _ _ _.
  by rewrite (mulmxA (HBB *m IHBB) (HBB *m IHBB)) (mulmxA (HBB *m IHBB) HBB) a.
Qed.
End Makepdd.
