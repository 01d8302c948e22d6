(** Positive definite real matrices, their Cholesky factors and determinants. *)

From Coq Require Import Reals Lra.
From mathcomp Require Import all_ssreflect all_algebra.
From Verif Require Import RealField.
Import GRing.Theory.
Set Implicit Arguments.
Unset Strict Implicit.
Unset Printing Implicit Defensive.
Local Open Scope ring_scope.

(** Both libraries use the key R for their notations; here K is the key of mathcomp's, and the arguments of
    the order and of the functions on the reals are read with them. *)
Delimit Scope ring_scope with K.
Bind Scope ring_scope with R.
Arguments Rle (_ _)%K.
Arguments Rlt (_ _)%K.
Arguments Rabs _%K.
Arguments ln _%K.
Arguments sqrt _%K.

(** mathcomp's operations on R are those of the standard library. *)
Lemma RplusE (x y : R) : Rplus x y = x + y. Proof. by []. Qed.
Lemma RmultE (x y : R) : Rmult x y = x * y. Proof. by []. Qed.
Lemma RoppE (x : R) : Ropp x = - x. Proof. by []. Qed.
Lemma RminusE (x y : R) : Rminus x y = x - y. Proof. by []. Qed.
Lemma RinvE (x : R) : x <> 0 -> Rinv x = x^-1.
Proof. by move=> h; rewrite /GRing.inv /= Rinvx_inv. Qed.

(** To state a goal over the reals with the operations of the standard library. *)
Ltac toR :=
  repeat match goal with
  | |- context [@GRing.add ?T ?x ?y] => change (@GRing.add T x y) with (Rplus x y)
  | |- context [@GRing.mul ?T ?x ?y] => change (@GRing.mul T x y) with (Rmult x y)
  | |- context [@GRing.opp ?T ?x] => change (@GRing.opp T x) with (Ropp x)
  | |- context [GRing.zero R_zmodType] => change (GRing.zero R_zmodType) with (IZR 0)
  | |- context [GRing.one R_ringType] => change (GRing.one R_ringType) with (IZR 1)
  | H : context [@GRing.add ?T ?x ?y] |- _ => change (@GRing.add T x y) with (Rplus x y) in H
  | H : context [@GRing.mul ?T ?x ?y] |- _ => change (@GRing.mul T x y) with (Rmult x y) in H
  | H : context [@GRing.opp ?T ?x] |- _ => change (@GRing.opp T x) with (Ropp x) in H
  | H : context [GRing.zero R_zmodType] |- _ => change (GRing.zero R_zmodType) with (IZR 0) in H
  | H : context [GRing.one R_ringType] |- _ => change (GRing.one R_ringType) with (IZR 1) in H
  end.
Ltac eqR := toR; match goal with |- @eq _ ?x ?y => change (@eq R x y) end.
Ltac Lra := toR; lra.

Lemma sum_ge0 (I : Type) (s : seq I) (F : I -> R) :
  (forall i, Rle 0 (F i)) -> Rle 0 (\sum_(i <- s) F i).
Proof.
move=> h; elim: s => [|i s ih]; first by rewrite big_nil; apply: Rle_refl.
rewrite big_cons; have := h i; Lra.
Qed.

Lemma sum_le (I : Type) (s : seq I) (F G : I -> R) :
  (forall i, Rle (F i) (G i)) -> Rle (\sum_(i <- s) F i) (\sum_(i <- s) G i).
Proof.
move=> h; elim: s => [|i s ih]; first by rewrite !big_nil; apply: Rle_refl.
rewrite !big_cons; have := h i; Lra.
Qed.

Lemma sum_gt0 (I : eqType) (s : seq I) (F : I -> R) i :
  (forall i, Rle 0 (F i)) -> i \in s -> Rlt 0 (F i) -> Rlt 0 (\sum_(i <- s) F i).
Proof.
move=> h; elim: s => // a s ih; rewrite inE => /orP[/eqP e|m] p; rewrite big_cons.
  have := sum_ge0 s h; rewrite -e; Lra.
have := ih m p; have := h a; Lra.
Qed.

Lemma sum_abs (I : Type) (s : seq I) (F : I -> R) : Rle (Rabs (\sum_(i <- s) F i)) (\sum_(i <- s) Rabs (F i)).
Proof.
elim: s => [|i s ih]; first by rewrite !big_nil Rabs_R0; apply: Rle_refl.
rewrite !big_cons; have := Rabs_triang (F i) (\sum_(j <- s) F j); Lra.
Qed.

Lemma sq_ge0 (x : R) : Rle 0 (x * x).
Proof. exact: (Rle_0_sqr x). Qed.

Lemma sq_gt0 (x : R) : x != 0 -> Rlt 0 (x * x).
Proof. move=> /eqP h; exact: (Rlt_0_sqr x h). Qed.

Lemma prod_gt0 (I : Type) (s : seq I) (F : I -> R) :
  (forall i, Rlt 0 (F i)) -> Rlt 0 (\prod_(i <- s) F i).
Proof.
move=> h; elim: s => [|i s ih]; first by rewrite big_nil; apply: Rlt_0_1.
rewrite big_cons; exact: (Rmult_lt_0_compat _ _ (h i) ih).
Qed.

Lemma ln_prod (I : Type) (s : seq I) (F : I -> R) :
  (forall i, Rlt 0 (F i)) -> ln (\prod_(i <- s) F i) = \sum_(i <- s) ln (F i).
Proof.
move=> h; elim: s => [|i s ih]; first by rewrite !big_nil; apply: ln_1.
rewrite !big_cons -ih; exact: (ln_mult _ _ (h i) (prod_gt0 s h)).
Qed.

Lemma le_addl (a b : R) : Rle 0 b -> Rle a (a + b).
Proof. Lra. Qed.

Section Mat.
Variable n : nat.
Implicit Types (A B : 'M[R]_n) (x y : 'cV[R]_n).

Definition quad A x : R := (x^T *m A *m x) 0 0.

Definition pd A := A^T = A /\ forall x, x != 0 -> Rlt 0 (quad A x).

(** A lower triangular factor with positive diagonal. *)
Definition factor A (L : 'M[R]_n) :=
  is_trig_mx L /\ (forall i, Rlt 0 (L i i)) /\ L *m L^T = A.

Lemma quadD A B x : quad (A + B) x = quad A x + quad B x.
Proof. by rewrite /quad mulmxDr mulmxDl mxE. Qed.

Lemma quadZ c A x : quad (c *: A) x = c * quad A x.
Proof. by rewrite /quad -scalemxAr -scalemxAl mxE. Qed.

Lemma quad_gram m (L : 'M[R]_(n, m)) x : quad (L *m L^T) x = \sum_i ((L^T *m x) i 0) * ((L^T *m x) i 0).
Proof.
rewrite /quad mulmxA -mulmxA -{1}[L]trmxK -trmx_mul mxE; apply: eq_bigr => i _; by rewrite mxE.
Qed.

Lemma quadE A x : quad A x = \sum_i \sum_j x i 0 * A i j * x j 0.
Proof.
rewrite /quad mxE exchange_big /=; apply: eq_bigr => j _; rewrite mxE mulr_suml.
by apply: eq_bigr => i _; rewrite !mxE.
Qed.

Lemma pd_diag A i : pd A -> Rlt 0 (A i i).
Proof.
move=> [_ p]; have := p (delta_mx i 0) _.
rewrite quadE (bigD1 i) //= [X in _ + X]big1 ?addr0; last first.
  move=> k /negbTE e; rewrite big1 // => l _; by rewrite mxE e /= !mul0r.
rewrite (bigD1 i) //= [X in _ + X]big1 ?addr0; last first.
  move=> k /negbTE e; by rewrite [X in _ * X]mxE e /= mulr0.
rewrite !mxE !eqxx /= mul1r mulr1; apply; apply/eqP => /matrixP /(_ i 0).
rewrite !mxE !eqxx /= => /eqP; by rewrite oner_eq0.
Qed.

Lemma factor_unit A L : factor A L -> L \in unitmx.
Proof.
move=> [tr [p _]]; rewrite unitmxE unitfE det_trig //; apply/eqP => e.
have := prod_gt0 (index_enum _) p; rewrite e; exact: Rlt_irrefl.
Qed.

Lemma factor_det A L : factor A L -> \det A = (\prod_i L i i) * (\prod_i L i i).
Proof. by move=> [tr [p <-]]; rewrite det_mulmx det_tr det_trig. Qed.

(** Near a positive definite matrix, symmetric matrices are positive definite. *)
Lemma pd_open A L B : factor A L -> B^T = B ->
  exists d : R, Rlt 0 d /\ forall t : R, Rlt (Rabs t) d -> pd (A + t *: B).
Proof.
move=> f sB; have u := factor_unit f; case: f => _ [_ e].
pose M := invmx L *m B *m (invmx L)^T.
pose c := \sum_i \sum_j Rabs (M i j).
have c0 : Rle 0 c by apply: sum_ge0 => i; apply: sum_ge0 => j; apply: Rabs_pos.
have bound y : Rle (Rabs (quad M y)) (c * \sum_i y i 0 * y i 0).
  have one i : Rle (y i 0 * y i 0) (\sum_i y i 0 * y i 0).
    rewrite (bigD1 i) //= -big_filter.
    exact: (le_addl _ (sum_ge0 (filter (fun j => j != i) (index_enum (ordinal_finType n))) (fun j => sq_ge0 (y j 0)))).
  rewrite quadE; apply: Rle_trans (sum_abs _ _) _; rewrite /c mulr_suml; apply: sum_le => i.
  apply: Rle_trans (sum_abs _ _) _; rewrite mulr_suml; apply: sum_le => j.
  have h : Rle (Rabs (y i 0) * Rabs (y j 0)) (\sum_i y i 0 * y i 0).
    have := one i; have := one j; have := sq_ge0 (Rabs (y i 0) - Rabs (y j 0)).
    have := Rsqr_abs (y i 0); have := Rsqr_abs (y j 0); rewrite /Rsqr => e1 e2.
    set q := \sum_i _; toR; rewrite e1 e2; lra.
  have := Rmult_le_compat_l _ _ _ (Rabs_pos (M i j)) h; rewrite !Rabs_mult (Rmult_comm (Rabs (y i 0))) Rmult_assoc; exact.
have eB : B = L *m M *m L^T.
  by rewrite /M !mulmxA mulmxV // mul1mx -!mulmxA -trmx_mul mulmxV // trmx1 mulmx1.
have qB x : quad B x = quad M (L^T *m x).
  by rewrite {1}eB /quad trmx_mul trmxK !mulmxA.
have cp : Rlt 0 (c + 1) by Lra.
exists (Rinv (c + 1)); split; first exact: Rinv_0_lt_compat.
move=> t ht; split; first by rewrite -e linearD linearZ /= trmx_mul trmxK sB.
move=> x x0; rewrite quadD quadZ qB -{1}e quad_gram.
set y := L^T *m x; have y0 : y != 0.
  apply: contra x0 => /eqP y0; apply/eqP.
  by rewrite -[x]mul1mx -trmx1 -(mulmxV u) trmx_mul -mulmxA -/y y0 mulmx0.
have : exists i, y i 0 != 0.
  case: (pickP (fun i => y i 0 != 0)) => [i h|h]; first by exists i.
  case/eqP: y0; apply/matrixP => i j; rewrite ord1 [RHS]mxE; by have := h i; move/negbT; rewrite negbK => /eqP.
case=> i yi; have qp := sum_gt0 (fun j => sq_ge0 (y j 0)) (mem_index_enum i) (sq_gt0 yi).
have := bound y; set q := \sum_i _ in qp *; move=> bd.
have h1 : Rlt (Rabs t * (c + 1)) 1.
  have := Rmult_lt_compat_r _ _ _ cp ht; rewrite Rinv_l //; Lra.
have h2 : Rle (Rabs (t * quad M y)) (Rabs t * (c * q)).
  rewrite Rabs_mult; exact: (Rmult_le_compat_l _ _ _ (Rabs_pos t) bd).
have h3 := Rle_abs (- (t * quad M y)); rewrite Rabs_Ropp in h3.
have h4 : Rle (Rabs t * c) (Rabs t * (c + 1)) by have := Rabs_pos t; Lra.
have h5 : Rlt (Rabs t * c * q) (1 * q) by apply: Rmult_lt_compat_r => //; Lra.
Lra.
Qed.
End Mat.

Lemma quad_block n (a : 'M[R]_1) (b : 'cV[R]_n) (C : 'M[R]_n) (s : 'M[R]_1) (x : 'cV[R]_n) :
  quad (block_mx a b^T b C : 'M_(1 + n)) (col_mx s x)
  = s 0 0 * a 0 0 * s 0 0 + 2%:R * (s 0 0 * (b^T *m x) 0 0) + quad C x.
Proof.
rewrite [s]mx11_scalar [a]mx11_scalar; move: (s 0 0) (a 0 0) => {s} s {a} a.
rewrite /quad tr_col_mx mul_row_block mul_row_col tr_scalar_mx !mulmxDl.
rewrite -scalar_mxM !mul_mx_scalar !mul_scalar_mx -!scalemxAl.
have e : x^T *m b = b^T *m x.
  by rewrite -[x^T *m b]trmxK trmx_mul trmxK [b^T *m x]mx11_scalar tr_scalar_mx.
rewrite e; set u := b^T *m x; set v := x^T *m C *m x; clearbody u v.
rewrite !mxE !eqxx !mulr1n mulr_natl mulr2n !addrA; congr (_ + _); congr (_ + _ + _); by rewrite mulrC.
Qed.

Lemma complete_square (a u v : R) : a != 0 ->
  - (a^-1 * u) * a * - (a^-1 * u) + 2%:R * (- (a^-1 * u) * u) + v = v - a^-1 * (u * u).
Proof.
move=> /eqP a0; rewrite -RinvE // mulr_natl mulr2n; eqR; by field.
Qed.

(** Every positive definite matrix has a Cholesky factor. *)
Lemma cholesky n (A : 'M[R]_n) : pd A -> exists L, factor A L.
Proof.
elim: n A => [|n ih] A p.
  exists 0; split; first by apply/is_trig_mxP => -[].
  by split=> [[]//|]; apply/matrixP => -[].
rewrite -[n.+1]/(1 + n)%N in A p *.
have sy : A^T = A by case: p.
have eA : A = block_mx (ulsubmx A) (dlsubmx A)^T (dlsubmx A) (drsubmx A).
  by rewrite trmx_dlsub sy submxK.
move: p; rewrite eA; set b := dlsubmx A; set C := drsubmx A; rewrite [ulsubmx A]mx11_scalar.
set a := ulsubmx A 0 0; have sC : C^T = C by rewrite /C trmx_drsub sy.
clearbody a b C => p.
have a0 : Rlt 0 a.
  have [_ q] := p; have := q (col_mx 1%:M 0) _; rewrite quad_block mulmx0 /quad mulmx0 !mxE !eqxx !mulr1n.
  rewrite !mulr0 !addr0 mul1r mulr1; apply; apply/eqP => /(congr1 usubmx) /matrixP /(_ 0 0).
  by rewrite col_mxKu !mxE eqxx => /eqP; rewrite oner_eq0.
have an : a != 0 by apply/eqP => e; move: a0; rewrite e; apply: Rlt_irrefl.
pose C1 := C - a^-1 *: (b *m b^T).
have p1 : pd C1.
  split; first by rewrite /C1 linearB linearZ /= trmx_mul trmxK sC.
  move=> x x0; have [_ q] := p.
  have -> : quad C1 x = quad C x - a^-1 * ((b^T *m x) 0 0 * (b^T *m x) 0 0).
    by rewrite /C1 quadD -scaleNr quadZ quad_gram big_ord1 mulNr.
  have := q (col_mx (- (a^-1 * (b^T *m x) 0 0))%:M x) _.
  rewrite quad_block; set u := (b^T *m x) 0 0; set v := quad C x; clearbody u v.
  rewrite !mxE !eqxx !mulr1n complete_square //.
  apply; apply/eqP => /(congr1 dsubmx); rewrite col_mxKd linear0 => e; by rewrite e eqxx in x0.
have [L1 [t1 [d1 f1]]] := ih _ p1.
have sa : Rlt 0 (sqrt a) by apply: sqrt_lt_R0.
have ss : sqrt a * sqrt a = a by apply: sqrt_sqrt; apply: Rlt_le.
have sn : sqrt a != 0 by apply/eqP => e; move: sa; rewrite e; apply: Rlt_irrefl.
exists (block_mx (sqrt a)%:M 0 ((sqrt a)^-1 *: b) L1); split; [|split].
- rewrite is_trig_block_mx // eqxx t1 /= andbT; apply/is_trig_mxP => i j; by rewrite !ord1.
- move=> i; rewrite mxE; case: splitP => j e; rewrite mxE; case: splitP => k e2.
  + by rewrite mxE !ord1 eqxx mulr1n.
  + by move: (ltn_ord j); rewrite -e e2 ltnNge leq_addr.
  + by move: (ltn_ord k); rewrite -e2 e ltnNge leq_addr.
  + have -> : k = j by apply/val_inj/eqP; rewrite -(eqn_add2l 1) -e -e2.
    exact: d1.
- rewrite tr_block_mx mulmx_block !tr_scalar_mx !trmx0 !mulmx0 !mul0mx !addr0 f1 -scalar_mxM ss.
  rewrite linearZ /= mul_scalar_mx mul_mx_scalar !scalerA mulfV // !scale1r -scalemxAl -scalemxAr scalerA.
  by rewrite -invfM ss /C1 addrC subrK.
Qed.
