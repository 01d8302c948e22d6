(** Derivatives of determinants and their logarithms. *)

From Coq Require Import Reals Lra.
From Coquelicot Require Import Coquelicot.
From mathcomp Require Import all_ssreflect all_algebra perm.
From Verif Require Import RealField RealMat.
Import GRing.Theory.
Set Implicit Arguments. Unset Strict Implicit. Unset Printing Implicit Defensive.
Local Open Scope ring_scope.

Lemma isd_eq (f : R -> R) x (a b : R) : is_derive f x a -> a = b -> is_derive f x b.
Proof. by move=> h <-. Qed.

Lemma isd_ext (f g : R -> R) x (a : R) : (forall t, f t = g t) -> is_derive f x a -> is_derive g x a.
Proof. exact: is_derive_ext. Qed.

Lemma isd_add (f g : R -> R) x (a b : R) :
  is_derive f x a -> is_derive g x b -> is_derive (fun t => f t + g t) x (a + b).
Proof. exact: is_derive_plus. Qed.

Lemma isd_mul (f g : R -> R) x (a b : R) :
  is_derive f x a -> is_derive g x b -> is_derive (fun t => f t * g t) x (a * g x + f x * b).
Proof. by move=> hf hg; apply: (is_derive_mult f g x a b hf hg Rmult_comm). Qed.

Lemma isd_const (c : R) x : is_derive (fun _ => c) x (0 : R).
Proof. exact: is_derive_const. Qed.

Lemma isd_scale (c : R) f x (a : R) : is_derive f x a -> is_derive (fun t => c * f t) x (c * a).
Proof.
move=> h; apply: (isd_eq (isd_mul (isd_const c x) h)); by rewrite mul0r add0r.
Qed.

Lemma isd_sum (I : Type) (s : seq I) (P : pred I) (f : R -> I -> R) x (d : I -> R) :
  (forall i, P i -> is_derive (fun t => f t i) x (d i)) ->
  is_derive (fun t => \sum_(i <- s | P i) f t i) x (\sum_(i <- s | P i) d i).
Proof.
move=> h; elim: s => [|i s ih].
  rewrite big_nil; apply: (@isd_ext (fun _ => 0)); last exact: isd_const.
  by move=> t; rewrite big_nil.
rewrite big_cons; case: ifP => p.
  apply: (@isd_ext (fun t => f t i + \sum_(i <- s | P i) f t i)); last exact: isd_add (h i p) ih.
  by move=> t; rewrite big_cons p.
by apply: isd_ext ih => t; rewrite big_cons p.
Qed.

Lemma isd_prod (I : eqType) (s : seq I) (f : R -> I -> R) x (d : I -> R) : uniq s ->
  (forall i, is_derive (fun t => f t i) x (d i)) ->
  is_derive (fun t => \prod_(i <- s) f t i) x
            (\sum_(i <- s) \prod_(j <- s) (if j == i then d i else f x j)).
Proof.
move=> u h; elim: s u => [_|i s ih /andP[ni u]].
  rewrite big_nil; apply: (@isd_ext (fun _ => 1)); last exact: isd_const.
  by move=> t; rewrite big_nil.
apply: (@isd_ext (fun t => f t i * \prod_(i <- s) f t i)); first by move=> t; rewrite big_cons.
apply: (isd_eq (isd_mul (h i) (ih u))).
rewrite big_cons big_cons eqxx; congr (_ * _ + _).
  rewrite !big_seq; apply: eq_bigr => j js; case: eqP => // e; by rewrite e (negbTE ni) in js.
rewrite mulr_sumr !big_seq; apply: eq_bigr => j js; rewrite big_cons; case: eqP => // e.
by rewrite e js in ni.
Qed.

Section Det.
Variable n : nat.

(** Row [i] of [A] replaced by row [i] of [B]. *)
Definition replace_row (A B : 'M[R]_n) i := \matrix_(a, b) (if a == i then B a b else A a b).

Lemma det_replace (A B : 'M[R]_n) i : \det (replace_row A B i) = \sum_k B i k * cofactor A i k.
Proof.
rewrite (expand_det_row _ i); apply: eq_bigr => k _; rewrite mxE eqxx; congr (_ * _).
rewrite /cofactor; congr (_ * \det _); apply/matrixP => a b; rewrite !mxE.
by rewrite eq_sym (negbTE (neq_lift _ _)).
Qed.

Lemma det_derive (A : R -> 'M[R]_n) x (A' : 'M[R]_n) :
  (forall i j, is_derive (fun t => A t i j) x (A' i j)) ->
  is_derive (fun t => \det (A t)) x (\tr (\adj (A x) *m A')).
Proof.
move=> h.
have D : is_derive (fun t => \det (A t)) x
   (\sum_(s : 'S_n) (-1) ^+ s * \sum_i \prod_j (if j == i then A' i (s i) else A x j (s j))).
  apply: (@isd_ext (fun t => \sum_(s : 'S_n) (-1) ^+ s * \prod_i A t i (s i))); first by [].
  apply: isd_sum => s _.
  apply: isd_scale; apply: (@isd_prod _ _ (fun t i => A t i (s i))) => [|i]; last exact: h.
  exact: index_enum_uniq.
apply: (isd_eq D).
transitivity (\sum_i \det (replace_row (A x) A' i)).
  rewrite (eq_bigr (fun s : 'S_n => \sum_i (-1) ^+ s * \prod_j (if j == i then A' i (s i) else A x j (s j)))); last first.
    by move=> s _; rewrite -mulr_sumr.
  rewrite exchange_big /=; apply: eq_bigr => i _; apply: eq_bigr => s _; congr (_ * _).
  apply: eq_bigr => j _; rewrite mxE; by case: eqP => // ->.
under eq_bigr do rewrite det_replace.
rewrite exchange_big /=; apply: eq_bigr => k _; rewrite mxE; apply: eq_bigr => i _.
by rewrite !mxE mulrC.
Qed.

Lemma lndet_derive (A : R -> 'M[R]_n) x (A' : 'M[R]_n) :
  (forall i j, is_derive (fun t => A t i j) x (A' i j)) -> Rlt 0 (\det (A x)) ->
  is_derive (fun t => ln (\det (A t))) x (\tr (invmx (A x) *m A')).
Proof.
move=> h p.
have u : A x \in unitmx.
  rewrite unitmxE unitfE; apply/eqP => e; move: p; rewrite e; exact: Rlt_irrefl.
have c := is_derive_comp ln (fun t => \det (A t)) x _ _ (is_derive_ln _ p) (det_derive h).
apply: (isd_eq c).
rewrite /invmx u; change (\tr (\adj (A x) *m A') * (/ \det (A x))%R = \tr ((\det (A x))^-1 *: \adj (A x) *m A')).
have -> : (/ \det (A x))%R = (\det (A x))^-1 :> R.
  rewrite [RHS]Rinvx_inv //; move=> e; move: p; rewrite e; exact: Rlt_irrefl.
by rewrite -scalemxAl mxtraceZ mulrC.
Qed.
End Det.
