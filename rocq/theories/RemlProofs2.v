(** The derivative of the criterion. *)

From Coq Require Import Reals Lra.
From Coquelicot Require Import Coquelicot.
From mathcomp Require Import all_ssreflect all_algebra perm.
From Verif Require Import RealField RealMat RealDet RemlModel RemlSpec RemlProofs.
Import GRing.Theory.
Set Implicit Arguments.
Unset Strict Implicit.
Unset Printing Implicit Defensive.
Local Open Scope ring_scope.

Lemma affine_derive m k (A B : 'M[R]_(m, k)) (t0 : R) i a :
  is_derive (fun t : R => (A + (t - t0) *: B) i a) t0 (B i a).
Proof.
apply: (@isd_ext (fun t : R => A i a + B i a * (t - t0))); first by move=> t; rewrite !mxE [_ * B i a]mulrC.
apply: (isd_eq (isd_add (isd_const _ _) (isd_scale _ (isd_add (is_derive_id _) (isd_const _ _))))).
by rewrite addr0 mulr1 add0r.
Qed.

Lemma near_pd m (A B : 'M[R]_m) (t0 : R) : pd A -> B^T = B -> locally t0 (fun t : R => pd (A + (t - t0) *: B)).
Proof.
move=> p s; have [L f] := cholesky p; have [d [d0 h]] := pd_open f s.
by exists (mkposreal d d0) => t ht; apply: h; exact: ht.
Qed.

Lemma lndet_affine m (A B : 'M[R]_m) (c t0 : R) : Rlt 0 c -> pd A ->
  is_derive (fun t : R => ln (\det (c *: (A + (t - t0) *: B)))) t0 (\tr (invmx A *m B)).
Proof.
move=> c0 p.
have D i a : is_derive (fun t : R => (c *: (A + (t - t0) *: B)) i a) t0 ((c *: B) i a).
  apply: (@isd_ext (fun t : R => c * (A + (t - t0) *: B) i a)); first by move=> t; rewrite [RHS]mxE.
  rewrite [(c *: B) i a]mxE; apply: isd_scale; exact: affine_derive.
have e : c *: (A + (t0 - t0) *: B) = c *: A by rewrite subrr scale0r addr0.
apply: (isd_eq (lndet_derive D _)); rewrite e; first by apply: pd_det; apply: pd_scale.
have cn : c != 0 by apply: gt0_neq.
rewrite invmxZ ?unitmxZ ?unitfE ?pd_unit //.
by rewrite -scalemxAl -scalemxAr scalerA mulVf // scale1r.
Qed.

Section Params.
Variables (n n_groups : nat) (gs : nat -> group) (l : nat -> nat -> R) (g j : nat).
Hypotheses (gG : (g < n_groups)%N) (jg : (j < npen (gs g))%N).

Lemma Sbar_same h t : h != g -> Sbar (gs h) (with_param l g j t h) = Sbar (gs h) (l h).
Proof. by move=> /negbTE e; apply: eq_bigr => k _; rewrite /with_param e. Qed.

Lemma Sbar_moved t : Sbar (gs g) (with_param l g j t g) = Sbar (gs g) (l g) + (t - l g j) *: SJbar (gs g) j.
Proof.
rewrite /Sbar (bigD1 (Ordinal jg)) //= [X in _ = X + _](bigD1 (Ordinal jg)) //= /with_param !eqxx /=.
rewrite scalerBl [RHS]addrC addrA subrK; congr (_ + _).
by apply: eq_bigr => k /negbTE e; rewrite -(inj_eq val_inj) /= in e; rewrite e.
Qed.

Lemma S_emb_moved t : S_emb n n_groups gs (with_param l g j t)
  = S_emb n n_groups gs l + (t - l g j) *: embed n (SJ (gs g) j).
Proof.
rewrite /S_emb (bigD1 (Ordinal gG)) //= [X in _ = X + _](bigD1 (Ordinal gG)) //=.
rewrite (bigD1 (Ordinal jg)) //= [X in _ = X + _ + _](bigD1 (Ordinal jg)) //= /with_param !eqxx /=.
rewrite scalerBl [RHS]addrC !addrA subrK -!addrA; congr (_ + (_ + _)).
  by apply: eq_bigr => k /negbTE e; rewrite -(inj_eq val_inj) /= in e; rewrite e.
apply: eq_bigr => h /negbTE e; rewrite -(inj_eq val_inj) /= in e.
by apply: eq_bigr => k _; rewrite e.
Qed.
End Params.

Lemma columns_orth n (g h : group) (c d : nat) : 
  (start g + c.+1 * dim g <= n)%N ->
  (start g + c.+1 * dim g <= start h + d * dim h)%N ->
  (columns n g c)^T *m columns n h d = 0.
Proof.
move=> _ q; apply/matrixP => a b; rewrite !mxE; apply: big1 => i _; rewrite !mxE.
case: eqP => e; last by rewrite mul0r.
case: eqP => f; last by rewrite mulr0.
have : (start g + c * dim g + a < start g + c.+1 * dim g)%N.
  by rewrite -addnA ltn_add2l mulSn addnC ltn_add2r.
by rewrite -e f => /leq_trans /(_ q); rewrite ltnNge leq_addr.
Qed.

Lemma columns_same n (g : group) (c : nat) :
  (start g + c.+1 * dim g <= n)%N -> (columns n g c)^T *m columns n g c = 1%:M.
Proof.
move=> q; apply/matrixP => a b; rewrite !mxE.
have lt : (start g + c * dim g + a < n)%N.
  by apply: leq_trans q; rewrite -addnA ltn_add2l mulSn addnC ltn_add2r.
rewrite (bigD1 (Ordinal lt)) //= big1 ?addr0; last first.
  move=> i /negbTE e; rewrite !mxE; case: eqP => f; last by rewrite mul0r.
  by rewrite -(inj_eq val_inj) /= f eqxx in e.
by rewrite !mxE /= eqxx mul1r eqn_add2l.
Qed.

Section Traces.
Variables (n n_groups : nat) (gs : nat -> group).
Hypothesis pl : placed n n_groups gs.

Lemma trace_other g h (X : 'M[R]_(dim (gs h))) (M : 'M[R]_(dim (gs g))) :
  (g < n_groups)%N -> (h < n_groups)%N -> h != g -> \tr (embed n X *m embed n M) = 0.
Proof.
move=> hg hh ne; have [pl1 pl2] := pl.
have bnd k c : (k < n_groups)%N -> (c < reps (gs k))%N ->
    (start (gs k) + c.+1 * dim (gs k) <= start (gs k) + reps (gs k) * dim (gs k))%N.
  by move=> _ hc; rewrite leq_add2l leq_mul2r hc orbT.
rewrite /embed mulmx_suml; rewrite (raddf_sum (mxtrace_additive _ _)) /=; apply: big1 => c _.
rewrite mulmx_sumr (raddf_sum (mxtrace_additive _ _)) /=; apply: big1 => d _.
have z : (columns n (gs h) c)^T *m columns n (gs g) d = 0.
  case: (ltngtP h g) ne => // lt _.
    apply: columns_orth; first exact: leq_trans (bnd _ _ hh (ltn_ord c)) (pl2 _ hh).
    apply: leq_trans (bnd _ _ hh (ltn_ord c)) _; apply: leq_trans (pl1 _ _ lt hg) _; exact: leq_addr.
  rewrite -[LHS]trmxK trmx_mul trmxK columns_orth ?trmx0 //.
    exact: leq_trans (bnd _ _ hg (ltn_ord d)) (pl2 _ hg).
  apply: leq_trans (bnd _ _ hg (ltn_ord d)) _; apply: leq_trans (pl1 _ _ lt hh) _; exact: leq_addr.
rewrite !mulmxA -[_ *m _ *m columns n (gs g) d]mulmxA z mulmx0 !mul0mx; exact: mxtrace0.
Qed.

Lemma trace_same g (X M : 'M[R]_(dim (gs g))) : (g < n_groups)%N ->
  \tr (embed n X *m embed n M) = (reps (gs g))%:R * \tr (X *m M).
Proof.
move=> hg; have [_ pl2] := pl.
have bnd c : (c < reps (gs g))%N -> (start (gs g) + c.+1 * dim (gs g) <= n)%N.
  move=> hc; apply: leq_trans (pl2 _ hg); by rewrite leq_add2l leq_mul2r hc orbT.
rewrite /embed mulmx_suml (raddf_sum (mxtrace_additive _ _)) /=.
rewrite (eq_bigr (fun _ => \tr (X *m M))); last first.
  move=> c _; rewrite mulmx_sumr (raddf_sum (mxtrace_additive _ _)) /= (bigD1 c) //= big1 ?addr0.
    rewrite !mulmxA -[_ *m _ *m columns n (gs g) c]mulmxA columns_same ?bnd // mulmx1.
    by rewrite mxtrace_mulC !mulmxA columns_same ?bnd // mul1mx.
  move=> d ne; rewrite !mulmxA -[_ *m _ *m columns n (gs g) d]mulmxA.
  have -> : (columns n (gs g) c)^T *m columns n (gs g) d = 0.
    have := ne; rewrite -(inj_eq val_inj) /= => {ne}; case: (ltngtP d c) => // lt _.
      rewrite -[LHS]trmxK trmx_mul trmxK columns_orth ?trmx0 ?bnd //.
      by rewrite leq_add2l leq_mul2r lt orbT.
    rewrite columns_orth ?bnd //; by rewrite leq_add2l leq_mul2r lt orbT.
  by rewrite mulmx0 !mul0mx mxtrace0.
by rewrite sumr_const card_ord mulr_natl.
Qed.
End Traces.

Lemma penrose_unique m (A X Y : 'M[R]_m) : penrose A X -> penrose A Y -> X = Y.
Proof.
move=> [x1 x2 x3 x4] [y1 y2 y3 y4].
have e1 : A *m X = A *m Y.
  have h : A *m X = A *m Y *m (A *m X) by rewrite mulmxA y1.
  by rewrite -x3 h trmx_mul x3 y3 mulmxA x1.
have e2 : X *m A = Y *m A.
  have h : X *m A = X *m A *m (Y *m A) by rewrite -!mulmxA [A *m (Y *m A)]mulmxA y1.
  by rewrite -x4 h trmx_mul x4 y4 -!mulmxA [A *m (X *m A)]mulmxA x1.
by rewrite -x2 e2 -mulmxA e1 mulmxA y2.
Qed.
