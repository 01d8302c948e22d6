(** The terms that the program computes. *)

From Coq Require Import Reals Lra.
From Coquelicot Require Import Coquelicot.
From mathcomp Require Import all_ssreflect all_algebra perm.
From Verif Require Import RealField RealMat RealDet RealEigen RemlReals RemlModel RemlSpec RemlProofs RemlProofs2 RemlProofs3 RemlProofs4 JointSpec JointProofs HessModel HessSpec HessProofs.
Import GRing.Theory.
Set Implicit Arguments.
Unset Strict Implicit.
Unset Printing Implicit Defensive.
Local Open Scope ring_scope.

Lemma rank_le_dim g : well_formed g -> (rank g <= dim g)%N.
Proof.
case=> _ uu _ _ _; have := mxrankM_maxr (Ur g)^T (Ur g); rewrite uu mxrank1 => h.
exact: leq_trans h (rank_leq_row _).
Qed.

Lemma lead_orth g : well_formed g -> (lead g)^T *m lead g = 1%:M.
Proof.
move=> wf; apply/matrixP => a b; rewrite !mxE.
have lt : (a < dim g)%N by exact: leq_trans (ltn_ord a) (rank_le_dim wf).
rewrite (bigD1 (Ordinal lt)) //= big1 ?addr0.
  by rewrite !mxE /= eqxx mul1r.
move=> i /negbTE ne; rewrite !mxE; case: eqP => e; last by rewrite mul0r.
by move: ne; rewrite -(inj_eq val_inj) /= e eqxx.
Qed.

(** The reparameterization is a rotation. *)
Lemma rotated g l : well_formed g -> no_dominant g -> exists Q : 'M[R]_(rank g), 
  [/\ Q^T *m Q = 1%:M, S_rep g l = Q^T *m Sbar g l *m Q & 
      forall j, (j < npen g)%N -> S_Jrep g l j = Q^T *m SJbar g j *m Q].
Proof.
move=> wf nd; rewrite /S_rep /S_Jrep; case: eqP => e1.
  exists 1%:M; split; first by rewrite trmx1 mulmx1.
    by rewrite /Sbar e1 big_ord1 trmx1 mulmx1 mul1mx.
  by move=> j _; rewrite trmx1 mulmx1 mul1mx.
case: eqP => e2.
  case: nd => [/eqP //|nd]; have := nd _ (am_lt wf l); by rewrite -rank_bar ?am_lt // e2 ltnn.
exists (Qr g l); split => //; by case: wf.
Qed.

Section Terms.
Variables (n n_groups : nat) (gs : nat -> group) (chol : forall m, 'M[R]_m -> option 'M[R]_m).
Hypotheses (ec : exact_cholesky chol) (pl : placed n n_groups gs).
Hypotheses (wf : forall g, (g < n_groups)%N -> well_formed (gs g)) (nd : forall g, (g < n_groups)%N -> no_dominant (gs g)).
Variable (l : nat -> nat -> R).
Hypotheses (pb : forall h, (h < n_groups)%N -> pd (Sbar (gs h) (l h))).

Lemma all_factored : factored n_groups gs chol l.
Proof.
apply/forallP => g; have [_ h] := ec (S_rep (gs g) (l g)); apply/eqP; apply: h.
by apply: S_rep_pd; [exact: wf|exact: nd|exact: pb].
Qed.

Lemma S_inv_value g : (g < n_groups)%N -> S_inv chol (gs g) (l g) = invmx (S_rep (gs g) (l g)).
Proof.
move=> hg; have p : pd (S_rep (gs g) (l g)) by apply: S_rep_pd; [exact: wf|exact: nd|exact: pb].
have [h1 h2] := ec (S_rep (gs g) (l g)); rewrite /S_inv; case e : (chol _) => [L|]; last by case: (h2 p).
have f := h1 _ e; have u := factor_unit f; case: f => _ [_ <-].
have ut : L^T \in unitmx by rewrite unitmx_tr.
have e1 : (L *m L^T) *m ((invmx L)^T *m invmx L) = 1%:M.
  rewrite mulmxA -[_ *m _ *m (invmx L)^T]mulmxA -trmx_mul mulVmx // trmx1 mulmx1 mulmxV //.
have [uu _] := mulmx1_unit e1.
by rewrite -[LHS]mul1mx -(mulVmx uu) -mulmxA e1 mulmx1.
Qed.

Lemma embed_rp_mul g (M M' : 'M[R]_(rank (gs g))) : (g < n_groups)%N -> 
  embed_rp n M *m embed_rp n M' = embed_rp n (M *m M').
Proof.
move=> hg; rewrite /embed_rp (embed_mul pl) //; congr embed.
by rewrite !mulmxA -[lead _ *m M *m _ *m lead _]mulmxA lead_orth ?mulmx1 //; exact: wf.
Qed.

Lemma tr_embed_rp g (M : 'M[R]_(rank (gs g))) : (g < n_groups)%N -> \tr (embed_rp n M) = (reps (gs g))%:R * \tr M.
Proof.
move=> hg; have h := @trace_same _ _ _ pl g (lead (gs g) *m M *m (lead (gs g))^T) 1%:M hg.
have e : embed_rp n M = embed n (lead (gs g) *m M *m (lead (gs g))^T) *m embed n (1%:M : 'M[R]_(dim (gs g))).
  by rewrite (embed_mul pl) // mulmx1.
by rewrite e h mulmx1 mxtrace_mulC mulmxA lead_orth ?mul1mx //; exact: wf.
Qed.

Lemma S_inv_mul g (M : 'M[R]_(rank (gs g))) : (g < n_groups)%N ->
  S_inv_rp n n_groups gs chol l *m embed_rp n M = embed_rp n (invmx (S_rep (gs g) (l g)) *m M).
Proof.
move=> hg; rewrite /S_inv_rp mulmx_suml (bigD1 (Ordinal hg)) //= big1 ?addr0.
  by rewrite embed_rp_mul // S_inv_value.
move=> h ne; apply: (embed_other pl) => //; by rewrite -(inj_eq val_inj) /= in ne.
Qed.

Definition det2 (g j h k : nat) : R :=
  (if gamma g j h k then l g j * (2%:R^-1 * ((reps (gs g))%:R * \tr (invmx (Sbar (gs g) (l g)) *m SJbar (gs g) j))) else 0)
  + l g j * l h k * (if g == h then - (2%:R^-1 * ((reps (gs g))%:R * \tr (invmx (Sbar (gs g) (l g)) *m SJbar (gs g) k *m invmx (Sbar (gs g) (l g)) *m SJbar (gs g) j))) else 0).

Lemma inv_rot m (Q B : 'M[R]_m) : Q^T *m Q = 1%:M -> pd B -> invmx (Q^T *m B *m Q) = Q^T *m invmx B *m Q.
Proof.
move=> qq p; have q2 : Q *m Q^T = 1%:M by exact: mulmx1C.
have e1 : (Q^T *m B *m Q) *m (Q^T *m invmx B *m Q) = 1%:M.
  by rewrite !mulmxA -[Q^T *m B *m Q *m Q^T]mulmxA q2 mulmx1 mulmxK ?pd_unit.
have [uu _] := mulmx1_unit e1.
by rewrite -[RHS]mul1mx -(mulVmx uu) -[RHS]mulmxA e1 mulmx1.
Qed.

Lemma t3_value g j h k : (g < n_groups)%N -> (j < npen (gs g))%N -> (h < n_groups)%N -> (k < npen (gs h))%N ->
  t3 n n_groups gs chol l g j h k = (reps (gs g))%:R * det2 g j h k.
Proof.
move=> hg hj hh hk; rewrite /t3 /det2.
have [Q [qq eS eJ]] := rotated (l g) (wf hg) (nd hg).
have q2 : Q *m Q^T = 1%:M by exact: mulmx1C.
have ir := inv_rot qq (pb hg).
have rot j' : (j' < npen (gs g))%N -> invmx (S_rep (gs g) (l g)) *m S_Jrep (gs g) (l g) j' = Q^T *m (invmx (Sbar (gs g) (l g)) *m SJbar (gs g) j') *m Q.
  by move=> hj'; rewrite eS ir eJ // !mulmxA -[_ *m Q *m Q^T]mulmxA q2 mulmx1.
have tr1 : \tr (S_inv_rp n n_groups gs chol l *m embed_rp n (S_Jrep (gs g) (l g) j))
  = (reps (gs g))%:R * \tr (invmx (Sbar (gs g) (l g)) *m SJbar (gs g) j).
  by rewrite S_inv_mul // tr_embed_rp // rot // mxtrace_mulC mulmxA q2 mul1mx.
have tr2 : \tr (S_inv_rp n n_groups gs chol l *m embed_rp n (S_Jrep (gs h) (l h) k) *m S_inv_rp n n_groups gs chol l *m embed_rp n (S_Jrep (gs g) (l g) j))
  = if g == h then (reps (gs g))%:R * \tr (invmx (Sbar (gs g) (l g)) *m SJbar (gs g) k *m invmx (Sbar (gs g) (l g)) *m SJbar (gs g) j) else 0.
  rewrite -[_ *m _ *m _ *m embed_rp n (S_Jrep (gs g) _ _)]mulmxA !S_inv_mul //.
  case: (altP (g =P h)) => [e|ne].
    subst h; rewrite embed_rp_mul // tr_embed_rp // !rot //; congr (_ * _).
    set a := invmx _ *m SJbar _ k; set b := invmx _ *m SJbar _ j.
    have -> : a *m invmx (Sbar (gs g) (l g)) *m SJbar (gs g) j = a *m b by rewrite /b mulmxA.
    clearbody a b; rewrite !mulmxA -[Q^T *m a *m Q *m Q^T]mulmxA q2 mulmx1.
    by rewrite mxtrace_mulC !mulmxA q2 mul1mx.
  by rewrite /embed_rp (embed_other pl) // ?mxtrace0 // eq_sym.
rewrite tr1 tr2 /gamma; case: (altP (g =P h)) => [e|ne] /=; last first.
  by rewrite !mulr0 !addr0 mulr0; case: ifP => _; rewrite ?mulr0.
subst h; rewrite eqxx orbT; set T2 := \tr (_ *m _ *m _ *m _); set T1 := \tr _; set r : R := (reps _)%:R; set f : R := 2%:R^-1.
case: ifP => _; rewrite ?addr0 ?add0r; eqR; ring.
Qed.

Variables (N : nat) (X : 'M[R]_(N, n)) (y : 'cV[R]_N) (scale : R) (Vbr : 'M[R]_n).
Variables (m : nat) (D : nat -> nat -> 'M[R]_(n, m)).
Hypothesis (s0 : Rlt 0 scale).
Notation S := (S_emb n n_groups gs l).
Notation A := (X^T *m X + S).
Notation E g j := (emb n gs g j).
Notation b := (pls X y S).
Notation H := (- (scale^-1 *: (X^T *m X))).
Hypotheses (eV : Vbr^T *m Vbr *m A = 1%:M).
Hypothesis (eD : forall g j, (g < n_groups)%N -> (j < npen (gs g))%N -> D g j *m (D g j)^T = E g j).

Let uA : A \in unitmx. Proof. by have [] := mulmx1_unit eV. Qed.
Let V_inv : Vbr^T *m Vbr = invmx A.
Proof. by rewrite -[LHS]mulmx1 -(mulmxV uA) mulmxA eV mul1mx. Qed.

Let sE g j : (g < n_groups)%N -> (j < npen (gs g))%N -> (E g j)^T = E g j.
Proof. by move=> hg hj; rewrite /emb embed_sym //; have [s _ _ _ _] := wf hg; exact: s. Qed.

Let sV : (invmx A)^T = invmx A.
Proof. by rewrite -V_inv trmx_mul trmxK. Qed.

Lemma dB_value g j : dBetadRho gs Vbr b l g j = - l g j *: (invmx A *m (E g j *m b)).
Proof. by rewrite /dBetadRho mulmxA V_inv. Qed.

Definition cross g j h k : R := ((E g j *m b)^T *m (invmx A *m E h k *m b)) 0 0.

Lemma cross_sym g j h k : (g < n_groups)%N -> (j < npen (gs g))%N -> (h < n_groups)%N -> (k < npen (gs h))%N -> 
  cross g j h k = cross h k g j.
Proof.
move=> hg hj hh hk; rewrite /cross.
have t11 (M : 'M[R]_1) : M 0 0 = M^T 0 0 by rewrite mxE.
by rewrite [LHS]t11 !trmx_mul !trmxK sV !mulmxA.
Qed.

Lemma nH_value : nH n_groups gs H scale l = scale^-1 *: A.
Proof. by rewrite /nH scalerN scaleN1r opprK -scalerDr. Qed.

Lemma t1_value g j h k : t1 n_groups gs Vbr H b scale l g j h k = - (l g j * l h k / scale * cross g j h k).
Proof.
rewrite /t1 nH_value !dB_value; set c := scale^-1.
have e : (c *: A) *m (- l h k *: (invmx A *m (E h k *m b))) = (c * - l h k) *: (E h k *m b).
  by rewrite -scalemxAl -scalemxAr scalerA mulmxA mulmxV // mul1mx.
rewrite e [(_ *: (invmx A *m _))^T]linearZ /= -!scalemxAl -!scalemxAr !scalerA [LHS]mxE.
have -> : ((invmx A *m (E g j *m b))^T *m (E h k *m b)) 0 0 = cross g j h k.
  by rewrite /cross trmx_mul sV !mulmxA.
by eqR; ring.
Qed.

Lemma t12_value g j h k : (g < n_groups)%N -> (j < npen (gs g))%N -> (h < n_groups)%N -> (k < npen (gs h))%N -> 
  t1 n_groups gs Vbr H b scale l g j h k - t2 gs Vbr b scale l g j h k
  = l g j * l h k * (scale^-1 * cross g j h k) 
    + (if gamma g j h k then - (l g j * (2%:R^-1 * (scale^-1 * quad (E g j) b))) else 0).
Proof.
move=> hg hj hh hk; rewrite t1_value /t2 !dB_value.
have tE g' j' h' k' : (g' < n_groups)%N -> (j' < npen (gs g'))%N -> 
    ((l g' j' / scale) *: b^T *m E g' j' *m (- l h' k' *: (invmx A *m (E h' k' *m b)))) 0 0
    = - (l g' j' * l h' k' / scale * cross g' j' h' k').
  move=> hg' hj'; rewrite -!scalemxAl -!scalemxAr scalerA [LHS]mxE /cross [(E g' j' *m _)^T]trmx_mul (sE hg' hj') !mulmxA.
  set q := (_ *m _) 0 0; eqR; ring.
rewrite !tE // (cross_sym hh hk hg hj); set q := cross g j h k.
have -> : ((l g j / (2%:R * scale)) *: b^T *m E g j *m b) 0 0 = l g j * (2%:R^-1 * (scale^-1 * quad (E g j) b)).
  by rewrite -!scalemxAl [LHS]mxE /quad invfM !mulrA.
set w := l g j * (_ * _); set c := scale^-1; set x := l g j; set z := l h k.
case: ifP => _; rewrite ?addr0; eqR.
 ring.
 ring.
Qed.

Lemma gram_sum p q (M : 'M[R]_(p, q)) : \sum_a \sum_c (M a c) ^+ 2 = \tr (M *m M^T).
Proof.
rewrite /mxtrace; apply: eq_bigr => a _; rewrite [RHS]mxE; apply: eq_bigr => c _.
by rewrite [X in _ = _ * X]mxE expr2.
Qed.

Lemma t4_value g j h k : (g < n_groups)%N -> (j < npen (gs g))%N -> (h < n_groups)%N -> (k < npen (gs h))%N -> 
  t4 Vbr D l g j h k = l g j * l h k * (2%:R^-1 * \tr (invmx A *m E h k *m invmx A *m E g j)).
Proof.
move=> hg hj hh hk; rewrite /t4 gram_sum.
have -> : (D g j)^T *m Vbr^T *m Vbr *m D h k = (D g j)^T *m invmx A *m D h k.
  by rewrite -V_inv !mulmxA.
set T := \tr (_ *m _).
have -> : T = \tr (invmx A *m E h k *m invmx A *m E g j).
  rewrite /T !trmx_mul trmxK sV !mulmxA -[_ *m D h k *m (D h k)^T]mulmxA (eD hh hk).
  by rewrite mxtrace_mulC !mulmxA (eD hg hj) [RHS]mxtrace_mulC !mulmxA.
by set q := \tr _; set f : R := 2%:R^-1; eqR; ring.
Qed.

Lemma t5_value g j h k : (g < n_groups)%N -> (j < npen (gs g))%N ->
  t5 Vbr D l g j h k = if gamma g j h k then l g j * (2%:R^-1 * \tr (invmx A *m E g j)) else 0.
Proof.
move=> hg hj; rewrite /t5 gram_sum; case: ifP => // _.
rewrite trmx_mul mulmxA mxtrace_mulC !mulmxA -[Vbr^T *m Vbr *m _ *m _]mulmxA eD // V_inv.
by rewrite mulrC.
Qed.

Lemma Vpij_value g j h k : (g < n_groups)%N -> (j < npen (gs g))%N -> (h < n_groups)%N -> (k < npen (gs h))%N -> 
  Vpij n_groups gs chol Vbr H D b scale l g j h k
  = curve n_groups gs X y scale g j h k l + ((reps (gs g))%:R - 1) * det2 g j h k.
Proof.
move=> hg hj hh hk; rewrite /Vpij t12_value // t3_value // t4_value // t5_value // /curve /slope /det2 -/b.
rewrite /cross -/(pls X y S).
set T2 := \tr (_ *m _ *m _ *m E _ _); set T1 := \tr (invmx A *m E g j); set q := quad _ _; set Q := (_ *m _) 0 0.
set U1 := \tr (invmx (Sbar _ _) *m SJbar _ j); set U2 := \tr (_ *m _ *m _ *m SJbar _ _).
set r : R := (reps _)%:R; set x := l g j; set z := l h k; set c := scale^-1; set f : R := 2%:R^-1.
case: (gamma g j h k); case: (g == h); rewrite ?mulr0 ?addr0 ?add0r ?subr0 ?mulr0 ?addr0; eqR; ring.
Qed.

Lemma curve_sym g j h k : (g < n_groups)%N -> (j < npen (gs g))%N -> (h < n_groups)%N -> (k < npen (gs h))%N -> 
  curve n_groups gs X y scale g j h k l = curve n_groups gs X y scale h k g j l.
Proof.
move=> hg hj hh hk; rewrite /curve -/(pls X y S) -/(cross g j h k) -/(cross h k g j) (cross_sym hg hj hh hk).
have -> : \tr (invmx A *m E h k *m invmx A *m E g j) = \tr (invmx A *m E g j *m invmx A *m E h k).
  by rewrite -[_ *m _ *m _ *m E g j]mulmxA mxtrace_mulC !mulmxA.
rewrite [l g j * l h k]mulrC; congr (_ + _ * (_ + _)).
  by rewrite /gamma [g == h]eq_sym [j == k]eq_sym; case: ifP => // /andP[/eqP -> /eqP ->].
rewrite [h == g]eq_sym; case: (altP (g =P h)) => // e; subst h; congr (- (_ * (_ * _))).
by rewrite -[_ *m _ *m _ *m SJbar _ j]mulmxA mxtrace_mulC !mulmxA.
Qed.

Lemma det2_sym g j h k : (g < n_groups)%N -> (j < npen (gs g))%N -> (h < n_groups)%N -> (k < npen (gs h))%N -> 
  det2 g j h k = det2 h k g j.
Proof.
move=> hg hj hh hk; rewrite /det2 [l g j * l h k]mulrC; congr (_ + _ * _).
  by rewrite /gamma [g == h]eq_sym [j == k]eq_sym; case: ifP => // /andP[/eqP -> /eqP ->].
rewrite [h == g]eq_sym; case: (altP (g =P h)) => // e; subst h; congr (- (_ * (_ * _))).
by rewrite -[_ *m _ *m _ *m SJbar _ j]mulmxA mxtrace_mulC !mulmxA.
Qed.

Lemma Hp_value g j h k : (g < n_groups)%N -> (j < npen (gs g))%N -> (h < n_groups)%N -> (k < npen (gs h))%N -> 
  Hp n_groups gs chol Vbr H D b scale l g j h k
  = Some (curve n_groups gs X y scale g j h k l + ((reps (gs g))%:R - 1) * det2 g j h k).
Proof.
move=> hg hj hh hk; rewrite /Hp all_factored; case: ifP => _; rewrite Vpij_value //.
rewrite (curve_sym hg hj hh hk) (det2_sym hg hj hh hk).
case: (altP (g =P h)) => [->|ne] //; rewrite /det2 /gamma [h == g]eq_sym (negbTE ne) /= !mulr0 !addr0 !mulr0 //.
Qed.
End Terms.
