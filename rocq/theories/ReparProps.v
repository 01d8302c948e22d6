(** C99: the similarity transform of a term's penalties only changes the basis. *)

From Coq Require Import Reals Lra IndefiniteDescription.

Lemma two_squares (u v d e : R) :
  (0 < d -> 0 < e -> u * d * u + v * e * v = 0 -> u * u + v * v = 1 -> False)%R.
Proof.
intros hd he z o; assert (0 <= d * (u * u) /\ 0 <= e * (v * v))%R as [a b] by (split; apply Rmult_le_pos; nra).
assert (u * u = 0)%R by nra; assert (v * v = 0)%R by nra; lra.
Qed.

From mathcomp Require Import all_ssreflect all_algebra.
From Verif Require Import RealField RealMat RealEigen ReparModel ReparSpec ReparProofs ReparProofs2 ReparProofs3 ReparProofs4.
Import GRing.Theory.
Set Implicit Arguments.
Unset Strict Implicit.
Unset Printing Implicit Defensive.
Local Open Scope ring_scope.

(** If no penalty alone penalises everything, the loop ends and returns an orthonormal basis together with the
    penalties and their weighted sum in this basis. *)
Theorem C99_transform eigh dim npen S lam :
  exact_eigh eigh -> (0 < npen)%N -> (forall k, (k < npen)%N -> Rlt 0 (lam k)) ->
  (forall k, (k < npen)%N -> penalty dim (S k)) ->
  npen = 1%N \/ ~ (exists k, dominant dim npen S lam k) ->
  exists r total S' Q, reparam_term eigh 0 dim npen S lam = Some (r, total, S', Q) /\
    separates dim npen S lam r total S' Q.
Proof. move=> *; exact: transform. Qed.

(** ** A decomposition as assumed exists *)
Lemma some_eigh : exists eigh, exact_eigh eigh.
Proof.
have h : forall x : nat * (nat -> nat -> R), exists y : (nat -> R) * (nat -> nat -> R), symmetric x.1 x.2 ->
    [/\ orthonormal x.1 y.2,
      forall i j, (i < x.1)%N -> (j < x.1)%N -> x.2 i j = \sum_(k < x.1) y.2 i k * y.1 k * y.2 j k &
      forall i j, (i <= j)%N -> (j < x.1)%N -> Rle (y.1 j) (y.1 i)].
  move=> [q A] /=; case: (boolP true) => // _.
  have [sA|nA] := Classical_Prop.classic (symmetric q A); last by exists (fun _ => 0, fun _ _ => 0) => /nA.
  have [D [U [oU [dU dec]]]] := spectral (symmetric_mx sA).
  pose at_ (i : nat) (j : nat) : R := if insub i is Some a then if insub j is Some b then U a b else 0 else 0.
  pose D' (i : nat) : R := if insub i is Some a then D 0 a else 0.
  have aU : mx q q at_ = U.
    apply/matrixP => i j; rewrite mxE /at_; case: insubP => [a _ ea|]; last by rewrite ltn_ord.
    case: insubP => [b _ eb|]; last by rewrite ltn_ord.
    by congr (U _ _); apply: val_inj.
  have aD : mx q q (diag D') = diag_mx D.
    rewrite mx_diag; congr diag_mx; apply/matrixP => i j; rewrite (ord1 i) mxE /D'.
    by case: insubP => [a _ ea|]; [congr (D _ _); apply: val_inj|rewrite ltn_ord].
  exists (D', at_) => _; split => /=.
  - by apply/orthonormal_mx; rewrite aU.
  - have oU' : U *m U^T = 1%:M by apply: mulmx1C.
    have eA : mx q q A = mx q q at_ *m mx q q (diag D') *m (mx q q at_)^T.
      by rewrite aU aD -dU !mulmxA oU' mul1mx -mulmxA oU' mulmx1.
    move=> i j iq jq; have := congr1 (fun M : 'M_q => M (Ordinal iq) (Ordinal jq)) eA; rewrite mxE => ->.
    rewrite mxE; apply: eq_bigr => k _; rewrite !mxE; congr (_ * _).
    rewrite (bigD1 k) //= !mxE /diag eqxx big1 ?addr0 // => a na.
    by rewrite !mxE (inj_eq val_inj) (negbTE na) mulr0.
  move=> i j ij jq; have iq := leq_ltn_trans ij jq.
  have := dec (Ordinal iq) (Ordinal jq) ij; rewrite /D'.
  by rewrite (insubT (fun a => a < q)%N iq) (insubT (fun a => a < q)%N jq).
pose f x := sval (constructive_indefinite_description _ (h x)).
exists (fun q A => f (q, A)) => q A sA.
exact: (svalP (constructive_indefinite_description _ (h (q, A)))) sA.
Qed.

(** ** Cases *)
Lemma ne01 : (1 : R) <> 0. Proof. by apply/eqP; rewrite oner_eq0. Qed.

(** Two penalties on two coefficients, one each. *)
Definition own (k : nat) : nat -> nat -> R := fun i j => if (i == k) && (j == k) then 1 else 0.
Definition unit_lam (_ : nat) : R := 1.

Lemma own_form k x : (k < 2)%N -> form 2 (own k) x = x k * x k.
Proof.
by case: k => [|[|//]] _; rewrite /form !big_ord_recr !big_ord0 /own /= !(mulr0, mul0r, mulr1, add0r, addr0).
Qed.
Lemma own_penalty k : (k < 2)%N -> penalty 2 (own k).
Proof.
move=> k2; split=> [i j _ _|x|].
- by rewrite /own andbC.
- by rewrite own_form //; exact: sq_ge0.
by exists k, k; split=> //; rewrite /own eqxx; exact: ne01.
Qed.

Example C99_case : exists eigh, exact_eigh eigh /\
  (forall k, (k < 2)%N -> Rlt 0 (unit_lam k)) /\ (forall k, (k < 2)%N -> penalty 2 (own k)) /\
  ~ (exists k, dominant 2 2 own unit_lam k).
Proof.
have [eigh ex] := some_eigh; exists eigh; split=> //; split; first by move=> *; exact: Rlt_0_1.
split; first exact: own_penalty.
move=> [k [k2 _ /(_ (fun i => if i == k then 0 else 1))]].
rewrite own_form // eqxx mul0r => /(_ erefl (1 - k)%N).
case: k k2 => [|[|//]] _ /(_ isT); rewrite own_form //= mul1r; exact: ne01.
Qed.

(** ** Refutations *)
Lemma one_positive eigh (A : mat) : exact_eigh eigh -> Rlt 0 (A 0%N 0%N) -> positive 0 1 (eigh 1%N A).1 = 1%N.
Proof.
move=> ex a0.
have sA : symmetric 1 A by move=> i j; rewrite !ltnS !leqn0 => /eqP -> /eqP ->.
have pA : psd (mx 1 1 A).
  split=> [|x]; first exact: symmetric_mx.
  rewrite quadE !big_ord1 !mxE; have := sq_ge0 (x 0 0) => s; have -> : x 0 0 * A 0%N 0%N * x 0 0 = A 0%N 0%N * (x 0 0 * x 0 0) by eqR; ring.
  by apply: Rmult_le_pos => //; exact: Rlt_le.
have [le h] := positive_spec ex pA; apply/eqP; rewrite eqn_leq le lt0n; apply/eqP => z.
have := h 0%N isT; rewrite z /= => D0.
have [_ e _] := ex _ _ sA; have := e 0%N 0%N isT isT; rewrite big_ord1 D0 mulr0 mul0r => A0.
by move: a0; rewrite A0 => /Rlt_irrefl.
Qed.

(** One coefficient with two penalties: the weighted sum that is returned holds the first one only. *)
Definition both : nat -> nat -> nat -> R := fun _ _ _ => 1.

Lemma both_form x : form 1 (both 0) x = x 0%N * x 0%N.
Proof. by rewrite /form !big_ord1 /both mulr1. Qed.
Lemma both_penalty k : penalty 1 (both k).
Proof.
split=> // [x|]; first by rewrite -[both k]/(both 0) both_form; exact: sq_ge0.
by exists 0%N, 0%N; split=> //; exact: ne01.
Qed.

Theorem C99_dominant_refuted eigh : exact_eigh eigh ->
  exists dim npen S lam, (0 < npen)%N /\ (forall k, (k < npen)%N -> Rlt 0 (lam k)) /\
    (forall k, (k < npen)%N -> penalty dim (S k)) /\
    exists r total S' Q, reparam_term eigh 0 dim npen S lam = Some (r, total, S', Q) /\
      ~ separates dim npen S lam r total S' Q.
Proof.
move=> ex; exists 1%N, 2%N, both, unit_lam; split=> //; split; first by move=> *; exact: Rlt_0_1.
split; first by move=> *; exact: both_penalty.
have np k : Rlt 0 (norm 1 (both k)).
  by rewrite norm_size2; apply: sqrt_lt_R0; rewrite /size2 !big_ord1 mulr1; exact: Rlt_0_1.
rewrite /reparam_term [eigh 1%N _]surjective_pairing (one_positive ex) //; last first.
  rewrite /= !big_ord_recr big_ord0 /= add0r !mul1r; have i0 k : Rlt 0 (norm 1 (both k))^-1.
    by rewrite -RinvE; [exact: Rinv_0_lt_compat|move=> z; have := np k; rewrite z => /Rlt_irrefl].
  by apply: Rplus_lt_0_compat.
rewrite /= /pass [eigh _ _]surjective_pairing (one_positive ex) /=; last by rewrite /scale /both mulr1; exact: Rlt_0_1.
do 4!eexists; split; first by [].
move=> [_ _ _ /(_ 0%N 0%N isT isT) + _]; rewrite !big_ord_recr big_ord0 /= add0r /scale /both mulr1 => /eqP.
rewrite eq_sym -subr_eq0 addrK => /eqP; exact: ne01.
Qed.

(** Two coefficients, two penalties on the first: an exception. *)
Definition first (_ : nat) : nat -> nat -> R := own 0.

Theorem C99_shape_refuted eigh : exact_eigh eigh ->
  exists dim npen S lam, (0 < npen)%N /\ (forall k, (k < npen)%N -> Rlt 0 (lam k)) /\
    (forall k, (k < npen)%N -> penalty dim (S k)) /\ reparam_term eigh 0 dim npen S lam = None.
Proof.
move=> ex; exists 2%N, 2%N, first, unit_lam; split=> //.
have l0 : forall k, (k < 2)%N -> Rlt 0 (unit_lam k) by move=> *; exact: Rlt_0_1.
have pe : forall k, (k < 2)%N -> penalty 2 (first k) by move=> k _; exact: own_penalty.
split=> //; split=> //.
have psN := N_psd pe; have rd := r_dim ex pe.
rewrite /reparam_term [eigh 2%N _]surjective_pairing /=.
move: psN rd; set N := (fun i j => \sum_(k < 2) _); set D := (eigh 2%N N).1; set r := positive 0 2 D.
move=> psN rd.
have N00 : N 0%N 0%N <> 0.
  have i0 : Rlt 0 (norm 2 (own 0))^-1 by exact: (inv_pos pe (k := 0%N)).
  rewrite /N !big_ord_recr big_ord0 /= add0r /first /own /= mul1r => z.
  by have := Rplus_lt_0_compat _ _ i0 i0; rewrite RplusE z => /Rlt_irrefl.
have N11 : N 1%N 1%N = 0 by rewrite /N big1 // => k _; rewrite /first /own /= mul0r.
have [_ h] := positive_spec ex psN; rewrite -/D -/r in h.
have sN := eig_sym psN; have [oU eN _] := ex _ _ sN.
have r1 : r = 1%N.
  move: rd h; case: (r) => [|[//|[|//]]] _ h.
    have := eN 0%N 0%N isT isT; rewrite big1 => [z|k _]; first by case: N00.
    by rewrite -/D h ?mulr0 ?mul0r.
  have := eN 1%N 1%N isT isT; rewrite N11 !big_ord_recr big_ord0 /= add0r -/D => z.
  have d0 := h 0%N isT; have d1 := h 1%N isT; rewrite /= in d0 d1.
  have := (eig_orth' ex psN); move=> /matrixP /(_ 1 1); rewrite !mxE !big_ord_recr big_ord0 /= add0r !mxE /= => o.
  exfalso; exact: (@two_squares _ _ _ _ d0 d1 (esym z) o).
have pos : Rlt 0 (mul 2 (tr (eigh 2%N N).2) (mul 2 (own 0) (eigh 2%N N).2) 0%N 0%N).
  rewrite /mul /tr /own !big_ord_recr !big_ord0 /= !(mul0r, mulr0, mul1r, add0r, addr0); apply: sq_gt0.
  apply/eqP => z; case: N00; have := eN 0%N 0%N isT isT; rewrite !big_ord_recr big_ord0 /= z !mul0r !add0r => ->.
  by have := h 1%N isT; rewrite r1 /= /D => ->; rewrite mulr0 mul0r.
rewrite r1 /= /pass [eigh _ _]surjective_pairing (one_positive ex) //=.
by rewrite /scale /unit_lam mul1r.
Qed.

Print Assumptions C99_transform.
Print Assumptions C99_dominant_refuted.
Print Assumptions C99_shape_refuted.
