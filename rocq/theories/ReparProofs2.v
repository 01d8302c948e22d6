(** One pass of the similarity transform keeps its invariant. *)

From Coq Require Import Reals Lra.
From mathcomp Require Import all_ssreflect all_algebra.
From Verif Require Import RealField RealMat RealEigen ReparModel ReparSpec ReparProofs.
Import GRing.Theory.
Set Implicit Arguments.
Unset Strict Implicit.
Unset Printing Implicit Defensive.
Local Open Scope ring_scope.

(** ** Turning the last coordinates *)
Section Turn.
Variables (p k q r n : nat) (P : 'M[R]_(p, k)) (E : 'M[R]_(p, q)) (U : 'M[R]_q) (F : 'M[R]_(q, n)) (G : 'M[R]_(q, r)).
Hypotheses (PE : P *m P^T + E *m E^T = 1%:M) (pP : P^T *m P = 1%:M) (eE : E^T *m E = 1%:M)
  (pe : P^T *m E = 0) (ep : E^T *m P = 0) (GF : G *m G^T + F *m F^T = 1%:M) (uU : U^T *m U = 1%:M).

Definition turn (V : 'M[R]_q) : 'M[R]_p := P *m P^T + E *m V *m E^T.

Lemma turnT V : (turn V)^T = turn V^T.
Proof. by rewrite /turn linearD /= !trmx_mul !trmxK !mulmxA. Qed.
Lemma turn_E V : turn V *m E = E *m V.
Proof. by rewrite mulmxDl -!mulmxA pe eE mulmx0 mulmx1 add0r. Qed.
Lemma turn_P V : turn V *m P = P.
Proof. by rewrite mulmxDl -!mulmxA pP ep !mulmx0 mulmx1 addr0. Qed.
Lemma turn_mul V W : turn V *m turn W = turn (V *m W).
Proof. by rewrite {2}/turn mulmxDr mulmxA turn_P -[E *m W *m _]mulmxA mulmxA turn_E /turn !mulmxA. Qed.
Lemma turn_orth : (turn U)^T *m turn U = 1%:M.
Proof. by rewrite turnT turn_mul uU /turn mulmx1. Qed.

Lemma turn_total S : S^T = S ->
  (turn U)^T *m S *m turn U =
  P *m (P^T *m S *m P) *m P^T + P *m (P^T *m S *m E *m U) *m E^T
  + E *m (P^T *m S *m E *m U)^T *m P^T + E *m (U^T *m (E^T *m S *m E) *m U) *m E^T.
Proof.
move=> s; rewrite turnT [turn U^T]/turn !mulmxDl /turn !mulmxDr !trmx_mul s trmxK !mulmxA.
by rewrite -!addrA.
Qed.

Lemma turn_keep S : S^T = S -> S *m E = 0 -> (turn U)^T *m S *m turn U = S.
Proof.
move=> s z; have e : S *m turn U = S.
  by rewrite /turn mulmxDr !mulmxA z !mul0mx addr0 -[RHS]mulmx1 -PE mulmxDr !mulmxA z mul0mx addr0.
rewrite -mulmxA e; apply: trmx_inj; by rewrite trmx_mul trmxK s e.
Qed.

Lemma turn_cut S : S^T = S -> ((turn U)^T *m S *m turn U) *m (E *m F) = 0 ->
  (turn (U *m (G *m G^T)))^T *m S *m turn (U *m (G *m G^T)) = (turn U)^T *m S *m turn U.
Proof.
move=> s z; have [M dM] : exists M, M = (turn U)^T *m S *m turn U by eexists.
have sM : M^T = M by rewrite dM !trmx_mul trmxK s mulmxA.
have [Z dZ] : exists Z, Z = 1%:M - E *m F *m (E *m F)^T by eexists.
have sZ : Z^T = Z by rewrite dZ [(_ - _)^T]linearB /= trmx1 trmx_mul trmxK.
have -> : turn (U *m (G *m G^T)) = turn U *m Z.
  have -> : G *m G^T = 1%:M - F *m F^T by rewrite -GF addrK.
  have -> : turn U *m Z = turn U - turn U *m E *m F *m (E *m F)^T by rewrite dZ mulmxBr mulmx1 !mulmxA.
  rewrite turn_E /turn trmx_mul.
  by rewrite mulmxBr mulmx1 mulmxBr mulmxBl !mulmxA addrA.
rewrite -dM in z; have e : M *m Z = M by rewrite dZ mulmxBr mulmx1 mulmxA z mul0mx subr0.
have -> : (turn U *m Z)^T *m S *m (turn U *m Z) = Z^T *m (M *m Z) by rewrite dM trmx_mul !mulmxA.
by rewrite e -dM; apply: trmx_inj; rewrite trmx_mul trmxK sM e.
Qed.
End Turn.

Lemma psd_kernel_mx p n (M : 'M[R]_p) (V : 'M[R]_(p, n)) : psd M -> V^T *m M *m V = 0 -> M *m V = 0.
Proof.
move=> h z; apply/matrixP => i j.
have := @psd_kernel _ M (V *m delta_mx j 0) h; rewrite -quad_congr z /quad mulmx0 mul0mx mxE => /(_ erefl).
by rewrite mulmxA -colE => /(congr1 (fun v : 'cV_p => v i 0)); rewrite !mxE.
Qed.

(** ** The penalty with the largest norm *)
Lemma argmax_fold (f : nat -> R) s b a :
  a = foldl (fun best j => if Rlt_dec (f best) (f j) then j else best) b s ->
  a \in b :: s /\ forall j, j \in b :: s -> Rle (f j) (f a).
Proof.
elim: s b => [|k s ih] b /=.
  by move=> ->; rewrite mem_head; split=> // j; rewrite inE => /eqP ->; exact: Rle_refl.
set c := if _ then k else b => /ih[i m].
have cb : Rle (f b) (f c) by rewrite /c; case: Rlt_dec => h; [exact: Rlt_le|exact: Rle_refl].
have ck : Rle (f k) (f c) by rewrite /c; case: Rlt_dec => h; [exact: Rle_refl|exact: Rnot_lt_le].
have mc := m c (mem_head _ _); split=> [|j].
  move: i; rewrite !inE => /orP[/eqP e|h]; last by rewrite h !orbT.
  have [c1|c1] : c = k \/ c = b by rewrite /c; destruct (Rlt_dec (f b) (f k)); [left|right].
    by rewrite e c1 eqxx orbT.
  by rewrite e c1 eqxx.
rewrite !inE => /or3P[/eqP ->|/eqP ->|js]; [exact: Rle_trans cb mc|exact: Rle_trans ck mc|].
by apply: m; rewrite inE js orbT.
Qed.

Lemma am_norm_spec lam s : rem_idx s <> [::] ->
  am_norm lam s \in rem_idx s /\
  forall j, j \in rem_idx s -> Rle (norm (Q s) (scale (lam j) (SJbar s j))) (norm (Q s) (scale (lam (am_norm lam s)) (SJbar s (am_norm lam s)))).
Proof.
rewrite /am_norm; case: (rem_idx s) => // a l _.
exact: (argmax_fold (f := fun j => norm (Q s) (scale (lam j) (SJbar s j)))).
Qed.

(** ** Padding *)
Section Pad.
Variables (dim r : nat).
Hypothesis le : (r <= dim)%N.
Let G := sel dim r 0.
Let H := sel dim (dim - r) r.
Definition pad (M : 'M[R]_r) : 'M[R]_dim := G *m M *m G^T + H *m H^T.

Let hG : (0 + r <= dim)%N. Proof. by []. Qed.
Let hH : (r + (dim - r) <= dim)%N. Proof. by rewrite subnKC. Qed.

Lemma pad_padded T : mx dim dim (padded dim r T) = pad (mx r r T).
Proof.
rewrite /padded /pad /G /H; case: ltnP => h.
  rewrite (mx_block _ _ _ _ (subnKC le)) !mx_zeros mx_eye !mulmx0 !mul0mx !addr0 mulmx1; by [].
have e : dim = r by apply/eqP; rewrite eqn_leq le h.
rewrite [sel dim (dim - r) r](_ : _ = 0) ?mul0mx ?addr0; last first.
  by apply/matrixP => i [j hj]; exfalso; move: hj; rewrite e subnn.
by rewrite e [sel r r 0](_ : _ = 1%:M) ?trmx1 ?mul1mx ?mulmx1 //; apply/matrixP => i j; rewrite !mxE.
Qed.
Lemma pad_mul M N : pad M *m pad N = pad (M *m N).
Proof.
rewrite /pad mulmxDl !mulmxDr.
rewrite -!mulmxA [G^T *m (G *m _)]mulmxA [H^T *m (H *m _)]mulmxA [G^T *m (H *m _)]mulmxA [H^T *m (G *m _)]mulmxA.
by rewrite /G /H !sel_orth // sel_perp // sel_perp' // !mul0mx !mul1mx !mulmx0 addr0 add0r.
Qed.
Lemma padT M : (pad M)^T = pad M^T.
Proof. by rewrite /pad linearD /= !trmx_mul !trmxK !mulmxA. Qed.
Lemma pad1 : pad 1%:M = 1%:M.
Proof. by rewrite /pad mulmx1 /G /H; apply: sel_split; exact: subnKC. Qed.
Lemma pad_G M : pad M *m G = G *m M.
Proof. by rewrite /pad mulmxDl -!mulmxA /G /H sel_orth // sel_perp' // !mulmx0 mulmx1 addr0. Qed.
Lemma pad_corner M N L : (pad M)^T *m (G *m N *m G^T) *m pad L = G *m (M^T *m N *m L) *m G^T.
Proof.
have -> : (pad M)^T *m (G *m N *m G^T) *m pad L = ((pad M)^T *m G) *m N *m (G^T *m pad L) by rewrite !mulmxA.
by rewrite padT pad_G -[pad L]trmxK -trmx_mul padT pad_G trmx_mul trmxK !mulmxA.
Qed.
End Pad.
