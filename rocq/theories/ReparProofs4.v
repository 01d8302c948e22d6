(** The similarity transform of a term. *)

From Coq Require Import Reals Lra.
From mathcomp Require Import all_ssreflect all_algebra.
From Verif Require Import RealField RealMat RealEigen ReparModel ReparSpec ReparProofs ReparProofs2 ReparProofs3.
Import GRing.Theory.
Set Implicit Arguments.
Unset Strict Implicit.
Unset Printing Implicit Defensive.
Local Open Scope ring_scope.

(** ** From the specification to matrices *)
Definition vec q (x : nat -> R) : 'cV[R]_q := \col_(i < q) x i.

Lemma form_quad q A x : form q A x = quad (mx q q A) (vec q x).
Proof. by rewrite quadE; apply: eq_bigr => i _; apply: eq_bigr => j _; rewrite !mxE. Qed.
Lemma vec_col q (v : 'cV[R]_q) : exists x, v = vec q x.
Proof.
exists (fun i => if insub i is Some j then v j 0 else 0); apply/matrixP => i j; rewrite (ord1 j) !mxE.
case: insubP => [k _ e|]; last by rewrite ltn_ord.
by congr (v _ _); apply: val_inj.
Qed.
Lemma symmetric_mx q A : symmetric q A -> (mx q q A)^T = mx q q A.
Proof. by move=> s; apply/matrixP => i j; rewrite !mxE s. Qed.
Lemma penalty_psd q A : penalty q A -> psd (mx q q A).
Proof.
move=> [s p _]; split=> [|v]; first exact: symmetric_mx.
by have [x ->] := vec_col v; rewrite -form_quad.
Qed.
Lemma in_basis_mx q Qm A B : in_basis q Qm A B <-> mx q q B = (mx q q Qm)^T *m mx q q A *m mx q q Qm.
Proof.
have e : forall i j, ((mx q q Qm)^T *m mx q q A *m mx q q Qm) i j = \sum_(a < q) \sum_(b < q) Qm a i * A a b * Qm b j.
  move=> i j; rewrite mxE exchange_big; apply: eq_bigr => b _; rewrite mxE mulr_suml.
  by apply: eq_bigr => a _; rewrite !mxE.
split=> [h|h i j iq jq]; first by apply/matrixP => i j; rewrite e mxE h.
by have := congr1 (fun M : 'M_q => M (Ordinal iq) (Ordinal jq)) h; rewrite mxE e.
Qed.
Lemma orthonormal_mx q U : orthonormal q U <-> (mx q q U)^T *m mx q q U = 1%:M.
Proof.
have e : forall i j, ((mx q q U)^T *m mx q q U) i j = \sum_(a < q) U a i * U a j.
  by move=> i j; rewrite mxE; apply: eq_bigr => a _; rewrite !mxE.
split=> [h|h i j iq jq].
  by apply/matrixP => i j; rewrite e h // mxE -(inj_eq val_inj) /=; case: eqP.
have := congr1 (fun M : 'M_q => M (Ordinal iq) (Ordinal jq)) h; rewrite e mxE -(inj_eq val_inj) /= => ->.
by case: eqP.
Qed.
Lemma size2_tr q A : size2 q A = \tr (mx q q A *m (mx q q A)^T).
Proof. by apply: eq_bigr => i _; rewrite mxE; apply: eq_bigr => j _; rewrite !mxE. Qed.
Lemma norm_size2 q A : norm q A = sqrt (size2 q A).
Proof. by congr (sqrt _); apply: eq_bigr => i _; apply: eq_bigr => j _; rewrite expr2. Qed.
Lemma size2_gt0 q A i j : (i < q)%N -> (j < q)%N -> A i j <> 0 -> Rlt 0 (size2 q A).
Proof.
move=> iq jq /eqP ne; apply: (@sum_gt0 _ _ _ (Ordinal iq)); rewrite ?mem_index_enum //.
  by move=> a; apply: sum_ge0 => b; exact: sq_ge0.
apply: (@sum_gt0 _ _ _ (Ordinal jq)); rewrite ?mem_index_enum //; [move=> b; exact: sq_ge0|exact: sq_gt0].
Qed.
Lemma cornered_mx dim r A : (r <= dim)%N -> mx dim dim (cornered r A) = sel dim r 0 *m mx r r A *m (sel dim r 0)^T.
Proof.
move=> le; have -> : mx dim dim (cornered r A) = mx dim dim (block r r A zeros zeros zeros).
  by apply/mx_ext => i j _ _; rewrite /cornered /block; case: ltnP => h; case: ltnP => h'.
by rewrite (mx_block _ _ _ _ (subnKC le)) !mx_zeros !mulmx0 !mul0mx !addr0.
Qed.
Lemma sum_iota (T : zmodType) n (f : nat -> T) : \sum_(k < n) f k = \sum_(k <- iota 0 n) f k.
Proof. by rewrite -(big_mkord xpredT) /index_iota subn0. Qed.
Lemma mem_iota0 n k : (k \in iota 0 n) = (k < n)%N.
Proof. by rewrite mem_iota add0n. Qed.

(** ** The range space *)
Section Term.
Variables (eigh : nat -> mat -> (nat -> R) * mat) (dim npen : nat) (SJ : nat -> mat) (lam : nat -> R).
Hypotheses (ex : exact_eigh eigh) (np0 : (0 < npen)%N) (lam0 : forall k, (k < npen)%N -> Rlt 0 (lam k))
  (pen : forall k, (k < npen)%N -> penalty dim (SJ k)).
Let N : mat := fun i j => \sum_(k < npen) SJ k i j / norm dim (SJ k).
Let D := (eigh dim N).1.
Let U2 := (eigh dim N).2.
Let r := positive 0 dim D.
Let Sb : nat -> mat := fun k => if (r < dim)%N then mul dim (tr U2) (mul dim (SJ k) U2) else SJ k.
Let U0 : 'M[R]_dim := if (r < dim)%N then mx dim dim U2 else 1%:M.
Let G := sel dim r 0.
Let H := sel dim (dim - r) r.

Lemma norm_pos k : (k < npen)%N -> Rlt 0 (norm dim (SJ k)).
Proof. by move=> /pen[_ _ [i [j [iq jq ne]]]]; rewrite norm_size2; apply: sqrt_lt_R0; exact: size2_gt0 ne. Qed.
Lemma inv_pos k : (k < npen)%N -> Rlt 0 (norm dim (SJ k))^-1.
Proof.
move=> /norm_pos h; rewrite -RinvE; first exact: Rinv_0_lt_compat.
by move=> z; move: h; rewrite z => /Rlt_irrefl.
Qed.
Lemma N_mx : mx dim dim N = \sum_(k <- iota 0 npen) (norm dim (SJ k))^-1 *: mx dim dim (SJ k).
Proof.
by rewrite -mx_sum; apply/mx_ext => i j _ _; rewrite /N (sum_iota npen (fun k => SJ k i j / norm dim (SJ k))); apply: eq_bigr => k _; rewrite mulrC.
Qed.
Lemma SJ_psd k : (k < npen)%N -> psd (mx dim dim (SJ k)). Proof. by move=> /pen; exact: penalty_psd. Qed.
Lemma N_psd : psd (mx dim dim N).
Proof. by rewrite N_mx; apply: psd_sum => k; rewrite mem_iota0; [exact: inv_pos|exact: SJ_psd]. Qed.
Lemma N_zero x : quad (mx dim dim N) x = 0 -> forall k, (k < npen)%N -> mx dim dim (SJ k) *m x = 0.
Proof.
rewrite N_mx => h k kn; apply: (psd_sum0 _ _ h); rewrite ?mem_iota0 // => j; rewrite mem_iota0; [exact: inv_pos|exact: SJ_psd].
Qed.

Lemma r_dim : (r <= dim)%N. Proof. exact: (positive_spec ex N_psd).1. Qed.
Lemma d_pos i : (i < r)%N -> Rlt 0 (D i).
Proof. by move=> h; have := (positive_spec ex N_psd).2 i (leq_trans h r_dim); rewrite -/D -/r h. Qed.
Lemma d_zero i : (r <= i)%N -> (i < dim)%N -> D i = 0.
Proof. by move=> h h'; have := (positive_spec ex N_psd).2 i h'; rewrite -/D -/r ltnNge h. Qed.
Lemma U0_orth : U0^T *m U0 = 1%:M.
Proof. by rewrite /U0; case: ltnP => _; rewrite ?trmx1 ?mulmx1 //; exact: (eig_orth ex N_psd). Qed.
Lemma U0_orth' : U0 *m U0^T = 1%:M. Proof. by apply: mulmx1C; exact: U0_orth. Qed.
Lemma gG : (0 + r <= dim)%N. Proof. exact: r_dim. Qed.
Lemma gH : (r + (dim - r) <= dim)%N. Proof. by rewrite subnKC ?r_dim. Qed.
Lemma GH : G *m G^T + H *m H^T = 1%:M. Proof. by apply: sel_split; exact: subnKC r_dim. Qed.

Lemma SJ_null k : (k < npen)%N -> mx dim dim (SJ k) *m U0 *m H = 0.
Proof.
move=> kn; apply/matrixP => i j.
have jd : (r + j < dim)%N by rewrite -[X in (_ < X)%N](subnKC r_dim) ltn_add2l.
have rd : (r < dim)%N by apply: leq_trans jd; rewrite ltnS leq_addr.
have z : quad (mx dim dim N) (U0 *m H *m delta_mx j 0) = 0.
  rewrite -mulmxA -quad_congr /U0 rd (eig_diag ex N_psd) -quad_congr /H selT ?gH // mx_selR ?gH // quad_delta mxE /diag eqxx.
  by apply: d_zero => //; rewrite leq_addr.
have := N_zero z kn; rewrite !mulmxA -colE => /(congr1 (fun v : 'cV_dim => v i 0)).
by rewrite mxE => ->; rewrite !mxE.
Qed.

Lemma Sb_mx k : mx r r (Sb k) = G^T *m (U0^T *m mx dim dim (SJ k) *m U0) *m G.
Proof.
rewrite /Sb /U0; case: ltnP => _; last by rewrite trmx1 mul1mx mulmx1 /G selT ?gG // mx_selR ?gG.
have -> : (mx dim dim U2)^T *m mx dim dim (SJ k) *m mx dim dim U2 = mx dim dim (mul dim (tr U2) (mul dim (SJ k) U2)).
  by rewrite !mx_mul mx_tr mulmxA.
by rewrite /G selT ?gG // mx_selR ?gG.
Qed.
Lemma SJ_corner k : (k < npen)%N -> U0^T *m mx dim dim (SJ k) *m U0 = G *m mx r r (Sb k) *m G^T.
Proof.
move=> kn; rewrite Sb_mx; have [M dM] : exists M, M = U0^T *m mx dim dim (SJ k) *m U0 by eexists.
have sM : M^T = M by rewrite dM !trmx_mul trmxK (SJ_psd kn).1 mulmxA.
have z : M *m H = 0 by rewrite dM -!mulmxA [_ *m (U0 *m H)]mulmxA SJ_null // mulmx0.
rewrite -dM; have e : M *m (G *m G^T) = M by rewrite -[RHS]mulmx1 -GH mulmxDr !mulmxA z mul0mx addr0.
have -> : G *m (G^T *m M *m G) *m G^T = (G *m G^T) *m (M *m (G *m G^T)) by rewrite !mulmxA.
rewrite e; apply: trmx_inj; by rewrite trmx_mul sM trmx_mul trmxK e.
Qed.
Lemma Sb_psd k : (k < npen)%N -> psd (mx r r (Sb k)).
Proof. by move=> kn; rewrite Sb_mx; apply: psd_congr; apply: psd_congr; exact: SJ_psd. Qed.
Lemma SJ_quad k x : (k < npen)%N -> quad (mx dim dim (SJ k)) x = quad (mx r r (Sb k)) (G^T *m (U0^T *m x)).
Proof.
move=> kn; have {1}-> : x = U0 *m (U0^T *m x) by rewrite mulmxA U0_orth' mul1mx.
rewrite -quad_congr SJ_corner //.
have -> : G *m mx r r (Sb k) *m G^T = (G^T)^T *m mx r r (Sb k) *m G^T by rewrite trmxK.
exact: quad_congr.
Qed.

Let tot : 'M[R]_r := \sum_(k <- iota 0 npen) lam k *: mx r r (Sb k).
Lemma tot_pd : pd tot.
Proof.
have hs : psd tot by apply: psd_sum => k; rewrite mem_iota0; [exact: lam0|exact: Sb_psd].
split; first exact: hs.1.
move=> y y0; case: (Rle_lt_or_eq_dec _ _ (hs.2 y)) => // /esym z.
case/negP: y0; apply/eqP.
have zk k : (k < npen)%N -> mx r r (Sb k) *m y = 0.
  by move=> kn; apply: (psd_sum0 _ _ z); rewrite ?mem_iota0 // => j; rewrite mem_iota0; [exact: lam0|exact: Sb_psd].
have v0 : mx dim dim N *m (U0 *m (G *m y)) = 0.
  apply: psd_kernel N_psd _.
  have -> : quad (mx dim dim N) (U0 *m (G *m y)) = \sum_(k <- iota 0 npen) (norm dim (SJ k))^-1 * quad (mx dim dim (SJ k)) (U0 *m (G *m y)).
    rewrite N_mx; elim: (iota 0 npen) => [|a l ih]; first by rewrite !big_nil /quad mulmx0 mul0mx mxE.
    by rewrite !big_cons quadD quadZ ih.
  rewrite big_seq big1 // => k; rewrite mem_iota0 => kn; rewrite SJ_quad //.
  by rewrite ![U0^T *m _]mulmxA U0_orth mul1mx [G^T *m _]mulmxA sel_orth ?gG // mul1mx /quad -mulmxA zk // mulmx0 mxE mulr0.
have [w dw] : exists w, w = (mx dim dim U2)^T *m (U0 *m (G *m y)) by eexists.
have Dw : mx dim dim (diag D) *m w = 0.
  rewrite dw -(eig_diag ex N_psd) -!mulmxA [mx dim dim _ *m ((mx dim dim _)^T *m _)]mulmxA.
  by rewrite (eig_orth' ex N_psd) mul1mx v0 mulmx0.
have w0 (i : 'I_dim) : (i < r)%N -> w i 0 = 0.
  move=> ir; have := congr1 (fun v : 'cV_dim => v i 0) Dw; rewrite [LHS]mxE (bigD1 i) //= big1 => [|a na].
    rewrite [RHS]mxE addr0 mxE /diag eqxx => /eqP; rewrite mulf_eq0 => /orP[/eqP z'|/eqP //].
    by have := d_pos ir; rewrite z' => /Rlt_irrefl.
  by rewrite mxE /diag eq_sym (inj_eq val_inj) (negbTE na) mul0r.
have [rd|rd] := ltnP r dim.
  move: dw; rewrite /U0 rd mulmxA (eig_orth ex N_psd) mul1mx => dw.
  have e : G^T *m w = y by rewrite dw mulmxA sel_orth ?gG // mul1mx.
  rewrite -e; apply/matrixP => i j; rewrite (ord1 j) [RHS]mxE mxE big1 // => a _.
  rewrite !mxE add0n; case: eqP => [ai|]; rewrite ?mul0r // mul1r; apply: w0; by rewrite ai.
have wz : w = 0 by apply/matrixP => i j; rewrite (ord1 j) w0 ?mxE //; exact: leq_trans (ltn_ord i) rd.
have : G *m y = 0.
  have := congr1 (mulmx (mx dim dim U2)) dw; rewrite wz mulmx0 mulmxA (eig_orth' ex N_psd) mul1mx => /esym.
  by rewrite /U0 ltnNge rd /= mul1mx.
by move/(congr1 (mulmx G^T)); rewrite mulmxA sel_orth ?gG // mul1mx mulmx0.
Qed.

Lemma size2_same k : (k < npen)%N -> size2 r (fun a b => lam k * Sb k a b) = size2 dim (fun a b => lam k * SJ k a b).
Proof.
move=> kn; have sc q f : size2 q (fun a b => lam k * f a b) = lam k * lam k * \tr (mx q q f *m (mx q q f)^T).
  rewrite size2_tr -[mx q q _]/(mx q q (scale (lam k) f)) mx_scale linearZ /= -scalemxAl -scalemxAr !mxtraceZ.
  by rewrite mulrA.
rewrite !sc; congr (_ * _).
have e : mx dim dim (SJ k) = U0 *m (G *m mx r r (Sb k) *m G^T) *m U0^T.
  by rewrite -SJ_corner // !mulmxA U0_orth' mul1mx -mulmxA U0_orth' mulmx1.
rewrite e -[RHS]mxtrace_mulC !trmx_mul !trmxK.
have [B dB] : exists B, B = mx r r (Sb k) by eexists.
rewrite -dB -!mulmxA [U0^T *m (U0 *m _)]mulmxA U0_orth mul1mx.
rewrite [RHS]mxtrace_mulC -!mulmxA U0_orth mulmx1 [G^T *m (G *m _)]mulmxA sel_orth ?gG // mul1mx.
by rewrite [RHS]mxtrace_mulC -!mulmxA sel_orth ?gG // mulmx1 mxtrace_mulC.
Qed.

Let s0 := State None None Sb Sb 0 r (iota 0 npen).

Lemma first_inv : inv dim npen Sb lam s0 (1%:M : 'M[R]_r).
Proof.
have E1 : sel r r 0 = 1%:M by apply/matrixP => i j; rewrite !mxE.
have e : mx r r (cur_S npen Sb lam s0) = tot by rewrite /cur_S /= mx_sum.
split=> //=; rewrite ?E1 ?trmx1 ?mul1mx ?mulmx1 //.
- exact: iota_uniq.
- by move=> k; rewrite mem_iota0.
- by move=> /(congr1 size) /=; rewrite size_iota => n0; move: np0; rewrite n0.
- by move=> k _; rewrite mul1mx mulmx1.
- by move=> k _; rewrite mul1mx mulmx1.
- by move=> k kn; rewrite mem_iota0 kn.
Qed.

Lemma first_break : positive 0 r (eigh r (scale (lam (am_norm lam s0)) (Sb (am_norm lam s0)))).1 = r ->
  dominant dim npen SJ lam (am_norm lam s0).
Proof.
set am := am_norm lam s0 => full.
have [ai mxm] := am_norm_spec lam (ine first_inv); rewrite -/am /= in ai mxm.
have an : (am < npen)%N by rewrite -mem_iota0.
split=> // [j jn|x].
  rewrite -!size2_same //; have := mxm j; rewrite mem_iota0 !norm_size2 => /(_ jn) h.
  apply: sqrt_le_0 => //; apply: sum_ge0 => a; apply: sum_ge0 => b; exact: sq_ge0.
rewrite form_quad SJ_quad // => z j jn; rewrite form_quad SJ_quad //.
have [y dy] : exists y, y = G^T *m (U0^T *m vec dim x) by eexists.
rewrite -dy in z; rewrite -dy.
have pa : psd (mx r r (scale (lam am) (Sb am))).
  by rewrite mx_scale; apply: psd_scale; [exact: lam0|exact: Sb_psd].
have [w dw] : exists w, w = (mx r r (eigh r (scale (lam am) (Sb am))).2)^T *m y by eexists.
have Ay : mx r r (Sb am) *m y = 0 by apply: psd_kernel => //; exact: Sb_psd.
have Dw : mx r r (diag (eigh r (scale (lam am) (Sb am))).1) *m w = 0.
  rewrite dw -(eig_diag ex pa) -!mulmxA [mx r r _ *m ((mx r r _)^T *m _)]mulmxA.
  by rewrite (eig_orth' ex pa) mul1mx mx_scale -scalemxAl Ay scaler0 mulmx0.
have w0 : w = 0.
  apply/matrixP => i l; rewrite (ord1 l) [RHS]mxE.
  have := congr1 (fun v : 'cV_r => v i 0) Dw; rewrite [LHS]mxE (bigD1 i) //= big1 => [|a na].
    rewrite [RHS]mxE addr0 mxE /diag eqxx => /eqP; rewrite mulf_eq0 => /orP[/eqP z'|/eqP //].
    have := (positive_spec ex pa).2 i (ltn_ord i); rewrite full ltn_ord.
    by rewrite z' => /Rlt_irrefl.
  by rewrite mxE /diag eq_sym (inj_eq val_inj) (negbTE na) mul0r.
have y0 : y = 0.
  by rewrite -[y]mul1mx -(eig_orth' ex pa) -mulmxA -dw w0 mulmx0.
by rewrite y0 /quad mulmx0 mxE.
Qed.

Lemma separates_mx (W : 'M[R]_r) (total : mat) (S' : nat -> mat) (Qb : mat) :
  W^T *m W = 1%:M -> mx r r total = W^T *m tot *m W ->
  (forall k, (k < npen)%N -> mx r r (S' k) = W^T *m mx r r (Sb k) *m W) ->
  mx dim dim Qb = U0 *m pad dim W ->
  separates dim npen SJ lam r total S' Qb.
Proof.
move=> oW et eS eQ; split.
- exact: r_dim.
- apply/orthonormal_mx; rewrite eQ trmx_mul mulmxA -[_ *m U0^T *m U0]mulmxA U0_orth mulmx1 padT pad_mul ?r_dim // oW.
  by rewrite pad1 ?r_dim.
- move=> k kn; apply/in_basis_mx; rewrite eQ cornered_mx ?r_dim // eS // -pad_corner ?r_dim // -SJ_corner //.
  by rewrite trmx_mul !mulmxA.
- have -> : (forall i j, (i < r)%N -> (j < r)%N -> total i j = \sum_(k < npen) lam k * S' k i j) <->
     mx r r total = mx r r (fun i j => \sum_(k < npen) lam k * S' k i j) by exact: mx_ext.
  rewrite et; transitivity (mx r r (fun i j => \sum_(k <- iota 0 npen) lam k * S' k i j)); last first.
    by apply/mx_ext => i j _ _; rewrite (sum_iota npen (fun k => lam k * S' k i j)).
  rewrite mx_sum /tot mulmx_sumr mulmx_suml big_seq [RHS]big_seq; apply: eq_bigr => k; rewrite mem_iota0 => kn.
  by rewrite eS // -scalemxAr -scalemxAl.
move=> x [i [ir xi]]; rewrite form_quad et quad_congr; apply: tot_pd.2; apply/eqP => z.
have := congr1 (mulmx W^T) z; rewrite mulmxA oW mul1mx mulmx0 => /(congr1 (fun v : 'cV_r => v (Ordinal ir) 0)).
by rewrite !mxE.
Qed.

Theorem transform : (npen = 1%N \/ ~ exists k, dominant dim npen SJ lam k) ->
  exists rr total S' Qb, reparam_term eigh 0 dim npen SJ lam = Some (rr, total, S', Qb) /\
    separates dim npen SJ lam rr total S' Qb.
Proof.
move=> nd; rewrite /reparam_term -/N [eigh dim N]surjective_pairing -/D -/U2 -/r -/Sb.
case: eqP => [n1|n1].
  exists r, (scale (lam 0%N) (Sb 0%N)), Sb, (if (r < dim)%N then U2 else eye); split=> //.
  apply: (@separates_mx 1%:M); rewrite ?trmx1 ?mul1mx ?mulmx1 //.
  - by rewrite /tot n1 big_seq1 mx_scale.
  - by move=> k _; rewrite mul1mx mulmx1.
  by rewrite pad1 ?r_dim // mulmx1 /U0; case: ltnP => // _; rewrite mx_eye.
have {}nd : ~ exists k, dominant dim npen SJ lam k by case: nd.
have [|s' [W [el [I h]]]] := @loop_inv _ _ _ _ _ _ ex lam0 r_dim Sb_psd tot_pd _ _ npen first_inv.
  by rewrite size_iota.
rewrite el; case eS : (S_rep s') => [A|]; last first.
  by case: nd; have [_ full] := h eS; exists (am_norm lam s0); exact: first_break.
have := iR I; case eQ : (Q_rep s') => [[rows Q0]|]; last by rewrite eS => -[].
move=> [_ [er eQ0]]; rewrite er eqxx.
have hs := iS I; rewrite /cur_S eS in hs.
case: ltnP => rd; do 4!eexists; (split; first by []); apply: (@separates_mx W); rewrite ?(iW I) //.
- by move=> k kn; rewrite (iJ I kn).
- by rewrite mx_mul eQ0 /U0 rd.
- by move=> k kn; rewrite (iJ I kn).
by rewrite eQ0 /U0 ltnNge rd mul1mx.
Qed.
End Term.
