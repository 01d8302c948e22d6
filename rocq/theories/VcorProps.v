(** The properties of the correction for uncertainty about the smoothing parameters. *)

From Coq Require Import Reals Lra.
From mathcomp Require Import all_ssreflect all_algebra.
From Verif Require Import RealField RealMat RealEigen EdfProofs2 FamModel VcorModel VcorSpec VcorProofs.
Import GRing.Theory.
Set Implicit Arguments.
Unset Strict Implicit.
Unset Printing Implicit Defensive.
Local Open Scope ring_scope.

(** ** The covariance matrix *)

(** The weights are a distribution, and the ratio of two weights is that of the candidates' (restricted) likelihoods
    times the importance weights. *)
Theorem C124_weights N use prior (remls : 'I_N -> R) : (0 < N)%N ->
  distribution (weights use prior remls) /\
  forall i j, weights use prior remls i * exp (if use then remls j + (if prior is Some d then d j else 0) else 0)
            = weights use prior remls j * exp (if use then remls i + (if prior is Some d then d i else 0) else 0).
Proof.
move=> n0; have ratio (a : 'I_N -> R) i j : softmax a i * exp (a j) = softmax a j * exp (a i).
  by rewrite /softmax mulrAC [RHS]mulrAC [exp (a i) * _]mulrC.
split; first by rewrite /weights; case: use; [case: prior => [d|]|]; exact: softmax_dist.
move=> i j; rewrite /weights; case: use; first by case: prior => [d|]; rewrite ?addr0 (ratio _ i j).
have r := ratio (fun=> 1) i j; have /eqP e : exp 1 != 0 by apply/eqP; exact/Rgt_not_eq/exp_pos.
by rewrite (mulIf _ r) //; apply/eqP.
Qed.

(** Grid type JJJ1: nothing varies less than for known smoothing parameters, and what is added is the covariance that
    follows from the derivatives of the coefficients and of the inverse factor. *)
Theorem C124_fixed n k (lvi H : 'M[R]_n) edf scale c form_t1 (Vr Vpr : 'M[R]_k) (dB : 'M[R]_(n, k)) D N (ws : 'I_N -> R) Vs bs nH :
  Rle 0 scale -> psd Vpr ->
  let V := (correct_VB lvi H edf scale JJJ1 c form_t1 Vr Vpr dB D ws Vs bs nH).1 in
  psd V /\ below (scale *: (lvi^T *m lvi)) V /\
  forall a b, V a b = scale * (lvi^T *m lvi) a b + \sum_p \sum_q (Vr^T *m Vr) p q * (dB a p * dB b q)
    + (if c then scale * \sum_p \sum_q Vpr p q * \sum_m D p a m * D q b m else 0).
Proof.
move=> s0 pV /=; have [p1 p2] := @JJJ1_psd n k lvi scale c Vr Vpr dB D s0 pV; split => //; split => // a b.
rewrite /V_JJJ1 /Vb /Vcc /Vc /Vcr.
have -> : (Vr *m dB^T)^T *m (Vr *m dB^T) = dB *m (Vr^T *m Vr) *m dB^T by rewrite trmx_mul trmxK !mulmxA.
have -> (A B C : 'M[R]_n) : (A + B + C) a b = C a b + A a b + B a b by rewrite !mxE addrC addrA.
congr (_ + _ + _).
- by rewrite mxE.
- rewrite mxE exchange_big; apply: eq_bigr => q _ /=; rewrite !mxE mulr_suml; apply: eq_bigr => p _.
  by rewrite -mulrA mulrCA.
- case: c p1 p2 => p1 p2; last by rewrite mxE.
  rewrite mxE; congr (_ * _); rewrite summxE; apply: eq_bigr => p _; rewrite summxE; apply: eq_bigr => q _.
  by rewrite !mxE; congr (_ * _); apply: eq_bigr => m _; rewrite mxE.
Qed.

(** Grid type JJJ2: the weighted mean of the candidates' covariance matrices, or the covariance matrix for known smoothing
    parameters, and the covariance that follows from the derivatives of the coefficients. *)
Theorem C124_mean n k (lvi H : 'M[R]_n) edf scale c form_t1 (Vr Vpr : 'M[R]_k) (dB : 'M[R]_(n, k)) D N (ws : 'I_N -> R) Vs bs nH :
  Rle 0 scale -> distribution ws -> (forall i, psd (Vs i)) ->
  let V := (correct_VB lvi H edf scale JJJ2 c form_t1 Vr Vpr dB D ws Vs bs nH).1 in
  psd V /\
  exists base : 'M[R]_n, (base = scale *: (lvi^T *m lvi) \/ forall a b, base a b = \sum_i ws i * Vs i a b) /\
    below base V /\ forall a b, V a b = base a b + \sum_p \sum_q (Vr^T *m Vr) p q * (dB a p * dB b q).
Proof.
move=> s0 [w0 w1] pV /=.
pose W := (Vcr Vr dB)^T *m Vcr Vr dB.
have pW : psd W by exact: psd_tt.
have eW a b : W a b = \sum_p \sum_q (Vr^T *m Vr) p q * (dB a p * dB b q).
  have -> : W = dB *m (Vr^T *m Vr) *m dB^T by rewrite /W /Vcr trmx_mul trmxK !mulmxA.
  rewrite mxE exchange_big; apply: eq_bigr => q _ /=; rewrite !mxE mulr_suml; apply: eq_bigr => p _.
  by rewrite -mulrA mulrCA.
have up (B : 'M[R]_n) : below B (B + W) by move=> x; rewrite quadD; have := pW.2 x; Lra.
rewrite /correct_VB /V_JJJ2; case: Rlt_dec => [h|h] /=.
  split; first by apply: psdD => //; exact: Vb_psd.
  exists (Vb lvi scale); split; first by left.
  by split => [|a b]; [exact: up|rewrite mxE eW].
split; first by apply: psdD => //; exact: Vr1_psd.
exists (Vr1 ws Vs); split; first by right=> a b; rewrite /Vr1 summxE; apply: eq_bigr => i _; rewrite mxE.
by split => [|a b]; [exact: up|rewrite mxE eW].
Qed.

(** Grid type JJJ3: the covariance matrix of the mixture of the candidates, or the one of grid type JJJ1. *)
Theorem C124_mixture n k (lvi H : 'M[R]_n) edf scale c form_t1 (Vr Vpr : 'M[R]_k) (dB : 'M[R]_(n, k)) D N (ws : 'I_N -> R) Vs bs nH :
  Rle 0 scale -> psd Vpr -> distribution ws -> (forall i, psd (Vs i)) ->
  let V := (correct_VB lvi H edf scale JJJ3 c form_t1 Vr Vpr dB D ws Vs bs nH).1 in
  psd V /\ ((forall a b, V a b = total_covariance ws Vs bs a b) \/
            V = (correct_VB lvi H edf scale JJJ1 c form_t1 Vr Vpr dB D ws Vs bs nH).1).
Proof.
move=> s0 pp [w0 w1] pV /=; rewrite /correct_VB /V_JJJ3 (mixture_value _ _ w1); case: Rlt_dec => [h|h] /=.
  by split; [have [] := @JJJ1_psd n k lvi scale c Vr Vpr dB D s0 pp|right].
by split; [exact: mixture_psd|left=> a b; rewrite mxE].
Qed.

(** ** Degrees of freedom *)

Section Edf.
Variables (n k : nat) (lvi H S : 'M[R]_n) (edf scale : R).
Hypotheses (s0 : Rlt 0 scale) (pH : psd (- H)) (pS : psd S) (inv : lvi^T *m lvi *m (scale *: (- H) + S) = 1%:M)
           (eE : edf = \tr (lvi^T *m lvi *m (scale *: (- H)))).

Let M := scale *: (- H).
Let V0 := lvi^T *m lvi.
Let F := V0 *m M.

Lemma negH : -1 *: H = - H.
Proof. by rewrite scaleN1r. Qed.

Lemma squares : \sum_j \sum_i F i j * F^T i j = \tr (F *m F).
Proof. by apply: eq_bigr => j _; rewrite [RHS]mxE; apply: eq_bigr => i _; rewrite [F^T i j]mxE mulrC. Qed.

Lemma FF_le : Rle (\tr (F *m F)) (\tr F).
Proof.
have pV : psd V0 by exact: psd_tt.
have h : Rle 0 (\tr (V0^T *m M *m V0 *m S)) by apply: tr_psd => //; apply: psd_turn; apply: psdZ => //; exact: Rlt_le.
have e : V0^T *m M *m V0 *m S = F - F *m F.
  have -> : V0^T = V0 by case: pV.
  have eS : V0 *m S = 1%:M - F by rewrite -inv -/V0 mulmxDr [_ + V0 *m S]addrC addrK.
  by rewrite -[V0 *m M *m V0 *m S]mulmxA eS mulmxBr mulmx1.
by move: h; rewrite e raddfB /=; Lra.
Qed.

Lemma lower g c form_t1 (Vr Vpr : 'M[R]_k) dB D N (ws : 'I_N -> R) Vs bs nH : psd Vpr -> psd nH ->
  let (V, nH') := match g with
                  | JJJ1 => (V_JJJ1 lvi scale c Vr Vpr dB D, -1 *: H)
                  | JJJ2 => V_JJJ2 lvi H edf scale ws Vs nH Vr dB
                  | JJJ3 => V_JJJ3 H ws Vs bs nH (V_JJJ1 lvi scale c Vr Vpr dB D)
                  end in
  correct_VB lvi H edf scale g c form_t1 Vr Vpr dB D ws Vs bs nH = (V, finish lvi H edf scale form_t1 V nH') /\ Rle edf (\tr (V *m nH')).
Proof.
move=> pp pn; have b : \tr (Vb lvi scale *m - H) = edf by rewrite /Vb -scalemxAl scalemxAr eE.
have pW : psd ((Vcr Vr dB)^T *m Vcr Vr dB) by exact: psd_tt.
have one : Rle edf (\tr (V_JJJ1 lvi scale c Vr Vpr dB D *m - H)).
  rewrite /V_JJJ1 mulmxDl mxtraceD b; apply: Rle_trans (Rplus_le_compat_r _ _ _ (_ : Rle 0 _)); first by rewrite Rplus_0_l; exact: Rle_refl.
  apply: tr_psd => //; apply: psdD => //; apply: Vcc_psd => //; exact: Rlt_le.
case: g; rewrite /correct_VB ?negH.
- by split.
- rewrite /V_JJJ2; case: Rlt_dec => [h|h] /=; split => //; rewrite ?negH mulmxDl mxtraceD.
    by rewrite b; apply: le_addl; apply: tr_psd.
  have h' : Rle edf (\tr (Vr1 ws Vs *m nH)) by exact: Rnot_lt_le.
  by apply: Rle_trans h' _; apply: le_addl; exact: tr_psd.
- rewrite /V_JJJ3; case: Rlt_dec => [h|h] /=; split => //; rewrite ?negH //.
  by move: h; rewrite negH => h; have h' := Rnot_lt_le _ _ h; exact: Rle_trans one h'.
Qed.
End Edf.

(** The corrected degrees of freedom are not below those for known smoothing parameters and, before a further
    correction, not above twice these minus the trace of the squared influence matrix. *)
Theorem C125_bounds n k (lvi H S : 'M[R]_n) edf scale g c form_t1 (Vr Vpr : 'M[R]_k) dB D N (ws : 'I_N -> R) Vs bs nH :
  Rlt 0 scale -> psd (- H) -> psd S -> lvi^T *m lvi *m (scale *: (- H) + S) = 1%:M ->
  let F := lvi^T *m lvi *m (scale *: (- H)) in edf = \tr F -> psd Vpr -> psd nH ->
  let r := (correct_VB lvi H edf scale g c form_t1 Vr Vpr dB D ws Vs bs nH).2 in
  let upper := 2%:R * \tr F - \tr (F *m F) in
  Rle edf (r_total r) /\ Rle (r_total r) upper /\ Rle (r_total r) (r_total2 r) /\
  r_total2 r = if form_t1 then upper + (r_total r - edf) else upper.
Proof.
move=> s0 pH pS inv F eE pp pn.
have le := @FF_le n lvi H S scale s0 pH pS inv; rewrite -/F in le.
have := @lower n k lvi H edf scale s0 pH eE g c form_t1 Vr Vpr dB D N ws Vs bs nH pp pn.
case: (match g with JJJ1 => _ | JJJ2 => _ | JJJ3 => _ end) => V nH' [-> lo] /=.
have u : 2%:R * edf - \sum_j (\col_j \sum_i (lvi^T *m lvi *m (scale *: (-1 *: H))) i j * (lvi^T *m lvi *m (scale *: (-1 *: H)))^T i j) j 0 = 2%:R * \tr F - \tr (F *m F).
  by rewrite eE negH; congr (_ - _); rewrite -squares; apply: eq_bigr => j _; rewrite mxE.
rewrite /finish u; set upper := 2%:R * \tr F - \tr (F *m F).
have ul : Rle edf upper.
  move: le; rewrite /upper eE.
  rewrite mulr2n mulrDl mul1r; move: (\tr F) (\tr (F *m F)) => a b; Lra.
case: form_t1; case: Rlt_dec => h /=.
- split => //; split; first exact: Rle_refl.
  by split => //; apply: le_addl; move: ul; Lra.
- have h' := Rnot_lt_le _ _ h; split => //; split => //; split => //.
  by move: ul; Lra.
- by split => //; split; [exact: Rle_refl|split => //; exact: Rle_refl].
- by have h' := Rnot_lt_le _ _ h; split.
Qed.

(** The degrees of freedom of the coefficients add up to the totals, if no further correction is asked for or the
    total did not have to be reduced. *)
Theorem C125_sum n k (lvi H : 'M[R]_n) edf scale g c form_t1 (Vr Vpr : 'M[R]_k) dB D N (ws : 'I_N -> R) Vs bs nH :
  let F := lvi^T *m lvi *m (scale *: (- H)) in edf = \tr F ->
  let r := (correct_VB lvi H edf scale g c form_t1 Vr Vpr dB D ws Vs bs nH).2 in
  (form_t1 = true -> Rlt (r_total r) (2%:R * \tr F - \tr (F *m F))) ->
  \sum_i r_edf r i 0 = r_total r /\ \sum_i r_edf2 r i 0 = r_total2 r.
Proof.
move=> F eE; rewrite /correct_VB; case: (match g with JJJ1 => _ | JJJ2 => _ | JJJ3 => _ end) => V nH' /=.
rewrite /finish negH -/F.
have u : \sum_j (\col_j \sum_i F i j * F^T i j) j 0 = \tr (F *m F) :> R.
  by rewrite -[RHS](squares lvi H scale); apply: eq_bigr => j _; rewrite mxE.
have s1 : \sum_i (\col_i (V *m nH') i i) i 0 = \tr (V *m nH') :> R by apply: eq_bigr => i _; rewrite mxE.
have s2 : \sum_i (\col_i (2%:R * F i i - (\col_j \sum_i F i j * F^T i j) i 0)) i 0 = 2%:R * edf - \tr (F *m F) :> R.
  by rewrite -u eE /mxtrace mulr_sumr -sumrB; apply: eq_bigr => i _; rewrite mxE.
have s3 (x z : 'cV[R]_n) : \sum_i (x + (z - \col_i F i i)) i 0 = \sum_i x i 0 + (\sum_i z i 0 - edf) :> R.
  by rewrite eE /mxtrace -sumrB -big_split; apply: eq_bigr => i _; rewrite !mxE.
rewrite u; case: form_t1; case: Rlt_dec => h /= side.
- by have := side erefl; rewrite eE => /Rlt_irrefl.
- by rewrite s3 s1 s2.
- by rewrite s2.
- by rewrite s1 s2.
Qed.

(** The expected degrees of freedom are not below those of the model. *)
Theorem C125_expected n k (edf : R) N three (ws edfs : 'I_N -> R) bs (nH : 'M[R]_n) (Vr : 'M[R]_k) dB : psd nH ->
  Rle edf (expected_edf edf three ws edfs bs nH Vr dB).
Proof.
move=> pn; have a0 : Rle 0 (\tr (Vcr Vr dB *m nH *m (Vcr Vr dB)^T)).
  by apply: tr_ge0; have := psd_turn (Vcr Vr dB)^T pn; rewrite trmxK.
have m0 := Rmax_l edf (\sum_i ws i * edfs i).
have go (e x : R) : Rle edf e -> Rle 0 x -> Rle edf (e + x) by Lra.
rewrite /expected_edf; case: three; last exact: go.
case: Rlt_dec => h; first exact: go.
by apply: go => //; apply: Rle_trans a0 _; exact: Rnot_lt_le.
Qed.

(** ** Candidates *)

(** For normal observations without offset neither the number of processes nor the method matters, as long as not only
    the expected degrees of freedom are asked for. *)
Theorem C126_same N n (X : 'M[R]_(N, n)) pens solve calc_edf reml_of known (par chol orig_scale : _) y (p : pens) :
  vb_candidate X solve calc_edf reml_of known par chol false orig_scale y 0 p
  = vb_candidate X solve calc_edf reml_of known false false false orig_scale y 0 p.
Proof.
rewrite /vb_candidate; case: par => //; case: chol => //.
by rewrite /candidate_MP /candidate_GAMM subr0; case: solve => Linv coef; rewrite addr0.
Qed.

(** Without failing candidates the same candidates are used. *)
Theorem C126_gather T (cs : seq (option T)) : (forall c, List.In c cs -> c <> None) -> gather true cs = gather false cs.
Proof.
move=> h; rewrite /gather; have -> // : all isSome cs.
elim: cs h => //= c cs ih h; rewrite ih; last by move=> d i; apply: h; right.
by have := h c (or_introl erefl); case: c {h}.
Qed.

Lemma norm_shift (a b c d s : R) : Rminus a b = Rminus c d -> norm_logpdf a b s = norm_logpdf c d s.
Proof. by rewrite /norm_logpdf => ->. Qed.

(** Several processes with method "Chol": the candidate for observations with an offset is the one for the
    observations minus the offset. *)
Theorem C127_offset N n (X : 'M[R]_(N, n)) pens solve calc_edf reml_of known only orig_scale y offset (p : pens) :
  vb_candidate X solve calc_edf reml_of known true true only orig_scale y offset p
  = vb_candidate X solve calc_edf reml_of known true true only orig_scale (y - offset) 0 p.
Proof.
rewrite /vb_candidate /candidate_MP subr0; case: solve => Linv coef; rewrite addr0.
have e i (v : 'cV[R]_N) : (y - offset) i 0 - v i 0 = y i 0 - (v + offset) i 0 by rewrite !mxE opprD addrCA addrC addrA.
have es ed : scale_of known y (X *m coef + offset) ed = scale_of known (y - offset) (X *m coef) ed.
  by rewrite /scale_of; case: known => // ; congr (_ / _); apply: eq_bigr => i _; rewrite e.
have el s : llk y (X *m coef + offset) s = llk (y - offset) (X *m coef) s.
  by rewrite /llk; apply: eq_bigr => i _; apply: norm_shift; rewrite !RminusE e.
by rewrite es el.
Qed.

(** ** Cases *)

(** One coefficient, known scale 1, the negative Hessian [c] and the penalty [1 - c]. *)
Definition half : R := Rdiv (IZR 1) (IZR 2).
Definition one_H : 'M[R]_1 := - half%:M.
Definition one_S : 'M[R]_1 := half%:M.

Lemma psd_scalar (c : R) : Rle 0 c -> psd (c%:M : 'M[R]_1).
Proof. by move=> c0; rewrite -[c]mulr1 -scale_scalar_mx -[1%:M]mulmx1 -{1}trmx1; apply: psdZ => //; exact: psd_tt. Qed.

Lemma half_pos : Rlt 0 half.
Proof. by rewrite /half; Lra. Qed.

Lemma half_two : half + half = 1.
Proof. by rewrite /half; eqR; field. Qed.

Lemma one_inv : (1%:M : 'M[R]_1)^T *m 1%:M *m (1 *: (- one_H) + one_S) = 1%:M.
Proof. by rewrite trmx1 mulmx1 mul1mx scale1r opprK -raddfD /= half_two. Qed.

(** The hypotheses of the theorems hold, with two equally weighted candidates. *)
Example C124_case : Rlt 0 1 /\ psd (- one_H) /\ psd one_S /\ (1%:M : 'M[R]_1)^T *m 1%:M *m (1 *: (- one_H) + one_S) = 1%:M /\
  half = \tr ((1%:M : 'M[R]_1)^T *m 1%:M *m (1 *: (- one_H))) /\ psd (1%:M : 'M[R]_1) /\ distribution (fun _ : 'I_2 => half).
Proof.
have p := psd_scalar (Rlt_le _ _ half_pos); rewrite /one_H opprK.
split; first exact: Rlt_0_1.
do 2 (split; first exact: p); split; first by have := one_inv; rewrite /one_H opprK.
split; first by rewrite trmx1 mulmx1 mul1mx scale1r mxtrace_scalar mulr1n.
split; first exact/psd_scalar/Rlt_le/Rlt_0_1.
split; first by move=> _; exact: Rlt_le half_pos.
by rewrite !big_ord_recl big_ord0 addr0 half_two.
Qed.

(** The mean of two observations with a ridge penalty. *)
Definition ones : 'M[R]_(2, 1) := const_mx 1.
Lemma two_R : (1 + 1 : R) = IZR 2.
Proof. by eqR; ring. Qed.

Definition den (l : R) : R := Rplus (IZR 2) l.
Definition mean_solve (y : 'cV[R]_2) (l : R) : 'M[R]_1 * 'cV[R]_1 :=
  ((sqrt (Rinv (den l)))%:M, (Rmult (Rplus (y 0 0) (y 1 0)) (Rinv (den l)))%:M).
Definition mean_edf (Linv : 'M[R]_1) (l : R) : R := Rdiv (IZR 2) (den l).

(** It is an exact solution. *)
Example mean_exact (l : R) (y : 'cV[R]_2) : Rle 0 l -> let (Linv, coef) := mean_solve y l in
  Linv^T *m Linv *m (ones^T *m ones + l%:M) = 1%:M /\ (ones^T *m ones + l%:M) *m coef = ones^T *m y /\
  mean_edf Linv l = \tr (Linv^T *m Linv *m (ones^T *m ones)).
Proof.
move=> l0 /=; have p : Rlt (IZR 0) (den l) by move: l0; rewrite /den; Lra.
have nz : den l <> IZR 0 by exact: Rgt_not_eq.
have oo : ones^T *m ones = (IZR 2)%:M.
  by apply/matrixP => i j; rewrite !ord1 !mxE !big_ord_recl big_ord0 !mxE /= mulr1n !mulr1 addr0; exact: two_R.
have LL : ((sqrt (Rinv (den l)))%:M : 'M[R]_1)^T *m (sqrt (Rinv (den l)))%:M = (Rinv (den l))%:M.
  rewrite tr_scalar_mx -scalar_mxM; congr (_%:M); apply: sqrt_sqrt; apply: Rlt_le; exact: Rinv_0_lt_compat.
rewrite oo LL -!scalar_mxM -raddfD /= -!scalar_mxM mxtrace_scalar mulr1n /mean_edf; split; [|split].
- by congr (_%:M); exact: Rinv_l.
- apply/matrixP => i j; rewrite !ord1 !mxE !big_ord_recl big_ord0 !mxE /= mulr1n.
  have -> : lift ord0 (ord0 : 'I_1) = 1 :> 'I_2 by apply: val_inj.
  rewrite !mul1r addr0 -[ord0]/(0 : 'I_2); move: (y 0 0) (y 1 0) => a b.
  by change (Rmult (den l) (Rmult (Rplus a b) (Rinv (den l))) = Rplus a b); field.
- by rewrite /Rdiv Rmult_comm.
Qed.

(** ** Refutations *)

Lemma one_V : V_JJJ1 (1%:M : 'M[R]_1) 1 false (1%:M : 'M[R]_1) 1%:M 1%:M (fun _ => 0) = (IZR 2)%:M.
Proof.
rewrite /V_JJJ1 /Vc /Vcr /Vcc /Vb !trmx1 !mulmx1 addr0 scale1r -two_R.
by apply/matrixP => i j; rewrite !ord1 !mxE /= !mulr1n.
Qed.

Lemma one_finish : let r := finish 1%:M one_H half 1 true (IZR 2)%:M (-1 *: one_H) in
  r_total r = Rdiv (IZR 3) (IZR 4) /\ \sum_i r_edf r i 0 = IZR 1.
Proof.
have e1 : -1 *: one_H = half%:M by rewrite scaleN1r opprK.
have e2 : (1%:M : 'M[R]_1)^T *m 1%:M *m (1 *: half%:M) = half%:M by rewrite trmx1 mulmx1 mul1mx scale1r.
have e3 : (IZR 2)%:M *m half%:M = (IZR 1)%:M :> 'M[R]_1 by rewrite -scalar_mxM; congr (_%:M); rewrite /half; eqR; field.
rewrite /finish e1 e2 e3 mxtrace_scalar mulr1n mulr2n !big_ord1.
set u := \col_j \sum_i _.
have eu : u 0 0 = Rdiv (IZR 1) (IZR 4) by rewrite mxE big_ord1 tr_scalar_mx !mxE /= !mulr1n /half; eqR; field.
have lt : Rlt ((1 + 1) * half - u 0 0) (IZR 1) by rewrite eu /half; Lra.
have ev : (1 + 1) * half - u 0 0 = Rdiv (IZR 3) (IZR 4) by rewrite eu /half; eqR; field.
case: Rlt_dec => [h|h] /=; last by case: h.
split; first exact: ev.
have -> (a b c : 'cV[R]_1) : (a + (b - c)) 0 0 = a 0 0 + (b 0 0 - c 0 0) by rewrite !mxE.
have -> : (\col_i ((1 + 1) * half%:M i i - u i 0)) 0 0 = Rdiv (IZR 3) (IZR 4) by rewrite mxE [half%:M _ _]mxE mulr1n ev.
by rewrite !mxE /= mulr1n /half; eqR; field.
Qed.

(** With the further correction (form_t1), when the degrees of freedom had to be reduced, the array of the coefficients'
    degrees of freedom is changed a second time through its other name: it does not add up to the total any more. *)
Theorem C125_alias_refuted : exists n k (lvi H S : 'M[R]_n) edf scale c (Vr Vpr : 'M[R]_k) dB D N (ws : 'I_N -> R) Vs bs nH,
  [/\ Rlt 0 scale, psd (- H), psd S & lvi^T *m lvi *m (scale *: (- H) + S) = 1%:M] /\
  [/\ edf = \tr (lvi^T *m lvi *m (scale *: (- H))), psd Vpr & psd nH] /\
  let r := (correct_VB lvi H edf scale JJJ1 c true Vr Vpr dB D ws Vs bs nH).2 in
  Rlt (r_total r) (\sum_i r_edf r i 0).
Proof.
exists 1%N, 1%N, 1%:M, one_H, one_S, half, 1, false, 1%:M, 1%:M, 1%:M, (fun _ => 0), 2%N, (fun _ => half), (fun _ => 0), (fun _ => 0), 1%:M.
have [h1 [h2 [h3 [h4 [h5 [h6 _]]]]]] := C124_case.
split; first by split.
split; first by split.
rewrite /correct_VB one_V; have [-> ->] := one_finish; Lra.
Qed.

Lemma weights_pos N use prior (remls : 'I_N -> R) i : Rlt 0 (weights use prior remls i).
Proof.
have sp (a : 'I_N -> R) : Rlt 0 (softmax a i).
  have s0 : Rlt 0 (\sum_j exp (a j)) by apply: Rsum_gt0 => [|j]; [exact: leq_ltn_trans (leq0n i) (ltn_ord i)|exact: exp_pos].
  by apply: Rmult_lt_0_compat; [exact: exp_pos|rewrite -RinvE; [exact: Rinv_0_lt_compat|exact: Rgt_not_eq]].
by rewrite /weights; case: use; [case: prior => [d|]|]; exact: sp.
Qed.

(** The scale for constant observations, [a] for the residuals and [b] for the coefficient. *)
Lemma scale_val (a b l : R) (L : 'M[R]_1) : Rlt 0 l ->
  scale_of None (const_mx a) (ones *m (Rmult (Rplus b b) (Rinv (den l)))%:M) (mean_edf L l)
  = (let r := Rminus a (Rmult (Rplus b b) (Rinv (den l))) in Rmult (Rmult (IZR 2) (Rmult r r)) (Rinv (Rminus (IZR 2) (Rdiv (IZR 2) (den l)))))%R.
Proof.
move=> l0; rewrite /scale_of !big_ord_recl big_ord0 addr0 !mxE !big_ord1 !mxE /= mulr1n !mul1r mulr2n /mean_edf.
set e := Rmult _ _; set d := Rdiv _ _.
have nz : Rminus (IZR 2) d <> IZR 0.
  have p : Rlt (IZR 0) (den l) by move: l0; rewrite /den; Lra.
  have -> : Rminus (IZR 2) d = Rdiv (Rmult (IZR 2) (Rplus (IZR 1) l)) (den l) by rewrite /d /den; field; move: p; rewrite /den; Lra.
  by apply: Rgt_not_eq; apply: Rdiv_lt_0_compat => //; move: l0; Lra.
have -> : (1 + 1 - d : R) = Rminus (IZR 2) d by eqR; ring.
by rewrite -(RinvE nz); eqR; ring.
Qed.

Lemma fit_scale reml_of (a o l : R) orig : Rlt 0 l ->
  c_scale (candidate_GAMM ones mean_solve mean_edf reml_of None (const_mx a) (const_mx o) orig l)
  = (let r := Rminus a (Rmult (Rplus (Rminus a o) (Rminus a o)) (Rinv (den l))) in
     Rmult (Rmult (IZR 2) (Rmult r r)) (Rinv (Rminus (IZR 2) (Rdiv (IZR 2) (den l))))).
Proof.
move=> l0; have e i : ((const_mx a - const_mx o) : 'cV[R]_2) i 0 = Rminus a o by rewrite !mxE.
rewrite /candidate_GAMM /mean_solve !e; exact: (scale_val a (Rminus a o) _ l0).
Qed.

Lemma expected_differ k edf three (ws e1 e2 : 'I_2 -> R) bs (nH : 'M[R]_1) (Vr : 'M[R]_k) dB :
  Rmax edf (\sum_i ws i * e1 i) <> Rmax edf (\sum_i ws i * e2 i) ->
  expected_edf edf three ws e1 bs nH Vr dB <> expected_edf edf three ws e2 bs nH Vr dB.
Proof.
rewrite /expected_edf => ne; case: three => [|/addIr //].
by case: Rlt_dec => h /addIr.
Qed.

(** Only the expected degrees of freedom, another method than "Chol": with several processes those of the candidates are
    multiplied by the ratio of scales, with one process they are not. *)
Theorem C126_expected_refuted : exists (y : 'cV[R]_2) (l0 : R) (ls : 'I_2 -> R), Rle 0 l0 /\ (forall i, Rle 0 (ls i)) /\
  forall reml_of use prior k three (nH : 'M[R]_1) (Vr : 'M[R]_k) dB,
  let fit := candidate_GAMM ones mean_solve mean_edf reml_of None y 0 None l0 in
  let expected par :=
    let cs i := vb_candidate ones mean_solve mean_edf reml_of None par false true (c_scale fit) y 0 (ls i) in
    expected_edf (c_edf fit) three (weights use prior (fun i => c_reml (cs i))) (fun i => c_edf (cs i)) (fun i => c_coef (cs i)) nH Vr dB in
  expected true <> expected false.
Proof.
exists (const_mx 1), 1, (fun i => if i == 0 then 1 else IZR 2).
split; first exact: Rlt_le Rlt_0_1.
split; first by move=> i; case: ifP => _; Lra.
move=> reml_of use prior k three nH Vr dB fit expected.
pose ls (i : 'I_2) : R := if i == 0 then 1 else IZR 2.
pose Q i := vb_candidate ones mean_solve mean_edf reml_of None false false true (c_scale fit) (const_mx 1) 0 (ls i).
pose P i := vb_candidate ones mean_solve mean_edf reml_of None true false true (c_scale fit) (const_mx 1) 0 (ls i).
pose w := weights use prior (fun i => c_reml (Q i)).
have [[w0 w1] _] := @C124_weights 2 use prior (fun i => c_reml (Q i)) isT.
have wp : Rlt 0 (w 1) by exact: weights_pos.
change (expected_edf (c_edf fit) three w (fun i => c_edf (P i)) (fun i => c_coef (Q i)) nH Vr dB <>
        expected_edf (c_edf fit) three w (fun i => c_edf (Q i)) (fun i => c_coef (Q i)) nH Vr dB).
apply: expected_differ.
have l1 : Rlt 0 1 by exact: Rlt_0_1.
have s1 : c_scale fit = Rdiv (IZR 1) (IZR 6) by rewrite /fit fit_scale //; rewrite /den; eqR; field.
have e1 : c_edf fit = Rdiv (IZR 2) (IZR 3) by change (Rdiv (IZR 2) (den 1) = Rdiv (IZR 2) (IZR 3)); rewrite /den; eqR; field.
have q0 : c_edf (Q 0) = Rdiv (IZR 2) (IZR 3) by [].
have q1 : c_edf (Q 1) = Rdiv (IZR 1) (IZR 2) by change (Rdiv (IZR 2) (den (IZR 2)) = Rdiv (IZR 1) (IZR 2)); rewrite /den; eqR; field.
have sq1 : c_scale (Q 1) = Rdiv (IZR 1) (IZR 3) by rewrite /Q /vb_candidate -[ls 1]/(IZR 2) fit_scale; [rewrite /den; eqR; field|Lra].
have six : (Rdiv (IZR 1) (IZR 6))^-1 = IZR 6 by rewrite -RinvE; [eqR; field|Lra].
have p0 : c_edf (P 0) = Rdiv (IZR 2) (IZR 3).
  by change (c_edf fit * (c_scale fit / c_scale fit) = Rdiv (IZR 2) (IZR 3)); rewrite s1 e1 six; eqR; field.
have p1 : c_edf (P 1) = IZR 1.
  by change (c_edf (Q 1) * (c_scale (Q 1) / c_scale fit) = IZR 1); rewrite s1 sq1 q1 six; eqR; field.
move: w1; rewrite -/w !big_ord_recl !big_ord0 !addr0.
have -> : lift ord0 (ord0 : 'I_1) = 1 :> 'I_2 by apply: val_inj.
rewrite -[ord0]/(0 : 'I_2) e1 ?p0 ?p1 ?q0 ?q1; move: (w0 0) wp; rewrite -/w; move: (w 0) (w 1) => a b a0 b0 ab.
have u : Rmax (Rdiv (IZR 2) (IZR 3)) (a * Rdiv (IZR 2) (IZR 3) + b * Rdiv (IZR 1) (IZR 2)) = Rdiv (IZR 2) (IZR 3).
  by apply: Rmax_left; move: a0 b0 ab; Lra.
have v : Rmax (Rdiv (IZR 2) (IZR 3)) (a * Rdiv (IZR 2) (IZR 3) + b * IZR 1) = a * Rdiv (IZR 2) (IZR 3) + b * IZR 1.
  by apply: Rmax_right; move: a0 b0 ab; Lra.
by rewrite u v; move: a0 b0 ab; Lra.
Qed.

(** A candidate that cannot be estimated ends the computation with several processes only. *)
Theorem C126_failed_refuted : exists cs : seq (option nat), gather true cs <> gather false cs.
Proof. by exists [:: Some 1%N; None]. Qed.

(** One process, or another method than "Chol": the offset is subtracted for the coefficients, but not for scale and
    likelihood. *)
Theorem C127_offset_refuted : exists (y offset : 'cV[R]_2) (l : R), Rle 0 l /\
  forall reml_of only orig_scale par chol, par && chol = false ->
  let c y o := vb_candidate ones mean_solve mean_edf reml_of None par chol only orig_scale y o l in
  c_coef (c y offset) = c_coef (c (y - offset) 0) /\ c_scale (c y offset) <> c_scale (c (y - offset) 0).
Proof.
exists (const_mx 2%:R), (const_mx 1), 1; split; first exact: Rlt_le Rlt_0_1.
move=> reml_of only orig_scale par chol pc.
have e y o : vb_candidate ones mean_solve mean_edf reml_of None par chol only orig_scale y o 1
           = candidate_GAMM ones mean_solve mean_edf reml_of None y o (if par && only then Some orig_scale else None) 1.
  by move: pc; rewrite /vb_candidate; case: par; case: chol.
move=> c; rewrite /c !e; split; first by rewrite /candidate_GAMM subr0.
have two : 2%:R = IZR 2 :> R by rewrite mulr2n two_R.
have -> : const_mx 2%:R - const_mx 1 = const_mx (IZR 1) :> 'cV[R]_2 by apply/matrixP => i j; rewrite !mxE two; eqR; ring.
have l1 : Rlt 0 1 by exact: Rlt_0_1.
rewrite two !fit_scale //.
have -> : (let r := Rminus (IZR 2) (Rmult (Rplus (Rminus (IZR 2) 1) (Rminus (IZR 2) 1)) (Rinv (den 1))) in
     Rmult (Rmult (IZR 2) (Rmult r r)) (Rinv (Rminus (IZR 2) (Rdiv (IZR 2) (den 1))))) = Rdiv (IZR 8) (IZR 3) by rewrite /den; eqR; field.
have -> : (let r := Rminus (IZR 1) (Rmult (Rplus (Rminus (IZR 1) 0) (Rminus (IZR 1) 0)) (Rinv (den 1))) in
     Rmult (Rmult (IZR 2) (Rmult r r)) (Rinv (Rminus (IZR 2) (Rdiv (IZR 2) (den 1))))) = Rdiv (IZR 1) (IZR 6) by rewrite /den; eqR; field.
by Lra.
Qed.

Print Assumptions C124_weights.
Print Assumptions C124_fixed.
Print Assumptions C124_mean.
Print Assumptions C124_mixture.
Print Assumptions C125_bounds.
Print Assumptions C125_sum.
Print Assumptions C125_expected.
Print Assumptions C126_same.
Print Assumptions C126_gather.
Print Assumptions C127_offset.
Print Assumptions C125_alias_refuted.
Print Assumptions C126_expected_refuted.
Print Assumptions C126_failed_refuted.
Print Assumptions C127_offset_refuted.
