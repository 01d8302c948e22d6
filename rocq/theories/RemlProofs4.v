(** The value of the criterion, and the Gaussian model. *)

From Coq Require Import Reals Lra.
From Coquelicot Require Import Coquelicot.
From mathcomp Require Import all_ssreflect all_algebra fingroup perm.
From Verif Require Import RealField RealMat RealDet LamModel RemlModel RemlSpec RemlProofs RemlProofs2 RemlProofs3.
Import GRing.Theory.
Set Implicit Arguments.
Unset Strict Implicit.
Unset Printing Implicit Defensive.
Local Open Scope ring_scope.

Lemma det_sylvester n m (A : 'M[R]_(n, m)) (B : 'M[R]_(m, n)) : \det (1%:M + A *m B) = \det (1%:M + B *m A).
Proof.
have e1 : block_mx 1%:M (- A) B 1%:M = block_mx 1%:M 0 B 1%:M *m block_mx 1%:M (- A) 0 (1%:M + B *m A).
  by rewrite mulmx_block !mul1mx !mul0mx !mulmx1 !addr0 mulmxN addrCA addNr addr0.
have e2 : block_mx 1%:M (- A) B 1%:M = block_mx 1%:M (- A) 0 1%:M *m block_mx (1%:M + A *m B) 0 B 1%:M.
  by rewrite mulmx_block !mul1mx !mul0mx !mulmx1 ?mulmx0 !add0r mulNmx addrK.
have d : \det (block_mx 1%:M (- A) B 1%:M) = \det (1%:M + B *m A).
  by rewrite e1 det_mulmx det_lblock det_ublock !det1 !mul1r.
by rewrite -d e2 det_mulmx det_lblock det_ublock !det1 !mul1r mulr1.
Qed.

Lemma det_sum_orth n (I : eqType) (s : seq I) (K : I -> 'M[R]_n) : uniq s ->
  (forall c d, c \in s -> d \in s -> c != d -> K c *m K d = 0) ->
  \det (1%:M + \sum_(c <- s) K c) = \prod_(c <- s) \det (1%:M + K c).
Proof.
elim: s => [|c s ih] /=; first by rewrite !big_nil addr0 det1.
move=> /andP[nc u] o; rewrite !big_cons -ih //; last first.
  by move=> a d ha hd; apply: o; rewrite in_cons ?ha ?hd orbT.
rewrite -det_mulmx; congr (\det _); rewrite mulmxDl mul1mx mulmxDr mulmx1 mulmx_sumr.
rewrite [X in _ = _ + (_ + X)]big1_seq ?addr0.
  by rewrite -addrA [_ + K c]addrC.
move=> d /andP[_ hd]; apply: o; rewrite ?in_cons ?eqxx ?hd ?orbT //.
by apply: contraNneq nc => ->.
Qed.

Section Embed.
Variables (n n_groups : nat) (gs : nat -> group).
Hypothesis pl : placed n n_groups gs.

Lemma columns_bound g c : (g < n_groups)%N -> (c < reps (gs g))%N -> (start (gs g) + c.+1 * dim (gs g) <= n)%N.
Proof. move=> hg hc; have [_ pl2] := pl; apply: leq_trans (pl2 _ hg); by rewrite leq_add2l leq_mul2r hc orbT. Qed.

Lemma columns_lt g c d : (g < n_groups)%N -> (d < reps (gs g))%N -> (c < d)%N ->
  (columns n (gs g) c)^T *m columns n (gs g) d = 0.
Proof.
move=> hg hd lt; apply: columns_orth; first by apply: columns_bound => //; apply: ltn_trans hd.
by rewrite leq_add2l leq_mul2r lt orbT.
Qed.

Lemma columns_ne g c d : (g < n_groups)%N -> (c < reps (gs g))%N -> (d < reps (gs g))%N -> c != d ->
  (columns n (gs g) c)^T *m columns n (gs g) d = 0.
Proof.
move=> hg hc hd; rewrite neq_ltn => /orP[lt|lt]; first exact: columns_lt.
by apply: trmx_inj; rewrite trmx_mul trmxK trmx0 columns_lt.
Qed.

Lemma columns_groups g h c d : (g < h)%N -> (h < n_groups)%N -> (c < reps (gs g))%N ->
  (columns n (gs g) c)^T *m columns n (gs h) d = 0.
Proof.
move=> lt hh hc; have [pl1 _] := pl; have hg := ltn_trans lt hh.
apply: columns_orth; first exact: columns_bound.
apply: leq_trans (leq_trans _ (pl1 _ _ lt hh)) (leq_addr _ _).
by rewrite leq_add2l leq_mul2r hc orbT.
Qed.

Lemma columns_other g h c d : (g < n_groups)%N -> (h < n_groups)%N -> g != h -> 
  (c < reps (gs g))%N -> (d < reps (gs h))%N -> (columns n (gs g) c)^T *m columns n (gs h) d = 0.
Proof.
move=> hg hh; rewrite neq_ltn => /orP[lt|lt] hc hd; first exact: columns_groups.
by apply: trmx_inj; rewrite trmx_mul trmxK trmx0 columns_groups.
Qed.

Lemma embed_other g h (M : 'M[R]_(dim (gs g))) (N : 'M[R]_(dim (gs h))) :
  (g < n_groups)%N -> (h < n_groups)%N -> g != h -> embed n M *m embed n N = 0.
Proof.
move=> hg hh ne; rewrite /embed mulmx_suml; apply: big1 => c _; rewrite mulmx_sumr; apply: big1 => d _.
by rewrite !mulmxA -[_ *m _^T *m columns _ _ _]mulmxA columns_other // mulmx0 !mul0mx.
Qed.

Lemma embed_mul g (M N : 'M[R]_(dim (gs g))) : (g < n_groups)%N -> embed n M *m embed n N = embed n (M *m N).
Proof.
move=> hg; rewrite /embed mulmx_suml; apply: eq_bigr => c _; rewrite mulmx_sumr (bigD1 c) //= big1 ?addr0.
  rewrite !mulmxA -[_ *m _^T *m columns _ _ _]mulmxA columns_same ?mulmx1 ?mulmxA //; exact: columns_bound.
move=> d ne; rewrite !mulmxA -[_ *m _^T *m columns _ _ _]mulmxA columns_ne ?mulmx0 ?mul0mx //.
by rewrite eq_sym (inj_eq val_inj).
Qed.

Lemma embedD g (M N : 'M[R]_(dim (gs g))) : embed n (M + N) = embed n M + embed n N.
Proof. by rewrite /embed -big_split; apply: eq_bigr => c _; rewrite mulmxDr mulmxDl. Qed.
Lemma embedN g (M : 'M[R]_(dim (gs g))) : embed n (- M) = - embed n M.
Proof. by rewrite /embed -sumrN; apply: eq_bigr => c _; rewrite mulmxN mulNmx. Qed.
Lemma embedZ g (M : 'M[R]_(dim (gs g))) a : embed n (a *: M) = a *: embed n M.
Proof. by rewrite /embed scaler_sumr; apply: eq_bigr => c _; rewrite -scalemxAr -scalemxAl. Qed.
Lemma embed0 g : embed n (0 : 'M[R]_(dim (gs g))) = 0.
Proof. by rewrite /embed big1 // => c _; rewrite mulmx0 mul0mx. Qed.
Lemma embed_tr g (M : 'M[R]_(dim (gs g))) : (embed n M)^T = embed n M^T.
Proof.
rewrite /embed (raddf_sum (trmx_additive _ _ _)) /=; apply: eq_bigr => c _.
by rewrite !trmx_mul trmxK mulmxA.
Qed.

Lemma S_emb_terms l : S_emb n n_groups gs l = \sum_(g < n_groups) embed n (S_term (gs g) (l g)).
Proof.
apply: eq_bigr => g _; rewrite /S_term; elim/big_rec2: _ => [|j A B _ ->]; first by rewrite embed0.
by rewrite embedD embedZ.
Qed.

(** A family of blocks, one per group. *)
Definition blocks (F : forall g, 'M[R]_(dim (gs g))) : 'M[R]_n := \sum_(g < n_groups) embed n (F g).

Lemma blocks_mul F G : blocks F *m blocks G = blocks (fun g => F g *m G g).
Proof.
rewrite /blocks mulmx_suml; apply: eq_bigr => g _; rewrite mulmx_sumr (bigD1 g) //= big1 ?addr0.
  by rewrite embed_mul.
by move=> h ne; rewrite embed_other // eq_sym (inj_eq val_inj).
Qed.

Lemma blocks_tr F : (blocks F)^T = blocks (fun g => (F g)^T).
Proof. by rewrite /blocks (raddf_sum (trmx_additive _ _ _)) /=; apply: eq_bigr => g _; rewrite embed_tr. Qed.

Lemma blocks_eq F G : (forall g, (g < n_groups)%N -> F g = G g) -> blocks F = blocks G.
Proof. by move=> e; apply: eq_bigr => g _; rewrite e. Qed.

Lemma blocks_penrose F X : (forall g, (g < n_groups)%N -> penrose (F g) (X g)) -> penrose (blocks F) (blocks X).
Proof.
move=> p; split; rewrite ?blocks_mul ?blocks_tr; apply: blocks_eq => g /p [] //.
Qed.

Lemma blocks_det F : \det (1%:M + blocks F) = \prod_(g < n_groups) \det (1%:M + F g) ^+ reps (gs g).
Proof.
rewrite /blocks det_sum_orth ?index_enum_uniq //; last first.
  by move=> g h _ _ ne; apply: embed_other; rewrite ?(inj_eq val_inj).
apply: eq_bigr => g _; rewrite /embed det_sum_orth ?index_enum_uniq //; last first.
  move=> c d _ _ ne; rewrite !mulmxA -[_ *m _^T *m columns _ _ _]mulmxA columns_ne ?mulmx0 ?mul0mx //.
rewrite (eq_bigr (fun _ => \det (1%:M + F g))) ?prodr_const ?card_ord // => c _.
rewrite -mulmxA det_sylvester -mulmxA columns_same ?mulmx1 //; exact: columns_bound.
Qed.

Lemma blocks_tr1 F : \tr (blocks F) = \sum_(g < n_groups) (reps (gs g))%:R * \tr (F g).
Proof.
rewrite /blocks (raddf_sum (mxtrace_additive _ _)) /=; apply: eq_bigr => g _.
rewrite /embed (raddf_sum (mxtrace_additive _ _)) /= (eq_bigr (fun _ => \tr (F g))).
  by rewrite sumr_const card_ord mulr_natl.
by move=> c _; rewrite -mulmxA mxtrace_mulC -mulmxA columns_same ?mulmx1 //; exact: columns_bound.
Qed.

Variables (scale : R) (l : nat -> nat -> R).
Hypotheses (s0 : Rlt 0 scale) (wf : forall g, (g < n_groups)%N -> well_formed (gs g))
           (pb : forall g, (g < n_groups)%N -> pd (Sbar (gs g) (l g))).

Lemma projector X : penrose (scale^-1 *: S_emb n n_groups gs l) X ->
  scale^-1 *: S_emb n n_groups gs l *m X = blocks (fun g => Ur (gs g) *m (Ur (gs g))^T).
Proof.
have e : scale^-1 *: S_emb n n_groups gs l = blocks (fun g => scale^-1 *: S_term (gs g) (l g)).
  by rewrite S_emb_terms scaler_sumr; apply: eq_bigr => g _; rewrite embedZ.
have ns : scale != 0 by apply: gt0_neq.
pose Y g := scale *: (Ur (gs g) *m invmx (Sbar (gs g) (l g)) *m (Ur (gs g))^T).
have eT g : (g < n_groups)%N -> S_term (gs g) (l g) = Ur (gs g) *m Sbar (gs g) (l g) *m (Ur (gs g))^T.
  move=> hg; rewrite /S_term /Sbar mulmx_sumr mulmx_suml; apply: eq_bigr => j _.
  by rewrite (SJ_bar (wf hg) (ltn_ord j)) -scalemxAr -scalemxAl.
have pY g : (g < n_groups)%N -> (scale^-1 *: S_term (gs g) (l g)) *m Y g = Ur (gs g) *m (Ur (gs g))^T.
  move=> hg; have [_ uu _ _ _] := wf hg; have p := pd_unit (pb hg).
  rewrite /Y -scalemxAr -scalemxAl scalerA mulfV // scale1r eT //.
  by rewrite !mulmxA -[Ur _ *m Sbar _ _ *m _^T *m Ur _]mulmxA uu mulmx1 mulmxK.
have pY' g : (g < n_groups)%N -> Y g *m (scale^-1 *: S_term (gs g) (l g)) = Ur (gs g) *m (Ur (gs g))^T.
  move=> hg; have [_ uu _ _ _] := wf hg; have p := pd_unit (pb hg).
  rewrite /Y -scalemxAr -scalemxAl scalerA mulVf // scale1r eT //.
  rewrite !mulmxA -[Ur _ *m invmx _ *m _^T *m Ur _]mulmxA uu mulmx1.
  by rewrite -[Ur _ *m invmx _ *m Sbar _ _]mulmxA mulVmx // mulmx1.
have P g : (g < n_groups)%N -> penrose (scale^-1 *: S_term (gs g) (l g)) (Y g).
  move=> hg; have [_ uu _ _ _] := wf hg; split; rewrite ?pY ?pY' //; try by rewrite trmx_mul trmxK.
  - by rewrite eT // -scalemxAr !mulmxA -[Ur _ *m _^T *m Ur _]mulmxA uu mulmx1.
  - by rewrite /Y -scalemxAr !mulmxA -[Ur _ *m _^T *m Ur _]mulmxA uu mulmx1.
move=> px; rewrite e in px *; rewrite (penrose_unique px (blocks_penrose P)) blocks_mul.
exact: blocks_eq.
Qed.

Lemma pdet_value X : penrose (scale^-1 *: S_emb n n_groups gs l) X ->
  \det (scale^-1 *: S_emb n n_groups gs l + (1%:M - scale^-1 *: S_emb n n_groups gs l *m X))
  = \prod_(g < n_groups) \det (scale^-1 *: Sbar (gs g) (l g)) ^+ reps (gs g).
Proof.
move=> px; rewrite (projector px) S_emb_terms addrCA scaler_sumr.
have -> : \sum_(g < n_groups) scale^-1 *: embed n (S_term (gs g) (l g)) - blocks (fun g => Ur (gs g) *m (Ur (gs g))^T)
  = blocks (fun g => Ur (gs g) *m ((scale^-1 *: Sbar (gs g) (l g) - 1%:M) *m (Ur (gs g))^T)).
  rewrite /blocks -sumrB; apply: eq_bigr => g _; rewrite -embedZ -embedN -embedD; congr (embed n _).
  rewrite mulmxBl mulmxBr mul1mx; congr (_ - _).
  rewrite -scalemxAl -scalemxAr; congr (_ *: _); rewrite /S_term /Sbar mulmx_suml mulmx_sumr.
  by apply: eq_bigr => j _; rewrite (SJ_bar (wf (ltn_ord g)) (ltn_ord j)) -scalemxAl -scalemxAr -mulmxA.
rewrite blocks_det; apply: eq_bigr => g _; congr (_ ^+ _); have [_ uu _ _ _] := wf (ltn_ord g).
by rewrite det_sylvester -mulmxA uu mulmx1 addrC subrK.
Qed.

Lemma nullity_value X : penrose (scale^-1 *: S_emb n n_groups gs l) X ->
  \tr (1%:M - scale^-1 *: S_emb n n_groups gs l *m X) = n%:R - (\sum_(g < n_groups) reps (gs g) * rank (gs g))%N%:R.
Proof.
move=> px; rewrite (projector px) raddfB /= mxtrace1 blocks_tr1 natr_sum; congr (_ - _).
apply: eq_bigr => g _; rewrite natrM; congr (_ * _).
by rewrite mxtrace_mulC; have [_ -> _ _ _] := wf (ltn_ord g); rewrite mxtrace1.
Qed.
End Embed.

Section Value.
Variables (n n_groups : nat) (gs : nat -> group).
Variables (chol : forall m, 'M[R]_m -> option 'M[R]_m) (cholP : forall m, 'M[R]_m -> option ('M[R]_m * 'S_m))
          (qr_r : forall m, 'M[R]_m -> 'M[R]_m).
Hypotheses (ec : exact_cholesky chol) (ep : exact_cholesky_perm cholP).

Lemma ln_pow (x : R) k : Rlt 0 x -> Rlt 0 (x ^+ k) /\ ln (x ^+ k) = ln x * k%:R.
Proof.
move=> p; elim: k => [|k [q e]]; first by rewrite expr0 mulr0; split; [exact: Rlt_0_1|exact: ln_1].
rewrite exprS; split; first exact: Rmult_lt_0_compat.
by rewrite [ln _](ln_mult _ _ p q) e -addn1 natrD mulrDr mulr1 addrC.
Qed.

Lemma reml_value llk nH coef scale l X :
  placed n n_groups gs -> (forall g, (g < n_groups)%N -> well_formed (gs g)) ->
  (forall g, (g < n_groups)%N -> no_dominant (gs g)) -> Rlt 0 scale ->
  (forall g, (g < n_groups)%N -> pd (Sbar (gs g) (l g))) ->
  pd (nH + scale^-1 *: S_emb n n_groups gs l) ->
  penrose (scale^-1 *: S_emb n n_groups gs l) X ->
  REML n_groups gs chol cholP qr_r llk nH coef scale l
  = Some (llk - quad (S_emb n n_groups gs l) coef / scale / 2%:R
          + ln (\det (scale^-1 *: S_emb n n_groups gs l + (1%:M - scale^-1 *: S_emb n n_groups gs l *m X))) / 2%:R
          - ln (\det (nH + scale^-1 *: S_emb n n_groups gs l)) / 2%:R
          + (Mp n_groups gs)%:R * ln (2%:R * PI) / 2%:R).
Proof.
move=> pl wf nd s0 pb pH px; rewrite /REML lgdetXXS_value // (pdet_value pl s0 wf pb px).
have p g : (g < n_groups)%N -> Rlt 0 (\det (scale^-1 *: Sbar (gs g) (l g))).
  by move=> hg; apply/pd_det/pd_scale; [exact: inv_gt0|exact: pb].
rewrite ln_prod; last by move=> g; have [] := ln_pow (reps (gs g)) (p g (ltn_ord g)).
congr (Some (_ + _ / _ - _ + _)); apply: eq_bigr => g _.
rewrite ldetSI_value //; try exact: wf; try exact: nd; try exact: pb.
by have [_ ->] := ln_pow (reps (gs g)) (p g (ltn_ord g)).
Qed.
End Value.

(** Every entry of the inverse of a matrix that depends differentiably on a number depends differentiably on it. *)
Lemma ex_prod (f h : R -> R) x : ex_derive f x -> ex_derive h x -> ex_derive (fun t : R => f t * h t) x.
Proof. move=> [a A] [c C]; eexists; exact: isd_mul A C. Qed.

Lemma ex_sum (I : Type) (s : seq I) (f : R -> I -> R) x :
  (forall i, ex_derive (fun t => f t i) x) -> ex_derive (fun t : R => \sum_(i <- s) f t i) x.
Proof.
move=> h; elim: s => [|i s [b B]].
  by exists 0; apply: (@isd_ext (fun _ => 0)); [move=> t; rewrite big_nil|exact: isd_const].
have [a A] := h i; exists (a + b); apply: (isd_ext _ (isd_add A B)) => t; by rewrite big_cons.
Qed.

Lemma ex_det m (A : R -> 'M[R]_m) x :
  (forall i k, ex_derive (fun t => A t i k) x) -> ex_derive (fun t : R => \det (A t)) x.
Proof.
move=> h; pose A' := \matrix_(i, k) Derive (fun t => A t i k) x.
exists (\tr (\adj (A x) *m A')); apply: det_derive => i k; rewrite mxE; exact: Derive_correct.
Qed.

Lemma ex_solve m (A B : 'M[R]_m) (r : 'cV[R]_m) (t0 : R) : pd A -> B^T = B ->
  exists u, velocity (fun t : R => invmx (A + (t - t0) *: B) *m r) t0 u.
Proof.
move=> p s.
have h i : ex_derive (fun t : R => (invmx (A + (t - t0) *: B) *m r) i 0) t0.
  apply: (@ex_derive_ext_loc _ _ (fun t : R => \sum_k (/ \det (A + (t - t0) *: B))%R
     * cofactor (A + (t - t0) *: B) k i * r k 0)).
    apply: filter_imp (near_pd t0 p s) => t ht; rewrite [RHS]mxE; apply: eq_bigr => k _.
    rewrite /invmx pd_unit // !mxE; congr (_ * _ * _).
    by rewrite -RinvE //; apply/eqP/gt0_neq/pd_det.
  apply: ex_sum => k; apply: ex_prod; last by eexists; exact: isd_const.
  have D (M N : 'M[R]_m) a b : ex_derive (fun t : R => (M + (t - t0) *: N) a b) t0.
    by eexists; exact: affine_derive.
  apply: ex_prod.
    apply: ex_derive_inv; first by apply: ex_det => a b; exact: D.
    by rewrite subrr scale0r addr0; apply/eqP/gt0_neq/pd_det.
  apply: ex_prod; first by eexists; exact: isd_const.
  apply: ex_det => a b; have [d hd] := D A B (lift k a) (lift i b).
  by exists d; apply: isd_ext hd => t; rewrite !mxE.
exists (\col_i Derive (fun t : R => (invmx (A + (t - t0) *: B) *m r) i 0) t0) => i; rewrite mxE.
exact: Derive_correct.
Qed.

Section Gauss.
Variables (N n : nat) (X : 'M[R]_(N, n)) (y : 'cV[R]_N) (scale c0 : R).
Hypothesis s0 : Rlt 0 scale.

Lemma gauss_gradient (x : 'cV[R]_n) :
  gradient_at (fun b => - (\sum_i (y i 0 - (X *m b) i 0) ^+ 2) / (2%:R * scale) + c0) x
              (scale^-1 *: (X^T *m (y - X *m x))).
Proof.
move=> c t u ct vu.
have v : velocity (fun s : R => y - X *m c s) t (- (X *m u)).
  move=> i; apply: (@isd_ext (fun s : R => y i 0 + (-1) * \sum_k X i k * c s k 0)).
    by move=> s; rewrite !mxE mulN1r.
  apply: (isd_eq (isd_add (isd_const _ _) (isd_scale _ (isd_sum _ (fun k _ => isd_scale (X i k) (vu k)))))).
  by rewrite add0r mulN1r !mxE.
have D := isd_scale (- (2%:R * scale)^-1) (@quad_derive N _ _ 1%:M 0 t (trmx1 _ _) v).
apply: (isd_eq (@isd_ext _ _ _ _ _ (isd_add D (isd_const c0 t)))).
  move=> s; rewrite scaler0 addr0 /quad mulmx1 mxE; congr (_ + _); rewrite !mulNr mulrC; congr (- (_ * _)).
  by apply: eq_bigr => i _; rewrite !mxE expr2.
have -> : quad (0 : 'M[R]_N) (y - X *m c t) = 0 by rewrite /quad mulmx0 mul0mx mxE.
rewrite !addr0 mul1mx mulmxN [(- _ : 'M[R]__) 0 0]mxE mulrN mulNr mulrN opprK -ct.
have ns : scale != 0 by apply: gt0_neq.
have n2 : (2%:R : R) != 0 by apply/gt0_neq; rewrite mulr2n; Lra.
rewrite linearZ /= -scalemxAl [RHS]mxE trmx_mul trmxK -mulmxA.
by rewrite invfM mulrAC mulrA mulVf // mul1r mulrC.
Qed.

Lemma gauss_stationary (S : 'M[R]_n) : X^T *m X + S \in unitmx ->
  X^T *m (y - X *m (invmx (X^T *m X + S) *m (X^T *m y))) = S *m (invmx (X^T *m X + S) *m (X^T *m y)).
Proof.
move=> u; rewrite mulmxBr mulmxA; set b := invmx _ *m _; have e : (X^T *m X + S) *m b = X^T *m y.
  by rewrite /b mulmxA mulmxV // mul1mx.
by rewrite -[in LHS]e mulmxDl addrC addrA addNr add0r.
Qed.
End Gauss.

Lemma total_S_emb n n_groups gs l : S_emb n n_groups gs l = total_penalty n n_groups gs l.
Proof.
apply/matrixP => i k; rewrite mxE /S_emb summxE; apply: eq_bigr => g _; rewrite summxE; apply: eq_bigr => j _.
rewrite mxE /embed summxE mulr_sumr; apply: eq_bigr => c _; rewrite mxE mulr_sumr.
rewrite [RHS]exchange_big /=; apply: eq_bigr => b _; rewrite !mxE mulr_suml mulr_sumr; apply: eq_bigr => a _.
rewrite !mxE; case: eqP => _; case: eqP => _ /=; by rewrite ?mul0r ?mulr0 ?mul1r ?mulr1.
Qed.

Lemma factor_pd m (A L : 'M[R]_m) : factor A L -> pd A.
Proof.
move=> f; have u := factor_unit f; case: f => _ [_ <-]; split; first by rewrite trmx_mul trmxK.
move=> x x0; rewrite quad_gram.
have : L^T *m x != 0.
  apply: contra x0 => /eqP e; by rewrite -[x]mul1mx -(mulVmx (_ : L^T \in unitmx)) ?unitmx_tr // -mulmxA e mulmx0.
move=> y0; have [i hi] : exists i, (L^T *m x) i 0 != 0.
  apply/existsP; apply: contraR y0; rewrite negb_exists => /forallP h; apply/eqP/matrixP => i k.
  by rewrite (ord1 k) [RHS]mxE; apply/eqP; move: (h i); rewrite negbK.
apply: (@sum_gt0 _ _ _ i) => [k||]; rewrite ?mem_index_enum //; [exact: sq_ge0|exact: sq_gt0].
Qed.

Lemma pd_perm m (A : 'M[R]_m) s : pd (row_perm s (col_perm s A)) -> pd A.
Proof.
rewrite row_permE col_permE -tr_perm_mx => p.
have o : (perm_mx s : 'M[R]_m)^T *m perm_mx s = 1%:M by rewrite tr_perm_mx -perm_mxM mulVg perm_mx1.
have := pd_congr p (unitmx_perm _ s).
by rewrite !mulmxA o mul1mx -mulmxA o mulmx1.
Qed.

Lemma pd_unscaled m (A : 'M[R]_m) : pd (scaled A) -> pd A.
Proof.
move=> p; have := pd_unit p; rewrite /scaled; set T := diag_mx _ => u.
have uT : T \in unitmx by move: u; rewrite !unitmx_mul => /andP[].
have sT : T^T = T by rewrite /T tr_diag_mx.
have := @pd_congr _ _ (invmx T) p; rewrite unitmx_inv trmx_inv sT /scaled -/T => /(_ uT).
by rewrite !mulmxA mulVmx // mul1mx -mulmxA mulmxV // mulmx1.
Qed.
