(** The properties of the covariance matrix of the log smoothing parameters. *)

From Coq Require Import Reals Lra.
From Coquelicot Require Import Coquelicot.
From mathcomp Require Import all_ssreflect all_algebra perm.
From Verif Require Import RealField RealMat RealDet RealEigen RemlReals RemlModel RemlSpec RemlProofs RemlProofs2 RemlProofs3 RemlProofs4 RemlProps JointSpec JointProofs HessModel HessSpec HessProofs HessProofs2 HessProofs3.
Import GRing.Theory.
Set Implicit Arguments.
Unset Strict Implicit.
Unset Printing Implicit Defensive.
Local Open Scope ring_scope.

(** Every entry of the matrix that is inverted is the second derivative of the criterion of the fitted model with
    respect to two log smoothing parameters, if no block with more than one penalty is repeated. *)
Theorem C122_hessian n n_groups gs
    (chol : forall m, 'M[R]_m -> option 'M[R]_m) (cholP : forall m, 'M[R]_m -> option ('M[R]_m * 'S_m))
    (qr_r : forall m, 'M[R]_m -> 'M[R]_m)
    N (X : 'M[R]_(N, n)) (y : 'cV[R]_N) (scale : R) (Vbr : 'M[R]_n) m (D : nat -> nat -> 'M[R]_(n, m)) (r : nat -> nat -> R) :
  exact_cholesky chol -> exact_cholesky_perm cholP ->
  placed n n_groups gs -> (forall g, (g < n_groups)%N -> well_formed (gs g)) ->
  (forall g, (g < n_groups)%N -> no_dominant (gs g)) -> (forall g, (g < n_groups)%N -> proper_group (gs g)) ->
  (forall g, (g < n_groups)%N -> reps (gs g) = 1%N \/ npen (gs g) = 1%N) ->
  Rlt 0 scale -> let S := total_penalty n n_groups gs (expo r) in
  pd (X^T *m X + S) -> Vbr^T *m Vbr *m (X^T *m X + S) = 1%:M ->
  (forall g j, (g < n_groups)%N -> (j < npen (gs g))%N -> D g j *m (D g j)^T = embed n (SJ (gs g) j)) ->
  forall g j h k, (g < n_groups)%N -> (j < npen (gs g))%N -> (h < n_groups)%N -> (k < npen (gs h))%N ->
  exists d, Hp n_groups gs chol Vbr (- (scale^-1 *: (X^T *m X))) D (pls X y S) scale (expo r) g j h k = Some d /\
    second_partial (fitted_reml n_groups gs chol cholP qr_r X y scale) r g j h k d.
Proof.
move=> ec ep pl wf nd pr once s0 S; rewrite /S -total_S_emb => pA eV eD g j h k hg hj hh hk.
have pb i : (i < n_groups)%N -> pd (Sbar (gs i) (expo r i)) by move=> hi; apply: Sbar_pd; [exact: pr|move=> ? _; exact: exp_pos].
have D2 := second_derive qr_r ec ep wf nd pr y s0 hg hj hh hk pA.
eexists; split; first exact: (Hp_value ec pl wf nd pb y scale eV eD hg hj hh hk).
have -> : ((reps (gs g))%:R - 1) * det2 gs (expo r) g j h k = 0.
  case: (once g hg) => [->|e1]; first by rewrite subrr mul0r.
  case: (altP (g =P h)) => [e|ne].
    subst h; rewrite det2_single ?mulr0 //; first exact: pb.
    by apply: gt0_neq; exact: exp_pos.
  by rewrite /det2 /gamma (negbTE ne) /= mulr0 addr0 mulr0.
by rewrite addr0.
Qed.

(** The matrix is symmetric, whatever is repeated. *)
Theorem C122_symmetric n n_groups gs (chol : forall m, 'M[R]_m -> option 'M[R]_m)
    (Vbr H : 'M[R]_n) m (D : nat -> nat -> 'M[R]_(n, m)) coef (scale : R) l g j h k :
  Hp n_groups gs chol Vbr H D coef scale l g j h k = Hp n_groups gs chol Vbr H D coef scale l h k g j.
Proof.
rewrite /Hp; case: factored => //; congr (Some _); rewrite [h == g]eq_sym.
case: (ltngtP g h) => [_|_|e] //=; case: (ltngtP j k) => [_|_|f] //; by rewrite ?e ?f.
Qed.

(** ** The covariance matrix *)

(** A positive definite matrix is inverted; of any other symmetric matrix the result is a generalised inverse; it is
    symmetric and positive semi-definite. *)
Theorem C123_inverse (eigh : forall m, 'M[R]_m -> 'rV[R]_m * 'M[R]_m) m (A : 'M[R]_m) : exact_eigh eigh -> A^T = A ->
  psd (Vp_WPS eigh A) /\ (pd A -> Vp_WPS eigh A *m A = 1%:M) /\ Vp_WPS eigh A *m A *m Vp_WPS eigh A = Vp_WPS eigh A.
Proof.
move=> ee s; split; first exact: psd_gram.
by split; [exact: inverse_value|exact: ginv_value].
Qed.

(** The regularised covariance matrix is the inverse of the matrix with a tenth added to its diagonal, and no
    variance in it exceeds the one in the covariance matrix. *)
Theorem C123_regularised (eigh : forall m, 'M[R]_m -> 'rV[R]_m * 'M[R]_m) m (A : 'M[R]_m) : exact_eigh eigh -> A^T = A ->
  psd (Vpr_WPS eigh A) /\ (pd A -> Vpr_WPS eigh A *m (A + 10%:R^-1 *: 1%:M) = 1%:M) /\
  forall x, Rle (quad (Vpr_WPS eigh A) x) (quad (Vp_WPS eigh A) x).
Proof.
move=> ee s; split; first exact: psd_gram.
by split => [|x]; [exact: reg_value|exact: reg_le].
Qed.

(** The covariance matrix from weighted candidates is their weighted covariance matrix: the entry for two
    parameters is the weighted mean of the products of their deviations from the weighted means. *)
Theorem C123_weighted (eigh : forall m, 'M[R]_m -> 'rV[R]_m * 'M[R]_m) m N (ws : 'I_N -> R) (r : 'I_N -> 'cV[R]_m) :
  exact_eigh eigh -> (forall i, Rle 0 (ws i)) ->
  psd (Vp_mix eigh ws r) /\
  forall a b, Vp_mix eigh ws r a b
    = \sum_i ws i * ((r i a 0 - \sum_k ws k * r k a 0) * (r i b 0 - \sum_k ws k * r k b 0)).
Proof.
move=> ee w0; rewrite mix_value //; split; first exact: update_psd.
move=> a b; rewrite /updateVp summxE; apply: eq_bigr => i _; rewrite !mxE big_ord1 !mxE /mean_rho !summxE.
congr (_ * ((_ - _) * (_ - _))); apply: eq_bigr => k _; by rewrite mxE.
Qed.

(** ** Cases *)

(** Three coefficients with two penalties that overlap in the second one; the block occurs [c] times. *)
Definition diag3 (a b c : R) : 'M[R]_3 := diag_mx (\row_i nth 0 [:: a; b; c] i).
Definition over (c : nat) : group :=
  @Group 3 0 c 2 (fun j => if j == 0%N then diag3 1 1 0 else diag3 0 1 1) 3 1%:M (fun _ => 1%:M).

Lemma diag3_quad a b c x : quad (diag3 a b c) x
  = a * (x 0 0 * x 0 0) + (b * (x 1 0 * x 1 0) + c * (x (inord 2) 0 * x (inord 2) 0)).
Proof.
have := quad_spec 1%:M (\row_i nth 0 [:: a; b; c] i) x; rewrite trmx1 !mulmx1 !mul1mx => ->.
rewrite 2!big_ord_recl big_ord1 !mxE /=; congr (_ * (_ * _) + (_ * (_ * _) + _ * (_ * _))).
- by congr (x _ _); apply: val_inj.
- by congr (x _ _); apply: val_inj.
- by congr (x _ _); apply: val_inj; rewrite /= inordK.
- by congr (x _ _); apply: val_inj; rewrite /= inordK.
Qed.

Lemma diag3_sym a b c : (diag3 a b c)^T = diag3 a b c.
Proof. exact: tr_diag_mx. Qed.

Lemma diag3_psd a b c : Rle 0 a -> Rle 0 b -> Rle 0 c -> psd (diag3 a b c).
Proof.
move=> a0 b0 c0; split; first exact: diag3_sym.
move=> x; rewrite diag3_quad; do 2 (apply: Rplus_le_le_0_compat; first by apply: Rmult_le_pos => //; exact: sq_ge0).
by apply: Rmult_le_pos => //; exact: sq_ge0.
Qed.

Lemma diag3_mul a b c a' b' c' : diag3 a b c *m diag3 a' b' c' = diag3 (a * a') (b * b') (c * c').
Proof.
rewrite /diag3 mulmx_diag; congr diag_mx; apply/matrixP => i j; rewrite !mxE.
by case: j => [[|[|[|]]]].
Qed.

Lemma diag3_1 : diag3 1 1 1 = 1%:M.
Proof. by apply/matrixP => i j; rewrite !mxE; case: i => [[|[|[|]]]] //=; case: j => [[|[|[|]]]]. Qed.

Lemma diag3_pd a b c : Rlt 0 a -> Rlt 0 b -> Rlt 0 c -> pd (diag3 a b c).
Proof.
move=> a0 b0 c0; apply: psd_unit_pd; first by apply: diag3_psd; exact: Rlt_le.
have e : diag3 a b c *m diag3 a^-1 b^-1 c^-1 = 1%:M by rewrite diag3_mul !mulfV ?diag3_1 //; exact: gt0_neq.
by have [] := mulmx1_unit e.
Qed.

Lemma over_SJ c j : (j < 2)%N -> SJ (over c) j = if j == 0%N then diag3 1 1 0 else diag3 0 1 1.
Proof. by []. Qed.

Lemma over_wf c : well_formed (over c).
Proof.
split => //=; try by move=> *; rewrite ?trmx1 ?mulmx1 ?mul1mx.
by move=> j _; case: ifP => _; rewrite diag3_sym.
Qed.

Lemma over_nd c : no_dominant (over c).
Proof.
right => j hj /=; rewrite ltnNge; apply/negP => full.
have u : (if j == 0%N then diag3 1 1 0 else diag3 0 1 1) \in unitmx.
  by rewrite -row_full_unit /row_full eqn_leq full rank_leq_row.
pose x : 'M[R]_3 := if j == 0%N then diag3 0 0 1 else diag3 1 0 0.
have z : x *m (if j == 0%N then diag3 1 1 0 else diag3 0 1 1) = 0.
  have d0 : diag3 0 0 0 = 0 by apply/matrixP => a b; rewrite !mxE; case: a => [[|[|[|]]]] ? //=; by rewrite mul0rn.
  by rewrite /x; case: ifP => _; rewrite diag3_mul ?mul0r ?mulr0.
have : x = 0 by rewrite -[x]mulmx1 -(mulmxV u) mulmxA z mul0mx.
rewrite /x; case: ifP => _ /matrixP; [move=> /(_ (inord 2) (inord 2))|move=> /(_ 0 0)]; rewrite !mxE ?inordK //= ?eqxx ?mulr1n => /eqP; by rewrite oner_eq0.
Qed.

Lemma over_proper c : proper_group (over c).
Proof.
have z : Rle 0 0 := Rle_refl 0; have o : Rle 0 1 := Rlt_le _ _ Rlt_0_1.
split; first by move=> j _ /=; case: ifP => _; apply: diag3_psd.
rewrite /= trmx1 mul1mx mulmx1 big_ord_recl big_ord1 /=.
have -> : diag3 1 1 0 + diag3 0 1 1 = diag3 1 (1 + 1) 1.
  apply/matrixP => a b; rewrite !mxE; case: a => [[|[|[|]]]] //=; case: b => [[|[|[|]]]] //= *; by rewrite ?mulr0n ?mulr1n ?addr0 ?add0r.
by apply: diag3_pd; Lra.
Qed.

Lemma over_placed c : placed (c * 3) 1 (fun _ => over c).
Proof. by split => // -[|g] [|h]. Qed.

Lemma over_root c j : (j < 2)%N -> embed (c * 3) (SJ (over c) j) *m (embed (c * 3) (SJ (over c) j))^T = embed (c * 3) (SJ (over c) j).
Proof.
move=> hj; rewrite (@embed_tr (c * 3) (fun _ => over c) 0) (@embed_mul _ _ _ (over_placed c) 0) //; congr embed.
by rewrite over_SJ //; case: ifP => _; rewrite diag3_sym diag3_mul ?mulr0 ?mulr1.
Qed.

Lemma over_pd c : pd ((1%:M : 'M[R]_(c * 3))^T *m 1%:M + total_penalty (c * 3) 1 (fun _ => over c) (expo (fun _ _ => 0))).
Proof.
rewrite trmx1 mulmx1 -total_S_emb.
have wf g : (g < 1)%N -> well_formed (over c) by move=> _; exact: over_wf.
split; first by rewrite [(_ + _)^T]linearD /= trmx1 (@S_emb_sym _ _ (fun _ => over c)).
move=> x x0; rewrite quadD; apply: Rplus_lt_le_0_compat; first by have [_ q] := pd1 (c * 3); exact: q.
rewrite quad_S; apply: sum_ge0 => g; apply: sum_ge0 => j; apply: Rmult_le_pos; first by apply: Rlt_le; exact: exp_pos.
have [_ q] := @emb_psd (c * 3) 1 (fun _ => over c) (fun _ _ => over_proper c) g j (ltn_ord g) (ltn_ord j); exact: q.
Qed.

Lemma inverse_root m (A : 'M[R]_m) : pd A -> exists V : 'M[R]_m, V^T *m V *m A = 1%:M.
Proof.
move=> /cholesky [L f]; have u := factor_unit f; case: f => _ [_ <-]; exists (invmx L).
by rewrite mulmxA -[_ *m invmx L *m L]mulmxA mulVmx // mulmx1 -trmx_mul mulmxV // trmx1.
Qed.

(** The hypotheses of C122_hessian hold for one block with two overlapping penalties. *)
Example C122_case : exists Vbr : 'M[R]_(1 * 3),
  let S := total_penalty (1 * 3) 1 (fun _ => over 1) (expo (fun _ _ => 0)) in
  exact_cholesky some_chol /\ exact_cholesky_perm some_cholP /\ placed (1 * 3) 1 (fun _ => over 1) /\
  well_formed (over 1) /\ no_dominant (over 1) /\ proper_group (over 1) /\ reps (over 1) = 1%N /\
  pd ((1%:M : 'M[R]_(1 * 3))^T *m 1%:M + S) /\ Vbr^T *m Vbr *m ((1%:M : 'M[R]_(1 * 3))^T *m 1%:M + S) = 1%:M /\
  forall j, (j < 2)%N -> embed (1 * 3) (SJ (over 1) j) *m (embed (1 * 3) (SJ (over 1) j))^T = embed (1 * 3) (SJ (over 1) j).
Proof.
have [V eV] := inverse_root (over_pd 1); exists V.
do 7 (split; first by [exact: some_exact|exact: some_exact_perm|exact: over_placed|exact: over_wf|exact: over_nd|exact: over_proper|]).
by split; [exact: over_pd|split => //; exact: over_root].
Qed.

Lemma two_gt0 : Rlt 0 (1 + 1 : R).
Proof. Lra. Qed.

(** An exact eigenvalue decomposition exists. *)
Definition some_eigh m (A : 'M[R]_m) : 'rV[R]_m * 'M[R]_m :=
  if ClassicalEpsilon.excluded_middle_informative (exists eU : 'rV[R]_m * 'M[R]_m, eU.2^T *m eU.2 = 1%:M /\ eU.2 *m diag_mx eU.1 *m eU.2^T = A) is left h
  then proj1_sig (ClassicalEpsilon.constructive_indefinite_description _ h) else (0, 0).

Example C123_case : exact_eigh some_eigh /\ pd (diag3 1 (1 + 1) 1) /\ (forall i : 'I_2, Rle 0 ((fun _ => (1 + 1)^-1) i : R)).
Proof.
split; [|split].
- move=> m A s; rewrite /some_eigh; case: ClassicalEpsilon.excluded_middle_informative => h.
    by case: ClassicalEpsilon.constructive_indefinite_description => -[e U] /= [].
  have [e [U [uu [eA _]]]] := spectral s; case: h; exists (e, U); split => //=.
  have u2 : U *m U^T = 1%:M by exact: mulmx1C.
  by rewrite -eA !mulmxA u2 mul1mx -mulmxA u2 mulmx1.
- by apply: diag3_pd; Lra.
- move=> _; apply: Rlt_le; apply: inv_gt0; exact: two_gt0.
Qed.

(** ** Refutations *)

Lemma over_det2 : det2 (fun _ => over 2) (expo (fun _ _ => 0)) 0 0 0 1 = - (((1 + 1) * (1 + 1))^-1 : R).
Proof.
have t : (1 + 1 : R) != 0 by apply: gt0_neq; exact: two_gt0.
have e0 : exp 0 = 1 by exact: exp_0.
have eS : Sbar (over 2) (expo (fun _ _ => 0) 0) = diag3 1 (1 + 1) 1.
  rewrite /Sbar /SJbar /expo /= big_ord_recl big_ord1 /= !e0 !trmx1 !mul1mx !mulmx1 !scale1r.
  by apply/matrixP => a b; rewrite !mxE; case: a => [[|[|[|]]]] //=; case: b => [[|[|[|]]]] //= *; rewrite ?mulr0n ?mulr1n ?addr0 ?add0r.
have eI : invmx (diag3 1 (1 + 1) 1) = diag3 1 (1 + 1)^-1 1.
  have e : diag3 1 (1 + 1) 1 *m diag3 1 (1 + 1)^-1 1 = 1%:M by rewrite diag3_mul !mulr1 mulfV // diag3_1.
  have [u _] := mulmx1_unit e; by rewrite -[RHS](mulKmx u) e mulmx1.
rewrite /det2 /gamma /= eS eI /SJbar /= !trmx1 !mul1mx !mulmx1 !diag3_mul !(mulr0, mul0r, mulr1, mul1r).
rewrite /expo e0 add0r !mul1r mulrA mulVf ?mul1r; last by rewrite mulr2n.
rewrite /diag3 mxtrace_diag 2!big_ord_recl big_ord1 !mxE /= add0r addr0.
by rewrite invfM.
Qed.

(** Two copies of the block with two penalties (what a factor smooth with two levels has): the program counts the
    copies twice, the entry is not the second derivative. *)
Theorem C122_repeated_refuted : exists n n_groups gs N (X : 'M[R]_(N, n)) (Vbr : 'M[R]_n) (D : nat -> nat -> 'M[R]_n) (r : nat -> nat -> R) g j h k,
  placed n n_groups gs /\ (forall g, (g < n_groups)%N -> [/\ well_formed (gs g), no_dominant (gs g) & proper_group (gs g)]) /\
  let S := total_penalty n n_groups gs (expo r) in
  pd (X^T *m X + S) /\ Vbr^T *m Vbr *m (X^T *m X + S) = 1%:M /\
  (forall g j, (g < n_groups)%N -> (j < npen (gs g))%N -> D g j *m (D g j)^T = embed n (SJ (gs g) j)) /\
  [/\ (g < n_groups)%N, (j < npen (gs g))%N, (h < n_groups)%N & (k < npen (gs h))%N] /\
  forall chol cholP qr_r (y : 'cV[R]_N), exact_cholesky chol -> exact_cholesky_perm cholP ->
  exists d, Hp n_groups gs chol Vbr (- ((1 : R)^-1 *: (X^T *m X))) D (pls X y S) 1 (expo r) g j h k = Some d /\
    ~ second_partial (fitted_reml n_groups gs chol cholP qr_r X y 1) r g j h k d.
Proof.
have [V eV] := inverse_root (over_pd 2).
exists (2 * 3)%N, 1%N, (fun _ => over 2), (2 * 3)%N, 1%:M, V, (fun _ j => embed (2 * 3) (SJ (over 2) j)), (fun _ _ => 0), 0%N, 0%N, 0%N, 1%N.
split; first exact: over_placed.
split; first by move=> *; split; [exact: over_wf|exact: over_nd|exact: over_proper].
move=> S; split; first exact: over_pd.
split => //; split; first by move=> g j _; exact: over_root.
split => // chol cholP qr_r y ec ep; move: (over_pd 2) eV; rewrite {}/S -total_S_emb => pA eV.
have wf g : (g < 1)%N -> well_formed (over 2) by move=> _; exact: over_wf.
have nd g : (g < 1)%N -> no_dominant (over 2) by move=> _; exact: over_nd.
have pr g : (g < 1)%N -> proper_group (over 2) by move=> _; exact: over_proper.
have pb i : (i < 1)%N -> pd (Sbar (over 2) (expo (fun _ _ => 0) i)).
  by move=> hi; apply: Sbar_pd; [exact: over_proper|move=> ? _; exact: exp_pos].
have D2 := @second_derive (2 * 3) 1 (fun _ => over 2) chol cholP qr_r ec ep wf nd pr (2 * 3) 1%:M y 1 Rlt_0_1 (fun _ _ => 0) 0 0 0 1 isT isT isT isT pA.
have eD g j : (g < 1)%N -> (j < 2)%N -> embed (2 * 3) (SJ (over 2) j) *m (embed (2 * 3) (SJ (over 2) j))^T = embed (2 * 3) (SJ (over 2) j).
  by move=> _; exact: over_root.
eexists; split.
  exact: (@Hp_value (2 * 3) 1 (fun _ => over 2) chol ec (over_placed 2) wf nd (expo (fun _ _ => 0)) pb (2 * 3) 1%:M y 1 V _ (fun _ j => embed (2 * 3) (SJ (over 2) j)) eV eD 0 0 0 1 isT isT isT isT).
case: D2 => _ D2 [_ D3].
have := is_derive_unique _ _ _ D3; rewrite (is_derive_unique _ _ _ D2); set c := curve _ _ _ _ _ _ _ _ _ _.
rewrite over_det2 => e; have : (2%:R - 1) * - ((1 + 1) * (1 + 1))^-1 = 0 :> R by apply: (@addrI _ c); rewrite addr0.
rewrite mulr2n addrK mul1r => /eqP; rewrite oppr_eq0 invr_eq0 mulf_eq0 orbb => /eqP z; have := two_gt0; rewrite z; exact: Rlt_irrefl.
Qed.

Lemma square_off (q : R) : Rlt 0 q -> 1 / (1 + q) * (1 / (1 + q)) * (1 + q) <> 1.
Proof.
move=> q0; have nq : 1 + q != 0 by apply: gt0_neq; Lra.
rewrite !mul1r mulfVK // => e; have : 1 + q = 1 by rewrite -[LHS]invrK e invr1.
by Lra.
Qed.

(** The regularised covariance matrix from weighted candidates: unlike in [C123_regularised], it is not what results
    from adding a tenth to the diagonal of the inverse. *)
Theorem C123_regularised_refuted : exists N (ws : 'I_N -> R) (r : 'I_N -> 'cV[R]_1),
  (forall i, Rle 0 (ws i)) /\ forall eigh, exact_eigh eigh ->
  pd (Vp_mix eigh ws r) /\ Vpr_mix eigh ws r *m (invmx (Vp_mix eigh ws r) + 10%:R^-1 *: 1%:M) <> 1%:M.
Proof.
exists 2%N, (fun _ => (1 + 1)^-1), (fun i => (if i == 0 then 1 else -1)%:M).
have h0 : Rlt 0 ((1 + 1)^-1) by apply: inv_gt0; exact: two_gt0.
have t : (1 + 1 : R) != 0 by apply: gt0_neq; exact: two_gt0.
split; first by move=> _; exact: Rlt_le.
move=> eigh ee; rewrite mix_value; [|by []|by move=> _; exact: Rlt_le]; rewrite /Vpr_mix.
set M := updateVp _ _ _.
have eM : M = 1%:M.
  rewrite /M /updateVp /mean_rho !big_ord_recl !big_ord0 /= !addr0.
  have -> : (1 + 1 : R)^-1 *: (1%:M : 'cV[R]_1) + (1 + 1)^-1 *: (-1)%:M = 0.
    by rewrite scale_scalar_mx scale_scalar_mx -raddfD /= mulr1 mulrN1 subrr; apply/matrixP => a b; rewrite !mxE mul0rn.
  rewrite !subr0 !tr_scalar_mx -!scalar_mxM mulrNN mulr1 -scalerDl; have -> : (1 + 1 : R)^-1 + (1 + 1)^-1 = 1 by rewrite -[RHS](mulVf t) mulrDr mulr1.
  by rewrite scale1r.
rewrite eM; split; first exact: pd1.
have := ee 1%N 1%:M (trmx1 _ _); rewrite /root; case: (eigh _ _) => e U [uu eA].
have e1 : diag_mx e = 1%:M.
  have : U^T *m (U *m diag_mx e *m U^T) *m U = 1%:M by rewrite eA mulmx1 uu.
  by rewrite !mulmxA uu mul1mx -mulmxA uu mulmx1.
have s1 : diag_mx (map_mx sqrt_reg e) = (1 / (1 + 10%:R^-1))%:M.
  apply/matrixP => a b; rewrite !mxE; congr (_ *+ _).
  have /matrixP/(_ a a) := e1; rewrite !mxE eqxx mulr1n => ->.
  rewrite /sqrt_reg; case: Rlt_dec => [h|h]; last by case: h; exact: Rlt_0_1.
  have -> : sqrt (1 : R) = 1 by exact: sqrt_1.
  by rewrite divr1.
rewrite s1 invmx1 => /matrixP/(_ 0 0).
set c := 1 / _; rewrite trmx_mul trmxK tr_scalar_mx mulmxA -[U *m _ *m _]mulmxA -scalar_mxM mul_mx_scalar -scalemxAl.
have -> : U *m U^T = 1%:M by exact: mulmx1C.
rewrite !scale_scalar_mx !mulr1 -raddfD /= -scalar_mxM !mxE /= !mulr1n /c.
by exact: (square_off tenth).
Qed.

Print Assumptions C122_hessian.
Print Assumptions C122_symmetric.
Print Assumptions C122_repeated_refuted.
Print Assumptions C123_inverse.
Print Assumptions C123_regularised.
Print Assumptions C123_weighted.
Print Assumptions C123_regularised_refuted.
