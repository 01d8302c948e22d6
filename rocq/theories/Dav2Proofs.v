(** Lemmas for Dav2Props. *)
From Coq Require Import List Arith ZArith Reals Lra Lia.
From Coquelicot Require Import Coquelicot.
From Verif Require Import DavModel Dav2Model Dav2Spec.
Import ListNotations.
Local Open Scope R_scope.

(** ** Complex exponentials *)
Lemma cexp_add : forall z w, Cmult (cexp z) (cexp w) = cexp (Cplus z w).
Proof.
  intros [a b] [c d]. unfold cexp, Cmult, Cplus. cbn [fst snd]. rewrite exp_plus, cos_plus, sin_plus. f_equal; ring.
Qed.
Lemma cexp_zero : cexp (0, 0) = RtoC 1.
Proof. unfold cexp. cbn. rewrite exp_0, cos_0, sin_0. unfold RtoC. f_equal; ring. Qed.
Lemma cpow_cexp : forall n a b, cpow (cexp (a, b)) n = cexp (INR n * a, INR n * b).
Proof.
  induction n; intros a b; [cbn [cpow INR]; rewrite !Rmult_0_l; symmetry; apply cexp_zero|].
  cbn [cpow]. rewrite IHn, cexp_add. unfold Cplus. cbn [fst snd]. rewrite S_INR. f_equal. f_equal; ring.
Qed.

Lemma one_plus_sq : forall x, 0 < 1 + x * x.
Proof. intros. pose proof (Rle_0_sqr x). unfold Rsqr in *. lra. Qed.
Lemma exp_half_ln : forall x, exp (- / 2 * ln (1 + x * x)) = / sqrt (1 + x * x).
Proof.
  intros x. pose proof (one_plus_sq x). rewrite <- (exp_ln (sqrt (1 + x * x))) at 1 by (apply sqrt_lt_R0; assumption).
  rewrite <- exp_Ropp. f_equal. rewrite <- Rpower_sqrt by assumption. unfold Rpower. rewrite ln_exp. ring.
Qed.
Lemma cos_at : forall x, cos (atan x) = / sqrt (1 + x * x).
Proof. intros. rewrite cos_atan. unfold Rsqr, Rdiv. ring. Qed.
Lemma sin_at : forall x, sin (atan x) = x * / sqrt (1 + x * x).
Proof. intros. rewrite sin_atan. unfold Rsqr, Rdiv. ring. Qed.
Lemma inv_polar : forall x, Cinv (Cminus (RtoC 1) (Cmult Ci (RtoC x))) = cexp (- / 2 * ln (1 + x * x), atan x).
Proof.
  intros x. pose proof (one_plus_sq x) as P. unfold cexp. cbn [fst snd]. rewrite exp_half_ln, cos_at, sin_at.
  unfold Cinv, Cminus, Cplus, Copp, Cmult, Ci, RtoC. cbn [fst snd].
  assert (S2 : / sqrt (1 + x * x) * / sqrt (1 + x * x) = / (1 + x * x)).
  { rewrite <- Rinv_mult. rewrite sqrt_sqrt by lra. reflexivity. }
  f_equal.
  - rewrite S2. field; repeat split; nra.
  - replace (/ sqrt (1 + x * x) * (x * / sqrt (1 + x * x))) with (x * (/ sqrt (1 + x * x) * / sqrt (1 + x * x))) by ring.
    rewrite S2. field; repeat split; nra.
Qed.

Lemma chisq_polar : forall l n nc u, let x := 2 * l * u in
  chisq_cf2 (l, n, nc) u = cexp (- / 2 * INR n * ln (1 + x * x) - x * (nc * x / (1 + x * x)),
                                 INR n * atan x + nc * x / (1 + x * x)).
Proof.
  intros l n nc u x. unfold chisq_cf2. fold x. rewrite inv_polar, cpow_cexp.
  assert (E : Cdiv (Cmult Ci (RtoC (2 * l * nc * u))) (Cminus (RtoC 1) (Cmult Ci (RtoC x)))
    = (- (x * (nc * x / (1 + x * x))), nc * x / (1 + x * x))).
  { pose proof (one_plus_sq x). replace (2 * l * nc * u) with (nc * x) by (unfold x; ring).
    unfold Cdiv, Cinv, Cminus, Cplus, Copp, Cmult, Ci, RtoC. cbn [fst snd]. f_equal; field; repeat split; nra. }
  rewrite E, cexp_add. unfold Cplus. cbn [fst snd]. f_equal. f_equal; ring.
Qed.

(** ** The loop over weights *)
Definition s1 (v : R * R * R) := fst (fst v).
Definition s2 (v : R * R * R) := snd (fst v).
Definition s3 (v : R * R * R) := snd v.

Lemma cf2_polar : forall vars sigsq c u, cf2 vars sigsq c u = cexp (2 * s3 (inner vars sigsq c u), s1 (inner vars sigsq c u)).
Proof.
  intros vars sigsq c u. unfold cf2. induction vars as [|[[l n] nc] vars IH].
  - cbn. rewrite Cmult_1_r. f_equal. f_equal; field.
  - cbn [fold_right]. rewrite Cmult_assoc, (Cmult_comm (cexp _)), <- Cmult_assoc, IH, chisq_polar, cexp_add.
    unfold inner. cbn [fold_right]. fold (inner vars sigsq c u). destruct (inner vars sigsq c u) as [[a b] d].
    unfold s1, s3, Cplus. cbn [fst snd]. pose proof (one_plus_sq (2 * l * u)). f_equal. f_equal; field; lra.
Qed.

Definition E_of (vars : list (R * nat * R)) (sigsq c u : R) : C :=
  cexp (s3 (inner vars sigsq c u), / 2 * s1 (inner vars sigsq c u)).

Lemma inner_zero : forall vars sigsq c, s1 (inner vars sigsq c 0) = 0 /\ s3 (inner vars sigsq c 0) = 0.
Proof.
  intros vars sigsq c. induction vars as [|[[l n] nc] vars [I1 I3]]; [cbn; split; ring|].
  unfold inner. cbn [fold_right]. fold (inner vars sigsq c 0). destruct (inner vars sigsq c 0) as [[a b] d].
  unfold s1, s3 in *. cbn [fst snd] in *. subst a d. rewrite !Rmult_0_r, Rplus_0_r, ln_1, atan_0. unfold Rdiv. split; ring.
Qed.

Lemma inner_continuous : forall vars sigsq c u,
  continuous (fun t => s1 (inner vars sigsq c t)) u /\ continuous (fun t => s3 (inner vars sigsq c t)) u.
Proof.
  intros vars sigsq c u. induction vars as [|[[l n] nc] vars [I1 I3]].
  - cbn. split; apply (ex_derive_continuous (K := R_AbsRing) (V := R_NormedModule)); auto_derive; exact I.
  - split.
    + apply (continuous_ext (fun t => s1 (inner vars sigsq c t) + (INR n * atan (2 * l * t) + nc * (2 * l * t) / (1 + 2 * l * t * (2 * l * t))))).
      { intros t. unfold inner at 2. cbn [fold_right]. fold (inner vars sigsq c t). destruct (inner vars sigsq c t) as [[a b] d]. reflexivity. }
      apply (continuous_plus (V := R_NormedModule)); [exact I1|]. apply (ex_derive_continuous (K := R_AbsRing) (V := R_NormedModule)). auto_derive.
      pose proof (one_plus_sq (2 * l * u)). repeat split; lra.
    + apply (continuous_ext (fun t => s3 (inner vars sigsq c t) + (- / 4 * INR n * ln (1 + 2 * l * t * (2 * l * t)) - / 2 * (2 * l * t) * (nc * (2 * l * t) / (1 + 2 * l * t * (2 * l * t)))))).
      { intros t. unfold inner at 2. cbn [fold_right]. fold (inner vars sigsq c t). destruct (inner vars sigsq c t) as [[a b] d]. unfold s3. cbn. ring. }
      apply (continuous_plus (V := R_NormedModule)); [exact I3|]. apply (ex_derive_continuous (K := R_AbsRing) (V := R_NormedModule)). auto_derive.
      pose proof (one_plus_sq (2 * l * u)). repeat split; lra.
Qed.

Lemma E_root : forall vars sigsq c, is_root (E_of vars sigsq c) (cf2 vars sigsq c).
Proof.
  intros vars sigsq c. split; [|split; [|split]].
  - intros u. unfold E_of. rewrite cexp_add, cf2_polar. unfold Cplus. cbn [fst snd]. f_equal. f_equal; field.
  - unfold E_of. destruct (inner_zero vars sigsq c) as [A B]. rewrite A, B, Rmult_0_r. apply cexp_zero.
  - intros u. destruct (inner_continuous vars sigsq c u) as [A B]. unfold E_of, cexp. cbn [fst snd].
    apply (continuous_mult (K := R_AbsRing)).
    + apply (continuous_comp (fun t => s3 (inner vars sigsq c t)) exp); [exact B|apply continuous_exp].
    + apply (continuous_comp (fun t => / 2 * s1 (inner vars sigsq c t)) cos); [|apply continuous_cos].
      apply (continuous_scal_r (K := R_AbsRing) (V := R_NormedModule) (/ 2)). exact A.
  - intros u. destruct (inner_continuous vars sigsq c u) as [A B]. unfold E_of, cexp. cbn [fst snd].
    apply (continuous_mult (K := R_AbsRing)).
    + apply (continuous_comp (fun t => s3 (inner vars sigsq c t)) exp); [exact B|apply continuous_exp].
    + apply (continuous_comp (fun t => / 2 * s1 (inner vars sigsq c t)) sin); [|apply continuous_sin].
      apply (continuous_scal_r (K := R_AbsRing) (V := R_NormedModule) (/ 2)). exact A.
Qed.

(** ** Sums *)
Lemma integrate_sum : forall vars interv tausq mainx sigsq c n intl ersm,
  integrate vars interv tausq mainx sigsq c n intl ersm =
  (intl + sum_to n (fun k => fst (one_term vars interv tausq mainx sigsq c k)),
   ersm + sum_to n (fun k => snd (one_term vars interv tausq mainx sigsq c k))).
Proof. induction n; intros; cbn [integrate sum_to]; [reflexivity|]. rewrite IHn. f_equal; ring. Qed.

Lemma inner_bound : forall vars sigsq c u, Rabs (s1 (inner vars sigsq c u)) <= s2 (inner vars sigsq c u).
Proof.
  intros vars sigsq c u. induction vars as [|[[l n] nc] vars IH]; [cbn; lra|].
  unfold inner. cbn [fold_right]. fold (inner vars sigsq c u). destruct (inner vars sigsq c u) as [[a b] d].
  unfold s1, s2 in *. cbn [fst snd] in *. eapply Rle_trans; [apply Rabs_triang|]. lra.
Qed.
Lemma sin_le : forall x, Rabs (sin x) <= Rabs x.
Proof.
  assert (H : forall x, 0 <= x -> sin x <= x).
  { intros x Hx. destruct (Req_dec x 0) as [->|N]; [rewrite sin_0; lra|]. apply Rlt_le, sin_lt_x. lra. }
  assert (G : forall x, 0 <= x -> Rabs (sin x) <= x).
  { intros x Hx. apply Rabs_le. split; [|apply H; exact Hx]. destruct (Rle_dec x PI) as [L|L].
    - pose proof (sin_ge_0 x Hx L). lra.
    - pose proof (SIN_bound x). pose proof PI_RGT_0. pose proof PI2_1. unfold PI2 in *. lra. }
  intros x. destruct (Rle_dec 0 x) as [L|L].
  - rewrite (Rabs_right x) by lra. apply G. exact L.
  - rewrite <- (Rabs_Ropp (sin x)), <- sin_neg, (Rabs_left x) by lra. apply G. lra.
Qed.
Lemma exp1_pos : forall x, 0 <= exp1 x.
Proof. intros. unfold exp1. destruct (Rlt_dec x (- 50)); [lra|]. pose proof (exp_pos x). lra. Qed.
Lemma exp1_le : forall x, x <= 0 -> exp1 x <= 1.
Proof. intros. unfold exp1. destruct (Rlt_dec x (- 50)); [lra|]. rewrite <- exp_0. destruct (Req_dec x 0) as [->|]; [lra|]. apply Rlt_le, exp_increasing. lra. Qed.

Lemma Cmod_cexp : forall a b, Cmod (cexp (a, b)) = exp a.
Proof.
  intros a b. unfold Cmod, cexp. cbn [fst snd]. pose proof (exp_pos a).
  replace ((exp a * cos b) ^ 2 + (exp a * sin b) ^ 2) with (exp a * exp a * (Rsqr (sin b) + Rsqr (cos b))) by (unfold Rsqr; ring).
  rewrite sin2_cos2, Rmult_1_r. apply sqrt_square. lra.
Qed.
Lemma exp_lt_iff : forall a b, exp a < exp b <-> a < b.
Proof. intros. split; [apply exp_lt_inv|apply exp_increasing]. Qed.
Lemma exp1_cut : forall x, exp1 x = cut (exp x).
Proof.
  intros x. unfold exp1, cut. destruct (Rlt_dec x (- 50)) as [L|L], (Rlt_dec (exp x) (exp (- 50))) as [M|M]; try reflexivity;
    exfalso; [apply M, exp_lt_iff, L|apply L, exp_lt_iff, M].
Qed.
Lemma ccut_sin : forall a b, snd (ccut (cexp (a, b))) = exp1 a * sin b.
Proof.
  intros a b. rewrite exp1_cut. unfold ccut, cut. rewrite Cmod_cexp. destruct (Rlt_dec (exp a) (exp (- 50))); cbn; ring.
Qed.

Lemma sum_to_ext : forall n g h, (forall k, (k <= n)%nat -> g k = h k) -> sum_to n g = sum_to n h.
Proof. induction n; intros; cbn [sum_to]; [auto|]. rewrite (IHn g h), H; auto. Qed.
Lemma sum_to_abs : forall n g h, (forall k, (k <= n)%nat -> Rabs (g k) <= h k) -> Rabs (sum_to n g) <= sum_to n h.
Proof.
  induction n; intros; cbn [sum_to]; [auto|]. eapply Rle_trans; [apply Rabs_triang|]. apply Rplus_le_compat; auto.
Qed.

(** ** Points found by findu and ctff *)
Section Search.
Variable trunc_err : R -> R -> R -> R.
Variable err_bound : R -> R -> R * R.
Variable lim : nat.

(** The result of a search, if there is one, satisfies [P]. *)
Definition holds {A} (P : A -> Prop) (x : res A) : Prop := match x with Done a _ => P a | _ => True end.
Lemma holds_bind {A B} (P : A -> Prop) (Q : B -> Prop) x f :
  holds P x -> (forall a c, P a -> holds Q (f a c)) -> holds Q (bind x f).
Proof. destruct x; cbn; auto. Qed.
Lemma holds_call {A} (a : A) c : holds (fun b => b = a) (call lim a c).
Proof. unfold call. destruct (lim <? S c)%nat; cbn; auto. Qed.
Lemma holds_weaken {A} (P Q : A -> Prop) x : (forall a, P a -> Q a) -> holds P x -> holds Q x.
Proof. destruct x; cbn; auto. Qed.

Variables accx sigsq : R.
Let ok u := trunc_err u 0 sigsq <= accx.
Lemma grow_ok fuel : forall ut c, 0 < ut -> accx < trunc_err (ut / 4) 0 sigsq ->
  holds (fun u => 0 < u /\ ok u /\ ~ ok (u / 4)) (grow trunc_err lim fuel accx sigsq ut c).
Proof.
  induction fuel; intros ut c P H; cbn [grow]; (eapply holds_bind; [apply holds_call|]; intros a c' ->; cbv beta; destruct (Rlt_dec _ _)).
  - exact I.
  - cbn. unfold ok. lra.
  - apply IHfuel; [lra|]. replace (ut * 4 / 4) with ut by field. assumption.
  - cbn. unfold ok. lra.
Qed.
Lemma shrink_ok fuel : forall ut c, 0 < ut -> ok ut ->
  holds (fun u => 0 < u /\ ok u /\ ~ ok (u / 4)) (shrink trunc_err lim fuel accx sigsq ut (ut / 4) c).
Proof.
  induction fuel; intros ut c P H; cbn [shrink]; (eapply holds_bind; [apply holds_call|]; intros a c' ->; cbv beta; destruct (Rle_dec _ _)).
  - exact I.
  - cbn. auto.
  - apply IHfuel; [lra|assumption].
  - cbn. auto.
Qed.
Lemma refine_ok divs : forall ut c, ok ut -> holds ok (refine trunc_err lim divs accx sigsq ut c).
Proof.
  induction divs; intros ut c H; cbn [refine]; [exact H|]. eapply holds_bind; [apply holds_call|]. intros b c' ->. cbv beta.
  apply IHdivs. destruct (Rle_dec _ _); assumption.
Qed.
(** One division: the point where the accuracy is lost is within ratio [q] before and within [max (q/d) d] after. *)
Hypothesis anti : forall u v, 0 < u -> u <= v -> trunc_err v 0 sigsq <= trunc_err u 0 sigsq.
Lemma lost_le : forall u v, 0 < u -> u <= v -> ~ ok v -> ~ ok u.
Proof. unfold ok. intros u v H L N. pose proof (anti u v H L). lra. Qed.
Lemma step_lost : forall d q q' ut c, 1 < d -> 1 < q -> q <= q' * d -> d <= q' -> 0 < ut -> ok ut -> ~ ok (ut / q) ->
  forall r (Q : R -> Prop),
  (forall u c', 0 < u -> ok u -> ~ ok (u / q') -> holds Q (refine trunc_err lim r accx sigsq u c')) ->
  holds Q (refine trunc_err lim (d :: r) accx sigsq ut c).
Proof.
  intros d q q' ut c Hd Hq H1 H2 P K N r Q IH. cbn [refine]. eapply holds_bind; [apply holds_call|]. intros b c' ->. cbv beta.
  assert (Q0 : 0 < q') by lra.
  destruct (Rle_dec _ _) as [L|L].
  - apply IH; [apply Rdiv_lt_0_compat; lra|exact L|]. eapply lost_le; [| |exact N].
    + apply Rdiv_lt_0_compat; [apply Rdiv_lt_0_compat|]; lra.
    + unfold Rdiv. rewrite Rmult_assoc, <- Rinv_mult. apply Rmult_le_compat_l; [lra|]. apply Rinv_le_contravar; [lra|]. lra.
  - apply IH; [exact P|exact K|]. eapply lost_le; [| |exact L].
    + apply Rdiv_lt_0_compat; lra.
    + unfold Rdiv. apply Rmult_le_compat_l; [lra|]. apply Rinv_le_contravar; lra.
Qed.
End Search.

Section Cutoff.
Variable err_bound : R -> R -> R * R.
Variable lim : nat.
Variables accx sigsq rb : R.
Definition meets (u c : R) : Prop :=
  fst (err_bound (u / (1 + u * rb)) sigsq) <= accx /\ snd (err_bound (u / (1 + u * rb)) sigsq) = c.
Lemma widen_ok fuel : forall u1 c1 u2 n, holds (fun w => let '(_, _, u, c) := w in meets u c) (widen err_bound lim fuel accx sigsq rb u1 c1 u2 n).
Proof.
  induction fuel; intros; cbn [widen]; (eapply holds_bind; [apply holds_call|]; intros a c' ->; cbv beta; destruct (Rlt_dec _ _)).
  - exact I.
  - cbn. unfold meets. split; [lra|reflexivity].
  - apply IHfuel.
  - cbn. unfold meets. split; [lra|reflexivity].
Qed.
Lemma narrow_ok fuel mean : forall u1 c1 u2 c2 n, meets u2 c2 ->
  holds (fun w => meets (fst w) (snd w)) (narrow err_bound lim fuel accx sigsq rb mean u1 c1 u2 c2 n).
Proof.
  induction fuel; intros; cbn [narrow]; (destruct (Rlt_dec ((c1 - mean) / (c2 - mean)) (9 / 10)); [|exact H]);
    (eapply holds_bind; [apply holds_call|]; intros a c' ->; cbv beta).
  - exact I.
  - destruct (Rlt_dec _ _); apply IHfuel; [assumption|]. unfold meets. split; [lra|reflexivity].
Qed.
End Cutoff.
