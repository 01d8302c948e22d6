(** Lemmas for Dtr2Props. *)
From Coq Require Import List Arith Reals Lra Lia.
From Coquelicot Require Import Coquelicot.
From Verif Require Import DavModel DtrModel DtrSpec DtrProofs Dtr2Spec.
Import ListNotations.
Local Open Scope R_scope.

Definition noncentral (vars : list (R * nat * R)) (t : R) : R :=
  fold_right (fun v a => let '(l, n, nc) := v in let x := (2 * t * l) ^ 2 in a + nc * x / (1 + x)) 0 vars.
Definition logs (vars : list (R * nat * R)) (p t : R) : R :=
  fold_right (fun v a => let '(l, n, nc) := v in let x := (2 * t * l) ^ 2 in a + INR n * ln (1 + x)) p vars.

Lemma modulus_exp : forall vars var t,
  modulus vars var t = exp (- (/ 2 * noncentral vars t) - / 4 * logs vars (2 * (var * t ^ 2)) t).
Proof.
  intros vars var t. unfold modulus. induction vars as [|[[l n] nc] vars IH].
  - cbn. rewrite Rmult_1_r. f_equal. field.
  - cbn [fold_right noncentral logs]. fold (noncentral vars t) (logs vars (2 * (var * t ^ 2)) t).
    match goal with |- ?e * (?x * ?y * ?f) = _ => transitivity (x * y * (e * f)); [ring|]; change (e * f) with (e * f) in IH; set (ef := e * f) in * end.
    rewrite IH. unfold Rpower. rewrite <- !exp_plus. f_equal. field. pose proof (pow2_ge_0 (2 * t * l)). lra.
Qed.

Lemma loop_sums : forall vars t p, let a := loop vars (2 * t) p in
  sum1 a = noncentral vars t /\ prod1 a + prod3 a = logs vars p t.
Proof.
  intros vars t p. cbv zeta. induction vars as [|[[l n] nc] vars IH]; [cbn; split; ring|]. destruct IH as [I1 I2].
  change (loop ((l, n, nc) :: vars) (2 * t) p) with (weight_step (2 * t) (l, n, nc) (loop vars (2 * t) p)). unfold weight_step.
  cbn [noncentral logs fold_right]. fold (noncentral vars t) (logs vars p t).
  destruct (Rlt_dec _ _); cbn [sum1 prod1 prod3]; rewrite <- I1, <- I2; split; ring.
Qed.

Lemma logs_shift : forall vars p q t, logs vars q t = logs vars p t + (q - p).
Proof. induction vars as [|[[l n] nc] vars IH]; intros p q t; [cbn; ring|]. cbn [logs fold_right]. fold (logs vars q t) (logs vars p t). rewrite (IH p q). ring. Qed.

Lemma noncentral_mono : forall vars u t, 0 <= u -> u <= t -> valid vars -> noncentral vars u <= noncentral vars t.
Proof.
  intros vars u t H L V. destruct (loop_total vars (2 * u) (2 * t) 0 0 ltac:(lra) ltac:(lra) ltac:(lra) V) as [A _].
  destruct (loop_sums vars u 0) as [B _]. destruct (loop_sums vars t 0) as [C _]. cbv zeta in *. rewrite <- B, <- C. exact A.
Qed.
Lemma logs_mono : forall vars u t p q, 0 <= u -> u <= t -> p <= q -> valid vars -> logs vars p u + (q - p) <= logs vars q t.
Proof.
  intros vars u t p q H L Hp V. destruct (loop_total vars (2 * u) (2 * t) q q ltac:(lra) ltac:(lra) ltac:(lra) V) as [_ A].
  destruct (loop_sums vars u q) as [_ B]. destruct (loop_sums vars t q) as [_ C]. cbv zeta in *.
  rewrite <- (logs_shift vars p q u), <- B, <- C. exact A.
Qed.

(** First bound: passed weights decay as a power. *)
Lemma first_bound : forall vars u t p q, 0 < u -> u <= t -> p <= q ->
  let a := loop vars (2 * u) p in
  prod1 a + prod2 a + INR (count_s a) * (2 * (ln t - ln u)) <= logs vars q t.
Proof.
  intros vars u t p q H L Hp. cbv zeta. induction vars as [|[[l n] nc] vars IH]; [cbn; lra|].
  change (loop ((l, n, nc) :: vars) (2 * u) p) with (weight_step (2 * u) (l, n, nc) (loop vars (2 * u) p)). unfold weight_step.
  cbn [logs fold_right]. fold (logs vars q t). pose proof (pos_INR n) as N.
  destruct (sq_mono (2 * u) (2 * t) l ltac:(lra) ltac:(lra)) as [Q0 Q1].
  destruct (Rlt_dec _ _) as [A|A]; cbn [prod1 prod2 count_s].
  - rewrite plus_INR. assert (G : INR n * (ln ((2 * u * l) ^ 2) + 2 * (ln t - ln u)) <= INR n * ln (1 + (2 * t * l) ^ 2)); [|lra].
    apply Rmult_le_compat_l; [exact N|].
    assert (E : ln ((2 * u * l) ^ 2) + 2 * (ln t - ln u) = ln ((2 * t * l) ^ 2)).
    { assert (Rl : l <> 0) by (intros ->; rewrite Rmult_0_r in A; cbn in A; lra).
      assert (P2 : 0 < (2 * l) ^ 2) by (apply pow2_gt_0; lra).
      replace ((2 * u * l) ^ 2) with (u ^ 2 * (2 * l) ^ 2) by ring. replace ((2 * t * l) ^ 2) with (t ^ 2 * (2 * l) ^ 2) by ring.
      rewrite (ln_mult (u ^ 2)), (ln_mult (t ^ 2)), (ln_nat u), (ln_nat t) by first [exact P2|apply pow_lt; lra|lra]. cbn [INR]. ring. }
    rewrite E. apply ln_le_mono; lra.
  - assert (G : INR n * ln (1 + (2 * u * l) ^ 2) <= INR n * ln (1 + (2 * t * l) ^ 2)); [|lra].
    apply Rmult_le_compat_l; [exact N|]. apply ln_le_mono; lra.
Qed.

(** Second bound: products of (1 + E x) / (1 + x). *)
Lemma join : forall D a b A B, 0 <= D -> 0 < a <= 1 -> 0 < b <= 1 -> 1 + D * (1 - a) <= A -> 1 + D * (1 - b) <= B ->
  1 + D * (1 - a * b) <= A * B.
Proof.
  intros D a b A B HD Ha Hb HA HB.
  assert (X : (1 + D * (1 - a)) * (1 + D * (1 - b)) <= A * B).
  { apply Rmult_le_compat; try assumption; assert (0 <= D * (1 - a)) by (apply Rmult_le_pos; lra);
    assert (0 <= D * (1 - b)) by (apply Rmult_le_pos; lra); lra. }
  eapply Rle_trans; [|exact X].
  assert (0 <= D * ((1 - a) * (1 - b))) by (apply Rmult_le_pos; [lra|apply Rmult_le_pos; lra]).
  assert (0 <= D * (D * ((1 - a) * (1 - b)))) by (apply Rmult_le_pos; lra). nra.
Qed.
Lemma join_pow : forall D a A n, 0 <= D -> 0 < a <= 1 -> 1 + D * (1 - a) <= A -> 1 + D * (1 - a ^ n) <= A ^ n /\ 0 < a ^ n <= 1.
Proof.
  intros D a A n HD Ha HA. induction n as [|n [I1 I2]]; [cbn; lra|]. cbn [pow]. split; [apply join; assumption|nra].
Qed.
Lemma second_bound : forall vars var u t, 0 < u -> u <= t -> 0 <= var ->
  let D := (t / u) ^ 2 - 1 in let a := logs vars (2 * (var * u ^ 2)) u in
  0 <= D /\ 0 < exp (- a) <= 1 /\ 1 + D * (1 - exp (- a)) <= exp (logs vars (2 * (var * t ^ 2)) t - a).
Proof.
  intros vars var u t H L HV. cbv zeta.
  assert (TU : 1 <= t / u) by (apply (Rmult_le_reg_r u); [lra|]; unfold Rdiv; rewrite Rmult_assoc, Rinv_l by lra; lra).
  assert (D0 : 0 <= (t / u) ^ 2 - 1) by nra. set (D := (t / u) ^ 2 - 1) in *.
  assert (TE : t ^ 2 = u ^ 2 * (D + 1)) by (unfold D; field; lra).
  split; [exact D0|]. induction vars as [|[[l n] nc] vars [I1 I2]].
  - cbn [logs fold_right]. assert (Z : 0 <= 2 * (var * u ^ 2)) by (pose proof (pow2_ge_0 u); nra). set (z := 2 * (var * u ^ 2)) in *.
    pose proof (exp_ineq1_le (- z)) as E1. assert (E2 : exp (- z) <= 1).
    { rewrite <- exp_0. destruct Z as [Z|Z]; [left; apply exp_increasing; lra|rewrite <- Z, Ropp_0; lra]. }
    split; [split; [apply exp_pos|exact E2]|].
    replace (2 * (var * t ^ 2) - z) with (D * z) by (rewrite TE; unfold z; ring).
    pose proof (exp_ineq1_le (D * z)) as E3. nra.
  - cbn [logs fold_right]. fold (logs vars (2 * (var * u ^ 2)) u) (logs vars (2 * (var * t ^ 2)) t).
    set (a := logs vars (2 * (var * u ^ 2)) u) in *. set (b := logs vars (2 * (var * t ^ 2)) t) in *.
    pose proof (pow2_ge_0 (2 * u * l)) as X. set (x := (2 * u * l) ^ 2) in *.
    assert (XE : (2 * t * l) ^ 2 = x * (D + 1)).
    { unfold x. replace ((2 * t * l) ^ 2) with (t ^ 2 * (2 * l) ^ 2) by ring. rewrite TE. ring. }
    rewrite XE. assert (Q : 0 <= x * (D + 1)) by nra.
    assert (P1 : exp (- (INR n * ln (1 + x))) = (/ (1 + x)) ^ n).
    { rewrite <- ln_nat, exp_Ropp, exp_ln by (try apply pow_lt; lra). symmetry. apply pow_inv. }
    assert (P2 : exp (INR n * ln (1 + x * (D + 1)) - INR n * ln (1 + x)) = ((1 + x * (D + 1)) / (1 + x)) ^ n).
    { unfold Rminus. rewrite exp_plus, P1, <- ln_nat, exp_ln by (try apply pow_lt; lra). unfold Rdiv. rewrite Rpow_mult_distr. reflexivity. }
    assert (q : 0 < / (1 + x) <= 1).
    { split; [apply Rinv_0_lt_compat; lra|]. rewrite <- Rinv_1. apply Rinv_le_contravar; lra. }
    destruct (join_pow D (/ (1 + x)) ((1 + x * (D + 1)) / (1 + x)) n D0 q) as [J1 J2].
    { right. field. lra. }
    replace (- (a + INR n * ln (1 + x))) with (- a + - (INR n * ln (1 + x))) by ring. rewrite exp_plus, P1.
    replace (b + INR n * ln (1 + x * (D + 1)) - (a + INR n * ln (1 + x))) with ((b - a) + (INR n * ln (1 + x * (D + 1)) - INR n * ln (1 + x))) by ring.
    rewrite exp_plus, P2. split; [nra|]. apply join; assumption.
Qed.

(** Integrals. *)
Lemma noncentral_derive : forall vars t, ex_derive (K := R_AbsRing) (V := R_NormedModule) (fun t : R => noncentral vars t) t.
Proof.
  intros vars t. induction vars as [|[[l n] nc] vars IH]; [apply (ex_derive_const (K := R_AbsRing) (V := R_NormedModule) 0)|].
  apply (ex_derive_plus (K := R_AbsRing) (V := R_NormedModule) (fun t : R => noncentral vars t) (fun t : R => nc * (2 * t * l) ^ 2 / (1 + (2 * t * l) ^ 2)) t IH).
  auto_derive. pose proof (pow2_ge_0 (2 * t * l)). cbn [pow] in *. lra.
Qed.
Lemma logs_derive : forall vars var t, ex_derive (K := R_AbsRing) (V := R_NormedModule) (fun t : R => logs vars (2 * (var * t ^ 2)) t) t.
Proof.
  intros vars var t. induction vars as [|[[l n] nc] vars IH]; [cbn [logs fold_right]; auto_derive; exact I|].
  apply (ex_derive_plus (K := R_AbsRing) (V := R_NormedModule) (fun t : R => logs vars (2 * (var * t ^ 2)) t) (fun t : R => INR n * ln (1 + (2 * t * l) ^ 2)) t IH).
  auto_derive. pose proof (pow2_ge_0 (2 * t * l)). cbn [pow] in *. lra.
Qed.
Lemma modulus_continuous : forall vars var t, 0 < t -> continuous (fun t : R => modulus vars var t / (PI * t)) t.
Proof.
  intros vars var t H. apply (ex_derive_continuous (K := R_AbsRing) (V := R_NormedModule)).
  apply (ex_derive_ext (K := R_AbsRing) (V := R_NormedModule)
    (fun t : R => exp (- (/ 2 * noncentral vars t) - / 4 * logs vars (2 * (var * t ^ 2)) t) / (PI * t))).
  { intros s. rewrite modulus_exp. reflexivity. }
  pose proof (noncentral_derive vars t) as A. pose proof (logs_derive vars var t) as B.
  set (f := fun t : R => noncentral vars t) in *. set (g := fun t : R => logs vars (2 * (var * t ^ 2)) t) in *.
  apply (ex_derive_ext (K := R_AbsRing) (V := R_NormedModule) (fun t : R => exp (- (/ 2 * f t) - / 4 * g t) / (PI * t))); [reflexivity|].
  clearbody f g. pose proof PI_3. auto_derive. repeat split; try assumption. apply Rgt_not_eq. nra.
Qed.

Lemma tail_le : forall vars var u T (g F : R -> R), 0 < u -> u <= T ->
  (forall t, u <= t <= T -> modulus vars var t / (PI * t) <= g t) ->
  (forall t, u <= t <= T -> is_derive (K := R_AbsRing) (V := R_NormedModule) F t (g t)) ->
  (forall t, u <= t <= T -> continuous g t) ->
  tail vars var u T <= F T - F u.
Proof.
  intros vars var u T g F H L B D C. unfold tail.
  assert (I : is_RInt g u T (F T - F u)).
  { apply (is_RInt_derive (V := R_CompleteNormedModule) F g); intros t; rewrite Rmin_left, Rmax_right by exact L; [apply D|apply C]. }
  rewrite <- (is_RInt_unique g u T _ I). apply RInt_le; [exact L| | |].
  - apply (ex_RInt_continuous (V := R_CompleteNormedModule)). intros t. rewrite Rmin_left, Rmax_right by exact L. intros Ht. apply modulus_continuous. lra.
  - exists (F T - F u). exact I.
  - intros t Ht. apply B. lra.
Qed.

Lemma power_tail : forall vars var u T C k, 0 < u -> u <= T -> 0 < k -> 0 <= C ->
  (forall t, u <= t -> modulus vars var t <= C * exp (- (k / 2 * (ln t - ln u)))) ->
  tail vars var u T <= 2 / k * C / PI.
Proof.
  intros vars var u T C k H L K C0 B. pose proof PI_3 as P.
  set (F := fun t : R => - (2 / k * C / PI * exp (- (k / 2 * (ln t - ln u))))).
  set (g := fun t : R => C / PI * exp (- (k / 2 * (ln t - ln u))) / t).
  assert (X : tail vars var u T <= F T - F u).
  { apply (tail_le vars var u T g F H L).
    - intros t Ht. unfold g. replace (modulus vars var t / (PI * t)) with (modulus vars var t * (/ PI * / t)) by (field; lra).
      replace (C / PI * exp (- (k / 2 * (ln t - ln u))) / t) with (C * exp (- (k / 2 * (ln t - ln u))) * (/ PI * / t)) by (field; lra).
      apply Rmult_le_compat_r; [|apply B; lra]. apply Rmult_le_pos; left; apply Rinv_0_lt_compat; lra.
    - intros t Ht. unfold F, g. auto_derive; [lra|]. change (ln t + - ln u) with (ln t - ln u). field. repeat split; lra.
    - intros t Ht. apply (ex_derive_continuous (K := R_AbsRing) (V := R_NormedModule)). unfold g. auto_derive. lra. }
  eapply Rle_trans; [exact X|]. unfold F. replace (- (k / 2 * (ln u - ln u))) with 0 by ring. rewrite exp_0.
  assert (0 <= 2 / k * C / PI * exp (- (k / 2 * (ln T - ln u)))).
  { apply Rmult_le_pos; [|left; apply exp_pos]. apply Rmult_le_pos; [|left; apply Rinv_0_lt_compat; lra].
    apply Rmult_le_pos; [|exact C0]. apply Rmult_le_pos; [lra|left; apply Rinv_0_lt_compat; lra]. }
  lra.
Qed.

Lemma normal_tail : forall vars var u T C, 0 < u -> u <= T -> 0 < var -> 0 <= C ->
  (forall t, u <= t -> modulus vars var t <= C * exp (- (var * (t ^ 2 - u ^ 2) / 2))) ->
  tail vars var u T <= C / PI / (var * u ^ 2).
Proof.
  intros vars var u T C H L K C0 B. pose proof PI_3 as P. assert (U2 : 0 < u ^ 2) by (apply pow_lt; exact H).
  set (F := fun t : R => - (C / PI / (var * u ^ 2) * exp (- (var * (t ^ 2 - u ^ 2) / 2)))).
  set (g := fun t : R => C / PI * exp (- (var * (t ^ 2 - u ^ 2) / 2)) * (t / u ^ 2)).
  assert (X : tail vars var u T <= F T - F u).
  { apply (tail_le vars var u T g F H L).
    - intros t Ht. unfold g. replace (modulus vars var t / (PI * t)) with (modulus vars var t * (/ PI * / t)) by (field; lra).
      replace (C / PI * exp (- (var * (t ^ 2 - u ^ 2) / 2)) * (t / u ^ 2)) with (C * exp (- (var * (t ^ 2 - u ^ 2) / 2)) * (/ PI * (t / u ^ 2))) by (field; lra).
      assert (IP : 0 < / PI) by (apply Rinv_0_lt_compat; lra). assert (IT : 0 < / t) by (apply Rinv_0_lt_compat; lra).
      apply Rmult_le_compat; [rewrite modulus_exp; left; apply exp_pos|apply Rmult_le_pos; lra|apply B; lra|].
      apply Rmult_le_compat_l; [lra|]. apply (Rmult_le_reg_r (u ^ 2 * t)); [apply Rmult_lt_0_compat; lra|].
      replace (/ t * (u ^ 2 * t)) with (u ^ 2) by (field; lra). replace (t / u ^ 2 * (u ^ 2 * t)) with (t ^ 2) by (field; lra). apply pow_incr. lra.
    - intros t Ht. unfold F, g. auto_derive; [exact I|]. change (- (var * (t * (t * 1) + - (u * (u * 1))) * / 2)) with (- (var * (t ^ 2 - u ^ 2) / 2)).
      generalize (exp (- (var * (t ^ 2 - u ^ 2) / 2))). intros e. field. repeat split; lra.
    - intros t Ht. apply (ex_derive_continuous (K := R_AbsRing) (V := R_NormedModule)). unfold g. auto_derive. lra. }
  eapply Rle_trans; [exact X|]. unfold F. replace (- (var * (u ^ 2 - u ^ 2) / 2)) with 0 by field. rewrite exp_0.
  assert (0 <= C / PI / (var * u ^ 2) * exp (- (var * (T ^ 2 - u ^ 2) / 2))).
  { apply Rmult_le_pos; [|left; apply exp_pos]. apply Rmult_le_pos; [|left; apply Rinv_0_lt_compat, Rmult_lt_0_compat; lra].
    apply Rmult_le_pos; [exact C0|left; apply Rinv_0_lt_compat; lra]. }
  lra.
Qed.

Lemma loop_prod23 : forall vars u p, prod2 (loop vars u p) <= prod3 (loop vars u p).
Proof.
  intros vars u p. induction vars as [|[[l n] nc] vars IH]; [cbn; lra|].
  change (loop ((l, n, nc) :: vars) u p) with (weight_step u (l, n, nc) (loop vars u p)). unfold weight_step.
  destruct (Rlt_dec _ _); cbn [prod2 prod3]; [|exact IH].
  assert (INR n * ln ((u * l) ^ 2) <= INR n * ln (1 + (u * l) ^ 2)); [|lra].
  apply Rmult_le_compat_l; [apply pos_INR|apply ln_le_mono; lra].
Qed.
Lemma exp_le : forall a b, a <= b -> exp a <= exp b.
Proof. intros a b [H|H]; [left; apply exp_increasing; exact H|subst; lra]. Qed.
Lemma exp1_exp : forall e, - 50 <= e -> exp1 e = exp e.
Proof. intros e H. unfold exp1. destruct (Rlt_dec e (- 50)); [lra|reflexivity]. Qed.
Lemma root_two : exp (/ 4 * ln 2) <= 5 / 4.
Proof.
  rewrite <- (exp_ln (5 / 4)) by lra. apply exp_le.
  assert (ln 2 <= ln ((5 / 4) ^ 4)) by (apply ln_le_mono; lra). rewrite ln_nat in H by lra. cbn [INR] in H. lra.
Qed.

Lemma tail_truncation : forall vars u T tausq sigsq, 0 <= tausq -> 0 <= sigsq -> valid vars -> 0 < u -> u <= T ->
  exp (- 50) <= modulus vars (sigsq + tausq) u -> truncation vars u tausq sigsq < 1 ->
  tail vars (sigsq + tausq) u T <= truncation vars u tausq sigsq.
Proof.
  intros vars u T tq sg Ht Hs V Hu L Hm. unfold truncation. cbv zeta. rewrite modulus_exp in Hm.
  set (var := sg + tq) in *. assert (V0 : 0 <= var) by (unfold var; lra).
  set (p := 2 * (var * u ^ 2)) in *.
  destruct (loop_sums vars u p) as [S1 S3]. pose proof (loop_prod23 vars (2 * u) p) as S23.
  assert (U2 : 0 < u ^ 2) by (apply pow_lt; exact Hu).
  assert (FB : forall t, u <= t -> prod1 (loop vars (2 * u) p) + prod2 (loop vars (2 * u) p) +
     INR (count_s (loop vars (2 * u) p)) * (2 * (ln t - ln u)) <= logs vars (2 * (var * t ^ 2)) t).
  { intros t Lt. apply first_bound; [exact Hu|exact Lt|]. unfold p. assert (u ^ 2 <= t ^ 2) by (apply pow_incr; lra). nra. }
  cbv zeta in S1, S3. set (a := loop vars (2 * u) p) in *. rewrite S1, S3.
  assert (E50 : - 50 <= - (/ 2 * noncentral vars u) - / 4 * logs vars p u).
  { destruct Hm as [Hm|Hm]; [left; apply exp_lt_inv; exact Hm|right; apply exp_inv; exact Hm]. }
  rewrite !exp1_exp by lra.
  set (N := noncentral vars u) in *. set (A := logs vars p u) in *.
  set (Y := exp (- (/ 2 * N) - / 4 * A)) in *. set (X := exp (- (/ 2 * N) - / 4 * (prod1 a + prod2 a))) in *.
  assert (Y0 : 0 < Y) by apply exp_pos. assert (X0 : 0 < X) by apply exp_pos. pose proof PI_3 as P.
  assert (B1 : forall s, count_s a = s -> tail vars var u T <= (if (s =? 0)%nat then 1 else X / PI * 2 / INR s) \/ (if (s =? 0)%nat then 1 else X / PI * 2 / INR s) = 1).
  { intros s Es. destruct (Nat.eqb_spec s 0) as [Q|Q]; [right; reflexivity|]. left.
    assert (Sp : 0 < INR s) by (apply lt_0_INR; lia).
    replace (X / PI * 2 / INR s) with (2 / INR s * X / PI) by (field; lra).
    apply power_tail; [exact Hu|exact L|exact Sp|lra|]. intros t Lt. rewrite modulus_exp. unfold X. rewrite <- exp_plus. apply exp_le.
    specialize (FB t Lt). rewrite Es in FB. pose proof (noncentral_mono vars u t ltac:(lra) Lt V) as NM. fold N in NM. lra. }
  assert (B2 : tail vars var u T <= (if Rlt_dec 1 A then 5 / 2 * (Y / PI) else 1) \/ (if Rlt_dec 1 A then 5 / 2 * (Y / PI) else 1) = 1).
  { destruct (Rlt_dec 1 A) as [Q|Q]; [|right; reflexivity]. left.
    replace (5 / 2 * (Y / PI)) with (2 / 1 * (5 / 4 * Y) / PI) by (field; lra).
    apply power_tail; [exact Hu|exact L|lra|lra|]. intros t Lt. rewrite modulus_exp.
    destruct (second_bound vars var u t Hu Lt V0) as (D0 & E0 & E1). fold p in E0, E1. fold A in E0, E1.
    set (D := (t / u) ^ 2 - 1) in *.
    assert (Half : exp (- A) <= / 2).
    { eapply Rle_trans; [apply (exp_le _ (Ropp 1)); lra|]. rewrite exp_Ropp. apply Rinv_le_contravar; [lra|].
      pose proof (exp_ineq1 1 ltac:(lra)). lra. }
    assert (G : (t / u) ^ 2 * / 2 <= exp (logs vars (2 * (var * t ^ 2)) t - A)).
    { eapply Rle_trans; [|exact E1]. replace ((t / u) ^ 2) with (D + 1) by (unfold D; ring). nra. }
    assert (TU : 0 < t / u) by (apply Rmult_lt_0_compat; [lra|apply Rinv_0_lt_compat; lra]).
    apply ln_le_mono in G; [|apply Rmult_lt_0_compat; [apply pow_lt; exact TU|lra]].
    rewrite ln_exp, ln_mult, ln_nat, ln_Rinv in G by (try apply pow_lt; lra). unfold Rdiv in G at 1.
    rewrite ln_mult, ln_Rinv in G by (try apply Rinv_0_lt_compat; lra). cbn [INR] in G.
    pose proof (noncentral_mono vars u t ltac:(lra) Lt V) as NM. fold N in NM.
    apply Rle_trans with (exp (/ 4 * ln 2) * Y * exp (- (1 / 2 * (ln t - ln u)))).
    - unfold Y. rewrite <- !exp_plus. apply exp_le. lra.
    - apply Rmult_le_compat_r; [left; apply exp_pos|]. apply Rmult_le_compat_r; [lra|exact root_two]. }
  assert (B3 : tail vars var u T <= (if Rle_dec (/ 2 * (var * u ^ 2)) (Y / PI) then 1 else Y / PI / (/ 2 * (var * u ^ 2))) \/
     (if Rle_dec (/ 2 * (var * u ^ 2)) (Y / PI) then 1 else Y / PI / (/ 2 * (var * u ^ 2))) = 1).
  { destruct (Rle_dec _ _) as [Q|Q]; [right; reflexivity|]. left.
    assert (YP : 0 < Y / PI) by (apply Rmult_lt_0_compat; [exact Y0|apply Rinv_0_lt_compat; lra]).
    assert (VU : 0 < var * u ^ 2) by lra. assert (V1 : 0 < var) by nra.
    apply Rle_trans with (Y / PI / (var * u ^ 2)).
    - apply normal_tail; [exact Hu|exact L|exact V1|lra|]. intros t Lt. rewrite modulus_exp. unfold Y. rewrite <- exp_plus. apply exp_le.
      pose proof (noncentral_mono vars u t ltac:(lra) Lt V) as NM. fold N in NM.
      assert (U3 : u ^ 2 <= t ^ 2) by (apply pow_incr; lra).
      pose proof (logs_mono vars u t p (2 * (var * t ^ 2)) ltac:(lra) Lt ltac:(unfold p; nra) V) as LM. fold A in LM. unfold p in LM.
      lra.
    - unfold Rdiv at 1 3. apply Rmult_le_compat_l; [lra|]. apply Rinv_le_contravar; lra. }
  specialize (B1 _ eq_refl).
  set (e1 := if (count_s a =? 0)%nat then 1 else X / PI * 2 / INR (count_s a)) in *.
  set (e2 := if Rlt_dec 1 A then 5 / 2 * (Y / PI) else 1) in *.
  set (e3 := if Rle_dec (/ 2 * (var * u ^ 2)) (Y / PI) then 1 else Y / PI / (/ 2 * (var * u ^ 2))) in *.
  clearbody e1 e2 e3. clear - B1 B2 B3. intros R1. destruct (Rlt_dec e2 e1).
  - destruct (Rlt_dec e2 e3); [destruct B2|destruct B3]; lra.
  - destruct (Rlt_dec e1 e3); [destruct B1|destruct B3]; lra.
Qed.
