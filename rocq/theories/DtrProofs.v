(** Lemmas for DtrProps. *)
From Coq Require Import List Arith Reals Lra Lia.
From Verif Require Import DavModel DtrModel DtrSpec.
Import ListNotations.
Local Open Scope R_scope.

Lemma ln_le_mono : forall a b, 0 < a -> a <= b -> ln a <= ln b.
Proof. intros a b H [L|E]; [left; apply ln_increasing; assumption|subst; lra]. Qed.
Lemma exp1_mono : forall a b, a <= b -> exp1 a <= exp1 b.
Proof.
  intros a b H. unfold exp1. destruct (Rlt_dec a (- 50)), (Rlt_dec b (- 50)); try lra; [left; apply exp_pos|].
  destruct H as [L|E]; [left; apply exp_increasing; exact L|subst; lra].
Qed.
Lemma exp1_nonneg : forall a, 0 <= exp1 a.
Proof. intros a. unfold exp1. destruct (Rlt_dec a (- 50)); [lra|left; apply exp_pos]. Qed.
Lemma frac_mono : forall x z, 0 <= x -> x <= z -> x / (1 + x) <= z / (1 + z).
Proof.
  intros x z H L. replace (x / (1 + x)) with (1 - / (1 + x)) by (field; lra). replace (z / (1 + z)) with (1 - / (1 + z)) by (field; lra).
  assert (/ (1 + z) <= / (1 + x)) by (apply Rinv_le_contravar; lra). lra.
Qed.
Lemma sq_mono : forall u v l, 0 <= u -> u <= v -> 0 <= (u * l) ^ 2 <= (v * l) ^ 2.
Proof.
  intros u v l H L. split; [apply pow2_ge_0|]. rewrite !Rpow_mult_distr. apply Rmult_le_compat_r; [apply pow2_ge_0|]. apply pow_incr. lra.
Qed.

Lemma loop_mono : forall vars u v p q, 0 <= u -> u <= v -> p <= q -> valid vars ->
  (forall l n nc, In (l, n, nc) vars -> 1 < (u * l) ^ 2 \/ (v * l) ^ 2 <= 1) ->
  let a := loop vars u p in let b := loop vars v q in
  sum1 a <= sum1 b /\ prod1 a <= prod1 b /\ prod2 a <= prod2 b /\ prod3 a <= prod3 b /\ count_s a = count_s b.
Proof.
  intros vars u v p q H L Hp V S. cbv zeta. induction vars as [|[[l n] nc] vars IH].
  - cbn. repeat split; lra || reflexivity.
  - destruct IH as (I1 & I2 & I3 & I4 & I5).
    { intros l' n' nc' I. apply (V l' n' nc'). right. exact I. }
    { intros l' n' nc' I. apply (S l' n' nc'). right. exact I. }
    specialize (V l n nc (or_introl eq_refl)). specialize (S l n nc (or_introl eq_refl)).
    destruct (sq_mono u v l H L) as [Q0 Q1]. pose proof (pos_INR n) as N.
    change (loop ((l, n, nc) :: vars) u p) with (weight_step u (l, n, nc) (loop vars u p)).
    change (loop ((l, n, nc) :: vars) v q) with (weight_step v (l, n, nc) (loop vars v q)).
    unfold weight_step. pose proof (frac_mono _ _ Q0 Q1) as F.
    assert (F' : nc * (u * l) ^ 2 / (1 + (u * l) ^ 2) <= nc * (v * l) ^ 2 / (1 + (v * l) ^ 2)).
    { unfold Rdiv in *. rewrite !Rmult_assoc. apply Rmult_le_compat_l; assumption. }
    assert (G : INR n * ln (1 + (u * l) ^ 2) <= INR n * ln (1 + (v * l) ^ 2)).
    { apply Rmult_le_compat_l; [exact N|]. apply ln_le_mono; lra. }
    destruct (Rlt_dec 1 ((u * l) ^ 2)) as [A|A], (Rlt_dec 1 ((v * l) ^ 2)) as [B|B];
      [|destruct S; lra|destruct S; lra|]; cbn [sum1 prod1 prod2 prod3 count_s].
    + assert (G2 : INR n * ln ((u * l) ^ 2) <= INR n * ln ((v * l) ^ 2)) by (apply Rmult_le_compat_l; [exact N|apply ln_le_mono; lra]).
      repeat split; try lra. congruence.
    + repeat split; try lra. assumption.
Qed.

Lemma loop_nonneg : forall vars u p, 0 <= p -> valid vars ->
  let a := loop vars u p in 0 <= sum1 a /\ 0 <= prod1 a /\ 0 <= prod2 a /\ 0 <= prod3 a.
Proof.
  intros vars u p Hp V. cbv zeta. induction vars as [|[[l n] nc] vars IH]; [cbn; lra|].
  destruct IH as (I1 & I2 & I3 & I4); [intros l' n' nc' I; apply (V l' n' nc'); right; exact I|].
  specialize (V l n nc (or_introl eq_refl)). pose proof (pow2_ge_0 (u * l)) as Q. pose proof (pos_INR n) as N.
  change (loop ((l, n, nc) :: vars) u p) with (weight_step u (l, n, nc) (loop vars u p)). unfold weight_step.
  assert (F : 0 <= nc * (u * l) ^ 2 / (1 + (u * l) ^ 2)).
  { apply Rmult_le_pos; [apply Rmult_le_pos; assumption|]. left. apply Rinv_0_lt_compat. lra. }
  assert (G : 0 <= INR n * ln (1 + (u * l) ^ 2)).
  { apply Rmult_le_pos; [exact N|]. rewrite <- ln_1. apply ln_le_mono; lra. }
  destruct (Rlt_dec 1 ((u * l) ^ 2)) as [A|A]; cbn [sum1 prod1 prod2 prod3]; [|lra].
  assert (G2 : 0 <= INR n * ln ((u * l) ^ 2)) by (apply Rmult_le_pos; [exact N|rewrite <- ln_1; apply ln_le_mono; lra]). lra.
Qed.

(** Without a condition on sides. *)
Lemma loop_total : forall vars u v p q, 0 <= u -> u <= v -> p <= q -> valid vars ->
  let a := loop vars u p in let b := loop vars v q in
  sum1 a <= sum1 b /\ prod1 a + prod3 a <= prod1 b + prod3 b.
Proof.
  intros vars u v p q H L Hp V. cbv zeta. induction vars as [|[[l n] nc] vars IH]; [cbn; lra|].
  destruct IH as (I1 & I2); [intros l' n' nc' I; apply (V l' n' nc'); right; exact I|].
  specialize (V l n nc (or_introl eq_refl)).
  destruct (sq_mono u v l H L) as [Q0 Q1]. pose proof (pos_INR n) as N.
  change (loop ((l, n, nc) :: vars) u p) with (weight_step u (l, n, nc) (loop vars u p)).
  change (loop ((l, n, nc) :: vars) v q) with (weight_step v (l, n, nc) (loop vars v q)).
  unfold weight_step. pose proof (frac_mono _ _ Q0 Q1) as F.
  assert (F' : nc * (u * l) ^ 2 / (1 + (u * l) ^ 2) <= nc * (v * l) ^ 2 / (1 + (v * l) ^ 2)).
  { unfold Rdiv in *. rewrite !Rmult_assoc. apply Rmult_le_compat_l; assumption. }
  assert (G : INR n * ln (1 + (u * l) ^ 2) <= INR n * ln (1 + (v * l) ^ 2)).
  { apply Rmult_le_compat_l; [exact N|]. apply ln_le_mono; lra. }
  destruct (Rlt_dec 1 ((u * l) ^ 2)) as [A|A], (Rlt_dec 1 ((v * l) ^ 2)) as [B|B]; cbn [sum1 prod1 prod3]; lra.
Qed.
Lemma loop_none : forall vars u p, (forall l n nc, In (l, n, nc) vars -> (u * l) ^ 2 <= 1) -> count_s (loop vars u p) = O.
Proof.
  intros vars u p H. induction vars as [|[[l n] nc] vars IH]; [reflexivity|].
  change (loop ((l, n, nc) :: vars) u p) with (weight_step u (l, n, nc) (loop vars u p)). unfold weight_step.
  specialize (IH (fun l' n' nc' I => H l' n' nc' (or_intror I))). specialize (H l n nc (or_introl eq_refl)).
  destruct (Rlt_dec _ _); [lra|exact IH].
Qed.

Lemma PI_3 : 3 < PI.
Proof. pose proof PI2_3_2. unfold PI2 in *. lra. Qed.
Lemma y_small : forall a, a <= 0 -> 0 <= exp1 a / PI /\ 5 / 2 * (exp1 a / PI) <= 1.
Proof.
  intros a H. pose proof PI_3 as P. pose proof (exp1_nonneg a) as E.
  assert (E1 : exp1 a <= 1).
  { eapply Rle_trans; [apply exp1_mono, H|]. unfold exp1. destruct (Rlt_dec 0 (- 50)); [lra|]. rewrite exp_0. lra. }
  assert (I : 0 < / PI) by (apply Rinv_0_lt_compat; lra). assert (I3 : / PI <= / 3) by (apply Rinv_le_contravar; lra).
  unfold Rdiv. split; [apply Rmult_le_pos; lra|]. nra.
Qed.

Lemma min_le : forall a b a' b', a' <= a -> b' <= b -> (if Rlt_dec a' b' then a' else b') <= (if Rlt_dec a b then a else b).
Proof. intros a b a' b' A B. destruct (Rlt_dec a' b'), (Rlt_dec a b); lra. Qed.

Lemma truncation_unit : forall vars u tausq sigsq, 0 <= tausq -> 0 <= sigsq -> valid vars ->
  0 <= truncation vars u tausq sigsq <= 1.
Proof.
  intros vars u t sg Ht Hs V. unfold truncation. cbv zeta.
  assert (S2 : 0 <= (sg + t) * u ^ 2) by (apply Rmult_le_pos; [lra|apply pow2_ge_0]).
  set (sum2 := (sg + t) * u ^ 2) in *.
  destruct (loop_nonneg vars (2 * u) (2 * sum2) ltac:(lra) V) as (L1 & L2 & L3 & L4).
  set (a := loop vars (2 * u) (2 * sum2)) in *.
  destruct (y_small (- (/ 2 * sum1 a) - / 4 * (prod1 a + prod2 a)) ltac:(lra)) as [X0 X1].
  destruct (y_small (- (/ 2 * sum1 a) - / 4 * (prod1 a + prod3 a)) ltac:(lra)) as [Y0 Y1].
  set (x := exp1 (- (/ 2 * sum1 a) - / 4 * (prod1 a + prod2 a)) / PI) in *.
  set (y := exp1 (- (/ 2 * sum1 a) - / 4 * (prod1 a + prod3 a)) / PI) in *.
  assert (E1 : 0 <= if (count_s a =? 0)%nat then 1 else x * 2 / INR (count_s a)).
  { destruct (Nat.eqb_spec (count_s a) 0) as [Z|Z]; [lra|]. apply Rmult_le_pos; [lra|]. left. apply Rinv_0_lt_compat, lt_0_INR. lia. }
  assert (E2 : 0 <= (if Rlt_dec 1 (prod1 a + prod3 a) then 5 / 2 * y else 1) <= 1) by (destruct (Rlt_dec _ _); lra).
  assert (E3 : 0 <= (if Rle_dec (/ 2 * sum2) y then 1 else y / (/ 2 * sum2)) <= 1).
  { destruct (Rle_dec _ _) as [L|L]; [lra|]. split; [apply Rmult_le_pos; [lra|left; apply Rinv_0_lt_compat; lra]|].
    apply (Rmult_le_reg_r (/ 2 * sum2)); [lra|]. unfold Rdiv. rewrite Rmult_assoc, Rinv_l, Rmult_1_r, Rmult_1_l by lra. lra. }
  repeat match goal with |- context [Rlt_dec ?p ?q] => destruct (Rlt_dec p q) end; lra.
Qed.

Lemma truncation_antitone : forall vars u v tausq sigsq, 0 <= tausq -> 0 <= sigsq -> valid vars -> 0 <= u -> u <= v ->
  same_side vars u v \/ none_passed vars u -> truncation vars v tausq sigsq <= truncation vars u tausq sigsq.
Proof.
  intros vars u v t sg Ht Hs V Hu L D. unfold truncation. cbv zeta.
  assert (S2 : 0 <= (sg + t) * u ^ 2) by (apply Rmult_le_pos; [lra|apply pow2_ge_0]).
  assert (S3 : (sg + t) * u ^ 2 <= (sg + t) * v ^ 2) by (apply Rmult_le_compat_l; [lra|apply pow_incr; lra]).
  set (su := (sg + t) * u ^ 2) in *. set (sv := (sg + t) * v ^ 2) in *.
  destruct (loop_nonneg vars (2 * u) (2 * su) ltac:(lra) V) as (L1 & L2 & L3 & L4).
  destruct (loop_nonneg vars (2 * v) (2 * sv) ltac:(lra) V) as (M1 & M2 & M3 & M4).
  destruct (loop_total vars (2 * u) (2 * v) (2 * su) (2 * sv) ltac:(lra) ltac:(lra) ltac:(lra) V) as (T1 & T2).
  assert (X : same_side vars u v -> let a := loop vars (2 * u) (2 * su) in let b := loop vars (2 * v) (2 * sv) in
     prod1 a + prod2 a <= prod1 b + prod2 b /\ count_s a = count_s b).
  { intros SS. destruct (loop_mono vars (2 * u) (2 * v) (2 * su) (2 * sv) ltac:(lra) ltac:(lra) ltac:(lra) V SS) as (? & ? & ? & ? & ?).
    cbv zeta. split; [lra|assumption]. }
  assert (Z : none_passed vars u -> count_s (loop vars (2 * u) (2 * su)) = O) by (intros NP; apply loop_none, NP).
  cbv zeta in X.
  set (a := loop vars (2 * u) (2 * su)) in *. set (b := loop vars (2 * v) (2 * sv)) in *.
  destruct (y_small (- (/ 2 * sum1 a) - / 4 * (prod1 a + prod3 a)) ltac:(lra)) as [Y0 Y1].
  destruct (y_small (- (/ 2 * sum1 b) - / 4 * (prod1 b + prod3 b)) ltac:(lra)) as [W0 W1].
  pose proof PI_3 as P. assert (IP : 0 < / PI) by (apply Rinv_0_lt_compat; lra).
  assert (YW : exp1 (- (/ 2 * sum1 b) - / 4 * (prod1 b + prod3 b)) / PI <= exp1 (- (/ 2 * sum1 a) - / 4 * (prod1 a + prod3 a)) / PI).
  { apply Rmult_le_compat_r; [lra|]. apply exp1_mono. lra. }
  set (ya := exp1 (- (/ 2 * sum1 a) - / 4 * (prod1 a + prod3 a)) / PI) in *.
  set (yb := exp1 (- (/ 2 * sum1 b) - / 4 * (prod1 b + prod3 b)) / PI) in *.
  apply min_le.
  - assert (E2 : (if Rlt_dec 1 (prod1 b + prod3 b) then 5 / 2 * yb else 1) <= (if Rlt_dec 1 (prod1 a + prod3 a) then 5 / 2 * ya else 1)).
    { destruct (Rlt_dec 1 (prod1 b + prod3 b)), (Rlt_dec 1 (prod1 a + prod3 a)); lra. }
    assert (E3 : (if Rlt_dec 1 (prod1 a + prod3 a) then 5 / 2 * ya else 1) <= 1) by (clear E2; destruct (Rlt_dec 1 (prod1 a + prod3 a)); lra).
    destruct D as [SS|NP].
    + destruct (X SS) as [X1 X2]. apply min_le; [exact E2|]. rewrite X2. destruct (Nat.eqb_spec (count_s b) 0) as [Q|Q]; [lra|].
      apply Rmult_le_compat_r; [left; apply Rinv_0_lt_compat, lt_0_INR; lia|]. apply Rmult_le_compat_r; [lra|].
      apply Rmult_le_compat_r; [lra|]. apply exp1_mono. lra.
    + rewrite (Z NP). cbn [Nat.eqb].
      repeat match goal with |- context [Rlt_dec ?p ?q] => destruct (Rlt_dec p q) end; lra.
  - destruct (Rle_dec (/ 2 * sv) yb) as [A|A], (Rle_dec (/ 2 * su) ya) as [B|B]; try lra.
    + apply (Rmult_le_reg_r (/ 2 * sv)); [lra|]. unfold Rdiv. rewrite Rmult_assoc, Rinv_l, Rmult_1_r, Rmult_1_l by lra. lra.
    + unfold Rdiv. apply Rmult_le_compat; [lra|left; apply Rinv_0_lt_compat; lra|lra|]. apply Rinv_le_contravar; lra.
Qed.

Lemma equal_sides : forall vars m u v, 0 <= u -> u <= v -> equal_size vars m -> same_side vars u v \/ none_passed vars u.
Proof.
  intros vars m u v H L E. destruct (Rlt_dec 1 ((2 * u) ^ 2 * m)) as [A|A].
  - left. intros l n nc I. left. rewrite Rpow_mult_distr, (E l n nc I). exact A.
  - right. intros l n nc I. rewrite Rpow_mult_distr, (E l n nc I). lra.
Qed.

(** Values for the counterexample. *)
Lemma exp_nat : forall n, exp (INR n) = exp 1 ^ n.
Proof. induction n as [|n IH]; [cbn; apply exp_0|]. rewrite S_INR, exp_plus, IH. cbn [pow]. ring. Qed.
Lemma exp_50 : 2 ^ 50 <= exp 50.
Proof.
  replace 50 with (INR 50) by (cbn [INR]; ring). rewrite exp_nat. apply pow_incr. pose proof (exp_ineq1 1 ltac:(lra)). lra.
Qed.
Lemma exp1_ln : forall Z, 0 < Z -> Z <= 2 ^ 50 -> exp1 (- ln Z) = / Z.
Proof.
  intros Z P B. unfold exp1. destruct (Rlt_dec (- ln Z) (- 50)) as [L|L].
  - exfalso. assert (50 < ln Z) as Q by lra. apply exp_increasing in Q. rewrite exp_ln in Q by exact P. pose proof exp_50. lra.
  - rewrite exp_Ropp, exp_ln by exact P. reflexivity.
Qed.
Lemma ln_nat : forall x n, 0 < x -> ln (x ^ n) = INR n * ln x.
Proof.
  intros x n P. induction n as [|n IH]; [cbn; rewrite ln_1; ring|]. rewrite S_INR. cbn [pow].
  rewrite ln_mult, IH; [ring|exact P|apply pow_lt, P].
Qed.

Lemma min_if : forall a b, (if Rlt_dec a b then a else b) = Rmin a b.
Proof. intros a b. unfold Rmin. destruct (Rlt_dec a b), (Rle_dec a b); lra. Qed.
Lemma truncation_value : forall vars u Zx Zy, let a := loop vars (2 * u) (2 * ((0 + 0) * u ^ 2)) in
  sum1 a = 0 -> prod1 a + prod2 a = 4 * ln Zx -> prod1 a + prod3 a = 4 * ln Zy -> (0 < count_s a)%nat ->
  0 < Zx -> Zx <= 2 ^ 50 -> 2 <= Zy -> Zy <= 2 ^ 50 ->
  truncation vars u 0 0 = Rmin (Rmin (5 / 2 / Zy / PI) (2 / INR (count_s a) / Zx / PI)) 1.
Proof.
  intros vars u Zx Zy a A1 A2 A3 A4 X0 X1 Y0 Y1. unfold truncation. cbv zeta. fold a. rewrite A1, A2, A3.
  replace (- (/ 2 * 0) - / 4 * (4 * ln Zx)) with (- ln Zx) by field. replace (- (/ 2 * 0) - / 4 * (4 * ln Zy)) with (- ln Zy) by field.
  rewrite !exp1_ln by lra. pose proof PI_3 as P. destruct (Nat.eqb_spec (count_s a) 0) as [Q|_]; [lia|].
  assert (L2 : / 2 < ln Zy) by (eapply Rlt_le_trans; [exact ln_lt_2|apply ln_le_mono; lra]).
  destruct (Rlt_dec 1 (4 * ln Zy)) as [_|Q]; [|lra].
  assert (N : 0 < INR (count_s a)) by (apply lt_0_INR; exact A4).
  assert (YP : 0 < / Zy / PI) by (apply Rmult_lt_0_compat; apply Rinv_0_lt_compat; lra).
  destruct (Rle_dec (/ 2 * ((0 + 0) * u ^ 2)) (/ Zy / PI)) as [_|Q]; [|exfalso; apply Q; rewrite Rplus_0_r, Rmult_0_l, Rmult_0_r; lra].
  replace (5 / 2 * (/ Zy / PI)) with (5 / 2 / Zy / PI) by (field; lra).
  replace (/ Zx / PI * 2 / INR (count_s a)) with (2 / INR (count_s a) / Zx / PI) by (field; lra).
  rewrite !min_if. reflexivity.
Qed.

(** Weights 10 and 1/2 with 4 and 24 degrees of freedom, as lb, n, nc of davies.cpp:138. *)
Definition two_weights : list (R * nat * R) := [(10, 4%nat, 0); (/ 2, 24%nat, 0)].
Lemma two_low : forall u, / 4 <= u -> u <= 1 ->
  truncation two_weights u 0 0 =
  Rmin (Rmin (5 / 2 / ((1 + 400 * u ^ 2) * (1 + u ^ 2) ^ 6) / PI) (2 / 4 / (400 * u ^ 2 * (1 + u ^ 2) ^ 6) / PI)) 1.
Proof.
  intros u A B. assert (Q : / 16 <= u ^ 2 <= 1) by nra.
  assert (W : 1 <= (1 + u ^ 2) ^ 6 <= 64).
  { split; [apply pow_R1_Rle; lra|]. replace 64 with (2 ^ 6) by ring. apply pow_incr. lra. }
  assert (L : let a := loop two_weights (2 * u) (2 * ((0 + 0) * u ^ 2)) in sum1 a = 0 /\
    prod1 a + prod2 a = 4 * ln (400 * u ^ 2 * (1 + u ^ 2) ^ 6) /\
    prod1 a + prod3 a = 4 * ln ((1 + 400 * u ^ 2) * (1 + u ^ 2) ^ 6) /\ count_s a = 4%nat).
  { cbv zeta. unfold loop, two_weights. cbn [fold_right]. unfold weight_step.
    replace ((2 * u * 10) ^ 2) with (400 * u ^ 2) by ring. replace ((2 * u * / 2) ^ 2) with (u ^ 2) by field.
    destruct (Rlt_dec 1 (u ^ 2)); [lra|]. destruct (Rlt_dec 1 (400 * u ^ 2)); [|lra]. cbn [sum1 prod1 prod2 prod3 count_s].
    rewrite !ln_mult, !ln_nat by (try apply pow_lt; lra). cbn [INR Nat.add]. split; [unfold Rdiv; ring|]. split; [ring|]. split; [ring|reflexivity]. }
  destruct L as (L1 & L2 & L3 & L4).
  rewrite (truncation_value two_weights u _ _ L1 L2 L3); rewrite ?L4; [|lia|nra|nra|nra|nra]. cbn [INR].
  replace (1 + 1 + 1 + 1) with 4 by ring. reflexivity.
Qed.
Lemma two_high : forall u, 1 < u -> u <= 2 ->
  truncation two_weights u 0 0 =
  Rmin (Rmin (5 / 2 / ((1 + 400 * u ^ 2) * (1 + u ^ 2) ^ 6) / PI) (2 / 28 / (400 * u ^ 2 * (u ^ 2) ^ 6) / PI)) 1.
Proof.
  intros u A B. assert (Q : 1 < u ^ 2 <= 4) by nra.
  assert (W : 1 <= (1 + u ^ 2) ^ 6 <= 15625).
  { split; [apply pow_R1_Rle; lra|]. replace 15625 with (5 ^ 6) by ring. apply pow_incr. lra. }
  assert (W' : 1 <= (u ^ 2) ^ 6 <= 4096).
  { split; [apply pow_R1_Rle; lra|]. replace 4096 with (4 ^ 6) by ring. apply pow_incr. lra. }
  assert (L : let a := loop two_weights (2 * u) (2 * ((0 + 0) * u ^ 2)) in sum1 a = 0 /\
    prod1 a + prod2 a = 4 * ln (400 * u ^ 2 * (u ^ 2) ^ 6) /\
    prod1 a + prod3 a = 4 * ln ((1 + 400 * u ^ 2) * (1 + u ^ 2) ^ 6) /\ count_s a = 28%nat).
  { cbv zeta. unfold loop, two_weights. cbn [fold_right]. unfold weight_step.
    replace ((2 * u * 10) ^ 2) with (400 * u ^ 2) by ring. replace ((2 * u * / 2) ^ 2) with (u ^ 2) by field.
    destruct (Rlt_dec 1 (u ^ 2)); [|lra]. destruct (Rlt_dec 1 (400 * u ^ 2)); [|lra]. cbn [sum1 prod1 prod2 prod3 count_s].
    rewrite (ln_mult (400 * u ^ 2) ((u ^ 2) ^ 6)), (ln_mult (1 + 400 * u ^ 2)), (ln_nat (u ^ 2) 6), (ln_nat (1 + u ^ 2) 6)
      by (try apply pow_lt; lra). cbn [INR Nat.add]. split; [unfold Rdiv; ring|]. split; [ring|]. split; [ring|reflexivity]. }
  destruct L as (L1 & L2 & L3 & L4).
  rewrite (truncation_value two_weights u _ _ L1 L2 L3); rewrite ?L4; [|lia|nra|nra|nra|nra]. cbn [INR].
  match goal with |- context [2 / ?e / (400 * _ * _)] => replace e with 28 by ring end. reflexivity.
Qed.

Lemma over_pi : forall a b, a <= b -> a / PI <= b / PI.
Proof. intros a b H. pose proof PI_3. apply Rmult_le_compat_r; [left; apply Rinv_0_lt_compat; lra|exact H]. Qed.
Lemma over_pi_lt : forall a b, a < b -> a / PI < b / PI.
Proof. intros a b H. pose proof PI_3. apply Rmult_lt_compat_r; [apply Rinv_0_lt_compat; lra|exact H]. Qed.
