(** Proofs for CondModel. *)
From Coq Require Import List Arith Bool Reals Lra Lia.
From Verif Require Import Ext StepSpec SroneProofs CondModel CondSpec.
Import ListNotations.
Local Open Scope R_scope.

Lemma apply_length n A v : square n A -> length (apply_to A v) = n.
Proof. intros [L _]. unfold apply_to. now rewrite map_length. Qed.

Lemma size_nonneg v : 0 <= size_of v.
Proof. apply sqrt_pos. Qed.
Lemma size_pos v : not_zero v -> 0 < size_of v.
Proof. intros H. apply sqrt_lt_R0. assert (P := inner_nonneg v). unfold not_zero in H. lra. Qed.
Lemma size_zero v : ~ not_zero v -> size_of v = 0.
Proof.
  intros H. unfold not_zero in H. unfold size_of. destruct (Req_dec (inner v v) 0) as [E|E]; [rewrite E; apply sqrt_0|contradiction].
Qed.
Lemma size_zero_not v : size_of v = 0 -> ~ not_zero v.
Proof. intros E H. apply size_pos in H. lra. Qed.

Lemma largest_unique n A a b : largest n A a -> largest n A b -> a = b.
Proof.
  intros (H1 & v & Lv & Nv & Ev) (H2 & w & Lw & Nw & Ew).
  apply size_pos in Nv. apply size_pos in Nw. specialize (H2 v Lv). specialize (H1 w Lw).
  rewrite Ev in H2. rewrite Ew in H1. 
  apply Rmult_le_reg_r in H2; [|exact Nv]. apply Rmult_le_reg_r in H1; [|exact Nw]. lra.
Qed.

(** The inverse turns the largest factor into the smallest. *)
Lemma inverse_smallest n A B s : square n A -> square n B -> inverse_of n A B -> largest n B s ->
  0 < s /\ smallest n A (1 / s).
Proof.
  intros SA SB I (H & w & Lw & Nw & Ew).
  assert (SP : 0 < s).
  { assert (Nb : not_zero (apply_to B w)).
    { intros Z. assert (Z' : size_of (apply_to B w) = 0) by (apply size_zero; unfold not_zero; tauto).
      (* then w = A (B w) has size zero *)
      rewrite Ew in Z'. apply size_pos in Nw. 
      assert (s = 0) by (apply Rmult_integral in Z' as [|]; lra). subst s.
      assert (X := H (apply_to A w) (apply_length _ _ _ SA)).
      destruct (I w Lw) as [E _]. rewrite E in X. assert (0 <= size_of (apply_to A w)) by apply size_nonneg. lra. }
    apply size_pos in Nb. apply size_pos in Nw. rewrite Ew in Nb.
    destruct (Rlt_le_dec 0 s) as [|C]; [assumption|]. assert (s * size_of w <= 0 * size_of w) by (apply Rmult_le_compat_r; lra). lra. }
  split; [exact SP|split].
  - intros v Lv. assert (X := H (apply_to A v) (apply_length _ _ _ SA)). destruct (I v Lv) as [E _]. rewrite E in X.
    apply Rmult_le_reg_l with s; [exact SP|]. replace (s * (1 / s * size_of v)) with (size_of v) by (field; lra). lra.
  - exists (apply_to B w). split; [apply (apply_length _ _ _ SB)|].
    destruct (I w Lw) as [_ E]. rewrite E, Ew. apply size_pos in Nw. split.
    + intros Z. assert (size_of (apply_to B w) = 0) by (apply size_zero; unfold not_zero; tauto). rewrite Ew in H0.
      apply Rmult_integral in H0 as [|]; lra.
    + field. lra.
Qed.

Lemma smallest_unique n A a b : smallest n A a -> smallest n A b -> a = b.
Proof.
  intros (H1 & v & Lv & Nv & Ev) (H2 & w & Lw & Nw & Ew).
  apply size_pos in Nv. apply size_pos in Nw. specialize (H2 v Lv). specialize (H1 w Lw).
  rewrite Ev in H2. rewrite Ew in H1. 
  apply Rmult_le_reg_r in H2; [|exact Nv]. apply Rmult_le_reg_r in H1; [|exact Nw]. lra.
Qed.

Lemma thresholds : 1 / unit_roundoff = 2 ^ 53 /\ 1 / sqrt unit_roundoff = sqrt (2 ^ 53).
Proof.
  assert (P : 0 < 2 ^ 53) by (apply pow_lt; lra). unfold unit_roundoff. split; [field; lra|].
  rewrite sqrt_inv. field. apply Rgt_not_eq. now apply sqrt_lt_R0.
Qed.

Lemma sqrt_below : sqrt (2 ^ 53) < 2 ^ 53.
Proof.
  assert (P : 1 < 2 ^ 53) by (apply Rlt_pow_R1; [lra|lia]).
  rewrite <- (sqrt_square (2 ^ 53)) at 2 by lra. apply sqrt_lt_1_alt. split; [lra|].
  rewrite <- (Rmult_1_l (2 ^ 53)) at 1. apply Rmult_lt_compat_r; lra.
Qed.

Lemma code_level K : level K (if rltb (1 / unit_roundoff) K then 2 else if rltb (1 / sqrt unit_roundoff) K then 1 else 0).
Proof.
  destruct thresholds as [-> ->]. assert (B := sqrt_below). unfold level.
  destruct (rltb (2 ^ 53) K) eqn:E2; [apply rltb_true in E2|apply rltb_false in E2].
  - right. right. auto.
  - destruct (rltb (sqrt (2 ^ 53)) K) eqn:E1; [apply rltb_true in E1|apply rltb_false in E1].
    + right. left. auto.
    + left. auto.
Qed.

Lemma level_unique K a b : level K a -> level K b -> a = b.
Proof.
  assert (B := sqrt_below). unfold level. 
  intros [[H ->]|[[H ->]|[H ->]]] [[H' ->]|[[H' ->]|[H' ->]]]; try reflexivity; exfalso; lra.
Qed.

(** Diagonal matrices. *)
Definition diag2 (a b : R) : list (list R) := [[a; 0]; [0; b]].

Lemma diag2_square a b : square 2 (diag2 a b).
Proof. split; [reflexivity|]. intros row [<-|[<-|[]]]; reflexivity. Qed.

Lemma diag2_inverse a b : a <> 0 -> b <> 0 -> inverse_of 2 (diag2 a b) (diag2 (/ a) (/ b)).
Proof.
  intros A B v L. destruct v as [|x [|y [|? ?]]]; try discriminate. cbn.
  split; (f_equal; [|f_equal]); field; repeat split; assumption.
Qed.

Lemma sqrt_scaled a q : 0 <= a -> 0 <= q -> sqrt (a * a * q) = a * sqrt q.
Proof. intros A Q. rewrite sqrt_mult by (try nra; assumption). now rewrite sqrt_square. Qed.

Lemma diag2_bound a b x y : 0 <= b <= a -> size_of (apply_to (diag2 a b) [x; y]) <= a * size_of [x; y].
Proof.
  intros H. unfold size_of, apply_to, diag2. cbn [map inner].
  assert (QX : 0 <= x * x + (y * y + 0)) by nra.
  rewrite <- sqrt_scaled by (try lra; exact QX). apply sqrt_le_1_alt.
  assert (b * b <= a * a) by nra. assert (0 <= y * y) by nra. nra.
Qed.

Lemma diag2_largest a b : 0 <= b <= a -> largest 2 (diag2 a b) a.
Proof.
  intros H. split.
  - intros v L. destruct v as [|x [|y [|? ?]]]; try discriminate. now apply diag2_bound.
  - exists [1; 0]. split; [reflexivity|split; [unfold not_zero; cbn; lra|]].
    unfold size_of, apply_to, diag2. cbn [map inner].
    rewrite <- sqrt_scaled by lra. f_equal. ring.
Qed.

Lemma diag2_largest' a b : 0 <= a <= b -> largest 2 (diag2 a b) b.
Proof.
  intros H. split.
  - intros v L. destruct v as [|x [|y [|? ?]]]; try discriminate.
    assert (D := diag2_bound b a y x H). unfold size_of, apply_to, diag2 in *. cbn [map inner] in *.
    replace (sqrt (x * x + (y * y + 0))) with (sqrt (y * y + (x * x + 0))) by (f_equal; ring).
    eapply Rle_trans; [|exact D]. apply Req_le. f_equal. ring.
  - exists [0; 1]. split; [reflexivity|split; [unfold not_zero; cbn; lra|]].
    unfold size_of, apply_to, diag2. cbn [map inner].
    rewrite <- sqrt_scaled by lra. f_equal. ring.
Qed.

Lemma diag2_smallest a b : 0 < b <= a -> smallest 2 (diag2 a b) b.
Proof.
  intros H. assert (HB : 0 < / a) by (apply Rinv_0_lt_compat; lra).
  assert (HC : / a <= / b) by (apply Rinv_le_contravar; lra).
  destruct (inverse_smallest 2 (diag2 a b) (diag2 (/ a) (/ b)) (/ b)) as [_ S].
  - apply diag2_square. - apply diag2_square. - apply diag2_inverse; lra.
  - apply diag2_largest'. lra.
  - replace b with (1 / / b) at 2 by (field; lra). exact S.
Qed.

Lemma diag2_condition a b : 0 < b <= a -> condition_number 2 (diag2 a b) (a / b).
Proof. intros H. exists a, b. split; [apply diag2_largest; lra|split; [now apply diag2_smallest|split; [lra|reflexivity]]]. Qed.

(** One by one. *)
Lemma one_condition a : 0 < a -> condition_number 1 [[a]] 1.
Proof.
  intros A. exists a, a.
  assert (E : forall v, length v = 1%nat -> size_of (apply_to [[a]] v) = a * size_of v).
  { intros v L. destruct v as [|x [|? ?]]; try discriminate. unfold size_of, apply_to. cbn [map inner].
    rewrite <- sqrt_scaled by nra. f_equal. ring. }
  assert (N : not_zero [1]) by (unfold not_zero; cbn; lra).
  split; [|split; [|split; [exact A|field; lra]]].
  - split; [intros v L; rewrite (E v L); lra|]. exists [1]. split; [reflexivity|split; [exact N|now apply E]].
  - split; [intros v L; rewrite (E v L); lra|]. exists [1]. split; [reflexivity|split; [exact N|now apply E]].
Qed.
