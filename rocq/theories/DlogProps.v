(** C194: logarithms in Davies' routine. *)
From Coq Require Import Reals Lra Lia Arith.
From Verif Require Import DlogModel DlogProofs.
Local Open Scope R_scope.

(** After m rounds the relative error, compared with x, is at most 2 / 361^(m + 1). *)
Theorem C194_error : forall m x first, Rabs x <= 1 / 10 ->
  Rabs (log1_after m x first - (ln (1 + x) - if first then 0 else x)) <= 2 * Rabs x * (1 / 361) ^ (m + 1).
Proof.
  intros m x first H. unfold log1_after. destruct (Rlt_dec (1 / 10) (Rabs x)); [lra|]. cbv zeta.
  assert (X : - (1 / 10) <= x <= 1 / 10) by (split; [pose proof (Rle_abs (- x)); rewrite Rabs_Ropp in *; lra|pose proof (Rle_abs x); lra]).
  set (y := x / (2 + x)).
  assert (Y1 : Rabs y <= 10 / 19 * Rabs x).
  { unfold y, Rdiv. rewrite Rabs_mult, Rabs_inv, (Rabs_right (2 + x)) by lra. rewrite Rmult_comm. apply Rmult_le_compat_r; [apply Rabs_pos|].
    replace (10 * / 19) with (/ (19 / 10)) by field. apply Rinv_le_contravar; lra. }
  assert (Y2 : Rabs y <= 1 / 19) by lra.
  assert (Y3 : - (1 / 19) <= y <= 1 / 19) by (split; [pose proof (Rle_abs (- y)); rewrite Rabs_Ropp in *; lra|pose proof (Rle_abs y); lra]).
  replace (2 * y ^ 3) with (2 * y ^ (2 * 1 + 1)) by reflexivity. replace 3 with (INR (2 * 1 + 1)) by (cbn; ring).
  rewrite rounds_P. change (1 + m)%nat with (S m).
  assert (P1 : P 1 y = 2 * y) by (cbn; field).
  assert (L : ln (1 + x) = ln (1 + y) - ln (1 - y)).
  { replace (1 + y) with ((1 + x) * (1 - y)) by (unfold y; field; lra). rewrite ln_mult by lra. ring. }
  assert (S0 : (if first then 2 else - x) * y = 2 * y - if first then 0 else x).
  { destruct first; [ring|]. unfold y. field. lra. }
  rewrite S0, P1, L. replace (2 * y - _ + _ - _) with (- g (S m) y) by (unfold g; ring).
  rewrite Rabs_Ropp. eapply Rle_trans; [apply g_bound; lra|].
  replace (2 * S m + 1)%nat with (2 * (m + 1) + 1)%nat by lia. rewrite pow_add, pow_mult, pow2_abs, pow_1.
  assert (Q : 0 <= y ^ 2 <= 1 / 361) by (split; [apply pow2_ge_0|cbn; nra]).
  assert (R0 : 0 <= (y ^ 2) ^ (m + 1) <= (1 / 361) ^ (m + 1)) by (split; [apply pow_le; lra|apply pow_incr; lra]).
  assert (I0 : 0 < / (1 - y ^ 2) <= 361 / 360).
  { split; [apply Rinv_0_lt_compat; lra|]. replace (361 / 360) with (/ (360 / 361)) by field. apply Rinv_le_contravar; lra. }
  pose proof (Rabs_pos x). pose proof (Rabs_pos y). unfold Rdiv at 1.
  replace (2 * ((y ^ 2) ^ (m + 1) * Rabs y) * / (1 - y ^ 2)) with (2 * (Rabs y * / (1 - y ^ 2)) * (y ^ 2) ^ (m + 1)) by ring.
  apply Rmult_le_compat; [|lra| |lra].
  - apply Rmult_le_pos; [lra|]. apply Rmult_le_pos; lra.
  - apply Rmult_le_compat_l; [lra|]. eapply Rle_trans; [apply (Rmult_le_compat _ (10 / 19 * Rabs x) _ (361 / 360)); lra|]. lra.
Qed.
Example C194_error_case : 2 * (1 / 361) ^ (6 + 1) < 1 / 100000000000000000 /\ Rabs (1 / 20) <= 1 / 10.
Proof. split; [cbn; lra|rewrite Rabs_right; lra]. Qed.

(** So it converges; away from 0 the logarithm is used directly. *)
Theorem C194_limit : forall x first, Rabs x <= 1 / 10 ->
  Un_cv (fun m => log1_after m x first) (ln (1 + x) - if first then 0 else x).
Proof.
  intros x first H eps He. assert (A : Rabs (1 / 361) < 1) by (rewrite Rabs_right; lra).
  destruct (pow_lt_1_zero (1 / 361) A eps He) as [N HN]. exists N. intros m Hm. unfold Rfunctions.R_dist, R_dist.
  eapply Rle_lt_trans; [apply C194_error; exact H|]. specialize (HN (m + 1)%nat ltac:(lia)).
  assert (B : 0 <= (1 / 361) ^ (m + 1)) by (apply pow_le; lra). rewrite Rabs_right in HN by lra.
  eapply Rle_lt_trans; [|exact HN]. pose proof (Rabs_pos x). nra.
Qed.
Theorem C194_direct : forall m x first, 1 / 10 < Rabs x -> log1_after m x first = ln (1 + x) - if first then 0 else x.
Proof. intros m x first H. unfold log1_after. destruct (Rlt_dec (1 / 10) (Rabs x)); [|lra]. destruct first; ring. Qed.
Example C194_case : log1_after 0 (1 / 20) true = 2 * (1 / 41) /\ log1_after 5 1 true = ln (1 + 1) - 0.
Proof.
  split; [|apply C194_direct; rewrite Rabs_right; lra]. unfold log1_after. rewrite Rabs_right by lra.
  destruct (Rlt_dec (1 / 10) (1 / 20)); [lra|]. cbn [rounds]. field.
Qed.

Print Assumptions C194_error.
Print Assumptions C194_limit.
Print Assumptions C194_direct.
