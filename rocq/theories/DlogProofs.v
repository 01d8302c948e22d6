(** Lemmas for DlogProps. *)
From Coq Require Import Reals Lra Lia Arith.
From Coquelicot Require Import Coquelicot.
From Verif Require Import DlogModel.
Local Open Scope R_scope.

(** Partial sums of the series of ln ((1 + y) / (1 - y)). *)
Fixpoint P (m : nat) (y : R) : R := match m with O => 0 | S k => P k y + 2 * y ^ (2 * k + 1) / INR (2 * k + 1) end.

Lemma rounds_P : forall m i y s, rounds m (y ^ 2) s (2 * y ^ (2 * i + 1)) (INR (2 * i + 1)) = s + (P (i + m) y - P i y).
Proof.
  induction m; intros i y s; cbn [rounds].
  - rewrite Nat.add_0_r. ring.
  - replace (2 * y ^ (2 * i + 1) * y ^ 2) with (2 * y ^ (2 * S i + 1)).
    2:{ replace (2 * S i + 1)%nat with (2 * i + 1 + 2)%nat by lia. rewrite pow_add. ring. }
    replace (INR (2 * i + 1) + 2) with (INR (2 * S i + 1)).
    2:{ replace (2 * S i + 1)%nat with (2 * i + 1 + 2)%nat by lia. rewrite plus_INR. reflexivity. }
    rewrite IHm. replace (i + S m)%nat with (S i + m)%nat by lia. cbn [P]. ring.
Qed.

Lemma is_derive_P : forall m t, 1 - t ^ 2 <> 0 -> is_derive (P m) t (2 * (1 - t ^ (2 * m)) / (1 - t ^ 2)).
Proof.
  induction m; intros t H.
  - apply (is_derive_ext (fun _ => 0)); [reflexivity|]. replace (2 * (1 - t ^ (2 * 0)) / (1 - t ^ 2)) with 0 by (cbn; field; cbn in H; lra).
    apply (is_derive_const (K := R_AbsRing) (V := R_NormedModule)).
  - cbn [P]. replace (2 * (1 - t ^ (2 * S m)) / (1 - t ^ 2)) with (2 * (1 - t ^ (2 * m)) / (1 - t ^ 2) + 2 * t ^ (2 * m)).
    2:{ replace (2 * S m)%nat with (2 * m + 2)%nat by lia. rewrite pow_add. field. exact H. }
    apply (is_derive_plus (K := R_AbsRing) (V := R_NormedModule)); [apply IHm; exact H|].
    assert (N : INR (2 * m + 1) <> 0) by (apply not_0_INR; lia).
    replace (2 * m + 1)%nat with (S (2 * m)) in * by lia. clear IHm H. generalize dependent (2 * m)%nat. intros n N.
    apply (is_derive_ext (fun x : R => 2 / INR (S n) * x ^ S n)); [intros z; change (2 / INR (S n) * z ^ S n = 2 * z ^ S n / INR (S n)); field; exact N|].
    replace (2 * t ^ n) with (2 / INR (S n) * (INR (S n) * 1 * t ^ pred (S n))) by (cbn [pred]; field; exact N).
    apply is_derive_scal. apply (is_derive_pow (fun x => x) (S n) t 1). apply (is_derive_id (K := R_AbsRing)).
Qed.

Definition g (m : nat) (t : R) : R := ln (1 + t) - ln (1 - t) - P m t.
Lemma is_derive_g : forall m t, -1 < t < 1 -> is_derive (g m) t (2 * t ^ (2 * m) / (1 - t ^ 2)).
Proof.
  intros m t H. assert (H2 : 1 - t ^ 2 <> 0) by (cbn; nra).
  replace (2 * t ^ (2 * m) / (1 - t ^ 2)) with (2 / (1 - t ^ 2) - 2 * (1 - t ^ (2 * m)) / (1 - t ^ 2)) by (field; exact H2).
  apply (is_derive_minus (K := R_AbsRing) (V := R_NormedModule) (fun t => ln (1 + t) - ln (1 - t))); [|apply is_derive_P; exact H2].
  auto_derive; [repeat split; lra|]. field. repeat split; cbn in *; lra.
Qed.

Lemma pow_even_le : forall m c y, Rabs c <= Rabs y -> 0 <= c ^ (2 * m) <= y ^ (2 * m).
Proof.
  intros m c y H. rewrite !pow_mult. assert (0 <= c ^ 2 <= y ^ 2).
  { split; [apply pow2_ge_0|]. rewrite <- (pow2_abs c), <- (pow2_abs y). apply pow_incr. split; [apply Rabs_pos|exact H]. }
  split; [apply pow_le; lra|apply pow_incr; lra].
Qed.

Lemma g_bound : forall m y, -1 < y < 1 -> Rabs (g m y) <= 2 * Rabs y ^ (2 * m + 1) / (1 - y ^ 2).
Proof.
  intros m y H. destruct (MVT_gen (g m) 0 y (fun t => 2 * t ^ (2 * m) / (1 - t ^ 2))) as [c [Hc E]].
  - intros t Ht. apply is_derive_g. unfold Rmin, Rmax in Ht. destruct (Rle_dec 0 y); lra.
  - intros t Ht. apply continuity_pt_filterlim. apply (ex_derive_continuous (K := R_AbsRing) (V := R_NormedModule)). eexists.
    apply is_derive_g. unfold Rmin, Rmax in Ht. destruct (Rle_dec 0 y); lra.
  - assert (G0 : g m 0 = 0).
    { unfold g. rewrite Rplus_0_r, Rminus_0_r, ln_1. assert (P0 : forall k, P k 0 = 0).
      { induction k; cbn [P]; [reflexivity|]. rewrite IHk, pow_ne_zero by lia. unfold Rdiv. ring. }
      rewrite P0. ring. }
    rewrite G0, !Rminus_0_r in E. rewrite E.
    assert (L : Rabs c <= Rabs y).
    { unfold Rmin, Rmax in Hc. destruct (Rle_dec 0 y); [rewrite !Rabs_right by lra; lra|rewrite (Rabs_left y) by lra; apply Rabs_le; lra]. }
    destruct (pow_even_le m c y L) as [B0 B1]. destruct (pow_even_le 1 c y L) as [D0 D1]. change (2 * 1)%nat with 2%nat in *.
    assert (Y : 0 < 1 - y ^ 2) by (cbn; nra).
    rewrite Rabs_mult, (Rabs_right (2 * c ^ (2 * m) / (1 - c ^ 2))).
    2:{ apply Rle_ge. apply Rmult_le_pos; [lra|]. left. apply Rinv_0_lt_compat. lra. }
    replace (2 * Rabs y ^ (2 * m + 1) / (1 - y ^ 2)) with (2 * y ^ (2 * m) / (1 - y ^ 2) * Rabs y).
    2:{ rewrite pow_add, (pow_mult (Rabs y)), pow2_abs, <- pow_mult. unfold Rdiv. ring. }
    apply Rmult_le_compat_r; [apply Rabs_pos|]. unfold Rdiv. apply Rmult_le_compat; [lra| |lra|apply Rinv_le_contravar; lra].
    left. apply Rinv_0_lt_compat. lra.
Qed.
