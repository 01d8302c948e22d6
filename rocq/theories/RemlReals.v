(** A function increases in the direction of its derivative. *)

From Coq Require Import Reals Lra.
From Coquelicot Require Import Coquelicot.
From Verif Require Import LamSpec.
Local Open Scope R_scope.

Lemma same_sign_prod (x z : R) : same_sign x z -> x <> 0 -> 0 < x * z.
Proof. intros ([p _] & [q _] & _) ne. destruct (Rtotal_order x 0) as [h|[h|h]]; [specialize (q h)|tauto|specialize (p h)]; nra. Qed.

Lemma ascent (f : R -> R) (x d G : R) : is_derive f x G -> 0 < d * G ->
  exists e, 0 < e /\ forall s, 0 < s -> s < e -> f x < f (x + s * d).
Proof.
  intros D p. apply is_derive_Reals in D.
  assert (G <> 0) by (intros e; rewrite e in p; lra).
  assert (d <> 0) by (intros e; rewrite e in p; lra).
  assert (ad : 0 < Rabs d) by now apply Rabs_pos_lt.
  assert (a0 : 0 < Rabs G / 2) by (apply Rabs_pos_lt in H; lra).
  destruct (D _ a0) as [[del d0] h]. simpl in h.
  exists (del / Rabs d). split; [now apply Rdiv_lt_0_compat|].
  intros s s0 se. assert (sd : s * d <> 0) by (intros e; apply Rmult_integral in e; lra).
  assert (lt : Rabs (s * d) < del).
  { rewrite Rabs_mult, (Rabs_pos_eq s) by lra.
    apply (Rmult_lt_compat_r _ _ _ ad) in se. unfold Rdiv in se. rewrite Rmult_assoc, Rinv_l, Rmult_1_r in se by lra. exact se. }
  specialize (h _ sd lt). set (q := (f (x + s * d) - f x) / (s * d)) in *.
  assert (e : f (x + s * d) - f x = q * (s * d)) by (unfold q; field; split; [assumption|lra]).
  assert (qd : 0 < q * d).
  { destruct (Rabs_def2 _ _ h) as [u v]. destruct (Rle_dec 0 G).
    - rewrite (Rabs_pos_eq G) in * by lra. assert (0 < d) by nra. assert (0 < q) by lra. nra.
    - rewrite (Rabs_left G) in * by lra. assert (d < 0) by nra. assert (q < 0) by lra. nra. }
  assert (0 < s * (q * d)) by now apply Rmult_lt_0_compat. lra.
Qed.
