(** Proofs about drawing again (C171-C173). *)
From Coq Require Import List ZArith Bool Lia.
From Verif Require Import HsampModel HsampSpec.
Import ListNotations.

Section Redraw.
Variables V R : Type.
Variable draw : Z -> list (V * V * R).
Notation attempts := (attempts V R draw).
Definition number (z : Z) : Z := Z.of_nat (length (draw z)).

Lemma attempts_none tries min u l : (u < min)%Z -> attempts (S tries) min None u l = TypeErr.
Proof. intros H. cbn. apply Z.ltb_lt in H. rewrite H. reflexivity. Qed.

Lemma attempts_some tries : forall min seed u l, exists k, (k <= tries)%nat /\
  attempts tries min (Some seed) u l
    = Ret (match k with O => (u, l) | S j => (number (seed + Z.of_nat j), draw (seed + Z.of_nat j)) end) /\
  (forall j, (S j < k)%nat -> (number (seed + Z.of_nat j) < min)%Z) /\
  (k = tries \/ (min <= match k with O => u | S j => number (seed + Z.of_nat j) end)%Z) /\
  ((0 < k)%nat -> (u < min)%Z).
Proof.
  induction tries as [|n IH]; intros min seed u l.
  - exists 0%nat. cbn. repeat split; auto; lia.
  - cbn. destruct (u <? min)%Z eqn:E.
    + destruct (IH min (seed + 1)%Z (Z.of_nat (length (draw seed))) (draw seed)) as (k & K & A & P & Q & Z0).
      exists (S k). split; [lia|]. split.
      * rewrite A. destruct k as [|j]; [rewrite Z.add_0_r; reflexivity|].
        replace (seed + 1 + Z.of_nat j)%Z with (seed + Z.of_nat (S j))%Z by lia. reflexivity.
      * split.
        { intros j J. destruct j as [|j].
          - rewrite Z.add_0_r. apply Z0. lia.
          - replace (seed + Z.of_nat (S j))%Z with (seed + 1 + Z.of_nat j)%Z by lia. apply P. lia. }
        split; [|intros _; apply Z.ltb_lt; exact E].
        destruct Q as [->|Q]; [left; reflexivity|right]. destruct k as [|j].
        -- rewrite Z.add_0_r. exact Q.
        -- replace (seed + Z.of_nat (S j))%Z with (seed + 1 + Z.of_nat j)%Z by lia. exact Q.
    + exists 0%nat. apply Z.ltb_ge in E. repeat split; auto; lia.
Qed.

Lemma attempts_thirty min seed : (0 <= min)%Z -> exists k, first_good number min seed k /\
  attempts 30 min (Some seed) (-1) [] = Ret (number (seed + Z.of_nat (k - 1)), draw (seed + Z.of_nat (k - 1))).
Proof.
  intros M. destruct (attempts_some 30 min seed (-1) []) as (k & K & A & P & Q & _).
  assert (K0 : (1 <= k)%nat) by (destruct k; [destruct Q; lia|lia]).
  exists k. split.
  - split; [lia|]. split; [intros j J; apply P; lia|]. destruct Q as [Q|Q]; [right; exact Q|left].
    destruct k as [|j]; [lia|]. replace (S j - 1)%nat with j by lia. exact Q.
  - rewrite A. destruct k as [|j]; [lia|]. replace (S j - 1)%nat with j by lia. reflexivity.
Qed.
End Redraw.
