(** What users rely on when update vectors are drawn again and fits return (C171-C173). *)
From Coq Require Import List ZArith.
From Verif Require Import HsampModel.
Import ListNotations.

(** The seeds that were used: [k] consecutive ones.  Every draw but the last has too few vectors, and the last has enough
    unless all 30 attempts are used up. *)
Definition first_good (count : Z -> Z) (min seed : Z) (k : nat) : Prop :=
  (1 <= k <= 30)%nat /\
  (forall j, (j < k - 1)%nat -> (count (seed + Z.of_nat j) < min)%Z) /\
  ((min <= count (seed + Z.of_nat (k - 1)))%Z \/ k = 30%nat).

(** A stored vector for a drawn one: the exact part and the stored part together give the drawn difference of gradients,
    and the stored scale belongs to the stored vectors. *)
Definition complements {V R} (add : V -> V -> V) (whole : V -> V) (dot : V -> V -> R) (inv : R -> R)
    (drawn stored : V * V * R) : Prop :=
  fst (fst stored) = fst (fst drawn) /\
  add (snd (fst stored)) (whole (fst (fst drawn))) = snd (fst drawn) /\
  snd stored = inv (dot (fst (fst stored)) (snd (fst stored))).
