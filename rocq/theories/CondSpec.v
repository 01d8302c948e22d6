(** Specifications for CondModel. *)
From Coq Require Import List Arith Bool Reals.
From Verif Require Import Ext StepSpec.
Import ListNotations.
Local Open Scope R_scope.

Definition apply_to (A : list (list R)) (v : list R) : list R := map (fun row => inner row v) A.
Definition size_of (v : list R) : R := sqrt (inner v v).
Definition square (n : nat) (A : list (list R)) : Prop := length A = n /\ forall row, In row A -> length row = n.
Definition not_zero (v : list R) : Prop := inner v v <> 0.

(** Largest and smallest factor by which a matrix changes the size of vectors, its largest and smallest singular
    values. *)
Definition largest (n : nat) (A : list (list R)) (s : R) : Prop :=
  (forall v, length v = n -> size_of (apply_to A v) <= s * size_of v) /\
  (exists v, length v = n /\ not_zero v /\ size_of (apply_to A v) = s * size_of v).
Definition smallest (n : nat) (A : list (list R)) (s : R) : Prop :=
  (forall v, length v = n -> s * size_of v <= size_of (apply_to A v)) /\
  (exists v, length v = n /\ not_zero v /\ size_of (apply_to A v) = s * size_of v).

(** B undoes A and A undoes B. *)
Definition inverse_of (n : nat) (A B : list (list R)) : Prop :=
  forall v, length v = n -> apply_to B (apply_to A v) = v /\ apply_to A (apply_to B v) = v.

(** Condition number K = largest / smallest. *)
Definition condition_number (n : nat) (A : list (list R)) (K : R) : Prop :=
  exists a b, largest n A a /\ smallest n A b /\ 0 < b /\ K = a / b.

(** Levels of trouble: above 1/sqrt(u), above 1/u, for u half the machine precision. *)
Definition level (K : R) (code : nat) : Prop :=
  (K <= sqrt (2 ^ 53) /\ code = 0%nat) \/ (sqrt (2 ^ 53) < K <= 2 ^ 53 /\ code = 1%nat) \/ (2 ^ 53 < K /\ code = 2%nat).

(** A solver for the largest singular value that works for two or more rows and refuses fewer, as scipy's svds does for
    k = 1. *)
Definition svds_like (f : list (list R) -> option R) : Prop :=
  forall n A, square n A ->
    ((n < 2)%nat -> f A = None) /\
    ((2 <= n)%nat -> forall s, f A = Some s -> largest n A s).
