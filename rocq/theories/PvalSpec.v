(** Specifications for p-values of smooth terms. *)

From Coq Require Import List Bool Arith Reals.
From Verif Require Import PvalModel.
Import ListNotations.

(** A term has one smooth, or one per level of its by-factor. *)
Definition n_smooths (t : sterm) : nat := match t_by t with Some k => if t_id t then 1 else k | None => 1 end.
Definition penalised (t : sterm) : bool := (t_unpen t =? 0) && negb (t_coef t =? 0).
(** Entries of term_edf: one per penalised smooth, in the order of the coefficients. *)
Definition edf_slots (t : sterm) : nat := if penalised t then n_smooths t else 0.

(** Smooth number [i] of term number [j] of the smooth terms: its own coefficients and its own entry of term_edf. *)
Definition own_coefs (f : form) (j i : nat) (t : sterm) : nat * nat :=
  let first := list_sum (map t_coef (linear f ++ irfs f ++ firstn j (smooths f))) in
  let n := t_coef t / n_smooths t in
  (first + i * n, n).
Definition own_edf (f : form) (j i : nat) : nat :=
  list_sum (map edf_slots (linear f ++ irfs f ++ firstn j (smooths f ++ randoms f))) + i.
Definition own_tests (f : form) : list (nat * nat * nat) :=
  flat_map (fun j => match nth_error (smooths f) j with
                     | Some t => if t_fs t then []
                                 else map (fun i => (own_coefs f j i t, own_edf f j i)) (seq 0 (n_smooths t))
                     | None => []
                     end) (seq 0 (length (smooths f))).
Definition own_shown (f : form) : list nat :=
  flat_map (fun j => match nth_error (smooths f ++ randoms f) j with
                     | Some t => map (own_edf f j) (seq 0 (n_smooths t))
                     | None => []
                     end) (seq 0 (length (smooths f ++ randoms f))).

(** Linear terms are unpenalised, coefficients of the levels of a by-factor are equally many, random smooths (fs) have one penalised
    smooth. *)
Definition proper (f : form) : Prop :=
  Forall (fun t => t_unpen t = t_coef t) (linear f) /\
  Forall (fun t => t_unpen t = 0 /\ 0 < t_coef t) (randoms f) /\
  Forall (fun t => 0 < n_smooths t /\ t_coef t = n_smooths t * (t_coef t / n_smooths t) /\ 0 < t_coef t /\ (t_fs t = true -> n_smooths t = 1)) (smooths f).

Local Open Scope R_scope.
(** Component of [b] along eigenvector [i]. *)
Definition along (n : nat) (U : nat -> nat -> R) (b : nat -> R) (i : nat) : R := sum_to n (fun r => U r i * b r).
(** Reversing some eigenvectors. *)
Definition reversed (U : nat -> nat -> R) (flip : nat -> bool) : nat -> nat -> R := fun r c => if flip c then - U r c else U r c.
