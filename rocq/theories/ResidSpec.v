(** What residuals of a hidden semi-Markov model are: they compare an observation with its distribution given the
    observations before it. *)

From Coq Require Import List Bool Arith Reals.
From Verif Require Import HsmmModel HsmmSpec ResidModel.
Import ListNotations.
Local Open Scope R_scope.

(** The first n time points of a series, without conditions on how it ends. *)
Definition until (m : tables R) (n : nat) : tables R :=
  Tables (hmp m) (event_width m) n (D m) (n_S m) (starts_with_first m) false false (tvdtpi m) (b m) (dur m) (tr m) (pi m).
(** The same with another factor [f k j] for the observation at time t. *)
Definition replaced (m : tables R) (t : nat) (f : nat -> nat -> R) : tables R :=
  Tables (hmp m) (event_width m) (n_T m) (D m) (n_S m) (starts_with_first m) (ends_with_last m) (ends_in_last m) (tvdtpi m)
    (fun u k j => if (u =? t)%nat then f k j else b m u k j) (dur m) (tr m) (pi m).

(** [x] is the sum of f over the segmentations of the first t + 1 time points, weighted with their probabilities given the
    observations at times 0, ..., t - 1: with distribution functions for f the probability of a smaller observation at
    time t, with means for f the expected observation. *)
Definition given_past (m : tables R) (t : nat) (f : nat -> nat -> R) (x : R) : Prop :=
  forall now past, lists_segmentations (until m (S t)) now -> lists_segmentations (until m t) past ->
    let joint := lsum now (weight R 1 Rmult (replaced (until m (S t)) t f)) in
    match t with
    | O => x = joint
    | S _ => lsum past (weight R 1 Rmult (until m t)) > 0 -> x = joint / lsum past (weight R 1 Rmult (until m t))
    end.

(** Durations, transitions and initial states have probability distributions. *)
Definition normalised (m : tables R) : Prop :=
  (forall j t, (j < n_S m)%nat -> nsum (D m - 1) (fun d => duration m d j t) = 1 /\
                                  nsum (D m - 1) (fun d => duration m d (later_column m j) t) = 1) /\
  (forall i t, (i < n_S m)%nat -> nsum (n_S m) (fun j => if (i =? j)%nat then 0 else transition m i j t) = 1) /\
  nsum (n_S m) (pi m) = 1.

(** The mean of the observation at time t for which the tables hold the density in column k of state j (hsmm.py:563-643):
    bumps follow the template, an autoregressive model of the noise adds the observation before. *)
Definition weight0 (g : signals) : R := match ar g with Some rho => / sqrt (1 - rho * rho) | None => 1 end.
Definition weight1 (g : signals) : R := match ar g with Some rho => - (rho / sqrt (1 - rho * rho)) | None => 0 end.
Definition mean_of (m : tables R) (g : signals) (t k j : nat) : R :=
  if hmp m then
    if Nat.odd j then
      weight0 g * (weights g k * mus g t (channel g) j)
      + match k with O => 0 | S k' => weight1 g * (weights g k' * mus g (t - 1)%nat (channel g) j) end
    else match k, j with
         | 1%nat, S j' => weight1 g * (weights g (event_width m - 1)%nat * mus g (t - 1)%nat (channel g) j')
         | _, _ => 0
         end
  else mus g t (channel g) j.
