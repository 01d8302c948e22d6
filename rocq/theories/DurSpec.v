(** Every segment of a decoded series has a residual for its duration. *)

From Coq Require Import List Bool Arith Reals.
From Verif Require Import HsmmModel HsmmSpec DurModel.
Import ListNotations.

(** The residuals of the segments with state j: the first segment has its own distribution unless the series
    starts with the beginning of a state; a distribution that changes over time counts at the time the segment starts. *)
Fixpoint segment_residuals (a : durations) (j t : nat) (initial : bool) (s : list segment) : list R :=
  match s with
  | [] => []
  | (i, e) :: r =>
      let column := if initial || first_starts a then i else n_states a + i in
      (if i =? j then [dres a column (S e) (if varying a then t else 0)] else []) ++ segment_residuals a j (t + S e) false r
  end.
(** Mean of a list, if there is one. *)
Definition mean (l : list R) : option R :=
  match l with [] => None | _ => Some (fold_right Rplus 0%R l / INR (length l))%R end.
