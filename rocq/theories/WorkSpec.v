(** Specifications for WorkModel. *)

From Coq Require Import List Arith Bool Reals.
Import ListNotations.
Local Open Scope R_scope.

Section Rows.
Variables dy1 V : R -> R.
Variable bad : R -> R -> bool.

(** Pearson's statistic and the number of rows it is a sum over. *)
Fixpoint pearson (y mu : list R) : R :=
  match y, mu with
  | a :: y', m :: mu' => (if bad a m then 0 else (a - m) ^ 2 / V m) + pearson y' mu'
  | _, _ => 0
  end.
Fixpoint used (y mu : list R) : nat :=
  match y, mu with
  | a :: y', m :: mu' => ((if bad a m then 0 else 1) + used y' mu')%nat
  | _, _ => 0%nat
  end.

(** The link is differentiable with a derivative other than zero and the variance is positive at the mean of each
    row that is used. *)
Definition regular (y mu : list R) : Prop :=
  Forall (fun p => bad (fst p) (snd p) = false -> dy1 (snd p) <> 0 /\ 0 < V (snd p)) (combine y mu).

(** Entry (i, j) of X^T W X with expected weights, zero for rows that are not used. *)
Fixpoint information (X : list (list R)) (y mu : list R) (i j : nat) : R :=
  match X, y, mu with
  | x :: X', a :: y', m :: mu' =>
      (if bad a m then 0 else nth i x 0 * nth j x 0 / (dy1 m ^ 2 * V m)) + information X' y' mu' i j
  | _, _, _ => 0
  end.
End Rows.

(** Effective degrees of freedom: given for penalised models, else the number of estimated coefficients. *)
Definition degrees (colsX : nat) (drop : list nat) (pen_edf : option R) : R :=
  match pen_edf with Some e => e | None => INR (colsX - length drop) end.

(** Sum of squared differences between a response and a linear predictor without and with offset. *)
Fixpoint sq_sum (y l : list R) : R :=
  match y, l with a :: y', e :: l' => (a - e) ^ 2 + sq_sum y' l' | _, _ => 0 end.
Fixpoint offset_sum (y l o : list R) : R :=
  match y, l, o with
  | a :: y', e :: l', b :: o' => (a - (e + b)) ^ 2 + offset_sum y' l' o'
  | _, _, _ => 0
  end.
Definition square_loss (lin : list R -> list R) (c y : list R) : R := sq_sum y (lin c).
Definition offset_loss (lin : list R -> list R) (o c y : list R) : R := offset_sum y (lin c) o.
