(** Specifications for FinModel. *)
From Coq Require Import List Arith Reals.
Import ListNotations.
Local Open Scope R_scope.

(** Entry (i, j) of the matrix with the listed values: repeated places are added. *)
Fixpoint entry (ts : list (R * nat * nat)) (i j : nat) : R :=
  match ts with
  | [] => 0
  | (v, r, c) :: ts' => (if ((r =? i) && (c =? j))%nat%bool then v else 0) + entry ts' i j
  end.

Fixpoint sum_n (n : nat) (g : nat -> R) : R := match n with O => 0 | S k => sum_n k g + g k end.

(** [D] is a root of the n by n matrix [S]. *)
Definition root_of (n : nat) (S D : nat -> nat -> R) : Prop :=
  forall i j, (i < n)%nat -> (j < n)%nat -> sum_n n (fun k => D i k * D j k) = S i j.

(** The n by n matrix [S] has full rank. *)
Definition full_rank (n : nat) (S : nat -> nat -> R) : Prop :=
  forall v : nat -> R, (forall i, (i < n)%nat -> sum_n n (fun k => S i k * v k) = 0) -> forall i, (i < n)%nat -> v i = 0.

(** Linear predictors of one parameter. *)
Definition predictor (X : list (list R)) (b eta : list R) : Prop :=
  length eta = length X /\
  forall i, (i < length X)%nat -> Forall (fun x => length x = length b) X ->
    nth i eta 0 = sum_n (length b) (fun k => nth k (nth i X []) 0 * nth k b 0).
