(** What is relied on about computing in blocks. *)

From Coq Require Import List Bool Arith Reals Permutation String.
From Verif Require Import ParModel.
Import ListNotations.
Local Open Scope R_scope.

Definition sum (l : list R) : R := fold_right Rplus 0 l.

(** Products and predictors computed in one piece, from rows of predictors with the dependent variable. *)
Definition whole_XX (row_of : cov -> list R) (data : list (cov * R)) (i j : nat) : R :=
  sum (map (fun d => nth i (row_of (fst d)) 0 * nth j (row_of (fst d)) 0) data).
Definition whole_Xy (row_of : cov -> list R) (data : list (cov * R)) (i : nat) : R :=
  sum (map (fun d => nth i (row_of (fst d)) 0 * snd d) data).
Definition whole_eta (row_of : cov -> list R) (data : list (cov * R)) (coef : list R) : list R :=
  map (fun d => sum (map (fun p => fst p * snd p) (combine (row_of (fst d)) coef))) data.

(** The rows of all parts, one after the other. *)
Definition rows_of (parts : list (source * list cov * list R)) : list (cov * R) :=
  flat_map (fun p => combine (snd (fst p)) (snd p)) parts.

(** Each process order is an order of all the subsets. *)
Definition fair (order : nat -> nat -> nat -> list nat) : Prop := forall call fi n, Permutation (order call fi n) (seq 0 n).

(** The rows without missing values in a table. *)
Definition usable (data : table) : list (cov * R) :=
  flat_map (fun r => match fst r with Some y => if forallb (fun v => match v with Some _ => true | None => false end) (snd r)
                                                then [(snd r, y)] else []
                                    | None => [] end) data.
