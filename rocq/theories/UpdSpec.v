(** What it means that a fit belongs to its coefficients, for models with several parameters. *)

From Coq Require Import List Arith Bool Reals.
From Verif Require Import Ext StepSpec AsmSpec.
Import ListNotations.
Local Open Scope R_scope.

(** The product of a matrix, given by its columns, with a vector: one element per row. *)
Definition predictor (n : nat) (X : list (nat -> R)) (b : list R) : list R := map (fun r => dot r X b) (seq 0 n).

(** b' S b *)
Definition penalty (S : nat -> nat -> R) (b : list R) : R :=
  fold_right Rplus 0 (map (fun p => fold_right Rplus 0 (map (fun q => nth p b 0 * S p q * nth q b 0) (seq 0 (length b)))) (seq 0 (length b))).

(** Pieces, predictors, means, log-likelihood and penalised log-likelihood are those of the coefficients [c] in the model with
    all columns. *)
Definition belongs (fi : nat -> R -> ext) (llk : list R -> list (list ext) -> ext) (y : list R) (Xs : list (list (nat -> R)))
    (S : nat -> nat -> R) (c : list R) (split : list (list R)) (mus : list (list ext)) (etas : list (list R)) (l pen : ext) : Prop :=
  length c = fold_right Nat.add 0%nat (map (@length _) Xs) /\
  gammlss_fit_of (fun i b => predictor (length y) (nth i Xs []) b) fi llk (penalty S) (map (@length _) Xs) y c split mus etas l pen.

(** The indices of [n] coefficients that are not dropped, in order. *)
Definition remaining (n : nat) (drop : list nat) : list nat :=
  filter (fun k => if in_dec Nat.eq_dec k drop then false else true) (seq 0 n).
