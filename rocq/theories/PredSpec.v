(** Specifications for predictions. *)

From Coq Require Import List Bool Arith Reals.
From Verif Require Import Ext AsmModel FormModel PredModel.
Import ListNotations.
Local Open Scope R_scope.

(** The coefficients are those of formula after formula, [sizes] of each, and possibly extra ones at the end. *)
Record laid_out (m : fitted) (sizes : list nat) (extra : option nat) : Prop := {
  lo_n : length sizes = length (formulas m);
  lo_ne : sizes <> [];
  lo_extra : has_extra_coef m = match extra with Some _ => true | None => false end;
  lo_coef : length (coefs m) = (list_sum sizes + match extra with Some k => k | None => 0 end)%nat;
  lo_split : coef_split m = coef_split_idx sizes extra;
  lo_lvi : a_cols (lvi m) = length (coefs m) }.
Definition first_coef (sizes : list nat) (par : nat) : nat := list_sum (firstn par sizes).

(** A row of a formula's matrix as a combination of all coefficients of the model. *)
Definition among_all (sizes : list nat) (par : nat) (x : nat -> R) (i : nat) : R :=
  if (first_coef sizes par <=? i)%nat && (i <? first_coef sizes par + nth par sizes 0)%nat then x (i - first_coef sizes par)%nat else 0.

(** Posterior covariance of two linear combinations of the coefficients, whose covariance matrix is scale * L^T L. *)
Definition covariance (m : fitted) (x y : nat -> R) : R :=
  let p := length (coefs m) in
  sum_to p (fun i => sum_to p (fun j => x i * y j * (scale m * sum_to (a_rows (lvi m)) (fun k => at_ (lvi m) k i * at_ (lvi m) k j)))).

(** Sum over the elements of a list. *)
Fixpoint sum_over {A} (l : list A) (f : A -> R) : R := match l with [] => 0 | a :: r => f a + sum_over r f end.

(** ** Simultaneous intervals *)

(** Deviation of prediction [r] in draw [s], from the draws for all coefficients. *)
Definition deviation (lvi : array) (scale : R) (z X : array) (r s : nat) : R :=
  sum_to (a_cols X) (fun c => at_ X r c * (sqrt scale * sum_to (a_rows lvi) (fun k => at_ lvi k c * at_ z k s))).
(** The largest ratio of a deviation to the half width [b]. *)
Definition is_max (l : list R) (m : R) : Prop := In m l /\ Forall (fun x => x <= m) l.
Definition largest_ratio (lvi : array) (scale : R) (z X : array) (b : list R) (s : nat) (q : R) : Prop :=
  is_max (map (fun r => Rabs (deviation lvi scale z X r s) / nth r b 0) (seq 0 (a_rows X))) q.
(** A column of the prediction matrix that sums to zero is zero. *)
Definition no_cancelling (X : array) : Prop :=
  forall c, (c < a_cols X)%nat -> sum_to (a_rows X) (fun r => at_ X r c) = 0 -> forall r, at_ X r c = 0.
