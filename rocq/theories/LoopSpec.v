(** Specification for LoopModel. *)

From Coq Require Import List Reals.
From Verif Require Import Ext.
Import ListNotations.
Local Open Scope R_scope.

(** [eta] and [mu] are the linear predictor and the mean of a model with coefficients [coef]. *)
Definition belongs (lin : list R -> list R) (link_inverse : R -> ext) (coef eta : list R) (mu : list ext) : Prop :=
  eta = lin coef /\ mu = map link_inverse eta.
