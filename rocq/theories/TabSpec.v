(** Specifications for tables of parametric terms, wrapped families and the data of log-likelihoods. *)

From Coq Require Import Reals List.
Import ListNotations.
Local Open Scope R_scope.

(** [F] is the distribution function of a distribution that is symmetric about zero and has no atoms. *)
Record symmetric_cdf (F : R -> R) : Prop := {
  cdf_range : forall x, 0 <= F x <= 1;
  cdf_mono : forall x y, x <= y -> F x <= F y;
  cdf_sym : forall x, F (- x) = 1 - F x }.

(** The probability of a value at least as far from zero as t: the two tails. *)
Definition two_sided (F : R -> R) (t : R) : R := F (- Rabs t) + (1 - F (Rabs t)).

(** Levels of significance: how many of .1, .05, .01, .001 lie above p. *)
Definition level (p : R) : nat :=
  length (filter (fun a => if Rlt_dec p a then true else false) [1 / 10; 5 / 100; 1 / 100; 1 / 1000]).

(** The responses that are there, in order. *)
Fixpoint present {A} (l : list (A * bool)) : list A :=
  match l with [] => [] | (x, true) :: l' => x :: present l' | (_, false) :: l' => present l' end.
