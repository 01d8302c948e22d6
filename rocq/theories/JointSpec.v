(** What the sampled density is compared with. *)

From Coq Require Import Reals.
From Coquelicot Require Import Coquelicot.
From mathcomp Require Import all_ssreflect all_algebra.
From Verif Require Import RealField RealMat RealEigen RemlModel RemlSpec.
Import GRing.Theory.
Set Implicit Arguments.
Unset Strict Implicit.
Unset Printing Implicit Defensive.
Local Open Scope ring_scope.

(** Log smoothing parameters that move, and their velocities. *)
Definition drift (n_groups : nat) (gs : nat -> group) (rho : R -> nat -> nat -> R) (t : R) (w : nat -> nat -> R) :=
  forall g j, (g < n_groups)%N -> (j < npen (gs g))%N -> is_derive (fun s => rho s g j) t (w g j).

(** [d] holds the partial derivatives of [f] at [rho]: along every curve, [f] changes at the rate they predict. *)
Definition rho_gradient_at (n_groups : nat) (gs : nat -> group) (f : (nat -> nat -> R) -> R) (rho : nat -> nat -> R) (d : nat -> nat -> R) :=
  forall c t w, c t = rho -> drift n_groups gs c t w ->
    is_derive (fun s => f (c s)) t (\sum_(g < n_groups) \sum_(j < npen (gs g)) d g j * w g j).

(** The penalties of a group are positive semi-definite and their sum is definite on the space they act on. *)
Definition proper_group (g : group) :=
  (forall j, (j < npen g)%N -> psd (SJ g j)) /\ pd ((Ur g)^T *m (\sum_(j < npen g) SJ g j) *m Ur g).
