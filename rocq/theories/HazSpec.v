(** Specification for proportional hazards: Cox' partial likelihood and Breslow's estimator, stated
    with the times of the subjects. *)

From Coq Require Import Reals List Arith ZArith.
From Verif Require Import GlsSpec.
Import ListNotations.
Local Open Scope R_scope.

Section Haz.
Variables (n p : nat) (X : nat -> nat -> R) (delta : nat -> R) (time : nat -> Z).

Definition lin (x coef : nat -> R) : R := sumf p (fun c => x c * coef c).

(** Sum of exp(linear predictor) over everyone still at risk at time t. *)
Definition risk (coef : nat -> R) (t : Z) : R :=
  sumf n (fun k => if (t <=? time k)%Z then exp (lin (X k) coef) else 0).

Definition partial_loglik (coef : nat -> R) : R :=
  sumf n (fun i => delta i * (lin (X i) coef - ln (risk coef (time i)))).

(** Breslow's estimate of the cumulative baseline hazard at time t. *)
Definition breslow (coef : nat -> R) (t : Z) : R :=
  sumf n (fun i => if (time i <=? t)%Z then delta i / risk coef (time i) else 0).

(** Its variance for known coefficients. *)
Definition breslow_var (coef : nat -> R) (t : Z) : R :=
  sumf n (fun i => if (time i <=? t)%Z then delta i / risk coef (time i) ^ 2 else 0).

Definition survival (coef : nat -> R) (t : Z) (x : nat -> R) : R :=
  exp (- breslow coef t * exp (lin x coef)).
End Haz.

(** ut holds the distinct times in decreasing order, r the position of every subject's time in
    ut, and every entry of ut is the time of some subject. *)
Record table (n : nat) (time : nat -> Z) (r : nat -> nat) (ut : list Z) : Prop := {
  tab_dec : forall i j u v, (i < j)%nat -> nth_error ut i = Some u -> nth_error ut j = Some v -> (v < u)%Z;
  tab_r : forall i, (i < n)%nat -> nth_error ut (r i) = Some (time i);
  tab_all : forall j, (j < length ut)%nat -> exists i, (i < n)%nat /\ r i = j
}.
