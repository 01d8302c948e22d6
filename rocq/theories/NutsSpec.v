(** What the sampler's results are compared with: probabilities of outcomes when the uniform draws are
    independent, and the points of a trajectory. *)

From Coq Require Import List ZArith Reals Bool.
From Coquelicot Require Import Coquelicot.
From Verif Require Import NutsModel.
Import ListNotations.
Local Open Scope R_scope.

(** The probability that a uniform draw from [0, 1) lies below [p]. *)
Definition chance (p : R) : R := Rmin 1 (Rmax 0 p).

(** The expectation of [f] over the outcomes. *)
Fixpoint mean {A} (x : rnd A) (f : A -> R) : R :=
  match x with
  | Ret a => f a
  | Below p k => chance p * mean (k true) f + (1 - chance p) * mean (k false) f
  end.

(** All outcomes, whatever is drawn, satisfy [P]. *)
Fixpoint always {A} (P : A -> Prop) (x : rnd A) : Prop :=
  match x with Ret a => P a | Below _ k => always P (k true) /\ always P (k false) end.

(** The sum of [f] over the [len] integers from [lo]. *)
Fixpoint zsum (lo : Z) (len : nat) (f : Z -> R) : R :=
  match len with O => 0 | S len => f lo + zsum (lo + 1) len f end.

Section Path.
Variables (n : nat) (Minv : nat -> vec) (llk : vec -> R) (grad : vec -> vec).

(** The sequence of states [st] and momenta [mo], infinite in both directions, that leapfrog steps of size
    [eps] produce. *)
Definition path (eps : R) (st mo : Z -> vec) : Prop :=
  forall k, leap_frog n Minv llk grad (st k) (grad (st k)) (mo k) eps
            = (st (k + 1)%Z, grad (st (k + 1)%Z), mo (k + 1)%Z, llk (st (k + 1)%Z)).

(** The negative Hamiltonian of a point: the log joint density of state and momentum. *)
Definition joint (x r : vec) : R := llk x - 1 / 2 * vsum n (fun i => r i * vsum n (fun j => Minv i j * r j)).
Definition in_slice (logu : R) (x r : vec) : Prop := logu <= joint x r.

(** How many of the [len] points from [lo] lie in the slice. *)
Fixpoint in_slice_count (logu : R) (st mo : Z -> vec) (lo : Z) (len : nat) : nat :=
  match len with
  | O => 0
  | S len => (if Rle_dec logu (joint (st lo) (mo lo)) then 1 else 0)
             + in_slice_count logu st mo (lo + 1) len
  end.

(** State and momentum after one leapfrog step. *)
Definition image (eps : R) (x r : vec) : vec * vec :=
  match leap_frog n Minv llk grad x (grad x) r eps with (x', _, r', _) => (x', r') end.

(** The ratio of the joint densities after and before one leapfrog step. *)
Definition ratio (x r : vec) (eps : R) : R :=
  exp (joint (fst (image eps x r)) (snd (image eps x r)) - joint x r).

End Path.

(** The first [n] entries of [x] move with velocity [u] at time 0. *)
Definition moves (n : nat) (x : R -> vec) (u : vec) : Prop :=
  forall i, (i < n)%nat -> is_derive (fun t => x t i) 0 (u i).

(** The area spanned by two displacements of state and momentum. *)
Definition area (n : nat) (u1 p1 u2 p2 : vec) : R := dot n u1 p2 - dot n u2 p1.
