(** Specifications for gradients of hidden semi-Markov models. *)

From Coq Require Import List Bool Arith Reals.
From Coquelicot Require Import Coquelicot.
From Verif Require Import Ext HsmmModel HsmmSpec.
Local Open Scope R_scope.

(** Tables of a series that can be evaluated. *)
Definition usable (m : tables R) : Prop :=
  (0 < n_T m)%nat /\ (2 <= D m)%nat /\ (0 < n_S m)%nat /\ nonnegative m /\ fixed_bumps 0 m.

(** Tables of the shape of [m] with other entries. *)
Definition put (m : tables R) (B Du Tr : nat -> nat -> nat -> R) (Pi : nat -> R) : tables R :=
  Tables (hmp m) (event_width m) (n_T m) (D m) (n_S m) (starts_with_first m) (ends_with_last m) (ends_in_last m) (tvdtpi m) B Du Tr Pi.
Definition with_b m B := put m B (dur m) (tr m) (pi m).
Definition with_dur m Du := put m (b m) Du (tr m) (pi m).
Definition with_tr m Tr := put m (b m) (dur m) Tr (pi m).
Definition with_pi m Pi := put m (b m) (dur m) (tr m) Pi.

(** States observe [n] independent signals, where signal s has the probability exp (l t j s) at time t in state j; the probabilities
    of [m] are factors (1, or 0 if an observation is impossible). *)
Definition observing (m : tables R) (n : nat) (l : nat -> nat -> nat -> R) : tables R :=
  with_b m (fun t k j => b m t k j * exp (nsum n (fun s => l t j s))).
(** Column jx of the durations is proportional to exp (l d t). *)
Definition lasting (m : tables R) (jx : nat) (l : nat -> nat -> R) : tables R :=
  with_dur m (fun d j t => if (j =? jx)%nat then exp (l d t) / nsum (D m - 1) (fun e => exp (l e t)) else dur m d j t).
(** State jx is left at time t for the first other state, or the others, with probabilities proportional to 1, exp (eta 0 t), exp (eta 1 t), ... *)
Definition leaving (m : tables R) (jx : nat) (eta : nat -> nat -> R) : tables R :=
  with_tr m (fun i j t => if (i =? jx)%nat
                          then if (j =? jx)%nat then 0
                               else match (if j <? jx then j else j - 1)%nat with O => 1 | S p => exp (eta p t) end
                                    / (1 + nsum (n_S m - 2) (fun p => exp (eta p t)))
                          else tr m i j t).
(** Initial probabilities proportional to 1, exp (eta 0), exp (eta 1), ... *)
Definition entering (m : tables R) (eta : nat -> R) : tables R :=
  with_pi m (fun j => match j with O => 1 | S p => exp (eta p) end / (1 + nsum (n_S m - 1) (fun p => exp (eta p)))).

(** The log-likelihood [f] is finite near x0, and [g] is its derivative at x0. *)
Definition value (x : ext) : R := match x with Fin r => r | _ => 0 end.
Definition slope (f : R -> ext) (x0 g : R) : Prop :=
  locally x0 (fun x => exists r, f x = Fin r) /\ is_derive (fun x => value (f x)) x0 g.
