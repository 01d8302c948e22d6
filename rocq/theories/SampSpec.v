(** Specifications for SampModel. *)
From Coq Require Import List Arith Bool Reals Sorted.
From Verif Require Import Ext StepSpec.
Import ListNotations.
Local Open Scope R_scope.

(** A pair belongs to a step [s] away from [x]: its second entry is the change of the gradient of the negative
    log-likelihood along the step. *)
Definition curvature_pair (grad : list R -> list R) (x : list R) (s y : list R) : Prop :=
  y = minus_vec (grad (minus_vec x s)) (grad x).

(** A quadratic log-likelihood with negative Hessian A. *)
Definition quadratic (n : nat) (grad : list R -> list R) (A : list R -> list R) : Prop :=
  forall x d, length x = n -> length d = n -> minus_vec (grad (minus_vec x d)) (grad x) = A d.

(** The Metropolis acceptance probability of moving from log density [a] to [b] at temperature [T]. *)
Definition metropolis (T : R) (a b : ext) : option R :=
  match a, b with
  | Fin x, Fin y => Some (Rmin 1 (exp ((y - x) / T)))
  | Fin _, MInf => Some 0
  | _, _ => None
  end.

(** The penalised log-likelihood: half the penalty is subtracted. *)
Definition penalised (llk : list R -> ext) (quad_S : list R -> R) (c : list R) : ext :=
  match llk c with Fin x => Fin (x - quad_S c / 2) | e => e end.

(** Dual averaging of Hoffman and Gelman (2014): the running average of (delta - alpha), the logarithms of the step
    sizes and of their averages, after the acceptance probabilities [alphas] (latest first). *)
Fixpoint hg_average (t0 delta : R) (alphas : list R) : R :=
  match alphas with
  | [] => 0
  | a :: rest => let t := INR (length alphas) in
                 (1 - 1 / (t + t0)) * hg_average t0 delta rest + 1 / (t + t0) * (delta - a)
  end.
Definition hg_log (mu gamma t0 delta : R) (alphas : list R) : R :=
  mu - sqrt (INR (length alphas)) / gamma * hg_average t0 delta alphas.
Fixpoint hg_log_bar (mu gamma t0 kappa delta : R) (alphas : list R) : R :=
  match alphas with
  | [] => 0
  | _ :: rest => let w := Rpower (INR (length alphas)) (- kappa) in
                 w * hg_log mu gamma t0 delta alphas + (1 - w) * hg_log_bar mu gamma t0 kappa delta rest
  end.

(** A mixture of a vector and random numbers. *)
Fixpoint mixed (w : R) (a b : list R) : list R :=
  match a, b with x :: a', y :: b' => (w * x + (1 - w) * y) :: mixed w a' b' | _, _ => [] end.

(** A log-likelihood is a number. *)
Definition a_number (v : ext) : Prop := match v with Fin _ => True | _ => False end.
