(** Specifications for links, families and working weights. *)

From Coq Require Import Reals List.
From Verif Require Import FamModel.
Import ListNotations.
Local Open Scope R_scope.

(** Means for which a link is meant. *)
Definition link_dom (l : link) (mu : R) : Prop :=
  match l with
  | Logit => 0 < mu < 1
  | Identity => True
  | LOG => 0 < mu
  | LOGb b => - b < mu
  end.

(** Means a family can have. *)
Definition mean_ok (f : family) (mu : R) : Prop :=
  match f with
  | Binomial n => (0 < n)%nat /\ 0 < mu < 1
  | Gaussian => True
  | Gamma | InvGauss | Poisson => 0 < mu
  end.

(** Responses a family can have; a binomial response is a proportion. *)
Definition resp_ok (f : family) (y : R) : Prop :=
  match f with
  | Binomial n => (0 < n)%nat /\ exists k, (k <= n)%nat /\ y * INR n = INR k
  | Gaussian => True
  | Gamma | InvGauss => 0 < y
  | Poisson => exists k, y = INR k
  end.

(** Families without a scale parameter have scale 1. *)
Definition scale_ok (f : family) (scale : R) : Prop :=
  match f with Binomial _ | Poisson => scale = 1 | _ => 0 < scale end.

(** ** Densities *)

(** Mean m, variance v. *)
Definition gauss_pdf (m v y : R) : R := exp (- (y - m) ^ 2 / (2 * v)) / sqrt (2 * PI * v).

(** Shape a, rate r; [G] is the Gamma function.  Mean a / r, variance a / r^2. *)
Definition gamma_pdf (G : R -> R) (a r y : R) : R :=
  Rpower r a * Rpower y (a - 1) * exp (- (r * y)) / G a.

(** Mean m, shape l, variance m^3 / l. *)
Definition invgauss_pdf (m l y : R) : R :=
  sqrt (l / (2 * PI * y ^ 3)) * exp (- (l * (y - m) ^ 2 / (2 * m ^ 2 * y))).

(** Mean and variance m. *)
Definition poisson_pmf (m : R) (k : nat) : R := m ^ k * exp (- m) / INR (fact k).

(** n trials with probability p. *)
Definition binomial_pmf (n : nat) (p : R) (k : nat) : R :=
  INR (fact n) / (INR (fact k) * INR (fact (n - k))) * p ^ k * (1 - p) ^ (n - k).

(** ** Expectations *)

(** A linear functional that gives constants their value and looks at values in [S] only: the
    expectation under some distribution of the response with support [S]. *)
Record expectation (S : R -> Prop) (E : (R -> R) -> R) : Prop := {
  E_ext : forall f g, (forall y, S y -> f y = g y) -> E f = E g;
  E_lin : forall a b f g, E (fun y => a * f y + b * g y) = a * E f + b * E g;
  E_one : E (fun _ => 1) = 1 }.

(** The expectation under a distribution with finitely many (probability, value) pairs. *)
Definition fin_E (ps : list (R * R)) (f : R -> R) : R :=
  fold_right (fun p s => fst p * f (snd p) + s) 0 ps.
