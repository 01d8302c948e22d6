(** Specifications for residuals and simulated observations. *)

From Coq Require Import Reals List.
From Verif Require Import FamSpec ResModel.
Import ListNotations.
Local Open Scope R_scope.

(** Two numbers lie on the same side of zero. *)
Definition same_side (a b : R) : Prop := (0 < a <-> 0 < b) /\ (a < 0 <-> b < 0).

(** Sum of squares. *)
Definition sum_sq (v : list R) : R := fold_right (fun x s => x ^ 2 + s) 0 v.

(** Sum of a list. *)
Definition sum_list (v : list R) : R := fold_right Rplus 0 v.

(** The log-likelihood of a status d (0 or 1) for cumulative hazard H, and twice its distance from the best value, which
    is at H = d (0 ln 0 = 0). *)
Definition surv_loglik (d H : R) : R := d * ln H - H.
Definition surv_deviance (d H : R) : R := 2 * (surv_loglik d d - surv_loglik d H).

(** Density, mean and variance of the distributions drawn from; [G] is the Gamma function. *)
Definition law_pdf (G : R -> R) (L : law) (y : R) : R :=
  match L with Norm m s => gauss_pdf m (s ^ 2) y | GammaLaw a s => gamma_pdf G a (/ s) y end.
Definition law_mean (L : law) : R := match L with Norm m _ => m | GammaLaw a s => a * s end.
Definition law_var (L : law) : R := match L with Norm _ s => s ^ 2 | GammaLaw a s => a * s ^ 2 end.
