(** Specifications for model comparison and priors. *)

From Coq Require Import List Bool Arith NArith Reals.
From Verif Require Import Ext CmpModel.
Import ListNotations.
Local Open Scope R_scope.

(** The same comparison, seen from the other model. *)
Definition mirrored (r r' : result) : Prop :=
  test_stat r' = - test_stat r /\ aic_diff r' = - aic_diff r /\ res_DOF r' = - res_DOF r /\
  DOF1 r' = DOF2 r /\ DOF2 r' = DOF1 r /\ aic1 r' = aic2 r /\ aic2 r' = aic1 r /\
  aic_DOF1 r' = aic_DOF2 r /\ aic_DOF2 r' = aic_DOF1 r /\
  p_value r' = p_value r /\ H1 r' = H1 r.

(** The family's type decides whether there are scale and theta parameters. *)
Definition same_family (m1 m2 : fitted) : Prop := fam m1 = fam m2 /\ twopar m1 = twopar m2 /\ extended m1 = extended m2.
(** The model with the higher likelihood is the one with more degrees of freedom. *)
Definition agree (l1 d1 l2 d2 : R) : Prop := l1 = l2 \/ (l1 < l2 /\ d1 < d2) \/ (l2 < l1 /\ d2 < d1).

(** Parameters beside the coefficients. *)
Definition other_parameters (m : fitted) : R :=
  (if twopar m then 1 else 0) + (if extended m && est_theta m then INR (n_theta m) else 0).

(** Product of uniform densities on the intervals, with value zero outside. *)
Fixpoint inside (limits : list (R * R)) (row : list R) : Prop :=
  match limits, row with
  | (a, b) :: limits, x :: row => a <= x <= b /\ inside limits row
  | [], [] => True
  | _, _ => False
  end.
Fixpoint density (limits : list (R * R)) : R := match limits with [] => 1 | (a, b) :: r => / (b - a) * density r end.
Definition log_density_of (limits : list (R * R)) (row : list R) (d : ext) : Prop :=
  (inside limits row /\ exists x, d = Fin x /\ exp x = density limits) \/ (~ inside limits row /\ d = MInf).
Definition positive_density (d : ext) : Prop := exists x, d = Fin x.
(** The limits of the centered prior. *)
Definition centered_limits (mrho : list R) (a b c : R) : list (R * R) := map (fun m => (Rmax (m - c) a, Rmin (m + c) b)) mrho.
