(** Specifications for smoothing parameter updates. *)

From Coq Require Import List Reals.
From Verif Require Import LamModel.
Import ListNotations.
Local Open Scope R_scope.

(** The range of smoothing parameters, 1e-7 to 1e7. *)
Definition in_range (x : R) : Prop := / 10000000 <= x <= 10000000.

(** Two numbers have the same sign (both positive, both negative, or both zero). *)
Definition same_sign (x z : R) : Prop :=
  (0 < x <-> 0 < z) /\ (x < 0 <-> z < 0) /\ (x = 0 <-> z = 0).

(** A refit returns one set of traces per smoothing parameter. *)
Definition one_each (refit : nat -> list R -> list (R * R * R) * R) : Prop :=
  forall k ls, length (fst (refit k ls)) = length ls.

(** The states a fit of an additive model goes through.  [waiting = true]: a step has been
    computed and not yet applied (the start of an outer iteration); [waiting = false]: the step
    has been applied and the step control is running.  The extension setting is fixed, all other
    settings and everything the model returns may change from pass to pass. *)
Inductive fit_state (extend : bool) : bool -> list pen -> Prop :=
| fs_start : forall ps,
    (forall p, In p ps -> in_range (lam p) /\ prev p = lam p /\ acc p = 0 /\ was p = false /\
       (if frozen p then delta p = 0
        else exists a b c s, delta p = step_fellner_schall a b c (lam p) s)) ->
    fit_state extend true ps
| fs_apply : forall ps, fit_state extend true ps -> fit_state extend false (map apply_step ps)
| fs_pass : forall ps refit gauss_id control exclude meth o_iter pd k ps' last,
    one_each refit -> fit_state extend false ps ->
    control_pass refit gauss_id control extend exclude meth o_iter pd k ps = (ps', last) ->
    fit_state extend last ps'.

(** Where step control may leave a smoothing parameter: at the previously accepted value plus
    the step divided by a power of two, or, for an extended step, plus the step without its
    extension divided by a power of two. *)
Definition toward (extend : bool) (p p' : pen) : Prop :=
  frozen p' = frozen p /\
  exists j, lam p' = (lam p - delta p) + delta p / 2 ^ j \/
            (extend = true /\ was p = true /\ lam p' = (lam p - delta p) + (delta p - acc p) / 2 ^ j).
