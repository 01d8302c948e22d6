(** When weights of Davies' routine lie on the same side of a frequency. *)
From Coq Require Import List Reals.
Local Open Scope R_scope.

(** Noncentralities are not negative. *)
Definition valid (vars : list (R * nat * R)) : Prop := forall l n nc, In (l, n, nc) vars -> 0 <= nc.
(** No weight is passed between u and v: every weight is passed at u already or is not passed at v. *)
Definition same_side (vars : list (R * nat * R)) (u v : R) : Prop :=
  forall l n nc, In (l, n, nc) vars -> 1 < (2 * u * l) ^ 2 \/ (2 * v * l) ^ 2 <= 1.
(** No weight is passed at u. *)
Definition none_passed (vars : list (R * nat * R)) (u : R) : Prop :=
  forall l n nc, In (l, n, nc) vars -> (2 * u * l) ^ 2 <= 1.
(** All weights have the same size. *)
Definition equal_size (vars : list (R * nat * R)) (m : R) : Prop :=
  forall l n nc, In (l, n, nc) vars -> l ^ 2 = m.
