(** What approx_smooth_p_values and print_smooth_terms should do, independently of how they do it. *)
From Coq Require Import List Arith ZArith Reals.
Import ListNotations.
Local Open Scope R_scope.

(** Mean and variance of a sum of independent weighted chi-square variables. *)
Definition mean (l : list (R * Z)) : R := fold_right (fun p a => fst p * IZR (snd p) + a) 0 l.
Definition variance (l : list (R * Z)) : R := fold_right (fun p a => 2 * (fst p * fst p) * IZR (snd p) + a) 0 l.

(** [r] is at least one and not an integer. *)
Definition fractional (r : R) : Prop := 1 < r /\ forall z : Z, r <> IZR z.

(** Distribution functions take values between 0 and 1. *)
Definition prob (x : R) : Prop := 0 <= x <= 1.
(** Davies' routine meets its accuracy: where it reports no error its value is within 2e-5 of the probability that the sum
    is at most c. *)
Definition accuracy : R := 2 / 100000.
Definition davies_ok (davies : list (R * Z) -> R -> R * Z) (Pr : list (R * Z) -> R -> R) : Prop :=
  forall l c, prob (Pr l c) /\ (0 <= snd (davies l c))%Z /\ (snd (davies l c) = 0%Z -> Rabs (fst (davies l c) - Pr l c) <= accuracy).

(** The penalties of a model, term by term: [terms] lists first coefficient, parameter and number of coefficients of every
    smooth in order, and every term has at least one penalty. *)
Definition term := (Z * nat * R)%type.
Definition grouped (terms pens : list term) : Prop :=
  exists gs, pens = concat gs /\ Forall2 (fun t g => g <> [] /\ Forall (fun q => q = t) g) terms gs.
(** In order: starts increase, parameters do not decrease. *)
Definition in_order (terms : list term) : Prop :=
  forall i j t u, (i < j)%nat -> nth_error terms i = Some t -> nth_error terms j = Some u ->
    (fst (fst t) < fst (fst u))%Z /\ (snd (fst t) <= snd (fst u))%nat.
(** The positions of the terms of one parameter. *)
Definition positions (par : nat) (terms : list term) : list nat :=
  filter (fun i => match nth_error terms i with Some t => Nat.eqb (snd (fst t)) par | None => false end) (seq 0 (length terms)).

(** A random sample of rows without replacement. *)
Definition a_sample (n_rows size : Z) (l : list Z) : Prop :=
  NoDup l /\ Z.of_nat (length l) = size /\ forall i, In i l -> (0 <= i < n_rows)%Z.
