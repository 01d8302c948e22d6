(** What Davies' routine should do. *)
From Coq Require Import List Arith ZArith Reals Sorting.Permutation.
Import ListNotations.
Local Open Scope R_scope.

(** [th] lists the first [r] places once each, those with the largest absolute values first. *)
Definition ranks (lb : nat -> R) (r : nat) (th : nat -> nat) : Prop :=
  Permutation (map th (seq 0 r)) (seq 0 r) /\ forall i j, (i <= j)%nat -> (j < r)%nat -> Rabs (lb (th j)) <= Rabs (lb (th i)).

(** The cumulant generating function of sigma Z + sum of weight times chi-square: weight, degrees of freedom,
    noncentrality. *)
Definition cumulant (vars : list (R * R * R)) (sigsq u : R) : R :=
  / 2 * sigsq * (u * u)
  + fold_right (fun v a => let '(l, n, nc) := v in (- (n / 2) * ln (1 - 2 * u * l) + nc * (l * u) / (1 - 2 * u * l)) + a) 0 vars.
(** It exists at [u]. *)
Definition exists_at (vars : list (R * R * R)) (u : R) : Prop := Forall (fun v => 0 < 1 - 2 * u * fst (fst v)) vars.

(** Parameters nobody can use. *)
Definition invalid (vars : list (R * Z * R)) : Prop := exists l n nc, In (l, n, nc) vars /\ ((n < 0)%Z \/ nc < 0).
