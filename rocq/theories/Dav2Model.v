(** Numerical integration in Davies' routine.
    Source: /repo/src/mssm/src/cpp/davies.cpp (integrate; findu and ctff are in DavModel).

    Numbers are reals instead of doubles; degrees of freedom are not negative (negative ones are refused before,
    davies.cpp:322-327). *)
From Coq Require Import List Arith Reals.
From Verif Require Import DavModel.
Import ListNotations.
Local Open Scope R_scope.

(** The loop over j, davies.cpp:209-217, with its start values (:206-208): sum1, sum2, sum3 after all weights, the last one
    first.  log1(y, true) is ln (1 + y). *)
Definition inner (vars : list (R * nat * R)) (sigsq c u : R) : R * R * R :=
  fold_right (fun v acc =>
      let '(lj, nj, ncj) := v in
      let '(sum1, sum2, sum3) := acc in
      let x := 2 * lj * u in
      let y := x * x in
      let sum3' := sum3 - / 4 * INR nj * ln (1 + y) in
      let y' := ncj * x / (1 + y) in
      let z := INR nj * atan x + y' in
      (sum1 + z, sum2 + Rabs z, sum3' - / 2 * x * y'))
    (- 2 * u * c, Rabs (- 2 * u * c), - / 2 * sigsq * (u * u)) vars.

(** One term, davies.cpp:205-223: what is added to intl and ersm for k. *)
Definition one_term (vars : list (R * nat * R)) (interv tausq : R) (mainx : bool) (sigsq c : R) (k : nat) : R * R :=
  let inpi := interv / PI in
  let u := (INR k + / 2) * interv in
  let '(sum1, sum2, sum3) := inner vars sigsq c u in
  let x := inpi * exp1 sum3 / u in
  let x := if mainx then x else x * (1 - exp1 (- / 2 * tausq * (u * u))) in
  (sin (/ 2 * sum1) * x, / 2 * sum2 * x).

(** integrate, davies.cpp:197-225, k = nterm, ..., 0: new intl and ersm. *)
Fixpoint integrate (vars : list (R * nat * R)) (interv tausq : R) (mainx : bool) (sigsq c : R) (nterm : nat)
    (intl ersm : R) : R * R :=
  let t := one_term vars interv tausq mainx sigsq c nterm in
  match nterm with
  | O => (intl + fst t, ersm + snd t)
  | S k => integrate vars interv tausq mainx sigsq c k (intl + fst t) (ersm + snd t)
  end.
