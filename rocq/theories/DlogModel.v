(** Logarithms in Davies' routine.
    Source: /repo/src/mssm/src/cpp/davies.cpp (log1).

    Numbers are reals instead of doubles.  The loop ends when a summand no longer changes the double s; over the reals the
    number of rounds is a parameter. *)
From Coq Require Import Reals.
Local Open Scope R_scope.

(** The body of the loop, davies.cpp:58-60, [m] times: s1 = s + term / k is the new s, then k and term are advanced.
    [y] is already squared. *)
Fixpoint rounds (m : nat) (y s term k : R) : R :=
  match m with
  | O => s
  | S m' => rounds m' y (s + term / k) (term * y) (k + 2)
  end.

(** log1, davies.cpp:43-63, after [m] rounds of the loop. *)
Definition log1_after (m : nat) (x : R) (first : bool) : R :=
  if Rlt_dec (1 / 10) (Rabs x) then (if first then ln (1 + x) else ln (1 + x) - x)
  else
    let y := x / (2 + x) in
    let term := 2 * y ^ 3 in
    let s := (if first then 2 else - x) * y in
    rounds m (y ^ 2) s term 3.
