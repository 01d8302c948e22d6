(** The bound of the truncation error in Davies' routine.
    Source: /repo/src/mssm/src/cpp/davies.cpp (truncation).

    Numbers are reals instead of doubles; degrees of freedom are not negative (negative ones are refused before). *)
From Coq Require Import List Arith Reals.
From Verif Require Import DavModel.
Import ListNotations.
Local Open Scope R_scope.

(** The loop over j with its start values, davies.cpp:146-162: sum1, prod1, prod2, prod3, s; [u] is already doubled.
    log1(x, true) is ln (1 + x).  The fold adds the last weight first, which is the same sum over the reals. *)
Record sums := { sum1 : R; prod1 : R; prod2 : R; prod3 : R; count_s : nat }.
Definition weight_step (u : R) (v : R * nat * R) (a : sums) : sums :=
  let '(lj, nj, ncj) := v in
  let x := (u * lj) ^ 2 in
  let s1 := sum1 a + ncj * x / (1 + x) in
  if Rlt_dec 1 x
  then {| sum1 := s1; prod1 := prod1 a; prod2 := prod2 a + INR nj * ln x; prod3 := prod3 a + INR nj * ln (1 + x);
          count_s := (count_s a + nj)%nat |}
  else {| sum1 := s1; prod1 := prod1 a + INR nj * ln (1 + x); prod2 := prod2 a; prod3 := prod3 a; count_s := count_s a |}.
Definition loop (vars : list (R * nat * R)) (u p : R) : sums :=
  fold_right (weight_step u) {| sum1 := 0; prod1 := p; prod2 := 0; prod3 := 0; count_s := 0 |} vars.

(** truncation, davies.cpp:138-173, without counter. *)
Definition truncation (vars : list (R * nat * R)) (u tausq sigsq : R) : R :=
  let sum2 := (sigsq + tausq) * u ^ 2 in
  let a := loop vars (2 * u) (2 * sum2) in
  let sm := / 2 * sum1 a in
  let p2 := prod1 a + prod2 a in
  let p3 := prod1 a + prod3 a in
  let x := exp1 (- sm - / 4 * p2) / PI in
  let y := exp1 (- sm - / 4 * p3) / PI in
  let err1 := if (count_s a =? 0)%nat then 1 else x * 2 / INR (count_s a) in
  let err2 := if Rlt_dec 1 p3 then 5 / 2 * y else 1 in
  let err1 := if Rlt_dec err2 err1 then err2 else err1 in
  let x := / 2 * sum2 in
  let err2 := if Rle_dec x y then 1 else y / x in
  if Rlt_dec err1 err2 then err1 else err2.
