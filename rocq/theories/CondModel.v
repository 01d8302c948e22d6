(** Estimates of condition numbers and what fits do with them.
    Source: /repo/src/mssm/src/python/matrix_solvers.py (est_condition), gamm_solvers.py (solve_gamm_sparse,
    solve_gammlss_sparse, solve_generalSmooth_sparse). *)
From Coq Require Import List Arith Bool Reals.
From Verif Require Import Ext.
Import ListNotations.
Local Open Scope R_scope.

(** Square matrices as lists of rows. *)
Notation matrix := (list (list R)).

Section Estimate.
(** scp.sparse.linalg.svds(A, k=1) with the default solver and with "lobpcg": the largest singular value, None if it
    raises. *)
Variables arpack lobpcg : matrix -> option R.

Definition unit_roundoff : R := / 2 ^ 53.       (* matrix_solvers.py:472 *)

(** Result of est_condition: (K, max_sing, 1 / min_sing, code); the first three may be infinite. *)
Record condition := mkCond { c_K : ext; c_max : ext; c_min : ext; c_code : nat; c_warned : bool }.

(** est_condition, matrix_solvers.py:476-533.  [c_warned] tells whether a warning was given. *)
Definition est_condition (L Linv : matrix) (verbose : bool) : condition :=
  let pair solver := match solver Linv, solver L with Some a, Some b => Some (a, b) | _, _ => None end in
  let both := match pair arpack with Some p => Some p | None => pair lobpcg end in
  match both with
  | None => mkCond PInf PInf MInf 1 true
  | Some (min_sing, max_sing) =>
      let K := max_sing * min_sing in
      let code1 := rltb (1 / sqrt unit_roundoff) K in
      let code2 := rltb (1 / unit_roundoff) K in
      mkCond (Fin K) (Fin max_sing) (Fin (1 / min_sing)) (if code2 then 2 else if code1 then 1 else 0)
             (verbose && (code1 || code2))
  end.
End Estimate.

(** How a fit goes on: with the code of fit_info and whether a warning is given, or with an exception. *)
Inductive outcome := Goes (code : nat) (warned : bool) | ArithmeticError | TypeError.

(** check_cond = 2, gamm_solvers.py:2847-2866 and :3093-3113 (additive models; [chol] is method == "Chol"). *)
Definition check_each (chol : bool) (c : condition) (code : nat) : outcome :=
  if chol && (c_code c =? 1)%nat then ArithmeticError
  else if negb chol && (c_code c =? 2)%nat then ArithmeticError
  else Goes code (c_warned c).

(** check_cond = 1 for additive models, gamm_solvers.py:3190-3215; line 3209 raises the value of warnings.warn, which is
    None. *)
Definition check_last (chol : bool) (c : condition) (code : nat) : outcome :=
  let code' := if (code =? 0)%nat then c_code c else code in
  if negb chol && (c_code c =? 2)%nat then TypeError
  else Goes code' (c_warned c || (chol && (c_code c =? 1)%nat)).

(** check_cond = 1 for the other models, gamm_solvers.py:6393-6412, :9681-9700. *)
Definition check_general (c : condition) (code : nat) : outcome :=
  let code' := if (code =? 0)%nat then c_code c else code in
  Goes code' (c_warned c || (0 <? c_code c)%nat).
