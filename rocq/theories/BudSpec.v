(** What is asked of the columns that are differenced. *)
From Coq Require Import List Arith ZArith QArith Qround Bool Lia Sorted FinFun.
From Verif Require Import BudModel.
Import ListNotations.
Local Open Scope nat_scope.

(** A draw without replacement: as many as asked for, all different, all from the list. *)
Definition draws (choice : list nat -> nat -> list nat) : Prop :=
  forall l k, NoDup l -> k <= length l -> length (choice l k) = k /\ NoDup (choice l k) /\ incl (choice l k) l.
(** Coefficients of the terms of a formula are its own, and no two terms share one. *)
Definition well_formed (f : formula) : Prop :=
  NoDup (concat (map snd (visited f))) /\ forall c, In c (concat (map snd (visited f))) -> c < n_coef f.
(** Number of columns the budget allows. *)
Definition allows (bg : budget) (candidates n : nat) : Prop :=
  match bg with
  | Columns _ => True
  | Count k => (Z.of_nat n <= k)%Z
  | Part q => n <= 1 \/ (inject_Z (Z.of_nat n) <= q * inject_Z (Z.of_nat candidates))%Q
  end.
