(** Column orders of structured quasi-Newton storage.
    Source: /repo/src/mssm/src/python/gamm_solvers.py (init_qEFS_storage).

    Numbers are reals instead of floats; the options that are only stored are left out. *)
From Coq Require Import List Arith Reals Bool.
Import ListNotations.
Local Open Scope R_scope.

(** acols, gamm_solvers.py:7347; [p] is len(coef). *)
Definition acols (fcols : list nat) (p : nat) : list nat := filter (fun c => negb (existsb (Nat.eqb c) fcols)) (seq 0 p).
(** tcols, gamm_solvers.py:7350. *)
Definition tcols (fcols : list nat) (p : nat) : list nat := fcols ++ acols fcols p.

(** csc_array((np.tile(1, n), (rows, np.arange(n)))), gamm_solvers.py:7358-7364 and 7369-7375: values given for the same
    place are added. *)
Definition coo (rows : list nat) (i j : nat) : R :=
  fold_right (fun rc s => (if ((fst rc =? i) && (snd rc =? j))%nat then 1 else 0) + s) 0 (combine rows (seq 0 (length rows))).
Definition P1 (fcols : list nat) (p : nat) : nat -> nat -> R := coo (tcols fcols p).
Definition P2 (fcols : list nat) (p : nat) : nat -> nat -> R := coo (acols fcols p).

(** Products as they are used, gamm_solvers.py:7237 (P1.T @ nHfd @ P1), 7797-7809 (P1 @ . @ P1.T) and 7842 (P2 @ . @ P2.T),
    entry by entry; [n] is the inner size. *)
Definition sum_n (n : nat) (f : nat -> R) : R := fold_right (fun k s => f k + s) 0 (seq 0 n).
Definition outer_prod (n : nat) (P M : nat -> nat -> R) (i j : nat) : R :=
  sum_n n (fun a => sum_n n (fun b => P i a * M a b * P j b)).
Definition inner_prod (n : nat) (P M : nat -> nat -> R) (a b : nat) : R :=
  sum_n n (fun i => sum_n n (fun j => P i a * M i j * P j b)).
