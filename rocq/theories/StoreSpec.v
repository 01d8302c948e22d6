(** What the stored samples are compared with. *)

From Coq Require Import List Arith.
From Verif Require Import StoreModel.
Import ListNotations.

Section Spec.
Variable A : Type.
Notation cst := (cst A).
Variable advance : nat -> nat -> nat -> nat -> cst -> block A.

(** A chain that is advanced from the state [s] at iteration [it0] by any number of calls: every call starts at the
    iteration and in the state in which the last one ended.  The steps' results, in order, and the final state. *)
Inductive run (c it0 mj : nat) (s : cst) : list (A * list A) -> cst -> Prop :=
| run_start : run c it0 mj s [] s
| run_call rows s1 steps rows' e eb h x :
    run c it0 mj s rows s1 ->
    advance c (it0 + length rows) steps mj s1 = (rows' ++ [x], (e, eb, h)) ->
    run c it0 mj s (rows ++ rows' ++ [x]) (Cst _ (fst x) (snd x) e eb h).

(** All chains continue where they are, with the step size that is the mean of their averaged ones. *)
Definition pooled (mean : list A -> A) (cs : list cst) : list cst :=
  map (fun s => Cst _ (cL _ s) (omega _ s) (mean (map (epsilonbar _) cs)) (mean (map (epsilonbar _) cs)) (Hbar _ s)) cs.

(** Rows [lo], ..., [hi - 1] of the part [f] of every chain. *)
Definition traces (f : A * list A -> list A) (lo hi : nat) (runs : list (list (A * list A))) : array A :=
  map (fun r => map f (firstn (hi - lo) (skipn lo r))) runs.

(** A call with several steps does what several calls would do. *)
Definition splits := forall c it mj s,
  advance c it 0 mj s = ([], (epsilon _ s, epsilonbar _ s, Hbar _ s)) /\
  forall a b rows e eb h, 0 < a -> advance c it a mj s = (rows, (e, eb, h)) ->
    let x := last rows (cL _ s, omega _ s) in
    advance c it (a + b) mj s =
    (let o := advance c (it + a) b mj (Cst _ (fst x) (snd x) e eb h) in (rows ++ fst o, snd o)).
End Spec.
