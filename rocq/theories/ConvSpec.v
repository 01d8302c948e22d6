(** What the decision to stop is compared with. *)

From Coq Require Import List Arith ZArith.
From Verif Require Import StoreModel.
Import ListNotations.

Section Spec.
Variables (A : Type) (dummy : A).

(** The trace of parameter [p] of an array in every chain. *)
Definition trace_of (p : nat) (arr : array A) : list (list A) := map (fun rows => map (fun row => nth p row dummy) rows) arr.

(** The two halves of every trace, of the same length: the last value of a trace of odd length is left out. *)
Inductive halved : list (list A) -> list (list A) -> Prop :=
| halved_nil : halved [] []
| halved_even a b l l' : length a = length b -> halved l l' -> halved ((a ++ b) :: l) (a :: b :: l')
| halved_odd a b x l l' : length a = length b -> halved l l' -> halved ((a ++ b ++ [x]) :: l) (a :: b :: l').

(** Every parameter of an array meets a condition that depends on the halves of its traces. *)
Definition all_meet (good : list (list A) -> bool) (w : nat) (arr : array A) : Prop :=
  forall p h, p < w -> halved (trace_of p arr) h -> good h = true.
End Spec.

(** Formulas with [ws] coefficients each, the first of which begins at [from]: where every block but the first
    begins (coef_split_idx), and where the block of formula [f] begins. *)
Fixpoint cuts (from : nat) (ws : list nat) : list nat :=
  match ws with [] => [] | [w] => [] | w :: ws => (from + w) :: cuts (from + w) ws end.
Fixpoint start_of (from : nat) (ws : list nat) (f : nat) : nat :=
  match f, ws with 0, _ => from | S f, w :: ws => start_of (from + w) ws f | S f, [] => from end.
