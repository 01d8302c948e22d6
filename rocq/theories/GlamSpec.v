(** Specification for GlamModel. *)

From Coq Require Import List Reals.
Import ListNotations.
Local Open Scope R_scope.

(** Two lists of smoothing parameters of the same length, element by element closer than [tol]. *)
Definition closer (tol : R) (a b : list R) : Prop := Forall2 (fun x z => Rabs (x - z) < tol) a b.

(** The smoothing parameters [a], some of them held fixed, have become [b]: those held fixed are the same. *)
Definition fixed_kept (a : list (R * bool)) (b : list R) : Prop :=
  Forall2 (fun x z => snd x = true -> z = fst x) a b.
