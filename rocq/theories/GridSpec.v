(** Specifications for GridModel. *)
From Coq Require Import List Arith ZArith QArith Qabs Bool.
From Verif Require Import GridModel.
Import ListNotations.
Local Open Scope nat_scope.

(** Draws: [n] rows of length [d]. *)
Definition is_table {A} (n d : nat) (rows : list (list A)) : Prop := length rows = n /\ Forall (fun r => length r = d) rows.

(** Entrywise closer than [tol]. *)
Definition close (tol : Q) (a b : list Q) : Prop := Forall2 (fun x y => (Qabs (x - y) < tol)%Q) a b.

(** The rows that have a score, with their scores. *)
Fixpoint scored {S} (compute : list Q -> option S) (rows : list (list Q)) : list (S * list Q) :=
  match rows with
  | [] => []
  | r :: rest => match compute r with Some s => (s, r) :: scored compute rest | None => scored compute rest end
  end.
