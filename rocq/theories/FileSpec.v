(** What is relied on about the cache directory. *)

From Coq Require Import List Bool String.
From Verif Require Import FileModel.
Import ListNotations.

(** The same files and directories. *)
Definition same (s s' : fs) : Prop := forall p, lookup s p = lookup s' p.

(** Everything is listed once and lies in a directory. *)
Definition well_formed (s : fs) : Prop :=
  NoDup (map fst s) /\ forall p c, lookup s (p ++ [c]) <> None -> p = [] \/ lookup s p = Some Dir.

(** Something is in directory [p]. *)
Definition occupied (s : fs) (p : path) : Prop := exists c, lookup s (p ++ [c]) <> None.

(** [q] is [p] or one of the directories above it, other than the working directory. *)
Definition above (q p : path) : Prop := q <> [] /\ exists r, p = q ++ r.
