(** Specifications for SroneModel. *)
From Coq Require Import List Arith Bool Reals.
From Verif Require Import Ext StepSpec.
Import ListNotations.
Local Open Scope R_scope.

(** Only the zero vector is sent to zero. *)
Definition regular (M : list (list R)) : Prop :=
  forall v, length v = length M -> (forall row, In row M -> inner row v = 0) -> forall x, In x v -> x = 0.

(** The scaling y'y / y's of Nocedal and Wright, 1 if negative. *)
Definition scaling (s y : list R) (w : R) : Prop :=
  let q := inner y y / inner y s in (q < 0 /\ w = 1) \/ (0 <= q /\ w = q).

(** The symmetric rank one update of w I with the steps [ss] and differences [yy] is defined: the matrix with
    entries s_i y_j - w s_i s_j (i >= j), mirrored, is regular, w being the scaling of the last pair. *)
Definition sr1_defined (ss yy : list (list R)) : Prop :=
  exists w M, scaling (last ss []) (last yy []) w /\ length ss = length yy /\ length M = length ss /\
    (forall i, (i < length ss)%nat -> length (nth i M []) = length ss) /\
    (forall i j, (j <= i)%nat -> (i < length ss)%nat ->
       let e := inner (nth i ss []) (nth j yy []) - w * inner (nth i ss []) (nth j ss []) in
       nth j (nth i M []) 0 = e /\ nth i (nth j M []) 0 = e) /\
    regular M.
