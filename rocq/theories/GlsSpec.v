(** Specifications for families with several parameters. *)

From Coq Require Import Reals List Arith.
From Coquelicot Require Import Coquelicot.
Import ListNotations.
Local Open Scope R_scope.

(** The point with coordinate [i] replaced. *)
Definition upd (e : nat -> R) (i : nat) (t : R) : nat -> R :=
  fun k => if (k =? i)%nat then t else e k.

(** [v] is the partial derivative of [f] along coordinate [i] at [e]. *)
Definition partial (f : (nat -> R) -> R) (i : nat) (e : nat -> R) (v : R) : Prop :=
  is_derive (fun t => f (upd e i t)) (e i) v.

(** Second partial derivatives along one coordinate and along two (first i, then j). *)
Definition partial2 (f : (nat -> R) -> R) (i : nat) (e : nat -> R) (v : R) : Prop :=
  is_derive_n (fun t => f (upd e i t)) 2 (e i) v.
Definition partial_mixed (f : (nat -> R) -> R) (i j : nat) (e : nat -> R) (v : R) : Prop :=
  is_derive (fun t => Derive (fun s => f (upd (upd e j t) i s)) (e i)) (e j) v.

(** All pairs i < j < n, by i and then by j. *)
Fixpoint pairs_from (i k : nat) : list (nat * nat) :=
  match k with
  | O => []
  | S k' => map (fun d => (i, (i + 1 + d)%nat)) (seq 0 k') ++ pairs_from (S i) k'
  end.
Definition pairs (n : nat) : list (nat * nat) := pairs_from 0 n.

(** Sum of f over 0 .. n-1. *)
Fixpoint sumf (n : nat) (f : nat -> R) : R := match n with O => 0 | S m => sumf m f + f m end.

(** ** Multinomial: category 0 is the reference with weight 1, category k has weight w k. *)
Definition weight (w : nat -> R) (k : nat) : R := match k with O => 1 | S m => w m end.
Definition cat_prob (n : nat) (w : nat -> R) (k : nat) : R := weight w k / sumf (n + 1) (weight w).

(** First [n] values of a function as a list. *)
Definition values (n : nat) (f : nat -> R) : list R := map f (seq 0 n).
