(** Specifications for GupdModel. *)
From Coq Require Import List Arith Bool Reals.
From Verif Require Import Ext StepSpec UpdSpec.
Import ListNotations.
Local Open Scope R_scope.

(** The values of a vector at the coefficients that remain. *)
Definition kept_of (n : nat) (drop : list nat) (full : list R) : list R := map (fun k => nth k full 0) (remaining n drop).

(** Leaving columns out is the same as setting their coefficients to zero. *)
Definition zero_is_absent (n : nat) (llk : option (list nat) -> list R -> ext) : Prop :=
  forall drop full, length full = n -> (forall k, In k drop -> nth k full 0 = 0) ->
    llk (Some (remaining n drop)) (kept_of n drop full) = llk None full.

(** A vector that is finite in all its entries evaluates to a number. *)
Definition number (v : ext) : Prop := match v with Fin _ => True | _ => False end.

(** A step of L-BFGS-B applied to the negative penalised log-likelihood: from [x] to [x']. *)
Definition bfgs_pair (n : nat) (grad : list R -> list R) (S : list R -> list R) (p : list R * list R) : Prop :=
  exists x x', length x = n /\ length x' = n /\ fst p = minus_vec x' x /\
    snd p = minus_vec (minus_vec (S x') (grad x')) (minus_vec (S x) (grad x)).
(** The change of the gradient of the negative log-likelihood along a step. *)
Definition llk_pair (n : nat) (grad : list R -> list R) (p : list R * list R) : Prop :=
  exists x x', length x = n /\ length x' = n /\ fst p = minus_vec x' x /\ snd p = minus_vec (grad x) (grad x').
(** Multiplication by a matrix. *)
Definition linear (n : nat) (S : list R -> list R) : Prop :=
  (forall v, length v = n -> length (S v) = n) /\
  forall a b, length a = n -> length b = n -> S (minus_vec a b) = minus_vec (S a) (S b).

(** The last [m] elements. *)
Definition newest {A} (m : nat) (l : list A) : list A := skipn (length l - m) l.

(** The part of a pair that does not come from the penalty. *)
Definition without_penalty (S : list R -> list R) (p : list R * list R) : list R * list R :=
  (fst p, minus_vec (snd p) (S (fst p))).
