(** Specifications for assembling derivatives, splitting and dropping coefficients. *)

From Coq Require Import Reals List Arith.
From Coquelicot Require Import Coquelicot.
From Verif Require Import GlsSpec.
Import ListNotations.
Local Open Scope R_scope.

(** Coefficients before those of parameter [i], given the number of columns of every model matrix. *)
Fixpoint offset (cols : nat -> nat) (i : nat) : nat := match i with O => O | S j => (offset cols j + cols j)%nat end.

(** Linear predictor of parameter [i] in row [r], and the log-likelihood of the coefficients [beta]: [l r] is the
    log-density of observation [r] as a function of its linear predictors. *)
Definition predictor (cols : nat -> nat) (X : nat -> nat -> nat -> R) (beta : nat -> R) (r i : nat) : R :=
  sumf (cols i) (fun c => X i r c * beta (offset cols i + c)%nat).
Definition loglik (n : nat) (l : nat -> (nat -> R) -> R) (cols : nat -> nat) (X : nat -> nat -> nat -> R) (beta : nat -> R) : R :=
  sumf n (fun r => l r (predictor cols X beta r)).

(** [v] is the derivative along [q] of the derivative along [p]. *)
Definition second (f : (nat -> R) -> R) (p q : nat) (e : nat -> R) (v : R) : Prop :=
  is_derive (fun t => Derive (fun s => f (upd (upd e q t) p s)) (upd e q t p)) (e q) v.

(** The part of a list that belongs to the i-th of consecutive blocks of the given sizes. *)
Definition piece {A} (sizes : list nat) (i : nat) (l : list A) : list A :=
  firstn (nth i sizes 0%nat) (skipn (fold_right Nat.add 0%nat (firstn i sizes)) l).

(** Elements of a list whose position is not dropped; positions are counted from [from]. *)
Fixpoint survivors {A} (drop : list nat) (from : nat) (l : list A) : list A :=
  match l with
  | [] => []
  | x :: r => if in_dec Nat.eq_dec from drop then survivors drop (S from) r else x :: survivors drop (S from) r
  end.

(** Dot product of a row of a model matrix, given as a list of columns, with coefficients. *)
Fixpoint dot (r : nat) (X : list (nat -> R)) (b : list R) : R :=
  match X, b with
  | x :: X, c :: b => x r * c + dot r X b
  | _, _ => 0
  end.

(** Zero in place of dropped elements. *)
Fixpoint zeroed (drop : list nat) (from : nat) (l : list R) : list R :=
  match l with
  | [] => []
  | x :: r => (if in_dec Nat.eq_dec from drop then 0 else x) :: zeroed drop (S from) r
  end.

(** Entry of the matrix given by triplets (row, column, value). *)
Fixpoint entry_at (T : list (nat * nat * R)) (p q : nat) : R :=
  match T with
  | [] => 0
  | (r, c, v) :: T => (if Nat.eq_dec r p then if Nat.eq_dec c q then v else 0 else 0) + entry_at T p q
  end.
