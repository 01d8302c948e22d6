(** Specifications for AR(1) residuals. *)

From Coq Require Import List Arith Bool Reals.
Import ListNotations.
Local Open Scope R_scope.

(** f 0 + ... + f (n-1). *)
Fixpoint rsum (n : nat) (f : nat -> R) : R :=
  match n with O => 0 | S m => rsum m f + f m end.

(** The rows that are not missing, in order. *)
Definition kept (not_na : list bool) : list nat :=
  filter (fun i => nth i not_na false) (seq 0 (length not_na)).

(** The series a row belongs to: the number of series that start at or before it.  Without
    series all rows belong together. *)
Definition series_of (sid : option (list nat)) (row : nat) : nat :=
  match sid with
  | None => 0%nat
  | Some s => length (filter (fun i => (i <=? row)%nat) s)
  end.

(** Series of the [k]-th row that is not missing. *)
Definition series_at (not_na : list bool) (sid : option (list nat)) (k : nat) : nat :=
  series_of sid (nth k (kept not_na) 0%nat).

(** The [k]-th remaining row is the first remaining row of its series. *)
Definition opens_series (ser : nat -> nat) (k : nat) : Prop :=
  forall j, (j < k)%nat -> ser j <> ser k.

(** Correlation of a stationary AR(1) process with [rho] at two rows; rows of different series
    are independent. *)
Definition ar1_cor (rho : R) (ser : nat -> nat) (i j : nat) : R :=
  if Nat.eq_dec (ser i) (ser j) then rho ^ (Nat.max i j - Nat.min i j) else 0.

(** Entry (i,j) of the covariance of L^T e if e has covariance V. *)
Definition cov_after (n : nat) (L V : nat -> nat -> R) (i j : nat) : R :=
  rsum n (fun k => rsum n (fun l => L k i * V k l * L l j)).

(** Entry i of L^T e. *)
Definition transformed (n : nat) (L : nat -> nat -> R) (e : nat -> R) (i : nat) : R :=
  rsum n (fun k => L k i * e k).

(** Determinant by expansion along the first column. *)
Definition minor (i : nat) (A : nat -> nat -> R) : nat -> nat -> R :=
  fun r c => A (if (r <? i)%nat then r else S r) (S c).
Fixpoint det (n : nat) (A : nat -> nat -> R) : R :=
  match n with
  | O => 1
  | S m => rsum (S m) (fun i => (-1) ^ i * A i O * det m (minor i A))
  end.

(** The start row of the series of every remaining row remains as well. *)
Definition starts_remain (not_na : list bool) (sid : option (list nat)) : Prop :=
  match sid with
  | None => True
  | Some s => forall r, nth r not_na false = true ->
      exists s0, In s0 s /\ (s0 <= r)%nat /\ nth s0 not_na false = true /\
                 forall s1, In s1 s -> ~ (s0 < s1 <= r)%nat
  end.

(** Log density of the normal distribution with mean m and variance v. *)
Definition log_normal_density (x m v : R) : R := - ((x - m) * (x - m)) / (2 * v) - ln (2 * PI * v) / 2.

(** e follows an AR(1) process with innovations u: the first row of a series is the innovation,
    every other one is rho times the previous plus the scaled innovation. *)
Definition ar1_process (n : nat) (rho : R) (ser : nat -> nat) (u e : nat -> R) : Prop :=
  forall k, (k < n)%nat ->
    (opens_series ser k -> e k = u k) /\
    (~ opens_series ser k -> exists j, k = S j /\ e k = rho * e j + sqrt (1 - rho * rho) * u k).
