(** What the transformation of a whole model is compared with. *)

From Coq Require Import Reals.
From mathcomp Require Import all_ssreflect all_algebra.
From Verif Require Import RealField RealMat ReparSpec ReparModel2.
Import GRing.Theory.
Set Implicit Arguments.
Unset Strict Implicit.
Unset Printing Implicit Defensive.
Local Open Scope ring_scope.

(** The coefficients of [m] parameters follow one another, [dist_coef d] for parameter [d], [n] in total. *)
Definition offset (dist_coef : nat -> nat) (d : nat) : nat := (\sum_(e < d) dist_coef e)%N.

(** The terms of a parameter follow its [up d] unpenalised coefficients, one after another and each with all its
    blocks, and together they make up the coefficients of the parameter. *)
Definition laid_out (dist_coef up : nat -> nat) (m n : nat) (gs : seq group) :=
  [/\ (0 < m)%N /\ n = offset dist_coef m,
      forall d, (d < m)%N -> dist_coef d = (up d + \sum_(g <- gs | g_par g == d) g_reps g * g_dim g)%N,
      sorted leq [seq g_par g | g <- gs],
      forall g, List.In g gs -> (g_par g < m)%N &
      forall l1 g l2, gs = l1 ++ g :: l2 ->
        g_start g = (offset dist_coef (g_par g) + up (g_par g) + \sum_(h <- l1 | g_par h == g_par g) g_reps h * g_dim h)%N].

(** The penalty of a group with [orig k] as its k-th S_J in the matrix of all coefficients: row [i], column [j]. *)
Definition embedded (g : group) (A : nat -> nat -> R) : nat -> nat -> R := fun i j =>
  \sum_(c < g_reps g) \sum_(a < g_dim g) \sum_(b < g_dim g)
    (if (i == (g_start g + c * g_dim g + a)%N) && (j == (g_start g + c * g_dim g + b)%N) then A a b else 0).

(** A group holds the transform of the penalties [orig] (this is what C99_transform establishes), and roots of
    the embedded penalties: D D' is the penalty. *)
Definition transformed (n : nat) (g : group) (orig : nat -> nat -> nat -> R) :=
  separates (g_dim g) (size (g_pens g)) orig (fun k => p_lam (nth (Pen (fun _ _ => 0) (fun _ _ => 0) 0 0) (g_pens g) k))
    (g_r g) (g_S g) (fun k => p_S (nth (Pen (fun _ _ => 0) (fun _ _ => 0) 0 0) (g_pens g) k)) (g_Q g) /\
  forall k, (k < size (g_pens g))%N -> forall i j, (i < n)%N -> (j < n)%N ->
    let p := nth (Pen (fun _ _ => 0) (fun _ _ => 0) 0 0) (g_pens g) k in
    \sum_(c < p_cols p) p_D p i c * p_D p j c = embedded g (orig k) i j.

(** The weighted sum of all penalties before the transformation. *)
Definition total_penalty (gs : seq group) (orig : nat -> nat -> nat -> nat -> R) : nat -> nat -> R := fun i j =>
  \sum_(g < size gs) let G := nth (Group 0 0 0 0 0 (fun _ _ => 0) (fun _ _ => 0) [::]) gs g in
    \sum_(k < size (g_pens G)) p_lam (nth (Pen (fun _ _ => 0) (fun _ _ => 0) 0 0) (g_pens G) k) * embedded G (orig g k) i j.

(** Linear predictor of row [t], and penalty of coefficients. *)
Definition predictor (k : nat) (X : nat -> nat -> R) (b : nat -> R) (t : nat) : R := \sum_(i < k) X t i * b i.
