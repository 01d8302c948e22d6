(** What is cut off when the integration in Davies' routine ends early. *)
From Coq Require Import List Reals.
From Coquelicot Require Import Coquelicot.
Local Open Scope R_scope.

(** Modulus of the characteristic function at t of a sum of l times chi-square variables with n degrees of freedom and
    noncentrality nc, plus a normal variable with variance [var]. *)
Definition modulus (vars : list (R * nat * R)) (var t : R) : R :=
  exp (- (var * t ^ 2 / 2)) *
  fold_right (fun v a => let '(l, n, nc) := v in
    let x := (2 * t * l) ^ 2 in exp (- (nc * x / (1 + x) / 2)) * Rpower (1 + x) (- (INR n / 4)) * a) 1 vars.

(** The part of the integral between u and T. *)
Definition tail (vars : list (R * nat * R)) (var u T : R) : R := RInt (fun t => modulus vars var t / (PI * t)) u T.
