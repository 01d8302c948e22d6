(** What the integration in Davies' routine stands for. *)
From Coq Require Import List Arith Reals.
From Coquelicot Require Import Coquelicot.
Import ListNotations.
Local Open Scope R_scope.

(** Exponential of a complex number. *)
Definition cexp (z : C) : C := (exp (fst z) * cos (snd z), exp (fst z) * sin (snd z)).
Fixpoint cpow (z : C) (n : nat) : C := match n with O => RtoC 1 | S k => Cmult z (cpow z k) end.

(** The square of the characteristic function of l times a chi-square variable with n degrees of freedom and
    noncentrality nc:  (1 - 2 i l u)^(-n) exp(2 i l nc u / (1 - 2 i l u)). *)
Definition chisq_cf2 (v : R * nat * R) (u : R) : C :=
  let '(l, n, nc) := v in
  let d := Cminus (RtoC 1) (Cmult Ci (RtoC (2 * l * u))) in
  Cmult (cpow (Cinv d) n) (cexp (Cdiv (Cmult Ci (RtoC (2 * l * nc * u))) d)).

(** That of Q = sum + sigma Z, shifted by c: E[exp(i u (Q - c))]^2. *)
Definition cf2 (vars : list (R * nat * R)) (sigsq c u : R) : C :=
  Cmult (cexp (- (sigsq * (u * u)), - (2 * u * c))) (fold_right (fun v a => Cmult (chisq_cf2 v u) a) (RtoC 1) vars).

(** [E] is the characteristic function itself: the continuous root that is 1 at 0. *)
Definition is_root (E : R -> C) (sq : R -> C) : Prop :=
  (forall u, Cmult (E u) (E u) = sq u) /\ E 0 = RtoC 1 /\
  (forall u, continuous (fun t => fst (E t)) u) /\ (forall u, continuous (fun t => snd (E t)) u).

(** Sum over 0, ..., n. *)
Fixpoint sum_to (n : nat) (g : nat -> R) : R := match n with O => g O | S k => sum_to k g + g (S k) end.

(** Values below exp(-50) count as zero. *)
Definition cut (x : R) : R := if Rlt_dec x (exp (- 50)) then 0 else x.
Definition ccut (z : C) : C := if Rlt_dec (Cmod z) (exp (- 50)) then RtoC 0 else z.
