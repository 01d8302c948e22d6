(** Smoothing parameter updates (gamm_solvers.py): the Fellner-Schall step, its extension and
    the step control of additive models.  Real numbers; rounding is not modelled. *)

From Coq Require Import List Arith Bool Reals.
From Verif Require Import Ext.
Import ListNotations.
Local Open Scope R_scope.

(** The literals 1e-7 and 1e7. *)
Definition lo : R := / 10000000.
Definition hi : R := 10000000.

(** step_fellner_schall_sparse, gamm_solvers.py:103-149 *)
Definition step_fellner_schall (lgdet_deriv ldet_deriv bSb cLam scale : R) : R :=
  let num := Rmax 0 (lgdet_deriv - ldet_deriv) in
  let denom := Rmax 0 bSb in
  let nLam :=
    if rleb denom 0 then hi
    else Rmin (Rmax (scale * (num / denom) * cLam) lo) hi in
  nLam - cLam.

(** grad_lambda, gamm_solvers.py:152-182 *)
Definition grad_lambda (lgdet_deriv ldet_deriv bSb scale : R) : R :=
  lgdet_deriv / 2 - ldet_deriv / 2 - bSb / (2 * scale).

Inductive method := ExpectedRatio | Nesterov | Nesterov2.

(** np.sign *)
Definition sign (x : R) : R := if rltb 0 x then 1 else if rltb x 0 then -1 else 0.

(** sys.float_info.epsilon = 2^-52 *)
Definition eps : R := / 2 ^ 52.

(** What the code keeps per penalty in parallel lists: penalties[i].lam, penalties[i].frozen,
    lam_delta[i], extend_by["prev_lam"][i], extend_by["acc"][i], was_extended[i].  The lists
    always have the same length, so they are modelled as one list of records. *)
Record pen := mkPen { lam : R; frozen : bool; delta : R; prev : R; acc : R; was : bool }.

(** initialize_extension, gamm_solvers.py:1861-1878, and was_extended at 2870. *)
Definition initialize_extension (l : R) (fr : bool) (d : R) : pen := mkPen l fr d l 0 false.

(** The proposed acceleration, extend_lambda_step lines 1917-1982. *)
Definition acceleration (m : method) (diff_lam dLam : R) (iter : nat) : R :=
  if Req_EM_T (sign dLam) (sign diff_lam) then
    match m with
    | ExpectedRatio =>
        let expo := if (50 <? iter)%nat
                    then Rmin (9 / 10) (375 / 1000 * Rpower (10025 / 10000) (INR iter - 50))
                    else 375 / 1000 in
        let target := 2 - 2 / Rpower (INR iter + 1) expo in
        let expected := target * Rabs diff_lam in
        let actual := Rabs dLam in
        if rltb actual expected then sign dLam * (actual + expected) / 2 - dLam else 0
    | Nesterov | Nesterov2 =>
        if rltb 1 dLam && rltb diff_lam 1 then 0
        else match m with
             | Nesterov2 => dLam * Rmin (99 / 100) (Rabs dLam / Rmax eps (2 * Rabs diff_lam))
             | _ => sign dLam * (dLam * dLam / Rmax eps (Rabs diff_lam))
             end
    end
  else 0.

(** extend_lambda_step, gamm_solvers.py:1881-1998: the returned step and the entries of
    prev_lam, acc and was_extended that are written. *)
Definition extend_lambda_step (m : method) (iter : nat) (dLam : R) (p : pen) : R * pen :=
  let diff_lam := lam p - prev p in
  let a := acceleration m diff_lam dLam iter in
  let extension := lam p + dLam + a in
  if rltb extension hi && rltb lo extension && rltb 0 (Rabs a)
  then (dLam + a, mkPen (lam p) (frozen p) (delta p) (lam p) a true)
  else (dLam, mkPen (lam p) (frozen p) (delta p) (lam p) 0 false).

(** undo_extension_lambda_step, gamm_solvers.py:2001-2034, with the assignments at 2441-2442. *)
Definition undo_extension (p : pen) : pen :=
  mkPen (lam p - acc p) (frozen p) (delta p - acc p) (prev p) 0 false.

(** lTerm.lam += lam_delta[lti][0], gamm_solvers.py:2985-2986 *)
Definition apply_step (p : pen) : pen :=
  mkPen (lam p + delta p) (frozen p) (delta p) (prev p) (acc p) (was p).

(** ** correct_lambda_step, gamm_solvers.py:2189-2525 *)
Section Control.
(** One refit at the current smoothing parameters (pass number, smoothing parameters): for each
    penalty (lgdetD, B, bSb), and the scale.  Lines 2204-2392. *)
Variable refit : nat -> list R -> list (R * R * R) * R.
(** family is Gaussian with identity link. *)
Variable gauss_id : bool.
Variable control_lambda : nat.
Variables extend_lambda exclude_lambda : bool.
Variable meth : method.
Variable o_iter : nat.
(** dev_check + coef.T @ S_emb @ coef, line 2194. *)
Variable pen_dev_check : R.

Definition dotl (a b : list R) : R :=
  fold_right Rplus 0 (map (fun p => fst p * snd p) (combine a b)).

(** np.linalg.norm *)
Definition norm (a : list R) : R := sqrt (fold_right Rplus 0 (map (fun x => x * x) a)).

(** Lines 2429-2453 for one penalty: undo an extension, or halve; None: left unchanged. *)
Definition reduce_step (p : pen) : option pen :=
  if extend_lambda && was p then Some (undo_extension p)
  else if gauss_id || (control_lambda =? 2)%nat then
    Some (mkPen (lam p - delta p / 2) (frozen p) (delta p / 2) (prev p) (acc p) (was p))
  else None.

Definition is_some {A} (o : option A) : bool := match o with Some _ => true | None => false end.
Definition or_self (p : pen) : pen := match reduce_step p with Some q => q | None => p end.

(** Lines 2486-2521 for one penalty: the next step. *)
Definition next_step (obs : R * R * R) (grad scale : R) (p : pen) : pen :=
  let '(lgdet, b, bsb) := obs in
  if (negb (rltb 100000 (lam p) && rltb (grad * grad / lam p) (/ 100000000)) || negb exclude_lambda)
     && negb (frozen p)
  then
    let d := step_fellner_schall lgdet b bsb (lam p) scale in
    if extend_lambda then
      let (d', q) := extend_lambda_step meth o_iter d p in
      mkPen (lam q) (frozen q) d' (prev q) (acc q) (was q)
    else mkPen (lam p) (frozen p) d (prev p) (acc p) (was p)
  else mkPen (lam p) (frozen p) 0 (prev p) (acc p) false.

(** One pass of the loop, lines 2201-2525: the new state, and whether it was the last pass. *)
Definition control_pass (k : nat) (ps : list pen) : list pen * bool :=
  let (obs, scale) := refit k (map lam ps) in
  let grads := map (fun o => let '(a, b, c) := o in grad_lambda a b c scale) obs in
  let check := dotl grads (map delta ps) in
  let lenient := negb gauss_id && (control_lambda <? 2)%nat in
  let crit := if lenient && (0 <? o_iter)%nat then lo * - Rabs pen_dev_check else 0 in
  let check := if lenient && rltb check crit
                  && (negb extend_lambda || negb (existsb was ps)) then crit + 1 else check in
  let reject := rltb check crit && (0 <? control_lambda)%nat in
  let changes := existsb (fun p => is_some (reduce_step p)) ps in
  let ps1 := if reject then map or_self ps else ps in
  let accepted := reject && (negb changes || rltb (norm (map delta ps1)) lo) in
  if negb (rltb check crit) || (control_lambda =? 0)%nat || accepted
  then (map (fun x => next_step (fst (fst x)) (snd (fst x)) scale (snd x))
          (combine (combine obs grads) ps1), true)
  else (ps1, false).

(** The while loop; None if [fuel] runs out.  Returned: the state, the smoothing parameters at
    which the returned model was fitted (the last refit), and lam_checks. *)
Fixpoint control_loop (fuel k : nat) (ps : list pen) : option (list pen * list R * nat) :=
  match fuel with
  | O => None
  | S f =>
      let (ps', last) := control_pass k ps in
      if last then Some (ps', map lam ps, S k) else control_loop f (S k) ps'
  end.

Definition correct_lambda_step (fuel : nat) (ps : list pen) := control_loop fuel 0 ps.
End Control.
