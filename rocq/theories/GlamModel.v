(** Smoothing parameters of models with several parameters and of general smooth models: correct_lambda_step_gamlss with the loop of
    solve_gammlss_sparse, and correct_lambda_step_gen_smooth with the loop of solve_generalSmooth_sparse; gamm_solvers.py.

    Real numbers stand for floats.  Left out: the restarts and the second set of traces of method "qEFS". *)

From Coq Require Import List Arith Bool Reals.
From Verif Require Import Ext LamModel.
Import ListNotations.
Local Open Scope R_scope.

Section Glam.
(** Everything that is estimated for given smoothing parameters: coefficients, predictors, factors, total penalty S_emb,
    degrees of freedom. *)
Variable F : Type.
(** Estimation with previous fit, number of the outer iteration and smoothing parameters, gamm_solvers.py:5731-5826, 8688-8800. *)
Variable refit : F -> nat -> list R -> F.
(** (lgdetD, ldetHS, bsb) per penalty, lines 5802-5826; the penalised log-likelihood; eps. *)
Variable obs : F -> list (R * R * R).
Variable pen_llk : F -> R.
Variable eps_of : F -> R.
(** General smooth model, or model with several parameters. *)
Variable general : bool.
Variable control_lambda : nat.
Variable extend_lambda : bool.
Variable meth : method.

(** The value of control_lambda that decides about halving: == 2 at line 5873, >= 2 at line 8842. *)
Definition halving_control : nat := if general && (2 <=? control_lambda)%nat then 2%nat else control_lambda.

(** Lines 5832-5836, 8804-8808: no check of the step. *)
Definition unchecked (outer : nat) : bool :=
  (outer =? 0)%nat || (control_lambda <? 1)%nat || (negb extend_lambda && (control_lambda <? 2)%nat).

(** The loop at lines 5728-5887 and 8685-8856.  Returned: the fit, the smoothing parameters it was computed with, the penalties.
    None: out of fuel. *)
Fixpoint lam_loop (fuel outer : nat) (last : F) (ps : list pen) : option (F * list R * list pen) :=
  match fuel with
  | O => None
  | S fuel =>
      let f := refit last outer (map lam ps) in
      if unchecked outer then Some (f, map lam ps, ps)
      else
        let grads := map (fun o => let '(a, b, c) := o in grad_lambda a b c 1) (obs f) in
        let check := dotl grads (map delta ps) in
        if rltb check (lo * - Rabs (pen_llk f)) then
          let changes := existsb (fun p => is_some (reduce_step false halving_control extend_lambda p)) ps in
          let ps' := map (or_self false halving_control extend_lambda) ps in
          if negb changes || rltb (norm (map delta ps')) lo then Some (f, map lam ps, ps')
          else lam_loop fuel outer last ps'
        else Some (f, map lam ps, ps)
  end.

(** Lines 5904-5916: the step before it is extended. *)
Definition plain_step (o : R * R * R) (p : pen) : R :=
  let '(lgdetD, ldetHS, bsb) := o in
  let dLam := if frozen p then 0 else step_fellner_schall lgdetD ldetHS bsb (lam p) 1 in
  if rltb (lgdetD - ldetHS) 0 then
    let dLam := sign dLam * Rmin (Rabs (lam p) * (1 / 1000)) (Rabs dLam) in
    if rltb (lam p + dLam) 0 then 0 else dLam
  else dLam.

(** Lines 5897-5941, 8906-8949 for one penalty; [damp]: the factor of lines 5935-5939, if any. *)
Definition next_pen (outer : nat) (damp : option R) (o : R * R * R) (p : pen) : pen :=
  let dLam := plain_step o p in
  let p' := if extend_lambda && negb (frozen p)
    then let (d, q) := extend_lambda_step meth outer dLam p in mkPen (lam q) (frozen q) d (prev q) (acc q) (was q)
    else mkPen (lam p) (frozen p) dLam (prev p) (acc p) (was p) in
  match damp with
  | None => p'
  | Some r => mkPen (lam p') (frozen p') (r * delta p') (prev p') (if was p' then acc p' * r else acc p') (was p')
  end.

(** Lines 5932-5935, with step_norm of line 5895. *)
Definition damping (outer : nat) (ps : list pen) (eps last_eps : R) : option R :=
  if ((100 <? outer)%nat && rltb (norm (map delta ps)) (5 / 1000)) || (rltb 0 (Rmax eps last_eps) && (50 <? outer)%nat)
  then Some (1 * (9 / 10) ^ (outer - 50)) else None.

(** correct_lambda_step_gamlss, gamm_solvers.py:5576-5979, and correct_lambda_step_gen_smooth, 8517-9029. *)
Definition correct_lambda_step_gamlss (fuel outer : nat) (last : F) (last_eps : R) (ps : list pen) : option (F * list R * list pen) :=
  match lam_loop fuel outer last ps with
  | None => None
  | Some (f, fitted, ps) =>
      let damp := damping outer ps (eps_of f) last_eps in
      Some (f, fitted, map (fun x => next_pen outer damp (fst x) (snd x)) (combine (obs f) ps))
  end.

(** The test for convergence, gamm_solvers.py:6334-6357 and 9510-9533, is left open: a function of the number of the iteration, the
    earlier fits with their penalties, and the current ones. *)
Variable converged : nat -> list (F * list pen) -> F -> list pen -> bool.

Record solved := Solved { r_fit : F; r_fitted : list R; r_pens : list pen; r_conv : bool }.

(** The loop over outer, gamm_solvers.py:6254-6376 and 9396-9577.  [remaining]: iterations left after this one. *)
Fixpoint outer_loop (remaining fuel outer : nat) (last : F) (last_eps : R) (hist : list (F * list pen)) (ps : list pen) : option solved :=
  match correct_lambda_step_gamlss fuel outer last last_eps ps with
  | None => None
  | Some (f, fitted, ps) =>
      if (0 <? outer)%nat && converged outer hist f ps then Some (Solved f fitted ps true)
      else
        let ps' := map apply_step ps in
        match remaining with
        | O => Some (Solved f fitted ps' false)
        | S r => outer_loop r fuel (S outer) f (eps_of f) ((f, ps) :: hist) ps'
        end
  end.

(** Lines 6102-6103 and 6254: the start, for max_outer = S [remaining]. *)
Definition solve_gammlss (remaining fuel : nat) (start : F) (lams : list (R * bool)) : option solved :=
  outer_loop remaining fuel 0 start 0 [] (map (fun x => initialize_extension (fst x) (snd x) 0) lams).
End Glam.
