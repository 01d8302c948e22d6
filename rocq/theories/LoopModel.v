(** The fitting loop of additive models (gamm_solvers.py: init_step_gam, correct_lambda_step and solve_gamm_sparse),
    with StepModel's coefficient steps and LamModel's smoothing parameter steps.

    What the loop computes from data is a parameter: working data, the coefficient update (QrModel) and the quantities for
    smoothing parameter steps.  Rounding, autocorrelated residuals, parameters of the family, condition numbers and progress
    bars are left out. *)

From Coq Require Import List Arith Bool Reals.
From Verif Require Import Ext StepModel LamModel.
Import ListNotations.
Local Open Scope R_scope.

Section Loop.
(** yb, Xb, z and Wr. *)
Variable W : Type.
(** X @ coef + offset, line 1341. *)
Variable lin : list R -> list R.
(** family.link.fi *)
Variable fi : R -> ext.
(** isinstance(family, Gaussian) and isinstance(family.link, Identity). *)
Variable gauss_id : bool.
Variable deviance : list R -> list ext -> ext.
(** coef.T @ S_emb @ coef for smoothing parameters and coefficients. *)
Variable quad_S : list R -> list R -> R.
(** len(penalties) *)
Variable n_pen : nat.
Variable y : list R.
(** update_PIRLS for mu and eta, lines 585-616. *)
Variable pirls : list ext -> list R -> W.
(** update_coef, lines 1231-1375: the coefficients for working data and smoothing parameters. *)
Variable solve : W -> list R -> list R.
(** Lines 2297-2336 and update_coef_and_scale: (lgdetD, B, bsb) per penalty and the scale, from the working data behind
    the factor LP, current working data, smoothing parameters, coefficients and linear predictor. *)
Variable measure : W -> W -> list R -> list R -> list R -> list (R * R * R) * R.
(** Arguments of GAMM.fit. *)
Variables max_outer max_inner control_lambda : nat.
Variable conv_tol : R.
Variables extend_lambda exclude_lambda : bool.
Variable meth : method.

(** Model at coefficients [c], with the penalty for [lams]. *)
Definition at_coef (lams c : list R) : gfit := gamm_eval lin fi gauss_id deviance (quad_S lams) n_pen y c.
Definition step_to (lams coef : list R) (cand : gfit) (c_dev_prev : ext) : option gfit :=
  correct_coef_step lin fi gauss_id deviance (quad_S lams) n_pen y 34
    coef (f_coef cand) (f_dev cand) (f_pen cand) c_dev_prev (f_eta cand) (f_mu cand).

(** abs(a - b) < tol * a, lines 2276-2277 and 2957-2966; false if a deviance is infinite or undefined. *)
Definition close (tol : R) (a b : ext) : bool :=
  match a, b with Fin a, Fin b => rltb (Rabs (a - b)) (tol * a) | _, _ => false end.

(** isinstance(...) and max_inner > 1, lines 2210-2213 and 2460-2463. *)
Definition use_inner : bool := (1 <? max_inner)%nat && negb gauss_id.

(** The loop at lines 2231-2292.  [rem]: iterations left, [i]: i_iter, [coef]: n_coef, [cand]: n_coef2 with dev, pen_dev, mu
    and eta.  Returned: n_coef with the current mu and eta; working data; working data behind the last factor. *)
Fixpoint inner (rem i : nat) (lams coef : list R) (cand : gfit) (c_dev_prev : ext) (w wl : W)
  : option (gfit * W * W) :=
  match rem with
  | O => Some (mkFit (f_dev cand) (f_pen cand) (f_mu cand) (f_eta cand) coef, w, wl)
  | S rem' =>
      match step_to lams coef cand c_dev_prev with
      | None => None
      | Some st =>
          let w' := pirls (f_mu st) (f_eta st) in
          if (0 <? i)%nat && (close (/ 1000000000) (f_pen st) c_dev_prev || (i =? max_inner - 2)%nat)
          then Some (st, w', wl)
          else inner rem' (S i) lams (f_coef st) (at_coef lams (solve w' lams)) (f_pen st) w' w'
      end
  end.

(** The refit of one pass, lines 2204-2392. *)
Definition refit_pass (lams coef : list R) (dev_check : ext) (w : W) : option (gfit * W * W) :=
  let first := at_coef lams (solve w lams) in
  if use_inner
  then inner (max_inner - 1) 0 lams coef first (eadd dev_check (quad_S lams coef)) w w
  else Some (first, w, w).

(** Whether the step is rejected, lines 2396-2426. *)
Definition rejected (o_iter : nat) (pdc : R) (os : list (R * R * R) * R) (ps : list pen) : bool :=
  let grads := map (fun o => let '(a, b, c) := o in grad_lambda a b c (snd os)) (fst os) in
  let check := dotl grads (map delta ps) in
  let lenient := negb gauss_id && (control_lambda <? 2)%nat in
  let crit := if lenient && (0 <? o_iter)%nat then lo * - Rabs pdc else 0 in
  let check := if lenient && rltb check crit
                  && (negb extend_lambda || negb (existsb was ps)) then crit + 1 else check in
  rltb check crit && (0 <? control_lambda)%nat.

(** What correct_lambda_step returns: (dev, pen_dev, mu, eta, n_coef), working data, penalties with lam_delta, the smoothing
    parameters of S_emb, the scale; and whether the last proposal was rejected (which the code does not return). *)
Record cres := mkC { c_fit : gfit; c_w : W; c_ps : list pen; c_lams : list R; c_scale : R; c_rejected : bool }.

(** correct_lambda_step, lines 2189-2549; None if [fuel] runs out.  A deviance that is not finite counts as zero in
    pen_dev_check ([pdc]). *)
Fixpoint control (fuel k o_iter : nat) (pdc : R) (coef : list R) (dev_check : ext) (w : W) (ps : list pen)
  : option cres :=
  match fuel with
  | O => None
  | S fuel' =>
      let lams := map lam ps in
      match refit_pass lams coef dev_check w with
      | None => None
      | Some (st, w1, wl) =>
          let os := measure wl w1 lams (f_coef st) (f_eta st) in
          let rej := rejected o_iter pdc os ps in
          let (ps', last) := control_pass (fun _ _ => os) gauss_id control_lambda extend_lambda exclude_lambda
                               meth o_iter pdc k ps in
          let old := at_coef lams coef in
          let st' := if rej && use_inner
                     then mkFit (f_dev st) (f_pen st) (f_mu old) (f_eta old) (f_coef st) else st in
          let w2 := if rej && use_inner then pirls (f_mu old) (f_eta old) else w1 in
          if last then Some (mkC st' w2 ps' lams (snd os) rej)
          else control fuel' (S k) o_iter pdc coef dev_check w2 ps'
      end
  end.

(** What solve_gamm_sparse returns: coef, eta, mu, scale, the smoothing parameters of S_emb, the penalties, whether convergence was
    reached (fit_info.code), and whether the last smoothing parameter proposal was rejected. *)
Record res := mkRes { r_coef : list R; r_eta : list R; r_mu : list ext; r_scale : R; r_lams : list R;
                      r_pens : list pen; r_conv : bool; r_rejected : bool }.

(** Local variables of solve_gamm_sparse; [v_fit] holds mu, eta and n_coef. *)
Record vars := mkVars { v_coef : list R; v_fit : gfit; v_w : W; v_ps : list pen; v_lams : list R;
                        v_scale : R; v_dev : ext; v_pen : ext; v_rej : bool }.
Definition result (v : vars) (conv : bool) : res :=
  mkRes (v_coef v) (f_eta (v_fit v)) (f_mu (v_fit v)) (v_scale v) (v_lams v) (v_ps v) conv (v_rej v).

Definition finite (e : ext) : R := match e with Fin r => r | _ => 0 end.

(** Lines 2881-2945: dev and pen_dev for n_coef, then the step control (or coef = n_coef). *)
Definition settle (v : vars) : option vars :=
  let cur := v_fit v in
  let inval := map isnan (f_mu cur) in
  let dev := deviance (keep_valid inval y) (keep_valid inval (f_mu cur)) in
  let pen := match n_pen with O => dev | _ => eadd dev (quad_S (v_lams v) (f_coef cur)) end in
  let c_dev_prev := match n_pen with O => v_dev v | _ => eadd (v_dev v) (quad_S (v_lams v) (v_coef v)) end in
  if (max_inner <=? 1)%nat || gauss_id then
    match step_to (v_lams v) (v_coef v) (mkFit dev pen (f_mu cur) (f_eta cur) (f_coef cur)) c_dev_prev with
    | None => None
    | Some st =>
        Some (mkVars (f_coef st) st (if gauss_id then v_w v else pirls (f_mu st) (f_eta st)) (v_ps v) (v_lams v)
                (v_scale v) (f_dev st) (f_pen st) (v_rej v))
    end
  else Some (mkVars (f_coef cur) cur (v_w v) (v_ps v) (v_lams v) (v_scale v) dev pen (v_rej v)).

(** Lines 2977-3085: new smoothing parameters and coefficients. *)
Definition advance (fuel o_iter : nat) (v : vars) : option vars :=
  if (n_pen =? 0)%nat then
    let st := at_coef (v_lams v) (solve (v_w v) (v_lams v)) in
    Some (mkVars (v_coef v) st (v_w v) (v_ps v) (v_lams v)
            (snd (measure (v_w v) (v_w v) (v_lams v) (f_coef st) (f_eta st))) (v_dev v) (v_pen v) false)
  else
    let ps := map apply_step (v_ps v) in
    let pdc := finite (v_dev v) + quad_S (v_lams v) (v_coef v) in
    match control fuel 0 o_iter pdc (v_coef v) (v_dev v) (v_w v) ps with
    | None => None
    | Some c => Some (mkVars (v_coef v) (c_fit c) (c_w c) (c_ps c) (c_lams c) (c_scale c)
                        (v_dev v) (v_pen v) (c_rejected c))
    end.

(** The loop at lines 2879-3122. *)
Fixpoint outer (fuel rem o_iter : nat) (v : vars) : option res :=
  match rem with
  | O => Some (result v false)
  | S rem' =>
      match (if (o_iter =? 0)%nat then Some v else settle v) with
      | None => None
      | Some v1 =>
          if negb (o_iter =? 0)%nat && close conv_tol (v_pen v1) (v_pen v)
          then Some (result v1 true)
          else match advance fuel o_iter v1 with
               | None => None
               | Some v2 => outer fuel rem' (S o_iter) v2
               end
      end
  end.

(** solve_gamm_sparse, lines 2777-3230, with init_step_gam (lines 1546-1735): [w0] is the working data for the initial
    mean, [ps] the penalties with the first lam_delta.  [fuel] bounds the passes of correct_lambda_step. *)
Definition solve_gamm (fuel : nat) (w0 : W) (ps : list pen) : option res :=
  let lams := map lam ps in
  let st := at_coef lams (solve w0 lams) in
  let w := if gauss_id then w0 else pirls (f_mu st) (f_eta st) in
  outer fuel max_outer 0
    (mkVars (f_coef st) st w ps lams (snd (measure w0 w0 lams (f_coef st) (f_eta st))) (f_dev st) (f_pen st) false).
End Loop.
