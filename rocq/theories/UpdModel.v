(** Estimating the coefficients of a model with several parameters given smoothing parameters:
    update_coef_gammlss and the functions it calls, gamm_solvers.py.

    Real numbers stand for floats, [ext] for results that may be infinite or undefined.  Model matrices are lists of
    columns, a column gives its value by row.  Left out: the extra inflation of the factor of the Hessian after the
    loop (gamm_solvers.py:5496-5550), which changes neither coefficients nor anything computed from them. *)

From Coq Require Import List Bool Arith ZArith Reals.
From Verif Require Import Ext StepModel AsmModel.
Import ListNotations.
Local Open Scope R_scope.

Notation column := (nat -> R).

(** What the fitting loop works on: matrices, split positions, total penalty.  They are replaced when coefficients are
    dropped, gamm_solvers.py:5345, 5454. *)
Record design := Design { d_Xs : list (list column); d_idx : list nat; d_S : nat -> nat -> R }.

(** X @ b for [n] rows, gamm_solvers.py:4664, 5091, 5183. *)
Fixpoint row_times (X : list column) (b : list R) (r : nat) : R :=
  match X, b with
  | x :: X, c :: b => x r * c + row_times X b r
  | _, _ => 0
  end.
Definition mat_times (n : nat) (X : list column) (b : list R) : list R := map (row_times X b) (seq 0 n).

(** coef.T @ S_emb @ coef, gamm_solvers.py:5111, 5207, 5386. *)
Fixpoint sum_over (ks : list nat) (f : nat -> R) : R :=
  match ks with [] => 0 | k :: ks => f k + sum_over ks f end.
Definition quad (S : nat -> nat -> R) (c : list R) : R :=
  sum_over (seq 0 (length c)) (fun a => nth a c 0 * sum_over (seq 0 (length c)) (fun b => S a b * nth b c 0)).

Section Update.
(** family.links[i].fi and family.llk *)
Variable fi : nat -> R -> ext.
Variable llk : list R -> list (list ext) -> ext.
(** family.n_par and the response *)
Variable n_par : nat.
Variable y : list R.

Definition Xmul (d : design) (i : nat) (b : list R) : list R := mat_times (length y) (nth i (d_Xs d) []) b.

(** Predictors, means, log-likelihood and penalised log-likelihood of coefficients, gamm_solvers.py:5090-5111 and
    5182-5207; the same lines as in step control. *)
Definition eval (d : design) (c : list R) : lfit :=
  gammlss_eval (Xmul d) fi llk (quad (d_S d)) n_par (d_idx d) y c.

(** Matrices, split positions and penalty of the coefficients that are kept, gamm_solvers.py:5002-5007 and 5082-5087.
    drop_terms_X fails only for a matrix that was not built, which does not occur here. *)
Definition reduce (d : design) (keep : list nat) : design :=
  match drop_terms_X (fun _ => 0) (map Some (d_Xs d)) keep with
  | Some (rXs, idx) => Design rXs idx (fun a b => d_S d (nth a keep 0%nat) (nth b keep 0%nat))
  | None => d
  end.

(** handle_drop_gammlss, gamm_solvers.py:5039-5113. *)
Definition handle_drop_gammlss (d : design) (coef : list R) (keep : list nat) : design * lfit :=
  let d' := reduce d keep in (d', eval d' (take 0 coef keep)).

(** check_drop_valid_gammlss, gamm_solvers.py:4967-5036.  Which rows are left out is decided with the split positions of
    the full model (line 5022). *)
Definition drop_valid (d : design) (coef : list R) (keep : list nat) : bool :=
  let d' := reduce d keep in
  let c := take 0 coef keep in
  let sc := StepModel.np_split c (d_idx d') in
  let etas := map (fun i => Xmul d' i (nth i sc [])) (seq 0 n_par) in
  let mus := map (fun i => map (fi i) (nth i etas [])) (seq 0 n_par) in
  let inval := inval_rows (d_idx d) mus in
  let l := llk (keep_valid inval y) (map (keep_valid inval) mus) in
  let pen := eadd l (- (1 / 2 * quad (d_S d') c)) in
  negb (isinf pen || isnan pen).

(** [draw n seed]: scp.stats.norm.rvs(size=n, random_state=seed), gamm_solvers.py:5173-5175. *)
Variable draw : nat -> nat -> list R.

(** restart_coef_gammlss, gamm_solvers.py:5116-5221; [outer] is the argument of that name, which is given the number of
    the inner iteration (line 5413), [restart_counter] is 0 (line 5414). *)
Definition res_scale (outer restart_counter : nat) : R := if (outer <=? 10)%nat then 1 / 2 else 1 / (INR restart_counter + 2).
Definition res_coef (outer res_checks : nat) (coef : list R) : list R :=
  map (fun p => (1 - res_scale outer 0) * fst p + res_scale outer 0 * snd p) (combine coef (draw (length coef) (outer + res_checks))).
Fixpoint restart_loop (remaining res_checks outer : nat) (d : design) (st : lfit) : lfit :=
  match remaining with
  | O => st
  | S r =>
      let st' := eval d (res_coef outer res_checks (l_coef st)) in
      if isinf (l_pen st') || isnan (l_pen st') then restart_loop r (res_checks + 1) outer d st else st'
  end.
Definition restart_coef_gammlss (outer : nat) (d : design) (st : lfit) : lfit := restart_loop 30 0 outer d st.

(** np.abs(c_pen_llk - prev_llk_cur_pen) < conv_tol * np.abs(c_pen_llk), gamm_solvers.py:5398, 5418: left open, any
    comparison of the two values. *)
Variable close : ext -> ext -> bool.
(** The step proposed for the coefficients and the multiple of the identity added to the Hessian: gd_coef_smooth and
    newton_coef_smooth, gamm_solvers.py:5358-5383, left open.  It depends on the means through the derivatives of the
    log-likelihood. *)
Variable propose : design -> list R -> list (list ext) -> R -> list R * R.
(** Coefficients to drop found by identify_drop from the Hessian, gamm_solvers.py:5427, left open; the Hessian is a
    function of matrices and means. *)
Variable identify : list (list column) -> list (list ext) -> list nat.

(** method == "Grad"; method in ["QR/Chol", "LU/Chol", "Direct/Chol"]; the arguments outer, min_inner, max_inner. *)
Variable grad_only : bool.
Variable identifies : bool.
Variable outer : nat.
Variable min_inner max_inner : nat.

(** Matrices and means from which gradient and Hessian were computed, gamm_solvers.py:5358-5377. *)
Notation hess_at := (list (list column) * list (list ext))%type.
(** keep and drop *)
Notation keep_drop := (list nat * list nat)%type.

(** Line 5475 *)
Definition stop_early (eps : R) (inner : Z) : bool :=
  negb (rltb 0 eps) && (0 <? outer)%nat && (Z.of_nat min_inner - 1 <=? inner)%Z.

(** Lines 5380-5416: one step, with the restarts of gradient descent. *)
Definition one_step (inner : nat) (d : design) (st : lfit) (a : R) (next : list R) : lfit * R :=
  let prev := eadd (l_llk st) (- (1 / 2 * quad (d_S d) (l_coef st))) in
  let (st1, a1) := correct_coef_step_gammlss (Xmul d) fi llk (quad (d_S d)) n_par (d_idx d) y (l_coef st) next (l_llk st) a in
  if grad_only && (outer =? 0)%nat && (inner <=? 20)%nat && close (l_pen st1) prev
  then (restart_coef_gammlss inner d st1, 1 / 10) else (st1, a1).

(** The loop, gamm_solvers.py:5349-5478.  [may_drop]: keep_drop is None and checked_identifiable is False.  [H]: matrices
    and means behind the last Hessian, None if there was no iteration.  None: out of fuel. *)
Fixpoint inner_loop (fuel inner : nat) (may_drop : bool) (d : design) (kd : option keep_drop) (st : lfit) (a : R) (H : option hess_at)
    : option (option keep_drop * lfit * option hess_at) :=
  match fuel with
  | O => None
  | S fuel =>
      if (max_inner <=? inner)%nat then Some (kd, st, H)
      else
        let (next, eps) := propose d (l_coef st) (l_mus st) a in
        let H' := Some (d_Xs d, l_mus st) in
        let prev := eadd (l_llk st) (- (1 / 2 * quad (d_S d) (l_coef st))) in
        let (st', a') := one_step inner d st a next in
        if close (l_pen st') prev then
          if may_drop && identifies then
            let drop := identify (d_Xs d) (l_mus st) in
            let keep := keep_of (length (l_coef st')) drop in
            if (length drop =? 0)%nat then Some (None, st', H')
            else if negb (drop_valid d (l_coef st') keep) then Some (None, st', H')
            else if (length (l_coef st') <=? S (length drop))%nat then Some (None, st', H')
            else
              let (d', st'') := handle_drop_gammlss d (l_coef st') keep in
              if stop_early eps (-1) then Some (Some (keep, drop), st'', H')
              else inner_loop fuel 0 false d' (Some (keep, drop)) st'' a' H'
          else Some (kd, st', H')
        else if stop_early eps (Z.of_nat inner) then Some (kd, st', H')
        else inner_loop fuel (S inner) may_drop d kd st' a' H'
  end.

(** What update_coef_gammlss returns, gamm_solvers.py:5573. *)
Record updated := Updated { u_coef : list R; u_split : list (list R); u_mus : list (list ext); u_etas : list (list R);
  u_llk : ext; u_pen : ext; u_kd : option keep_drop; u_H : hess_at }.
(** OutOfFuel does not correspond to anything in the code; without an iteration variables are unbound at line 5573
    or earlier; IndexError: entries of the factor of the Hessian at positions that keep does not have (lines 5484-5486),
    for a factor with all its diagonal elements; AttributeError: there is no factor for gradient descent (line 5484). *)
Inductive result := OutOfFuel | UnboundLocalError | IndexError | AttributeError | Done (u : updated).

(** update_coef_gammlss, gamm_solvers.py:5224-5573.  [full]: the design, [mus] and [c_llk]: arguments. *)
Definition update_coef_gammlss (fuel : nat) (full : design) (coef : list R) (mus : list (list ext)) (c_llk : ext)
    (kd : option keep_drop) : result :=
  let st0 := mkLfit coef [] mus [] c_llk NaN in
  let out := match kd with
    | None => inner_loop fuel 0 true full None st0 (1 / 10) None
    | Some (keep, drop) =>
        let (d', st') := handle_drop_gammlss full coef keep in
        inner_loop fuel 0 false d' kd st' (1 / 10) None
    end in
  match out with
  | None => OutOfFuel
  | Some (_, _, None) => UnboundLocalError
  | Some (None, st, Some H) =>
      Done (Updated (l_coef st) (l_split st) (l_mus st) (l_etas st) (l_llk st) (l_pen st) None H)
  | Some (Some (keep, drop), st, Some H) =>
      if grad_only then AttributeError
      else if (length keep <? length (concat (fst H)))%nat then IndexError
      else
        let full_coef := pad 0 (length coef) keep (l_coef st) in
        Done (Updated full_coef (StepModel.np_split full_coef (d_idx full)) (l_mus st) (l_etas st) (l_llk st) (l_pen st) (Some (keep, drop)) H)
  end.
End Update.
