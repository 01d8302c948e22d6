(** Model comparison, compare.py:17-583, and priors for log smoothing parameters, utils.py:3445-3627. *)

From Coq Require Import List Bool Arith NArith Reals.
From Verif Require Import Ext.
Import ListNotations.
Local Open Scope R_scope.

(** ** compare_CDL *)

(** How the uncertainty correction is computed: the options resolved in compare.py:318-379. *)
Record correction := Correction {
  form_t1 : bool; grid_type : nat; expected_edf_only : bool; with_Vcc : bool; importance_weights : bool; recompute_hess : bool }.

(** What is used of a fitted model: type and options of its family (Gaussian with identity link; Family with a scale
    parameter; ExtendedFamily with estimated theta), numbers of coefficients and of rows of the model matrix, get_llk(penalized=False), edf, the
    trace of F F^T that compare.py:462-478 computes, and what correct_VB returns for given options: the degrees of freedom, their t1
    version and the expected ones (with a fixed seed, a function of model and options). *)
Record fitted := Fitted {
  fam : nat; gauss_identity : bool; twopar : bool; extended : bool; est_theta : bool; n_theta : nat;
  n_coef : N; n_rows : nat; llk : R; edf : R; trFF : R; correct_VB : correction -> R * R * R }.

(** Arguments of compare_CDL; [None]: left at the default.  Grid JJJ1, JJJ2, JJJ3 as 1, 2, 3. *)
Record options := Options {
  correct_V : bool; o_correct_t1 : option bool; perform_GLRT : bool; n_c : nat; alpha : R; o_grid : option nat;
  o_only_expected : option bool; o_Vcc : option bool; o_weights : option bool; o_recompute : option bool }.

Definition default {A} (o : option A) (d : A) : A := match o with Some x => x | None => d end.

(** Resolution of the options from the first model, compare.py:318-379. *)
Definition resolve (o : options) (m1 : fitted) : correction :=
  let t1 := default (o_correct_t1 o) (perform_GLRT o) in
  let grid := default (o_grid o)
    (if gauss_identity m1 then
       if (2000 <? n_coef m1)%N && (5 <? n_c o)%nat && negb (perform_GLRT o) then 2%nat else 1%nat
     else if (n_c o <=? 5)%nat || (2000 <? n_coef m1)%N then 1%nat else 3%nat) in
  let oee := default (o_only_expected o) ((grid =? 2)%nat && (4000 <? n_coef m1)%N && negb (perform_GLRT o) && negb t1) in
  let vcc := default (o_Vcc o) (negb (2000 <? n_coef m1)%N) in
  let fixed := (grid =? 1)%nat || gauss_identity m1 in
  Correction t1 grid oee vcc (default (o_weights o) (negb fixed)) (default (o_recompute o) (negb fixed)).

(** Degrees of freedom and, with correct_t1, those for the AIC, compare.py:394-486. *)
Definition dofs (o : options) (c : correction) (m : fitted) : R * option R :=
  if correct_V o then
    let '(d, d2, e) := correct_VB m c in
    let d := if expected_edf_only c then e else d in
    if form_t1 c then (d2, Some d) else (d, None)
  else
    if form_t1 c then (2 * edf m - trFF m, Some (edf m)) else (edf m, None).

Definition plus_dof (k : R) (d : R * option R) : R * option R := (fst d + k, option_map (fun x => x + k) (snd d)).

(** Scale and theta parameters count, compare.py:489-507. *)
Definition with_parameters (m1 m2 : fitted) (d1 d2 : R * option R) : (R * option R) * (R * option R) :=
  let '(d1, d2) := if twopar m1 then (plus_dof 1 d1, plus_dof 1 d2) else (d1, d2) in
  if extended m1 && est_theta m1 then
    (plus_dof (INR (n_theta m1)) d1, if est_theta m2 then plus_dof (INR (n_theta m2)) d2 else d2)
  else (d1, d2).

(** Float division. *)
Definition fdiv (x y : R) : ext :=
  if Req_EM_T y 0 then (if Req_EM_T x 0 then NaN else if rltb 0 x then PInf else MInf) else Fin (x / y).

Section Compare.
(** 1 - scp.stats.f.cdf(x, d1, d2) and 1 - scp.stats.chi2.cdf(x, d). *)
Variable f_sf : ext -> R -> R -> ext.
Variable chi2_sf : R -> R -> ext.

(** The dictionary that is returned: H1, p, test_stat, DOF1, DOF2, the degrees of freedom for the
    AIC (DOF12, DOF22), Res. DOF, aic1, aic2, aic_diff.  A missing H1 is NaN. *)
Record result := Result {
  H1 : option bool; p_value : ext; test_stat : R; DOF1 : R; DOF2 : R; aic_DOF1 : option R; aic_DOF2 : option R;
  res_DOF : R; aic1 : R; aic2 : R; aic_diff : R }.

(** compare_CDL, compare.py:17-583; [None]: ValueError. *)
Definition compare_CDL (o : options) (m1 m2 : fitted) : option result :=
  let c := resolve o m1 in
  if negb (fam m1 =? fam m2)%nat then None
  else if perform_GLRT o && (n_coef m1 <? n_coef m2)%N then None
  else
    let '((d1, a1), (d2, a2)) := with_parameters m1 m2 (dofs o c m1) (dofs o c m2) in
    let stat := 2 * (llk m1 - llk m2) in
    let diff := d1 - d2 in
    let test_diff := Rabs diff in
    let ts := if rltb (llk m1) (llk m2) && rltb d1 d2 then -1 * stat else stat in
    let '(h, p) :=
      if negb (perform_GLRT o) || rltb ts 0 then (None, NaN)
      else
        let p := if twopar m1 then f_sf (fdiv ts test_diff) test_diff (INR (n_rows m1) - Rmax d1 d2)
                 else chi2_sf ts test_diff in
        (Some (eleb p (Fin (alpha o))), p) in
    let x1 := -2 * llk m1 + 2 * (if form_t1 c then default a1 0 else d1) in
    let x2 := -2 * llk m2 + 2 * (if form_t1 c then default a2 0 else d2) in
    Some (Result h p stat d1 d2 a1 a2 diff x1 x2 (x1 - x2)).
End Compare.

(** ** Priors *)

(** MVUniformRhoPrior, utils.py:3499-3555: log density of one candidate vector and make_valid for it.  np.min and np.max
    of a row, which must not be empty. *)
Definition row_min (l : list R) : R := match l with [] => 0 | x :: r => fold_left Rmin r x end.
Definition row_max (l : list R) : R := match l with [] => 0 | x :: r => fold_left Rmax r x end.
Definition mv_logpdf (a b : R) (rho : list (list R)) : list ext :=
  let lpdf := - ln (b - a) in
  map (fun row => if rltb (row_min row) a || rltb b (row_max row) then MInf else Fin (0 + INR (length row) * lpdf)) rho.
Definition mv_make_valid (a b : R) (rho : list (list R)) : list (list R) :=
  let c1 := map (map (fun x => if rltb x a then 9/10 * a else x)) rho in
  map (map (fun x => if rltb b x then 9/10 * b else x)) c1.

(** CenteredUniformRhoPriors.__init__, utils.py:3569-3591: limits and log densities (those of a non-positive width are
    NaN). *)
Definition centered (mrho : list R) (a b c : R) : list (R * R * ext) :=
  map (fun rho => let lo := Rmax (rho - c) a in let hi := Rmin (rho + c) b in
                  (lo, hi, if rltb 0 (hi - lo) then Fin (- ln (hi - lo)) else if Req_EM_T (hi - lo) 0 then PInf else NaN)) mrho.
(** Float addition. *)
Definition eplus (x y : ext) : ext :=
  match x, y with
  | NaN, _ | _, NaN | PInf, MInf | MInf, PInf => NaN
  | PInf, _ | _, PInf => PInf
  | MInf, _ | _, MInf => MInf
  | Fin a, Fin b => Fin (a + b)
  end.
(** logpdf and make_valid, utils.py:3593-3627, for one row after the other; each column has its own limits. *)
Fixpoint c_logpdf_row (prior : list (R * R * ext)) (row : list R) (ld : ext) : ext :=
  match prior, row with
  | (lo, hi, lp) :: prior, x :: row =>
      let ld := eplus ld lp in
      c_logpdf_row prior row (if rltb x lo || rltb hi x then MInf else ld)
  | _, _ => ld
  end.
Definition c_logpdf (prior : list (R * R * ext)) (rho : list (list R)) : list ext := map (fun row => c_logpdf_row prior row (Fin 0)) rho.
Fixpoint c_valid_row (prior : list (R * R * ext)) (row : list R) : list R :=
  match prior, row with
  | (lo, hi, _) :: prior, x :: row =>
      let y := if rltb x lo then 9/10 * lo else x in
      (if rltb hi x then 9/10 * hi else y) :: c_valid_row prior row
  | _, _ => row
  end.
Definition c_make_valid (prior : list (R * R * ext)) (rho : list (list R)) : list (list R) := map (c_valid_row prior) rho.
