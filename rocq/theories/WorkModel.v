(** Working data, scale and Hessian of additive models (gamm_solvers.py: PIRLS_pdat_weights, update_PIRLS,
    update_scale_edf, the end of solve_gamm_sparse; exp_fam.py: est_scale; models.py: GAMM.fit).
    Vectors are lists of reals, one entry per row of the data; rounding is not modelled.  Autocorrelated
    residuals (rho) are left out. *)

From Coq Require Import List Arith Bool Reals.
From Verif Require Import FamModel.
Import ListNotations.
Local Open Scope R_scope.

Definition dot (a b : list R) : R := fold_right Rplus 0 (map (fun p => fst p * snd p) (combine a b)).
Definition vsub (a b : list R) : list R := map (fun p => fst p - snd p) (combine a b).
Definition vadd (a b : list R) : list R := map (fun p => fst p + snd p) (combine a b).

(** M[inval == False] for the entries that are not None. *)
Definition somes {A} (l : list (option A)) : list A :=
  flat_map (fun o => match o with Some v => [v] | None => [] end) l.

(** est_scale, exp_fam.py:450-470 *)
Definition est_scale (res : list R) (rows : nat) (total_edf : R) : R :=
  dot res res / (INR rows - total_edf).

Section Work.
(** family.link.dy1 and family.V at a mean. *)
Variables dy1 V : R -> R.
(** Whether w or z is nan or infinite for an observation and its mean, gamm_solvers.py:464. *)
Variable bad : R -> R -> bool.

(** PIRLS_pdat_weights, gamm_solvers.py:459-473, for an exponential family: (z, w), or None for an
    excluded row. *)
Definition pdat_row (r : R * (R * R)) : option (R * R) :=
  let '(y, (mu, eta)) := r in
  if bad y mu then None else Some (fisher_row (dy1 mu) (V mu) y mu eta).
Definition pdat (y mu eta : list R) : list (option (R * R)) :=
  map pdat_row (combine y (combine mu eta)).

(** update_PIRLS, gamm_solvers.py:585-616 (not Gaussian with identity link): z and the diagonal of Wr.  (yb and
    Xb are their products with z and X, see QrModel.) *)
Definition update_PIRLS (y mu eta : list R) : list (option R) * list R :=
  let rows := pdat y mu eta in
  (map (option_map fst) rows, map (fun x => sqrt (snd x)) (somes rows)).

(** Lines 1165-1183: Wr @ (z - eta) over the rows that are not excluded. *)
Definition working_resid (z : list (option R)) (Wr eta : list R) : list R :=
  let diffs := somes (map (fun p => option_map (fun v => v - snd p) (fst p)) (combine z eta)) in
  map (fun p => fst p * snd p) (combine Wr diffs).

(** update_scale_edf, gamm_solvers.py:1160-1228.  [gauss_id]: Gaussian with identity link.  [pen_edf]: what calculate_edf
    returns if there are penalties.  [known]: family.scale.  Returned: wres, total_edf, scale. *)
Definition update_scale_edf (gauss_id : bool) (y : list R) (z : list (option R)) (Wr eta : list R)
    (colsX : nat) (drop : list nat) (pen_edf : option R) (known : option R) : list R * R * R :=
  let dropped := if gauss_id then O else length (filter (fun o => match o with None => true | _ => false end) z) in
  let wres := if gauss_id then vsub y eta else working_resid z Wr eta in
  let total_edf := match pen_edf with Some e => e | None => INR colsX end in
  let scale := match known with
               | None => est_scale wres (length y - dropped) total_edf
               | Some s => s
               end in
  (wres, total_edf, scale).

(** The estimate at given coefficients: update_PIRLS with eta - offset (gamm_solvers.py:1655, 2845, 2941), then
    update_scale_edf with eta = X coef + offset (:1341, :1465, :1510), where mean and predictor have settled (the
    coefficients the working data lead to are those they are taken at). *)
Definition settled_scale (y mu lin offset : list R) (colsX : nat) (drop : list nat)
    (pen_edf known : option R) : list R * R * R :=
  let eta := vadd lin offset in
  let (z, Wr) := update_PIRLS y mu (vsub eta offset) in
  update_scale_edf false y z Wr eta colsX drop pen_edf known.

(** The end of solve_gamm_sparse, gamm_solvers.py:3139-3156: if rows are excluded the diagonal of Wr is put at the
    other rows and its root is taken. *)
Fixpoint at_rows (z : list (option R)) (v : list R) : list R :=
  match z, v with
  | None :: z', _ => 0 :: at_rows z' v
  | Some _ :: z', x :: v' => x :: at_rows z' v'
  | _, _ => []
  end.
Definition final_Wr (z : list (option R)) (Wr : list R) : list R :=
  if existsb (fun o => match o with None => true | _ => false end) z
  then map sqrt (at_rows z Wr)
  else Wr.

(** self.hessian, models.py:3297-3299, entry (i, j): -X^T Wr Wr X / scale. *)
Definition hessian (X : list (list R)) (Wr : list R) (scale : R) (i j : nat) : R :=
  - 1 * (dot (map (fun p => nth i (fst p) 0 * (snd p * snd p)) (combine X Wr)) (map (fun r => nth j r 0) X) / scale).

(** self.hessian for fitted means, models.py:3246-3299. *)
Definition fit_hessian (X : list (list R)) (y mu eta : list R) (scale : R) : nat -> nat -> R :=
  let (z, Wr) := update_PIRLS y mu eta in hessian X (final_Wr z Wr) scale.
End Work.

(** GAMM.fit for Gaussian models with identity link, models.py:3132-3175, 3246-3270, 3318-3322 and 3347-3370:
    coefficients, linear predictor and working residuals.  [solve] returns the coefficients for a response
    (solve_gamm_sparse or, if data are read from files, solve_gamm_sparse2), [lin] is X @ coef. *)
Definition fit_gaussian (solve : list R -> list R) (lin : list R -> list R) (files : bool)
    (offset : option (list R)) (y : list R) : list R * list R * list R :=
  if files then
    let coef := solve y in (coef, lin coef, vsub y (lin coef))
  else
    let y' := match offset with Some o => vsub y o | None => y end in
    let coef := solve y' in
    let eta := lin coef in
    let wres := vsub y' eta in
    (coef, match offset with Some o => vadd eta o | None => eta end, wres).
