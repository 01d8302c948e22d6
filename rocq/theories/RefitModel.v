(** Fitting a GAMM repeatedly and asking for log-likelihood, residuals and model matrix: models.py:2499-3379,
    utils.py:1024-1093. *)

From Coq Require Import List Bool Reals.
Import ListNotations.
Local Open Scope R_scope.

Section Model.
(** Column vectors, sparse matrices, penalty lists with their smoothing parameters, theta parameters of an extended
    family. *)
Variables V M Pens Theta : Type.
(** Data and family of the model: y, model matrix, Gaussian with identity link, family with scale parameter. *)
Variables (y : V) (X : M) (gauss twopar : bool).
(** X @ coef, u - v, v + offset, [v] minus offset. *)
Variables (mv : M -> V -> V) (vminus : V -> V -> V) (vplus : V -> V -> V) (vzero : V).
(** link.fi; family.llk(y, mu, scale), which reads theta from the family; np.sign(y - mu) * np.sqrt(family.D(y, mu)). *)
Variables (link_fi : V -> V) (fam_llk : Theta -> V -> V -> option R -> R) (dev_resid : Theta -> V -> V -> V).
(** Log-determinant term of computeAr1Chol(formula, rho). *)
Variable ar_cor : R -> R.
(** -1 * (X.T @ W @ X) / scale with the weights Wr (none for Gaussian models) and rho, and the observed one with WN. *)
Variables (expected : option M -> option R -> M -> R -> M) (observed : M -> M -> R -> M).
(** The values compute_bias_corrected_edf derives from hessian, lvi, scale and penalties. *)
Variable bias_edf : M -> M -> R -> Pens -> R.
(** build_penalties(formula) with combine_shared_penalties; setting dropped columns of a matrix to zero. *)
Variables (fresh_pens : Pens) (zero_columns : M -> list nat -> M).

(** Arguments of fit that matter here; transformations are functions on matrices. *)
Record call := Call { c_restart : bool; c_rho : option R; c_transform : option (M -> M); c_offset : option V }.

(** What solve_gamm_sparse returns; [s_wres2] is the second component of the residuals of non-Gaussian models with rho.
    Penalties and theta are changed in place. *)
Record solution := Solution {
  s_coef : V; s_eta : V; s_wres : V; s_wres2 : V; s_Wr : M; s_WN : M; s_scale : R; s_lvi : M; s_edf : R; s_penalty : R;
  s_dropped : option (list nat); s_pens : Pens; s_theta : Theta }.
(** solve_gamm_sparse with penalties, theta, y, X, offset, rho; an exception leaves penalties and theta in some state. *)
Variable solve : Pens -> Theta -> V -> M -> option V -> option R -> solution + (Pens * Theta).

(** The attributes of a GAMM. *)
Record state := State {
  theta : Theta; pens : option Pens; rho : option R; transform : option (M -> M); res_ar : option V;
  Wr : option M; hessian : option M; hessian_obs : option M; coef : option V; scale : R; preds : option V; res : option V;
  edf : option R; penalty : R; lvi : option M; edf1 : option R }.

(** __init__, models.py:235-258, 2607-2619. *)
Definition new_model (th : Theta) : state :=
  State th None None None None None None None None 1 None None None 0 None None.

Inductive error := TypeError | ValueError | SolverError.

(** GAMM.fit for data in memory with max_inner=None, models.py:3078-3322, 3368-3377.  The second component is the state
    after the call. *)
Definition fit (st : state) (c : call) : option error * state :=
  let p := if c_restart c then pens st else Some fresh_pens in
  match p with
  | None => (* len(None), unless rho is given *)
      (Some (match c_rho c with None => TypeError | Some _ => ValueError end), st)
  | Some p =>
      let y_fit := if gauss then match c_offset c with Some o => vminus y o | None => y end else y in
      let off := if gauss then None else c_offset c in
      let rho' := match c_rho c with Some r => Some r | None => rho st end in
      let mat := match c_transform c with Some t => t X | None => X end in
      let tr := match c_transform c with Some t => Some t | None => transform st end in
      match solve p (theta st) y_fit mat off (c_rho c) with
      | inr (p', th') =>
          (Some SolverError,
           State th' (Some p') rho' tr (res_ar st) (Wr st) (hessian st) (hessian_obs st) (coef st) (scale st) (preds st) (res st)
             (edf st) (penalty st) (lvi st) (edf1 st))
      | inl s =>
          let mat := match s_dropped s with Some l => zero_columns mat l | None => mat end in
          let '(ra, wres, eta, h, ho) :=
            if gauss then
              match c_rho c with
              | Some r => (Some (s_wres s), vminus y_fit (mv mat (s_coef s)), mv mat (s_coef s), expected None (Some r) mat (s_scale s), hessian_obs st)
              | None => (res_ar st, s_wres s, s_eta s, expected None None mat (s_scale s), hessian_obs st)
              end
            else
              match c_rho c with
              | Some r => (Some (s_wres s), s_wres2 s, s_eta s, expected (Some (s_Wr s)) (Some r) mat (s_scale s), hessian_obs st)
              | None => (res_ar st, s_wres s, s_eta s, expected (Some (s_Wr s)) None mat (s_scale s),
                         Some (observed (s_WN s) mat (s_scale s)))
              end in
          let eta := if gauss then match c_offset c with Some o => vplus eta o | None => eta end else eta in
          (None,
           State (s_theta s) (Some (s_pens s)) rho' tr ra (Some (s_Wr s)) (Some h) ho (Some (s_coef s)) (s_scale s) (Some eta) (Some wres)
             (Some (s_edf s)) (s_penalty s) (Some (s_lvi s)) (edf1 st))
      end
  end.

(** get_llk, models.py:2681-2744. *)
Definition get_llk (st : state) (penalized : bool) : option R :=
  match preds st with
  | None => None
  | Some pr =>
      let pen := if penalized then / 2 * penalty st else 0 in
      let mu := if gauss then pr else link_fi pr in
      let pen := match rho st with Some r => pen - ar_cor r | None => pen end in
      Some (if twopar then
              match rho st, gauss with
              | Some _, true => fam_llk (theta st) (match res_ar st with Some v => v | None => vzero end) vzero (Some (scale st)) - pen
              | _, _ => fam_llk (theta st) y mu (Some (scale st)) - pen
              end
            else fam_llk (theta st) y mu None - pen)
  end.

(** get_resid, models.py:2809-2878: [None]: ValueError. *)
Inductive resid_type := Pearson | Deviance | Ar1.
Definition get_resid (st : state) (t : resid_type) : option (option V) :=
  match res st, preds st with
  | Some r, Some pr =>
      match t with
      | Pearson => Some (Some r)
      | Ar1 => match rho st with None => None | Some _ => Some (res_ar st) end
      | Deviance => Some (Some (dev_resid (theta st) y (if gauss then pr else link_fi pr)))
      end
  | _, _ => None
  end.

(** get_mmat, models.py:2642-2679. *)
Definition get_mmat (st : state) : M := match transform st with Some t => t X | None => X end.

(** compute_bias_corrected_edf, utils.py:1024-1093: the state afterwards; [None]: an attribute is still None. *)
Definition compute_edf1 (st : state) (overwrite : bool) : option state :=
  match edf1 st, overwrite with
  | Some _, false => Some st
  | _, _ =>
      match hessian st, lvi st, pens st with
      | Some h, Some l, Some p =>
          Some (State (theta st) (pens st) (rho st) (transform st) (res_ar st) (Wr st) (hessian st) (hessian_obs st) (coef st) (scale st)
                  (preds st) (res st) (edf st) (penalty st) (lvi st) (Some (bias_edf h l (scale st) p)))
      | _, _, _ => None
      end
  end.

(** What a user does with a model: fitting it, whether or not that raises an exception, and asking for bias corrected degrees of freedom (which
    the p-values of smooth terms do, utils.py:1181). *)
Inductive action := Fit (c : call) | Edf1 (overwrite : bool).
Definition act (st : state) (a : action) : state :=
  match a with
  | Fit c => snd (fit st c)
  | Edf1 ow => match compute_edf1 st ow with Some st' => st' | None => st end
  end.
Definition run (st : state) (l : list action) : state := fold_left act l st.
End Model.
