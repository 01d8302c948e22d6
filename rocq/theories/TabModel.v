(** The table of parametric terms (utils.py), models of one family fitted through another class (utils.py), and the data
    on which log-likelihoods of fitted models are evaluated (models.py, compare.py). *)

From Coq Require Import Reals List Bool Arith ZArith.
From Verif Require Import FamModel ResModel.
Import ListNotations.
Local Open Scope R_scope.

(** ** print_parametric_terms *)

(** What is used of a formula: names of the coefficients of each linear term in the order of terms, names of the other
    coefficients, number of observations that are not NaN.  Linear terms come first in coef_names (formula.py:793-874);
    coef_per_term holds the number of names of a term (formula.py:815). *)
Record form := { linear : list (list nat); others : list nat; n_obs : nat }.
Definition coef_names (f : form) : list nat := concat (linear f) ++ others f.
Definition n_coef (f : form) : nat := length (coef_names f).

(** np.split(v, idx)[par] for the cumulative numbers of coefficients of all formulas but the last, models.py:1047-1073. *)
Definition first_of (fs : list form) (par : nat) : nat := list_sum (map n_coef (firstn par fs)).
Definition split_at (v : list R) (fs : list form) (par : nat) : list R :=
  match nth_error fs par with Some f => firstn (n_coef f) (skipn (first_of fs par) v) | None => [] end.

(** One printed line: name, estimate, signed statistic, degrees of freedom (None: a z-test), p-value (None: NaN), number
    of stars; a single dot is level 1, one star level 2.  Rounding of printed numbers is left out. *)
Record line := { l_name : nat; l_coef : R; l_stat : R; l_dof : option Z; l_p : option R; l_mark : nat }.

(** utils.py:796-808. *)
Definition mark (p : R) : nat :=
  if Rlt_dec p (1 / 1000) then 4 else if Rlt_dec p (1 / 100) then 3
  else if Rlt_dec p (5 / 100) then 2 else if Rlt_dec p (1 / 10) then 1 else 0.

Section Table.
(** scp.stats.norm.cdf and scp.stats.t.cdf; the latter is NaN unless the degrees of freedom are positive. *)
Variable ncdf : R -> R.
Variable tcdf : Z -> R -> R.
Definition t_cdf (df : Z) (x : R) : option R := if (0 <? df)%Z then Some (tcdf df x) else None.

(** utils.py:760-809 for the first n_j coefficients; [lvi] has rows, V = lvi.T @ lvi * scale.  [twopar]: the family is a
    Family with a scale parameter.  The variances of the coefficients are positive here (a coefficient that was dropped
    has a statistic NaN). *)
Definition variance (lvi : list (list R)) (scale : R) (j : nat) : R :=
  fold_right (fun row s => nth j row 0 * nth j row 0 + s) 0 lvi * scale.
Definition table_line (f : form) (coef : list R) (lvi : list (list R)) (scale : R) (twopar : bool) (j : nat) : line :=
  let b := nth j coef 0 in
  let t := Rabs (b / sqrt (variance lvi scale j)) in
  let df := (Z.of_nat (n_obs f) - Z.of_nat (n_coef f))%Z in
  let p := if twopar then option_map (fun c => (1 - c) * 2) (t_cdf df t) else Some ((1 - ncdf t) * 2) in
  {| l_name := nth j (coef_names f) 0%nat; l_coef := b; l_stat := sign b * t;
     l_dof := if twopar then Some df else None; l_p := p;
     l_mark := match p with Some q => mark q | None => 0 end |}.

(** print_parametric_terms, utils.py:718-811, of a fitted model.  [family]: the family is a Family (a GAMM); otherwise the
    coefficients and columns of lvi of the formula [par] are taken and the scale is 1. *)
Definition print_parametric (family : bool) (twopar : bool) (fs : list form) (par : nat) (coef : list R)
    (lvi : list (list R)) (scale : R) : option (list line) :=
  match nth_error fs (if family then 0%nat else par) with
  | None => None
  | Some f =>
      let coef_p := if family then coef else split_at coef fs par in
      let lvi_p := if family then lvi else map (fun row => split_at row fs par) lvi in
      let scale_p := if family then scale else 1 in
      let n_j := list_sum (map (@length nat) (linear f)) in
      Some (map (table_line f coef_p lvi_p scale_p (family && twopar)) (seq 0 n_j))
  end.
End Table.

(** ** GAMLSSGSMMFamily for a GAMM *)

(** Families of GAMMs: with known scale, with a scale parameter, or with k parameters theta (ExtendedFamily). *)
Inductive kind := OnePar | TwoPar | Extended (theta : list R).

(** extra_coef, utils.py:199-203; None: no additional coefficients. *)
Definition extra_coef (k : kind) : option nat :=
  match k with OnePar => None | TwoPar => Some 1%nat | Extended th => Some (length th) end.

(** v[:-k] and v[-k:]; for k = 0 they are v[:0] and v[0:]. *)
Definition upto_last {A} (k : nat) (v : list A) : list A := if (k =? 0)%nat then [] else firstn (length v - k) v.
Definition last_k {A} (k : nat) (v : list A) : list A := if (k =? 0)%nat then v else skipn (length v - k) v.

(** init_coef, utils.py:214-233; [fitted] are the coefficients of the GAMM fitted without smoothing parameter updates. *)
Definition init_coef (k : kind) (fitted : list R) : list R :=
  match k with
  | Extended theta => fitted ++ theta
  | _ => match extra_coef k with Some _ => fitted ++ [0] | None => fitted end
  end.

(** Coefficients of the linear predictor and parameters of the likelihood: scale or theta, utils.py:270-286, 479-498. *)
Inductive parameters := NoPar | Scale (s : R) | Theta (t : list R).
Definition parts (k : kind) (coef : list R) : list R * parameters :=
  match k with
  | Extended theta => let n := length theta in (upto_last n coef, Theta (last_k n coef))
  | TwoPar => (upto_last 1 coef, Scale (exp (nth (length coef - 1) coef 0)))
  | OnePar => (coef, NoPar)
  end.

(** get_resid, utils.py:479-503, one entry per row of X: sign times root of the deviance contribution [D] at the mean. *)
Definition wrapped_resid (D : parameters -> R -> R -> R) (l : link) (k : kind) (X : list (list R)) (y coef : list R) : list R :=
  let '(b, par) := parts k coef in
  let mu := map (fun row => link_fi l (fold_right Rplus 0 (map (fun q => fst q * snd q) (combine row b)))) X in
  map (fun q => sign (fst q - snd q) * sqrt (D par (fst q) (snd q))) (combine y mu).

(** ** Data of log-likelihoods *)

(** A formula of a general model: variable and function of its left-hand side, values with the flag that they are not NaN
    (y_flat and NOT_NA_flat). *)
Record resp := { r_var : nat; r_f : option (R -> R); r_y : list (R * bool) }.

(** get_ys, models.py:351-391, entry fi with par=None; an entry None says that the first response is used. *)
Definition kept (drop_NA : bool) (y : list (R * bool)) : list R :=
  map fst (if drop_NA then filter snd y else y).
Definition apply_f (f : option (R -> R)) (y : list R) : list R := match f with Some g => map g y | None => y end.
Definition get_ys (drop_NA : bool) (fs : list resp) : list (option (list R)) :=
  map (fun fi =>
    match nth_error fs fi, nth_error fs 0 with
    | Some r, Some r0 =>
        if (0 <? fi)%nat && (r_var r =? r_var r0)%nat && (match r_f r with None => true | _ => false end)
           && (match r_f r0 with None => true | _ => false end)
        then None
        else Some (apply_f (r_f r) (kept drop_NA (r_y r)))
    | _, _ => None
    end) (seq 0 (length fs)).

Section Llk.
(** [mats] are the model matrices of get_mmat for drop_NA (models.py:393-503), [llk] the log-likelihood of the family. *)
Variables (C X : Type) (mats : bool -> X) (llk : C -> list (option (list R)) -> X -> R).

(** A general model: coefficients and penalty after fitting; [drop] is the drop_NA of the fit (models.py:986-997). *)
Record gmodel := { g_forms : list resp; g_coef : option C; g_penalty : R; g_drop : bool }.

(** GSMM.get_llk, models.py:522-533. *)
Definition get_llk (m : gmodel) (penalized drop_NA : bool) : option R :=
  let pen := if penalized then / 2 * g_penalty m else 0 in
  match g_coef m with
  | Some c => Some (llk c (get_ys drop_NA (g_forms m)) (mats drop_NA) - pen)
  | None => None
  end.

(** The log-likelihoods compare_CDL(..., drop_NA=drop_NA) compares, compare.py:510-511, for one model. *)
Definition compared_llk (m : gmodel) (drop_NA : bool) : option R := get_llk m false true.
End Llk.
Arguments g_forms {C}. Arguments g_coef {C}. Arguments g_penalty {C}. Arguments g_drop {C}.
Arguments get_llk {C X}. Arguments compared_llk {C X}.
