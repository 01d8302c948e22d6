(** Families with several parameters and extended families (exp_fam.py), the change from means
    to linear predictors (gamm_solvers.py), and families used as general smooth families
    (utils.py).  Functions that work element by element are modelled on one element. *)

From Coq Require Import Reals List Bool Arith.
From Verif Require Import Ext FamModel.
Import ListNotations.
Local Open Scope R_scope.

(** np.sum of a list *)
Definition total (l : list R) : R := fold_right Rplus 0 l.

(** ** GAUMLSS, exp_fam.py:2745-2971 *)

(** exp_fam.py:2792-2794 *)
Definition gaumlss_lp (y mu sigma : R) : R := norm_logpdf y mu sigma.

(** exp_fam.py:2869-2875; None: ValueError *)
Definition gaumlss_d1 (y mu sigma : R) (index : nat) : option R :=
  match index with
  | 0 => Some (1 / sigma ^ 2 * (y - mu))
  | 1 => Some (((y - mu) ^ 2 - sigma ^ 2) / sigma ^ 3)
  | _ => None
  end.

(** exp_fam.py:2877-2883 *)
Definition gaumlss_d2 (y mu sigma : R) (index : nat) : option R :=
  match index with
  | 0 => Some (- (1 / sigma ^ 2))
  | 1 => Some (- (2 / sigma ^ 2))
  | _ => None
  end.

(** exp_fam.py:2885-2889 *)
Definition gaumlss_d2m (y mu sigma : R) (index : nat) : option R :=
  match index with 0 => Some 0 | _ => None end.

(** ** GAMMALS, exp_fam.py:3295-3464 *)

Section GAMMALS.
(** scipy.special.gammaln, digamma and polygamma(1, .) *)
Variables gammaln digamma trigamma : R -> R.

(** exp_fam.py:3351-3355 *)
Definition gammals_lp (y mu scale : R) : R :=
  let alpha := 1 / scale in
  let beta := alpha / mu in
  gamma_logpdf gammaln y alpha (1 / beta).

(** exp_fam.py:3432-3445 *)
Definition gammals_d1 (y mu scale : R) (index : nat) : option R :=
  match index with
  | 0 => Some ((y - mu) / (scale * mu ^ 2))
  | 1 => Some (1 / scale ^ 2 * (y / mu - ln y + ln mu + ln scale - 1 + digamma (1 / scale)))
  | _ => None
  end.

(** exp_fam.py:3447-3455 *)
Definition gammals_d2 (y mu scale : R) (index : nat) : option R :=
  match index with
  | 0 => Some (-1 / (scale * mu ^ 2))
  | 1 => Some (1 / scale ^ 3 - 1 / scale ^ 4 * trigamma (1 / scale))
  | _ => None
  end.

(** exp_fam.py:3457-3461 *)
Definition gammals_d2m (y mu scale : R) (index : nat) : option R :=
  match index with 0 => Some 0 | _ => None end.
End GAMMALS.

(** ** MULNOMLSS, exp_fam.py:2974-3292.  [mus] holds the n_par means of one observation. *)

(** exp_fam.py:3006-3009 *)
Definition dpairs (n_par : nat) : list (nat * nat) :=
  flat_map (fun i => map (fun j => (i, j)) (seq (i + 1) (n_par - (i + 1)))) (seq 0 n_par).

(** exp_fam.py:3051-3056 *)
Definition mulnom_lp (y : nat) (mus : list R) : R :=
  fold_left (fun lp pi => if (y =? pi + 1)%nat then lp + ln (nth pi mus 0) else lp)
    (seq 0 (length mus)) (- ln (total mus + 1)).

(** exp_fam.py:3145-3151 *)
Definition mulnom_d1 (y : nat) (mus : list R) (index : nat) : option R :=
  if (index <? length mus)%nat then
    let dy1 := - (nth index mus 0 / (total mus + 1)) in
    Some (if (y =? index + 1)%nat then dy1 + 1 else dy1)
  else None.

(** exp_fam.py:3153-3160 *)
Definition mulnom_d2 (y : nat) (mus : list R) (index : nat) : option R :=
  if (index <? length mus)%nat then
    let norm := total mus + 1 in
    let dy1 := - (nth index mus 0 / norm) in
    Some (dy1 + nth index mus 0 ^ 2 / norm ^ 2)
  else None.

(** exp_fam.py:3162-3172 *)
Definition mulnom_d2m (y : nat) (mus : list R) (index : nat) : option R :=
  match nth_error (dpairs (length mus)) index with
  | Some (i, j) => let norm := total mus + 1 in Some (nth i mus 0 * nth j mus 0 / norm ^ 2)
  | None => None
  end.

(** exp_fam.py:3288-3290 *)
Definition mulnom_probs (mus : list R) : list R :=
  map (fun k => exp (mulnom_lp k mus)) (seq 0 (length mus + 1)).

(** lcp, exp_fam.py:3080-3092 *)
Definition mulnom_lcp (y : nat) (mus : list R) : R :=
  if (y =? 0)%nat then 0
  else ln (fold_left (fun s pi => if (pi <? y)%nat then s + nth pi mus 0 else s)
             (seq 0 (length mus)) 0)
       - ln (total mus + 1).

(** The residual interval of category y, get_resid, exp_fam.py:3237-3257.  The intervals start
    as zeros; the loop writes those of 0, n_par, ..., 2 and line 3255 the end of category 1. *)
Definition mulnom_interval (y : nat) (mus : list R) : R * R :=
  let n_par := length mus in
  let comp := 0%nat :: rev (seq 1 n_par) in
  let loop := fold_left (fun iv yi =>
      if (y =? nth yi comp 0)%nat
      then (exp (mulnom_lcp (nth (yi + 1) comp 0%nat) mus), exp (mulnom_lcp (nth yi comp 0%nat) mus))
      else iv) (seq 0 (length comp - 1)) (0, 0) in
  if (y =? 1)%nat then (fst loop, exp (mulnom_lcp y mus)) else loop.

(** ** ScaledT, exp_fam.py:1959-2514.  theta is the pair (theta[0,0], theta[1,0]). *)

Section ScaledT.
Variables gammaln digamma trigamma : R -> R.
Variable min_df : R.

(** phi and nu, for instance exp_fam.py:2051-2052 *)
Definition st_phi (theta : R * R) : R := exp (fst theta).
Definition st_nu (theta : R * R) : R := exp (snd theta) + min_df.

(** exp_fam.py:2054 *)
Definition st_V (mu : R) (theta : R * R) : R :=
  1 * (st_phi theta ^ 2 * st_nu theta / (st_nu theta - 2)).

(** exp_fam.py:2119-2125; np.log1p(x) is ln (1 + x) *)
Definition st_lp (y mu : R) (theta : R * R) : R :=
  let phi := st_phi theta in
  let nu := st_nu theta in
  -1 * (- gammaln ((nu + 1) / 2) + gammaln (nu / 2) + ln (phi * Rpower (PI * nu) (/ 2))
        + (nu + 1) * ln (1 + ((y - mu) / phi) ^ 2 / nu) / 2).

(** llk, exp_fam.py:2158; a list of pairs (y, mu) *)
Definition st_llk (obs : list (R * R)) (theta : R * R) : R :=
  total (map (fun o => st_lp (fst o) (snd o) theta) obs).

(** exp_fam.py:2199 *)
Definition st_D (y mu : R) (theta : R * R) : R :=
  let phi := st_phi theta in
  let nu := st_nu theta in
  (nu + 1) * ln (1 + ((y - mu) / phi) ^ 2 / nu).

(** exp_fam.py:2275-2279 *)
Definition st_dDdmu (y mu : R) (theta : R * R) : R :=
  let phi := st_phi theta in
  let nu := st_nu theta in
  let ymu := y - mu in
  -2 * (((nu + 1) * ymu) / (nu * (phi ^ 2 * (1 + (ymu / phi) ^ 2 / nu)))).

(** exp_fam.py:2322-2325 *)
Definition st_d2Ddmu (y mu : R) (theta : R * R) : R :=
  let phi := st_phi theta in
  let nu := st_nu theta in
  let ymu := y - mu in
  let sig2a := phi ^ 2 * (1 + (ymu / phi) ^ 2 / nu) in
  2 * ((nu + 1) * (1 / (nu * sig2a) - 2 * (ymu / (nu * sig2a)) ^ 2)).

(** exp_fam.py:2367-2368 *)
Definition st_Ed2Ddmu (y mu : R) (theta : R * R) : R :=
  let phi := st_phi theta in
  let nu := st_nu theta in
  2 * (1 * (nu + 1) / phi ^ 2 / (nu + 3)).

(** a, nusig2a, fymu and f1ymu, exp_fam.py:2409-2414 and 2470-2477 *)
Definition st_a (phi nu y mu : R) : R := 1 + ((y - mu) / phi) ^ 2 / nu.
Definition st_nusig2a (phi nu y mu : R) : R := nu * phi ^ 2 * st_a phi nu y mu.
Definition st_fymu (phi nu y mu : R) : R :=
  (nu + 1) * (y - mu) / st_nusig2a phi nu y mu * (y - mu).
Definition st_f1ymu (phi nu y mu : R) : R := (y - mu) / st_nusig2a phi nu y mu * (y - mu).

(** gradientLTheta, exp_fam.py:2403-2431 *)
Definition st_gradient (obs : list (R * R)) (theta : R * R) : R * R :=
  let phi := st_phi theta in
  let nu := st_nu theta in
  let e := nu - min_df in
  let n := INR (length obs) in
  let g0 := total (map (fun o => -2 * st_fymu phi nu (fst o) (snd o)) obs) in
  let g1 := total (map (fun o => e * (ln (st_a phi nu (fst o) (snd o))
                                       - st_fymu phi nu (fst o) (snd o) / nu)) obs) in
  let g0 := g0 * / 2 + n in
  let g1 := g1 * / 2 - n * (e * digamma ((nu + 1) / 2) / 2 - e * digamma (nu / 2) / 2
                            - / 2 * (e / nu)) in
  (-1 * g0, -1 * g1).

(** hessianLTheta, exp_fam.py:2467-2514: (H[0,0], H[0,1] = H[1,0], H[1,1]) *)
Definition st_hessian (obs : list (R * R)) (theta : R * R) : R * R * R :=
  let phi := st_phi theta in
  let nu := st_nu theta in
  let e := nu - min_df in
  let n := INR (length obs) in
  let h00 := total (map (fun o => let fymu := st_fymu phi nu (fst o) (snd o) in
                        4 * fymu * (1 - st_f1ymu phi nu (fst o) (snd o))) obs) in
  let h11 := total (map (fun o => let ymu := fst o - snd o in
                        e * ln (st_a phi nu (fst o) (snd o))
                        + (e / nu) * ymu ^ 2
                          * (-2 * e - (nu + 1) + 2 * (nu + 1) * (e / nu)
                             - (nu + 1) * (e / nu) * st_f1ymu phi nu (fst o) (snd o))
                          / st_nusig2a phi nu (fst o) (snd o)) obs) in
  let h01 := total (map (fun o => let ymu := fst o - snd o in
                        let fymu := st_fymu phi nu (fst o) (snd o) in
                        2 * (fymu - ymu * (ymu / (phi ^ 2 * st_a phi nu (fst o) (snd o)))
                             - fymu * st_f1ymu phi nu (fst o) (snd o)) * (e / nu)) obs) in
  let h11 := h11 * / 2
             - n * (e ^ 2 * trigamma ((nu + 1) / 2) / 4 + e * digamma ((nu + 1) / 2) / 2
                    - e ^ 2 * trigamma (nu / 2) / 4 - e * digamma (nu / 2) / 2
                    + / 2 * (e / nu) ^ 2 - / 2 * (e / nu)) in
  (-1 * (h00 * / 2), -1 * (h01 * / 2), -1 * h11).
End ScaledT.

(** ** deriv_transform_mu_eta, gamm_solvers.py:4229-4353 *)

(** x / y with x[np.isnan(x) | np.isinf(x)] = 0 afterwards *)
Definition div0 (x y : R) : R := if Req_EM_T y 0 then 0 else x / y.

Section Transform.
(** family.n_par; dpars of order d1, d2 and d2m by index; links[i].dy1 and dy2 at mean i. *)
Variable n : nat.
Variables d1 d2 d2m ld1 ld2 : nat -> R.

(** gamm_solvers.py:4283-4292 *)
Definition d1eta : list R := map (fun mui => div0 (d1 mui) (ld1 mui)) (seq 0 n).

(** gamm_solvers.py:4324-4335 *)
Definition d2eta : list R :=
  map (fun mui => if Req_EM_T (ld1 mui) 0 then 0
                  else d2 mui / ld1 mui ^ 2 - d1 mui * ld2 mui / ld1 mui ^ 3) (seq 0 n).

(** gamm_solvers.py:4338-4351: the list and mixed_idx after the loops; None: d2m[mixed_idx] is
    out of range.  The list d2m has n_d2m = n(n-1)/2 entries (exp_fam.py:2548). *)
Definition d2meta_step (mui : nat) (st : option (list R * nat)) (muj : nat) : option (list R * nat) :=
  match st with
  | Some (l, mixed) =>
      if (mixed <? n * (n - 1) / 2)%nat then
        Some (l ++ [if Req_EM_T (ld1 mui) 0 then 0 else if Req_EM_T (ld1 muj) 0 then 0
                    else d2m mixed * (1 / ld1 mui) * (1 / ld1 muj)], (mixed + 1)%nat)
      else None
  | None => None
  end.
Definition d2meta : option (list R * nat) :=
  fold_left (fun st mui => fold_left (d2meta_step mui) (seq (mui + 1) (n - (mui + 1))) st)
    (seq 0 n) (Some ([], 0%nat)).
End Transform.

(** ** GAMLSSGSMMFamily with a single-parameter family, utils.py:237-391 *)

Section Single.
(** n observations, p coefficients, model matrix and responses. *)
Variables (n p : nat) (X : nat -> nat -> R) (y : nat -> R).

(** X @ coef *)
Definition lin_pred (coef : nat -> R) (i : nat) : R :=
  total (map (fun c => X i c * coef c) (seq 0 p)).

(** utils.py:276-286 for an exponential family *)
Definition exp_llk (gammaln : R -> R) (f : family) (l : link) (scale : R) (coef : nat -> R) : R :=
  total (map (fun i => fam_lp gammaln f (y i) (link_fi l (lin_pred coef i)) scale) (seq 0 n)).

(** Family.dllkdcoef, exp_fam.py:678-691, entry j *)
Definition dllkdcoef (f : family) (l : link) (scale : R) (coef : nat -> R) (j : nat) : R :=
  total (map (fun i => let mu := link_fi l (lin_pred coef i) in
               div0 (y i - mu) (link_dy1 l mu * fam_V f mu) * X i j) (seq 0 n)) / scale.

(** utils.py:270-274 for the scaled t family *)
Definition ext_llk (gammaln : R -> R) (min_df : R) (l : link) (theta : R * R) (coef : nat -> R) : R :=
  total (map (fun i => st_lp gammaln min_df (y i) (link_fi l (lin_pred coef i)) theta) (seq 0 n)).

(** grad_coef for the scaled t family, utils.py:338-342, entry j.  Line 341 evaluates the link's
    derivative at d1. *)
Definition ext_gradient (min_df : R) (l : link) (theta : R * R) (coef : nat -> R) (j : nat) : R :=
  - / 2 * total (map (fun i => let mu := link_fi l (lin_pred coef i) in
                       let d1 := st_dDdmu min_df (y i) mu theta in
                       let ld1 := link_dy1 l d1 in
                       d1 / ld1 * X i j) (seq 0 n)).
End Single.
