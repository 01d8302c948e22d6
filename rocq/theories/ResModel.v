(** Residuals returned to users (GAMM.get_resid, models.py; get_resid of the families, exp_fam.py) and simulated
    observations (rvs of the families, exp_fam.py). *)

From Coq Require Import Reals List Bool Arith ZArith.
From Verif Require Import FamModel GlsModel MvnModel HazModel.
Import ListNotations.
Local Open Scope R_scope.

(** np.sign *)
Definition sign (x : R) : R := match total_order_T x 0 with inleft (left _) => - 1 | inleft (right _) => 0 | inright _ => 1 end.

(** ** GAMM.get_resid *)

(** The argument type of GAMM.get_resid, models.py:2809; [TOther] is any string not in the list of line 2849. *)
Inductive rtype := TPearson | TDeviance | TAr1 | TFamily | TOther.

(** What a call leads to: ValueError, Python's None, or an array. *)
Inductive outcome := Raises | NoValue | Array (v : list R).

(** The attributes of a GAMM read by get_resid: self.res, self.preds[0], self.rho, self.res_ar and get_ys() (models.py
    3370-3372, 2617). *)
Record fitted := { f_res : option (list R); f_eta : option (list R); f_rho : option R; f_res_ar : option (list R);
                   f_y : list R }.

(** isinstance(family, Gaussian) is False or isinstance(family.link, Identity) is False, models.py:2872-2875. *)
Definition general (f : family) (l : link) : bool :=
  match f, l with Gaussian, Identity => false | _, _ => true end.

(** np.sign(y - mu) * np.sqrt(family.D(y, mu)), one entry, models.py:2878. *)
Definition deviance_resid (f : family) (y mu : R) : R := sign (y - mu) * sqrt (fam_D f y mu).

(** An array or None returned to the caller. *)
Definition give (o : option (list R)) : outcome := match o with Some v => Array v | None => NoValue end.

(** GAMM.get_resid, models.py:2844-2878.  The method ends without a return statement for type="family". *)
Definition gamm_get_resid (f : family) (l : link) (m : fitted) (t : rtype) : outcome :=
  match f_res m, f_eta m with
  | Some res, Some eta =>
      match t with
      | TOther => Raises
      | TPearson => Array res
      | TAr1 => match f_rho m with None => Raises | Some _ => give (f_res_ar m) end
      | TDeviance =>
          let mu := if general f l then map (link_fi l) eta else eta in
          Array (map (fun p => deviance_resid f (fst p) (snd p)) (combine (f_y m) mu))
      | TFamily => NoValue
      end
  | _, _ => Raises
  end.

(** ** Residuals of families *)

(** GAUMLSS.get_resid, exp_fam.py:2941-2945, one entry. *)
Definition gaumlss_resid (y mu sigma : R) : R := (y - mu) / sigma.

(** GAMMALS.get_resid, exp_fam.py:3522-3525, one entry. *)
Definition gammals_resid (y mu scale : R) : R := sign (y - mu) * sqrt (fam_D Gamma y mu / scale).

(** MultiGauss.get_resid, exp_fam.py:5063-5075, row i: (y - mus) @ R.T and, if a mean is chosen, that column. *)
Definition mvn_resid (m : nat) (p : nat -> nat) (X : nat -> nat -> nat -> R) (links : nat -> link) (y : nat -> nat -> R)
    (coef : nat -> R) (mean : option nat) (i : nat) : list R :=
  let row := map (fun r => mvn_yR m p X links y coef i r) (seq 0 m) in
  match mean with None => row | Some k => [nth k row 0] end.

(** The deviance residual from status and survival, exp_fam.py:4225, 4230-4235; [eps] is np.finfo(float).eps. *)
Definition haz_deviance (eps delta S0 : R) : R :=
  let mi := delta + ln S0 in
  sign mi * sqrt (- 2 * (mi + delta * ln (- Rmin (ln S0) (- eps)))).

Section Haz.
Variables (n p : nat) (X : nat -> nat -> R) (delta : nat -> R) (r : nat -> nat) (ut : list Z).

(** PropHaz.get_resid with resid_type="Deviance", exp_fam.py:4212-4241, on an object without a table; None: an exception.
    [reorder] is the optional index. *)
Definition haz_resid_deviance (eps : R) (coef : nat -> R) (reorder : option (list nat)) : list (option R) :=
  let res := snd (fold_left (fun st i =>
         let '(o, res) := st in
         match nth_error ut (r i) with
         | None => (o, res ++ [None])
         | Some ti =>
             let '(S0, o') := get_survival n p X delta r ut o coef ti (X i) None in
             (o', res ++ [match S0 with Some (s, _) => Some (haz_deviance eps (delta i) s) | None => None end])
         end) (seq 0 n) (None, [])) in
  match reorder with None => res | Some ix => map (fun j => nth j res None) ix end.
End Haz.

(** ** Simulated observations *)

(** The distribution scipy is asked to draw entry i from: norm with loc and scale, gamma with a and scale, exp_fam.py
    2914-2921 and 3486-3495; its log-density as scipy documents it. *)
Inductive law := Norm (loc scale : R) | GammaLaw (a scale : R).
Definition gaumlss_law (mu sigma : R) : law := Norm mu sigma.
Definition gammals_law (mu scale : R) : law :=
  let alpha := 1 / scale in let beta := alpha / mu in GammaLaw alpha (1 / beta).

(** MULNOMLSS.rvs, exp_fam.py:3195-3205: the probabilities np_gen.choice is given for one row. *)
Definition mulnom_weights (mus : list R) : list R :=
  map (fun k => exp (mulnom_lp k mus)) (seq 0 (length mus + 1)).

(** MultiGauss.rvs, exp_fam.py:5221-5240.  [draw seed mean cov] is scp.stats.multivariate_normal.rvs with random_state=seed,
    [inv] np.linalg.inv; the result lists rows.  With a seed the generator is started anew for each row, with seed + row;
    without one the state of the global generator is passed on. *)
Definition gram (m : nat) (M : nat -> nat -> R) (a b : nat) : R := nsum m (fun k => M k a * M k b).
Definition mvn_rvs (V : Type) (inv : (nat -> nat -> R) -> nat -> nat -> R)
    (draw : nat -> (nat -> R) -> (nat -> nat -> R) -> V) (m : nat) (theta : nat -> R) (mus : list (nat -> R)) (seed : nat)
    : list V :=
  let cov := inv (gram m (fst (getR m theta))) in
  snd (fold_left (fun st mu => let '(s, out) := st in (S s, out ++ [draw s mu cov])) mus (seed, [])).
