(** Links, exponential families and working weights (exp_fam.py, gamm_solvers.py).  Arrays are
    modelled by one of their elements, since all these functions work element by element.  Real
    numbers; rounding and overflow are not modelled. *)

From Coq Require Import Reals Bool Arith.
From Verif Require Import Ext.
Local Open Scope R_scope.

(** ** Links *)

(** The link classes of exp_fam.py:100-447.  LOGb holds its b (line 370). *)
Inductive link := Logit | Identity | LOG | LOGb (b : R).

(** Link.f: exp_fam.py:123 (Logit), 223 (Identity), 296 (LOG), 387 (LOGb) *)
Definition link_f (l : link) (mu : R) : R :=
  match l with
  | Logit => ln (mu / (1 - mu))
  | Identity => mu
  | LOG => ln mu
  | LOGb b => ln (mu + b)
  end.

(** Link.fi: exp_fam.py:144, 238, 314, 405 *)
Definition link_fi (l : link) (eta : R) : R :=
  match l with
  | Logit => exp eta / (1 + exp eta)
  | Identity => eta
  | LOG => exp eta
  | LOGb b => exp eta - b
  end.

(** Link.dy1: exp_fam.py:176, 254, 333, 424 *)
Definition link_dy1 (l : link) (mu : R) : R :=
  match l with
  | Logit => 1 / ((1 - mu) * mu)
  | Identity => 1
  | LOG => 1 / mu
  | LOGb b => 1 / (b + mu)
  end.

(** Link.dy2: exp_fam.py:198, 272, 355, 445 *)
Definition link_dy2 (l : link) (mu : R) : R :=
  match l with
  | Logit => (2 * mu - 1) / (mu ^ 2 * (1 - mu) ^ 2)
  | Identity => 0
  | LOG => -1 * (1 / mu ^ 2)
  | LOGb b => -1 * (1 / (mu + b) ^ 2)
  end.

(** ** Floating point helpers *)

(** np.log: -inf at 0, nan below. *)
Definition elog (x : R) : ext :=
  if Rlt_dec 0 x then Fin (ln x) else if Req_EM_T x 0 then MInf else NaN.

(** a - b *)
Definition esub (a b : ext) : ext :=
  match a, b with
  | Fin x, Fin y => Fin (x - y)
  | NaN, _ | _, NaN => NaN
  | PInf, PInf | MInf, MInf => NaN
  | PInf, _ | _, MInf => PInf
  | MInf, _ | _, PInf => MInf
  end.

(** r * a for a finite r *)
Definition escale (r : R) (a : ext) : ext :=
  match a with
  | Fin x => Fin (r * x)
  | NaN => NaN
  | PInf => if Rlt_dec 0 r then PInf else if Rlt_dec r 0 then MInf else NaN
  | MInf => if Rlt_dec 0 r then MInf else if Rlt_dec r 0 then PInf else NaN
  end.

(** x[np.isinf(x) | np.isnan(x)] = 0 *)
Definition reset (a : ext) : R := match a with Fin x => x | _ => 0 end.

(** scipy.special.xlogy *)
Definition xlogy (a x : R) : R := if Req_EM_T a 0 then 0 else a * ln x.

(** ** Exponential families *)

(** The Family classes of exp_fam.py:779-1590.  Binomial holds its n (line 810). *)
Inductive family := Binomial (n : nat) | Gaussian | Gamma | InvGauss | Poisson.

(** Family.V: exp_fam.py:852, 1011, 1155, 1314, 1462 *)
Definition fam_V (f : family) (mu : R) : R :=
  match f with
  | Binomial n => mu * (1 - mu) / INR n
  | Gaussian => 1
  | Gamma => mu ^ 2
  | InvGauss => mu ^ 3
  | Poisson => mu
  end.

(** Family.dVy1: exp_fam.py:870, 1029, 1173, 1332, 1480 *)
Definition fam_dVy1 (f : family) (mu : R) : R :=
  match f with
  | Binomial n => (1 - 2 * mu) / INR n
  | Gaussian => 0
  | Gamma => 2 * mu
  | InvGauss => 3 * mu ^ 2
  | Poisson => 1
  end.

(** is_canonical: exp_fam.py:812, 990, 1137, 1296, 1445 *)
Definition is_canonical (f : family) (l : link) : bool :=
  match f, l with
  | Binomial _, Logit => true
  | Gaussian, Identity => true
  | Poisson, LOG => true
  | _, _ => false
  end.

(** twopar: exp_fam.py:809, 989, 1136, 1295, 1444.  Families without scale parameter have scale 1. *)
Definition twopar (f : family) : bool :=
  match f with Binomial _ | Poisson => false | _ => true end.

Section LogProb.
(** scipy.special.gammaln *)
Variable gammaln : R -> R.

(** scipy.stats.norm.logpdf(y, loc, scale) *)
Definition norm_logpdf (y loc scale : R) : R :=
  let x := (y - loc) / scale in - x ^ 2 / 2 - ln (2 * PI) / 2 - ln scale.

(** scipy.stats.gamma.logpdf(y, a, scale) *)
Definition gamma_logpdf (y a scale : R) : R :=
  let x := y / scale in xlogy (a - 1) x - x - gammaln a - ln scale.

(** scipy.stats.invgauss.logpdf(y, mu, scale) *)
Definition invgauss_logpdf (y mu scale : R) : R :=
  let x := y / scale in
  - ln (2 * PI) / 2 - 3 / 2 * ln x - ((x - mu) / mu) ^ 2 / (2 * x) - ln scale.

(** scipy.stats.poisson.logpmf(k, mu) *)
Definition poisson_logpmf (k mu : R) : R := xlogy k mu - gammaln (k + 1) - mu.

(** scipy.stats.binom.logpmf(k, n, p) *)
Definition binom_logpmf (k n p : R) : R :=
  gammaln (n + 1) - (gammaln (k + 1) + gammaln (n - k + 1)) + xlogy k p + xlogy (n - k) (1 - p).

(** Family.lp: exp_fam.py:891, 1050, 1204-1206, 1360-1362, 1503-1504 *)
Definition fam_lp (f : family) (y mu scale : R) : R :=
  match f with
  | Binomial n => binom_logpmf (y * INR n) (INR n) mu
  | Gaussian => norm_logpdf y mu (sqrt scale)
  | Gamma =>
      let alpha := 1 / scale in
      let beta := alpha / mu in
      gamma_logpdf y alpha (1 / beta)
  | InvGauss =>
      let lam := 1 / scale in
      invgauss_logpdf y (mu / lam) lam
  | Poisson => poisson_logpmf y mu
  end.
End LogProb.

(** Family.D: exp_fam.py:951-963, 1109-1110, 1245-1247, 1401-1403, 1543-1551 *)
Definition fam_D (f : family) (y mu : R) : R :=
  match f with
  | Binomial n =>
      let k := y * INR n in
      let kmu := mu * INR n in
      let ratio1 := esub (elog k) (elog kmu) in
      let ratio2 := esub (elog (INR n - k)) (elog (INR n - kmu)) in
      2 * (k * reset ratio1 + (INR n - k) * reset ratio2)
  | Gaussian => (y - mu) ^ 2
  | Gamma =>
      let diff := (y - mu) / mu in
      let ratio := - (ln y - ln mu) in
      2 * (diff + ratio)
  | InvGauss => (y - mu) ^ 2 / (mu ^ 2 * y)
  | Poisson =>
      let diff := y - mu in
      let ratio := escale y (esub (elog y) (elog mu)) in
      2 * reset ratio - 2 * diff
  end.

(** ** Working responses and weights *)

(** PIRLS_pdat_weights, gamm_solvers.py:459-461, for an exponential family: (z, w). *)
Definition fisher_row (dy1 V y mu eta : R) : R * R :=
  (dy1 * (y - mu) + eta, 1 / (dy1 ^ 2 * V)).

(** PIRLS_newton_weights, gamm_solvers.py:519-526 and 529, for an exponential family: (z, w);
    None if the row is marked as invalid because z is infinite (a = 0 implies y <> mu). *)
Definition newton_row (dy1 dy2 V dVy1 y mu eta : R) : option (R * R) :=
  let a := 1 + (y - mu) * (dVy1 / V + dy2 / dy1) in
  if Req_EM_T a 0 then None
  else Some (dy1 * (y - mu) / a + eta, a / (dy1 ^ 2 * V)).

(** The same for an extended family, gamm_solvers.py:449-457 and 511-517; [d2Ddmu] is Ed2Ddmu in
    the Fisher variant. *)
Definition extended_row (dy1 dy2 dDdmu d2Ddmu eta : R) : option (R * R) :=
  let dDde := dDdmu / dy1 in
  let d2Dde := d2Ddmu / dy1 ^ 2 - dDdmu * dy2 / dy1 ^ 3 in
  let w := / 2 * d2Dde in
  if Req_EM_T w 0 then None else Some (eta - 1 / (2 * w) * dDde, w).

(** The two functions for a provided family and link. *)
Definition pirls_fisher (f : family) (l : link) (y mu eta : R) : R * R :=
  fisher_row (link_dy1 l mu) (fam_V f mu) y mu eta.
Definition pirls_newton (f : family) (l : link) (y mu eta : R) : option (R * R) :=
  newton_row (link_dy1 l mu) (link_dy2 l mu) (fam_V f mu) (fam_dVy1 f mu) y mu eta.
