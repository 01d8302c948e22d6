(** Model of the density that is sampled and of its gradient: /repo/src/mssm/src/python/mcmc.py, sample_mssm
    (llk_wrapper, grad_wrapper and what they depend on).

    Matrices are mathcomp matrices over the real numbers (exact arithmetic); penalties are grouped by term as in
    RemlModel, so the log smoothing parameters are indexed by group and penalty.  [n] is the number of coefficients
    including those for scale and theta (n_coef + n_scale + n_theta). *)

From Coq Require Import Reals.
From mathcomp Require Import all_ssreflect all_algebra.
From Verif Require Import RealField RealMat RemlModel.
Import GRing.Theory.
Set Implicit Arguments.
Unset Strict Implicit.
Unset Printing Implicit Defensive.
Local Open Scope ring_scope.

Section Joint.
Variables (n n_groups : nat) (gs : nat -> group).
(** cpp_chol, np.linalg.qr and the pseudo-inverse of compute_S_emb_pinv_det. *)
Variables (chol : forall m, 'M[R]_m -> option 'M[R]_m) (qr_r : forall m, 'M[R]_m -> 'M[R]_m)
          (pinv : forall m, 'M[R]_m -> 'M[R]_m).
(** deriv_fam.llk and deriv_fam.gradient (given the data), rho_prior.logpdf and rho_prior.dlpdrho; S_f_emb of
    mcmc.py:870-936 (zero without make_proper); rank of a penalty. *)
Variables (llk : 'cV[R]_n -> R) (gradient : 'cV[R]_n -> 'cV[R]_n)
          (logpdf : (nat -> nat -> R) -> R) (dlpdrho : (nat -> nat -> R) -> nat -> nat -> R)
          (S_f_emb : 'M[R]_n) (pen_rank : nat -> nat -> nat).

(** r_pen[lami].lam, mcmc.py:961-962, :1024-1025. *)
Definition lam (rho : nat -> nat -> R) : nat -> nat -> R := fun g j => exp (rho g j).

(** llk_wrapper with sampled smoothing parameters, mcmc.py:943-952, :961-1010.  (The log-determinant, :979-1001,
    is that of utils.REML without division by the scale.) *)
Definition llk_wrapper (coef : 'cV[R]_n) (rho : nat -> nat -> R) : R :=
  let S_embr := S_emb n n_groups gs (lam rho) + S_f_emb in
  let lgdetS := \sum_(g < n_groups) ldetSI chol qr_r 1 (gs g) (lam rho g) in
  llk coef + logpdf rho - (coef^T *m S_embr *m coef) 0 0 / 2%:R + lgdetS / 2%:R.

(** llk_wrapper with fixed smoothing parameters, :953-957, :855, :939. *)
Definition llk_wrapper_fixed (l : nat -> nat -> R) (coef : 'cV[R]_n) : R :=
  llk coef - (coef^T *m (S_emb n n_groups gs l + S_f_emb) *m coef) 0 0 / 2%:R.

(** grad_wrapper, mcmc.py:1012-1067: the entries for the coefficients. *)
Definition pgrad (coef : 'cV[R]_n) (l : nat -> nat -> R) : 'cV[R]_n :=
  gradient coef - (S_emb n n_groups gs l + S_f_emb) *m coef.

(** grad_wrapper: the entry for a log smoothing parameter, :1051-1065. *)
Definition pen_grads (coef : 'cV[R]_n) (rho : nat -> nat -> R) (g j : nat) : R :=
  let lv := lam rho g j in
  let emb := embed n (SJ (gs g) j) in
  let tr := if FS_use_rank gs g then (pen_rank g j)%:R / lv else \tr (emb *m S_pinv n n_groups gs pinv (lam rho)) in
  - (lv * (coef^T *m emb *m coef) 0 0 / 2%:R) + lv * tr / 2%:R + dlpdrho rho g j.
End Joint.

(** The smoothing parameters for the sampler: model.overall_penalties holds the parameters relative to the scale;
    they are divided by it only if they are sampled (mcmc.py:599, :736-743 and :855). *)
Definition start_lam (sample_rho twopar : bool) (scale : R) (l : nat -> nat -> R) : nat -> nat -> R :=
  if sample_rho && twopar then fun g j => exp (ln (exp (ln (l g j)) / scale)) else l.
