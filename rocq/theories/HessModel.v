(** Model of the covariance matrix of the log smoothing parameters.
    Sources (under /repo/src/mssm/src/python): utils.py (compute_Vp_WPS, updateVp, the last part of estimateVp),
    repara.py (the inverse and the penalties that reparam returns for option 4, form_inverse 2).

    Matrices are mathcomp matrices over the real numbers (exact arithmetic; sparse and dense formats are not told
    apart).  Penalties are indexed by group and position in the group, see RemlModel; no two penalties of
    different groups share a smoothing parameter (what split_shared_penalties and combine_shared_penalties do
    is modelled in PenModel). *)

From Coq Require Import Reals.
From mathcomp Require Import all_ssreflect all_algebra.
From Verif Require Import RealField RealMat RemlModel.
Import GRing.Theory.
Set Implicit Arguments.
Unset Strict Implicit.
Unset Printing Implicit Defensive.
Local Open Scope ring_scope.

(** Sj_reps[.].S_J, repara.py:393-394, :404, :578-591: the penalties after the reparameterization.  As in
    [S_rep], the passes over the penalties are simplified to the rotation they amount to. *)
Definition S_Jrep (g : group) (l : nat -> R) (j : nat) : 'M[R]_(rank g) :=
  if npen g == 1%N then SJbar g j
  else if \rank (SJbar g (am_norm g l)) == rank g then SJbar g j
  else (Qr g l)^T *m SJbar g j *m Qr g l.

(** The first columns of the term's block, into which transformed penalties are embedded: the matrices that
    embed_in_S_sparse receives have [rank g] rows, the block it moves on by has S_coef = [dim g]
    (repara.py:310, :619-628, :670-692). *)
Definition lead (g : group) : 'M[R]_(dim g, rank g) := \matrix_(a, b) ((a == b :> nat)%:R).

Section Model.
Variables (n n_groups : nat) (gs : nat -> group).

(** Embedding of a transformed matrix in all copies of the block: repara.py:619-633 and :670-692. *)
Definition embed_rp (g : group) (M : 'M[R]_(rank g)) : 'M[R]_n := embed n (lead g *m M *m (lead g)^T).

(** cpp_chol: the factor, [None] if the code is not zero. *)
Variable (chol : forall m, 'M[R]_m -> option 'M[R]_m).

(** S_inv, repara.py:655-668: from the inverse of the factor.  Without a factor reparam raises ValueError, which
    is [None] in [Hp]. *)
Definition S_inv (g : group) (l : nat -> R) : 'M[R]_(rank g) :=
  match chol (S_rep g l) with Some L => (invmx L)^T *m invmx L | None => 0 end.
Definition factored (l : nat -> nat -> R) : bool := [forall g : 'I_n_groups, chol (S_rep (gs g) (l g)) != None].

(** S_inv_rp, repara.py:666-692 with form_inverse = 2. *)
Definition S_inv_rp (l : nat -> nat -> R) : 'M[R]_n := \sum_(g < n_groups) embed_rp (S_inv (gs g) (l g)).

(** The arguments of compute_Vp_WPS, utils.py:3102-3110; [D g j] is the D_J_emb of a penalty. *)
Variables (Vbr H : 'M[R]_n) (m : nat) (D : nat -> nat -> 'M[R]_(n, m)) (coef : 'cV[R]_n) (scale : R).
Variable (l : nat -> nat -> R).

(** S_J_emb of penalty [j] of group [g]. *)
Definition emb (g j : nat) : 'M[R]_n := embed n (SJ (gs g) j).

(** utils.py:3157. *)
Definition nH : 'M[R]_n := -1 *: H + scale^-1 *: S_emb n n_groups gs l.

(** Columns of dBetadRhos, utils.py:3160-3165. *)
Definition dBetadRho (g j : nat) : 'cV[R]_n := - l g j *: (Vbr^T *m (Vbr *m (emb g j *m coef))).

(** The five terms, utils.py:3192-3266, for penalty [j] of group [g] and penalty [k] of group [h]. *)
Definition gamma (g j h k : nat) : bool := (g == h) && (j == k).
Definition t1 (g j h k : nat) : R := (-1 *: (dBetadRho g j)^T *m (nH *m dBetadRho h k)) 0 0.
Definition t2 (g j h k : nat) : R :=
  ((l g j / scale) *: coef^T *m emb g j *m dBetadRho h k) 0 0
  + ((l h k / scale) *: coef^T *m emb h k *m dBetadRho g j) 0 0
  + (if gamma g j h k then ((l g j / (2%:R * scale)) *: coef^T *m emb g j *m coef) 0 0 else 0).
Definition t3 (g j h k : nat) : R :=
  if gamma g j h k || (start (gs g) == start (gs h)) then
    2%:R^-1 * (-1 * l g j * l h k * (reps (gs g))%:R
               * \tr (S_inv_rp l *m embed_rp (S_Jrep (gs h) (l h) k) *m S_inv_rp l *m embed_rp (S_Jrep (gs g) (l g) j))
               + (if gamma g j h k then
                    l g j * (reps (gs g))%:R * \tr (S_inv_rp l *m embed_rp (S_Jrep (gs g) (l g) j))
                  else 0))
  else 0.
Definition t4 (g j h k : nat) : R :=
  2%:R^-1 * (\sum_a \sum_b (((D g j)^T *m Vbr^T *m Vbr *m D h k) a b) ^+ 2) * l g j * l h k.
Definition t5 (g j h k : nat) : R :=
  if gamma g j h k then 2%:R^-1 * (\sum_a \sum_b ((Vbr *m D g j) a b) ^+ 2) * l g j else 0.

(** utils.py:3269. *)
Definition Vpij (g j h k : nat) : R := t1 g j h k - t2 g j h k + t3 g j h k + t4 g j h k - t5 g j h k.

(** Hp, utils.py:3185-3279: the entry for two penalties.  It is computed once, for the penalty that comes first in
    the list (here: in the order of groups and positions). *)
Definition Hp (g j h k : nat) : option R :=
  if factored l then
    Some (if (g < h)%N || ((g == h) && (j <= k)%N) then Vpij g j h k else Vpij h k g j)
  else None.
End Model.

(** scp.linalg.eigh: eigenvalues and eigenvectors. *)
Section Inverse.
Variable eigh : forall m, 'M[R]_m -> 'rV[R]_m * 'M[R]_m.

(** Ri and Rir, utils.py:3281-3301 (for the matrix [A] = -Hp), and the covariance matrices that are returned. *)
Definition ire (e : R) : R := if Rlt_dec 0 e then 1 / sqrt e else 0.
Definition ire2 (e : R) : R := if Rlt_dec 0 e then 1 / sqrt (e + 10%:R^-1) else 0.
Definition root (f : R -> R) m (A : 'M[R]_m) : 'M[R]_m :=
  let (eig, U) := eigh A in diag_mx (map_mx f eig) *m U^T.
Definition Vp_WPS m (A : 'M[R]_m) : 'M[R]_m := let Ri := root ire A in Ri^T *m Ri.
Definition Vpr_WPS m (A : 'M[R]_m) : 'M[R]_m := let Rir := root ire2 A in Rir^T *m Rir.

(** updateVp, utils.py:2936-2965: [ws] are the weights and [r] the log smoothing parameters of the candidates. *)
Definition updateVp m N (ep : 'cV[R]_m) (ws : 'I_N -> R) (r : 'I_N -> 'cV[R]_m) : 'M[R]_m :=
  \sum_i ws i *: ((r i - ep) *m (r i - ep)^T).

(** The last part of estimateVp, utils.py:2903-2933: the mean, the covariance matrix made positive semi-definite,
    and the regularized one. *)
Definition mean_rho m N (ws : 'I_N -> R) (r : 'I_N -> 'cV[R]_m) : 'cV[R]_m := \sum_i ws i *: r i.
Definition sqrt_pos (e : R) : R := if Rlt_dec 0 e then sqrt e else 0.
Definition sqrt_reg (e : R) : R := if Rlt_dec 0 e then 1 / (1 / sqrt e + 10%:R^-1) else 0.
Definition Vp_mix m N (ws : 'I_N -> R) (r : 'I_N -> 'cV[R]_m) : 'M[R]_m :=
  let Ri := root sqrt_pos (updateVp (mean_rho ws r) ws r) in Ri^T *m Ri.
Definition Vpr_mix m N (ws : 'I_N -> R) (r : 'I_N -> 'cV[R]_m) : 'M[R]_m :=
  let Rir := root sqrt_reg (updateVp (mean_rho ws r) ws r) in Rir^T *m Rir.
End Inverse.
