(** Derivatives of Cholesky factors (dchol.cpp) and the correction for uncertainty about smoothing
    parameters built from them (utils.py).  Matrices are functions of row and column; sizes are
    passed along. *)

From Coq Require Import Reals List Bool Arith.
From Verif Require Import GlsModel MvnModel.
Import ListNotations.
Local Open Scope R_scope.

(** Products and transposes (Eigen's and numpy's operators); the inner dimension is n. *)
Definition mmul (n : nat) (A B : nat -> nat -> R) : nat -> nat -> R :=
  fun i j => nsum n (fun k => A i k * B k j).
Definition mtr (A : nat -> nat -> R) : nat -> nat -> R := fun i j => A j i.

(** Sum over Eigen::seq(0,i-1), dchol.cpp:57-61. *)
Definition dchol_B (M A dC : nat -> nat -> R) (i j : nat) : R :=
  if (0 <? i)%nat then A i j - nsum i (fun k => dC k i * M k j + M k i * dC k j) else A i j.

(** One pass of the outer loop, dchol.cpp:49-74: row i is filled from the diagonal on.  The inner
    loop only reads earlier rows, R and dRii, so its passes are written as one row. *)
Definition dchol_row (M A : nat -> nat -> R) (dC : nat -> nat -> R) (i : nat) : nat -> nat -> R :=
  let Rii := M i i in
  let dRii := 0.5 * dchol_B M A dC i i / Rii in
  fun r j => if (r =? i)%nat && (i <=? j)%nat then
               if (i =? j)%nat then dRii else (dchol_B M A dC i j - M i j * dRii) / Rii
             else dC r j.

(** dChol, dchol.cpp:32-75. *)
Definition dchol (n : nat) (M A : nat -> nat -> R) : nat -> nat -> R :=
  fold_left (dchol_row M A) (seq 0 n) (fun _ _ => 0).

(** invdChol, dchol.cpp:77-84; the same expression is at utils.py:3434. *)
Definition invdchol (n : nat) (M Minv A : nat -> nat -> R) : nat -> nat -> R :=
  mmul n (mmul n Minv (dchol n M A)) Minv.

(** Vjm of dchol.cpp:103-130: the sum over Eigen::seq(m,Hcols-1). *)
Definition v2_cell (npen n : nat) (Vpr : nat -> nat -> R) (dR : nat -> nat -> nat -> R) (j m : nat) : R :=
  nsum npen (fun l => nsum npen (fun k =>
    total (map (fun i => dR k j i * Vpr k l * dR l m i) (seq m (n - m))))).

(** computeV2, dchol.cpp:86-135: cells with j <= m are computed and copied to (m,j). *)
Definition computeV2 (npen n : nat) (Vpr : nat -> nat -> R) (dR : nat -> nat -> nat -> R) : nat -> nat -> R :=
  fun a b => if (a <=? b)%nat then v2_cell npen n Vpr dR a b else v2_cell npen n Vpr dR b a.

(** ** compute_Vb_corr_WPS, utils.py:3308-3442 *)
Section WPS.
(** npen penalties with weights lam and embedded matrices S_J_emb; n coefficients. *)
Variables npen n : nat.
Variables (lam : nat -> R) (SJ : nat -> nat -> nat -> R) (coef : nat -> R).

(** V, utils.py:3386-3395; [dropped] says whether the argument drop is not None. *)
Definition wps_V (dropped : bool) (scale : R) (Vbr Minv : nat -> nat -> R) : nat -> nat -> R :=
  if dropped then fun i j => mmul n (mtr Vbr) Vbr i j * scale else mmul n Minv (mtr Minv).

(** dBetadRhos[:, [peni]], utils.py:3397-3400: -pen.lam * V @ (pen.S_J_emb @ coef). *)
Definition wps_dbeta (V : nat -> nat -> R) (i peni : nat) : R :=
  nsum n (fun k => - lam peni * V i k * nsum n (fun l => SJ peni k l * coef l)).

(** Vc, utils.py:3406-3407: Vcr = Vr @ dBetadRhos.T; Vcr.T @ Vcr. *)
Definition wps_Vc (Vr : nat -> nat -> R) (dbeta : nat -> nat -> R) : nat -> nat -> R :=
  let Vcr := mmul npen Vr (mtr dbeta) in mmul npen (mtr Vcr) Vcr.

(** scale * Vcc, utils.py:3418-3442. *)
Definition wps_Vcc (scale : R) (M Minv Vpr : nat -> nat -> R) : nat -> nat -> R :=
  let dR := fun p => invdchol n M Minv (fun i j => lam p * SJ p i j) in
  fun i j => scale * computeV2 npen n Vpr dR i j.

(** Both terms, utils.py:3398-3442; [code] is the code of the Cholesky factorisation.  When it is not
    0 the second term is left out (:3411-3412). *)
Definition compute_Vb_corr_WPS (dropped : bool) (scale : R) (Vbr M Minv Vpr Vr : nat -> nat -> R)
    (code : nat) : (nat -> nat -> R) * (nat -> nat -> R) :=
  let dbeta := wps_dbeta (wps_V dropped scale Vbr Minv) in
  (wps_Vc Vr dbeta,
   if (code =? 0)%nat then wps_Vcc scale M Minv Vpr else fun _ _ => 0).
End WPS.
