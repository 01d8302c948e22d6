(** Model of the restricted likelihood criterion and of the derivative that the smoothing parameter updates
    work with.  Sources (under /repo/src/mssm/src/python): utils.py (REML), repara.py (reparam with option 4),
    gamm_solvers.py (compute_S_emb_pinv_det, compute_lgdetD_bsb, calculate_edf).

    Matrices are mathcomp matrices over the real numbers (exact arithmetic; sparse and dense formats are not
    told apart).  Factorisations are parameters; their documented contracts live in RemlSpec.
    The penalties are given as they are after grouping: all penalties with the same start index act on the
    same columns and form one group (repara.py:301-334, gamm_solvers.py:233-269; the grouping itself is
    modelled in PenModel). *)

From Coq Require Import Reals.
From mathcomp Require Import all_ssreflect all_algebra perm.
From Verif Require Import RealField RealMat.
Import GRing.Theory.
Set Implicit Arguments.
Unset Strict Implicit.
Unset Printing Implicit Defensive.
Local Open Scope ring_scope.

(** One group of penalties: number of columns, first column, how often the block is repeated (rep_sj), the
    penalties' S_J.  [Ur] is the basis of the space the penalties act on (repara.py:366-391: eigenvectors of
    the normed sum with non-zero eigenvalue, the identity if there is no other), and [Qr] the rotation that the
    rest of the loop (:413-587) applies for given smoothing parameters; that it is one is C99_transform. *)
Record group := Group {
  dim : nat; start : nat; reps : nat; npen : nat; SJ : nat -> 'M[R]_dim;
  rank : nat; Ur : 'M[R]_(dim, rank); Qr : (nat -> R) -> 'M[R]_rank }.

(** The sum of the penalties of a term, weighted by the smoothing parameters: gamm_solvers.py:243-269. *)
Definition S_term (g : group) (l : nat -> R) : 'M[R]_(dim g) := \sum_(j < npen g) l j *: SJ g j.

(** SJbar, repara.py:384-391. *)
Definition SJbar (g : group) (j : nat) : 'M[R]_(rank g) := (Ur g)^T *m SJ g j *m Ur g.

(** norm_group and np.argmax, repara.py:415-423: the first penalty with the largest norm (here squared). *)
Definition norm_group (g : group) (l : nat -> R) (j : nat) : R := \sum_a \sum_b (l j * SJbar g j a b) ^+ 2.
Definition am_norm (g : group) (l : nat -> R) : nat :=
  foldl (fun best j => if Rlt_dec (norm_group g l best) (norm_group g l j) then j else best) 0%N (iota 0 (npen g)).

(** S_rep, repara.py:393-395, :404-440 and :593-594: the term's penalty after the reparameterization.  If the
    largest of several penalties has full rank in the first pass, the loop is left without S_rep, which is then
    set from the first penalty.  Otherwise the numerical separation of penalties of different size
    (:443-587) is simplified to the rotation it amounts to; ranks are exact. *)
Definition S_rep (g : group) (l : nat -> R) : 'M[R]_(rank g) :=
  if npen g == 1%N then l 0%N *: SJbar g 0
  else if \rank (SJbar g (am_norm g l)) == rank g then l 0%N *: SJbar g 0
  else (Qr g l)^T *m (\sum_(j < npen g) l j *: SJbar g j) *m Qr g l.

Section Model.
Variable n : nat.

(** Where copy [c] of the block sits among all columns. *)
Definition columns (g : group) (c : nat) : 'M[R]_(n, dim g) :=
  \matrix_(i, a) ((i == (start g + c * dim g + a)%N :> nat)%:R).
(** S_J_emb and the pseudo-inverse's blocks: gamm_solvers.py:359-369 and the embedding of S_J (PenModel). *)
Definition embed (g : group) (M : 'M[R]_(dim g)) : 'M[R]_n :=
  \sum_(c < reps g) columns g c *m M *m (columns g c)^T.

Variables (n_groups : nat) (gs : nat -> group).

(** S_emb, gamm_solvers.py:237-240; [l g j] is the smoothing parameter of penalty [j] of group [g]. *)
Definition S_emb (l : nat -> nat -> R) : 'M[R]_n :=
  \sum_(g < n_groups) \sum_(j < npen (gs g)) l g j *: embed (SJ (gs g) j).

(** S_pinv, gamm_solvers.py:285-376: blocks only for terms with more than one penalty. *)
Definition S_pinv (pinv : forall m, 'M[R]_m -> 'M[R]_m) (l : nat -> nat -> R) : 'M[R]_n :=
  \sum_(g < n_groups | (1 < npen (gs g))%N) embed (pinv _ (S_term (gs g) (l g))).

(** FS_use_rank, gamm_solvers.py:289-300, :371-372. *)
Definition FS_use_rank (g : nat) : bool := npen (gs g) == 1%N.

(** compute_lgdetD_bsb, gamm_solvers.py:92-100. *)
Definition compute_lgdetD_bsb (rk : option nat) (cLam : R) (gInv emb : 'M[R]_n) (coef : 'cV[R]_n) : R * R :=
  (match rk with Some r => r%:R / cLam | None => \tr (gInv *m emb) end,
   (coef^T *m emb *m coef) 0 0).

(** Bps, gamm_solvers.py:969-970 (and compute_B for a dense factor). *)
Definition trace_term m (InvCholXXS : 'M[R]_n) (D_J_emb : 'M[R]_(n, m)) : R :=
  \sum_i \sum_j ((InvCholXXS *m D_J_emb) i j) ^+ 2.

(** cpp_chol: the factor, [None] if the code is not zero.  cpp_cholP: the factor of the matrix with rows and
    columns permuted, and the permutation.  np.linalg.qr(., mode="r"). *)
Variables (chol : forall m, 'M[R]_m -> option 'M[R]_m) (cholP : forall m, 'M[R]_m -> option ('M[R]_m * 'S_m))
          (qr_r : forall m, 'M[R]_m -> 'M[R]_m).

(** Sdiag, utils.py:2234 and :2266, and PI @ A @ PI. *)
Definition Sdiag m (A : 'M[R]_m) (i : 'I_m) : R := sqrt (Rabs (A i i)).
Definition scaled m (A : 'M[R]_m) : 'M[R]_m :=
  let PI := diag_mx (\row_i (Sdiag A i)^-1) in PI *m A *m PI.

(** ldetSI, utils.py:2234-2251. *)
Definition ldetSI (scale : R) (g : group) (l : nat -> R) : R :=
  let A := scale^-1 *: S_rep g l in
  match chol (scaled A) with
  | Some L => 2%:R * (\sum_i ln (L i i * Sdiag A i)) * (reps g)%:R
  | None => (\sum_i ln (Rabs (qr_r (S_rep g l) i i))) * (reps g)%:R
  end.

(** lgdetXXS, utils.py:2266-2279; [None]: ValueError.  (P @ L).diagonal() pairs P with the factor of the
    permuted matrix. *)
Definition lgdetXXS (H_pen : 'M[R]_n) : option R :=
  match cholP (scaled H_pen) with
  | Some (L, _) => Some (2%:R * \sum_i ln (Sdiag H_pen i * L i i))
  | None => None
  end.

(** Mp, repara.py:360, :381. *)
Definition Mp : nat := start (gs 0) + \sum_(g < n_groups) (dim (gs g) - rank (gs g)).

(** REML, utils.py:2195-2282, without dropped coefficients ([keep] is None). *)
Definition REML (llk : R) (nH : 'M[R]_n) (coef : 'cV[R]_n) (scale : R) (l : nat -> nat -> R) : option R :=
  let reml := llk - (coef^T *m S_emb l *m coef) 0 0 / scale / 2%:R in
  let lgdetS := \sum_(g < n_groups) ldetSI scale (gs g) (l g) in
  match lgdetXXS (nH + scale^-1 *: S_emb l) with
  | Some d => Some (reml + lgdetS / 2%:R - d / 2%:R + Mp%:R * ln (2%:R * PI) / 2%:R)
  | None => None
  end.
End Model.
