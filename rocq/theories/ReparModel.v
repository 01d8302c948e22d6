(** Model of the similarity transform that separates the penalties of a term (Wood, 2011, appendix B):
    /repo/src/mssm/src/python/repara.py, reparam with option 4.

    A matrix is a function from row and column to its entry; the number of rows and columns is an argument where
    it matters.  Exact real arithmetic; sparse and dense formats are not told apart. *)

From Coq Require Import Reals.
From mathcomp Require Import all_ssreflect all_algebra.
From Verif Require Import RealField RealMat.
Import GRing.Theory.
Set Implicit Arguments.
Unset Strict Implicit.
Unset Printing Implicit Defensive.
Local Open Scope ring_scope.

(** np.identity and np.zeros (repara.py:487-512, :533-569); matrix products, transposes, sums and multiples as
    used throughout repara.py:366-587. *)
Definition mat := nat -> nat -> R.
Definition eye : mat := fun i j => (i == j)%:R.
Definition zeros : mat := fun _ _ => 0.
(** A @ B with [p] columns of A, and A.T. *)
Definition mul (p : nat) (A B : mat) : mat := fun i j => \sum_(a < p) A i a * B a j.
Definition tr (A : mat) : mat := fun i j => A j i.
Definition add (A B : mat) : mat := fun i j => A i j + B i j.
Definition scale (a : R) (A : mat) : mat := fun i j => a * A i j.
(** U[:, r:] and S_rep[:K, K:] (repara.py:444, :517), np.diag (:450). *)
Definition cols_from (k : nat) (A : mat) : mat := fun i j => A i (k + j)%N.
Definition diag (d : nat -> R) : mat := fun i j => if i == j then d i else 0.
(** np.concatenate of four blocks (repara.py:476-482, :523-529), the upper left one with [r] rows and [c] columns. *)
Definition block (r c : nat) (A B C D : mat) : mat := fun i j =>
  if (i < r)%N then (if (j < c)%N then A i j else B i (j - c)%N)
  else (if (j < c)%N then C (i - r)%N j else D (i - r)%N (j - c)%N).

(** scp.linalg.eigh followed by np.flip: eigenvalues in decreasing order and eigenvectors.  The tolerance eps. *)
Section Model.
Variables (eigh : nat -> mat -> (nat -> R) * mat) (eps : R).

(** D > max(D) * eps, repara.py:379-380 and :437; max(D) is the first entry. *)
Definition positive (q : nat) (D : nat -> R) : nat := count (fun i => if Rlt_dec (D 0%N * eps) (D i) then true else false) (iota 0 q).

(** scp.sparse.linalg.norm(. , ord="fro"). *)
Definition norm (q : nat) (A : mat) : R := sqrt (\sum_(i < q) \sum_(j < q) A i j ^+ 2).

(** The variables of the loop, repara.py:404-411.  Q_rep is kept with its number of rows. *)
Record state := State {
  S_rep : option mat; Q_rep : option (nat * mat); SJbar : nat -> mat; S_Jrep : nat -> mat;
  K : nat; Q : nat; rem_idx : seq nat }.

Variables (dim npen : nat) (SJ : nat -> mat) (lam : nat -> R).

(** np.argmax over the remaining penalties, repara.py:415-423. *)
Definition am_norm (s : state) : nat :=
  foldl (fun best j => if Rlt_dec (norm (Q s) (scale (lam best) (SJbar s best))) (norm (Q s) (scale (lam j) (SJbar s j))) then j else best)
        (head 0%N (rem_idx s)) (behead (rem_idx s)).

(** Padding with an identity for the dropped dimensions, repara.py:496-512, :554-569.  [r0] is the dimension of
    the range space; there is no padding if Q_rep0 is None, which is the case if it is [dim]. *)
Definition padded (r0 : nat) (T : mat) : mat := if (r0 < dim)%N then block r0 r0 T zeros zeros eye else T.

Inductive outcome := Break (r : nat) | Next (s : state) | Error.

(** One pass of the loop, repara.py:413-587. *)
Definition pass (r0 : nat) (s : state) : outcome :=
  let am := am_norm s in
  let (D, U) := eigh (Q s) (scale (lam am) (SJbar s am)) in
  let r := positive (Q s) D in
  if r == Q s then Break r else
  let n := (Q s - r)%N in
  let Un := cols_from r U in
  let Ur := U in
  let rest := [seq j <- rem_idx s | j != am] in
  match rest with
  | [::] => Error
  | _ =>
    let Sjk := fun i j => \sum_(k <- rest) lam k * SJbar s k i j in
    let tSt A B := mul (Q s) (tr A) (mul (Q s) Sjk B) in
    let C := block r r (add (diag D) (tSt Ur Ur)) (tSt Ur Un) (tSt Un Ur) (tSt Un Un) in
    let BU := mul (Q s) (cols_from (K s) (odflt zeros (S_rep s))) U in
    let S_rep' := match S_rep s with
                  | None => C
                  | Some A => block (K s) (K s) A BU (tr BU) C
                  end in
    let Ur0 : mat := fun i j => if (j < r)%N then U i j else 0 in
    let Ta := match S_rep s with None => Ur0 | Some _ => block (K s) (K s) eye zeros zeros Ur0 end in
    let Tg := match S_rep s with None => U | Some _ => block (K s) (K s) eye zeros zeros U end in
    let Q_rep' := match S_rep s, Q_rep s with
                  | Some _, Some (rows, Q0) => Some (rows, mul rows Q0 (padded r0 Tg))
                  | _, _ => Some (if (r0 < dim)%N then dim else r0, padded r0 Tg)
                  end in
    Next (State (Some S_rep') Q_rep'
      (fun j => if (j \in rem_idx s) && (j != am) then mul (Q s) (tr Un) (mul (Q s) (SJbar s j) Un) else SJbar s j)
      (fun j => if j \in rem_idx s then
                  (if j == am then mul r0 (tr Ta) (mul r0 (S_Jrep s j) Ta) else mul r0 (tr Tg) (mul r0 (S_Jrep s j) Tg))
                else S_Jrep s j)
      (K s + r) n rest)
  end.

(** while True; every pass removes one index, so [npen] passes are enough (C99_passes). *)
Fixpoint loop (r0 fuel : nat) (s : state) : option (state * nat) :=
  match fuel with
  | 0%N => None
  | f.+1 => match pass r0 s with Break r => Some (s, r) | Next s' => loop r0 f s' | Error => None end
  end.

(** The body of the loop over terms, repara.py:361-605: the transformed total penalty, the transformed penalties
    and the basis ([None]: an exception).  The products of matrices of different shapes raise an exception. *)
Definition reparam_term : option (nat * mat * (nat -> mat) * mat) :=
  let normed_S := fun i j => \sum_(k < npen) SJ k i j / norm dim (SJ k) in
  let (D, U) := eigh dim normed_S in
  let r := positive dim D in
  let SJbar0 := fun k => if (r < dim)%N then mul dim (tr U) (mul dim (SJ k) U) else SJ k in
  if npen == 1%N then
    Some (r, scale (lam 0%N) (SJbar0 0%N), SJbar0, if (r < dim)%N then U else eye)
  else
    match loop r npen (State None None SJbar0 SJbar0 0 r (iota 0 npen)) with
    | None => None
    | Some (s, r') =>
      let Sr := match S_rep s with Some A => A | None => scale (lam 0%N) (SJbar s 0%N) end in
      let (rows, T) := match Q_rep s with Some x => x | None => (r', eye) end in
      if (r < dim)%N then (if rows == dim then Some (r, Sr, S_Jrep s, mul dim U T) else None)
      else Some (r, Sr, S_Jrep s, T)
    end.
End Model.
