(** Penalties on the diagonal and the attributes set at the end of a fit.
    Source: /repo/src/mssm/src/python/penalties.py (IdentityPenalty.constructor), /repo/src/mssm/models.py (end of
    GSMM.fit), /repo/src/mssm/src/python/gamm_solvers.py (end of solve_gammlss_sparse).

    Numbers are reals instead of floats. *)
From Coq Require Import List Arith Reals.
From Verif Require Import GfitModel.
Import ListNotations.
Local Open Scope R_scope.

(** ** IdentityPenalty *)

(** Values with row and column, the lists of penalties.py:636-644. *)
Definition triplets := list (R * nat * nat).

(** The loop penalties.py:629-634: value f(i + 1), or 1.0 without [f], at (i, i). *)
Definition diagonal (f : option (nat -> R)) (n : nat) : triplets :=
  map (fun i => (match f with None => 1 | Some g => g (i + 1)%nat end, i, i)) (seq 0 n).

(** IdentityPenalty.constructor, penalties.py:622-644: penalty, root, rank.  [constrained]: constraint is not None. *)
Definition identity_constructor (n : nat) (constrained : bool) (f : option (nat -> R)) : triplets * triplets * nat :=
  let n' := if constrained then (n - 1)%nat else n in
  (diagonal f n', diagonal f n', n').

(** ** Attributes of a fitted general model *)

(** Linear predictors: X @ coef, X as list of rows. *)
Definition dot (x b : list R) : R := fold_right Rplus 0 (map (fun p => fst p * snd p) (combine x b)).
Definition mv (X : list (list R)) (b : list R) : list R := map (fun x => dot x b) X.

(** self.coef, self.preds, self.mus; None before the first fit, models.py:242-245. *)
Record attrs := { a_coef : option (list R); a_preds : option (list (list R)); a_mus : option (list (list R)) }.
Definition initial : attrs := {| a_coef := None; a_preds := None; a_mus := None |}.

(** One call of GSMM.fit as far as it matters here: the argument build_mat, the model matrices (those that were built),
    the estimated coefficients, coef_split_idx. *)
Record fit := { f_build : option (list bool); f_Xs : list (list (list R)); f_coef : list R; f_idx : list nat }.

(** The end of GSMM.fit, models.py:1203 and 1222-1228.  [fis]: link.fi of the links of the family, elementwise.
    zip stops at the shorter argument. *)
Definition finish (fis : list (R -> R)) (s : attrs) (c : fit) : attrs :=
  match f_build c with
  | None =>
      let preds := map (fun p => mv (fst p) (snd p)) (combine (f_Xs c) (np_split (f_coef c) (f_idx c))) in
      {| a_coef := Some (f_coef c); a_preds := Some preds;
         a_mus := Some (map (fun p => map (fst p) (snd p)) (combine fis preds)) |}
  | Some _ => {| a_coef := Some (f_coef c); a_preds := a_preds s; a_mus := a_mus s |}
  end.

(** Calls of fit one after the other on the same model. *)
Definition fits (fis : list (R -> R)) (cs : list fit) : attrs := fold_left (finish fis) cs initial.

(** ** Residuals of GAMMLSS *)

(** wres = y - Xs[0] @ split_coef[0], gamm_solvers.py:6414, stored as self.res, models.py:2114. *)
Definition wres (y : list R) (X0 : list (list R)) (b0 : list R) : list R :=
  map (fun p => fst p - snd p) (combine y (mv X0 b0)).
(** mus[0], as returned with etas[0] = Xs[0] @ split_coef[0]; [fi]: inverse of the link of the first parameter. *)
Definition mu0 (fi : R -> R) (X0 : list (list R)) (b0 : list R) : list R := map fi (mv X0 b0).
