(** The multivariate Gaussian family (exp_fam.py:4582-5240).  Matrices are functions of row and
    column. *)

From Coq Require Import Reals List Bool Arith.
From Verif Require Import FamModel GlsModel.
Import ListNotations.
Local Open Scope R_scope.

(** Sum of f over range(n). *)
Definition nsum (n : nat) (f : nat -> R) : R := total (map f (seq 0 n)).

(** Position of the first entry of block k when blocks have the given lengths, as the running
    indices of the loops (dat_idx, total_idx, checked_idx). *)
Definition off (len : nat -> nat) (k : nat) : nat := fold_left (fun s i => s + len i)%nat (seq 0 k) 0%nat.

(** __thet_idx, exp_fam.py:4642-4645, for n_par = m *)
Definition thet_idx (m : nat) : list (nat * nat) :=
  flat_map (fun i => map (fun j => (i, j)) (seq i (m - i))) (seq 0 m).

(** extra_coef, exp_fam.py:4640 *)
Definition extra_coef (m : nat) : nat := m * (m + 1) / 2.

(** One pass of the loop in getR, exp_fam.py:4698-4704; the state is (R, dat_idx, logdet). *)
Definition getR_step (m : nat) (theta : nat -> R) (st : (nat -> nat -> R) * nat * R) (k : nat)
  : (nat -> nat -> R) * nat * R :=
  let '(M, dat_idx, logdet) := st in
  let M1 := fun r c => if (r =? k)%nat && (k <=? c)%nat && (c <? m)%nat
                       then theta (dat_idx + (c - k))%nat else M r c in
  let logdet1 := logdet + M1 k k in
  let M2 := fun r c => if (r =? k)%nat && (c =? k)%nat then exp (M1 k k) else M1 r c in
  (M2, (dat_idx + (m - k))%nat, logdet1).

(** getR, exp_fam.py:4692-4706 *)
Definition getR (m : nat) (theta : nat -> R) : (nat -> nat -> R) * R :=
  let '(M, _, logdet) := fold_left (getR_step m theta) (seq 0 m) (fun _ _ => 0, 0%nat, 0) in
  (M, logdet).

Section Mvn.
(** m means, n observations, p k columns of the model matrix X k of mean k (after None has been
    replaced by the first matrix), links and responses y i k. *)
Variables (m n : nat) (p : nat -> nat) (X : nat -> nat -> nat -> R) (links : nat -> link)
          (y : nat -> nat -> R).

(** predict, exp_fam.py:5142-5154.  coef_split_idx holds the cumulative numbers of columns, as
    GSMM.fit sets it (models.py:1069-1073). *)
Definition mvn_mu (coef : nat -> R) (i k : nat) : R :=
  link_fi (links k) (nsum (p k) (fun c => X k i c * coef (off p k + c)%nat)).
Definition mvn_theta (coef : nat -> R) : nat -> R := fun t => coef (off p m + t)%nat.

(** (y - mus) @ R.T *)
Definition mvn_ymu (coef : nat -> R) (i c : nat) : R := y i c - mvn_mu coef i c.
Definition mvn_yR (coef : nat -> R) (i r : nat) : R :=
  nsum m (fun c => mvn_ymu coef i c * fst (getR m (mvn_theta coef)) r c).

(** llk, exp_fam.py:4742-4757 *)
Definition mvn_llk (coef : nat -> R) : R :=
  - / 2 * nsum n (fun i => nsum m (fun r => mvn_yR coef i r * mvn_yR coef i r))
  + INR n * snd (getR m (mvn_theta coef)).

(** gradient, exp_fam.py:4794-4854.  Entries in the order in which they are written. *)
Definition mvn_grad_mean (coef : nat -> R) (k a : nat) : R :=
  nsum n (fun i => X k i a * nsum m (fun r => fst (getR m (mvn_theta coef)) r k * mvn_yR coef i r)).

(** The matrix Rp of a cell, lines 4833 and 4961, 4970 *)
Definition mvn_Rp (coef : nat -> R) (mr mc r c : nat) : R :=
  if (r =? mr)%nat && (c =? mc)%nat
  then (if (mr =? mc)%nat then fst (getR m (mvn_theta coef)) mr mr else 1) else 0.

Definition mvn_grad_theta (coef : nat -> R) (mr mc : nat) : R :=
  let dldtheta := - nsum n (fun i => nsum m (fun r =>
        mvn_yR coef i r * nsum m (fun c => mvn_ymu coef i c * mvn_Rp coef mr mc r c))) in
  if (mr =? mc)%nat then dldtheta + INR n else dldtheta.

Definition mvn_gradient (coef : nat -> R) : list R :=
  flat_map (fun k => map (mvn_grad_mean coef k) (seq 0 (p k))) (seq 0 m)
  ++ flat_map (fun mr => map (mvn_grad_theta coef mr) (seq mr (m - mr))) (seq 0 m).

(** The mean coefficient j belongs to: the loop with break, exp_fam.py:4936-4940 *)
Fixpoint find_par (j idx : nat) (par_n_coef : list nat) : nat :=
  match par_n_coef with
  | [] => idx
  | x :: rest => if (j <? x)%nat then idx else find_par j (idx + 1) rest
  end.

(** par_n_coef, exp_fam.py:4911-4916 *)
Definition par_n_coef : list nat := map (fun k => off p (k + 1)) (seq 0 m).

(** jcolhessian, exp_fam.py:4888-4984; None: __thet_idx[parj_idx] raises IndexError. *)
Definition mvn_jcolhessian (j : nat) (coef : nat -> R) : option (list R) :=
  let M := fst (getR m (mvn_theta coef)) in
  let ymu := mvn_ymu coef in
  let n_coef := off p m in
  if (j <? n_coef)%nat then
    let parj := find_par j 0 par_n_coef in
    let cj := if (parj =? 0)%nat then j else (j - nth (parj - 1) par_n_coef 0)%nat in
    let xbarj := fun q i => if (q =? parj)%nat then X parj i cj else 0 in
    let RRx := fun mui i => nsum m (fun q => nsum m (fun r => M r mui * M r q) * xbarj q i) in
    Some (
      flat_map (fun mui => map (fun a => - nsum n (fun i => X mui i a * RRx mui i)) (seq 0 (p mui))) (seq 0 m)
      ++ flat_map (fun mr => map (fun mc =>
           let Rpi := mvn_Rp coef mr mc in
           let RiRp := fun q c => nsum m (fun r => Rpi r q * M r c) + nsum m (fun r => M r q * Rpi r c) in
           nsum n (fun i => xbarj parj i * nsum m (fun c => RiRp parj c * ymu i c)))
           (seq mr (m - mr))) (seq 0 m))
  else
    match nth_error (thet_idx m) (j - n_coef) with
    | None => None
    | Some (t0, t1) =>
        let Rpj := mvn_Rp coef t0 t1 in
        let RJRp := fun q c => nsum m (fun r => Rpj r q * M r c) + nsum m (fun r => M r q * Rpj r c) in
        Some (
          flat_map (fun mui => map (fun a =>
            nsum n (fun i => X mui i a * nsum m (fun c => RJRp mui c * ymu i c))) (seq 0 (p mui))) (seq 0 m)
          ++ flat_map (fun mr => map (fun mc =>
               let Rpi := mvn_Rp coef mr mc in
               let yRpj := fun i r => nsum m (fun c => ymu i c * Rpj r c) in
               let yRpi := fun i r => nsum m (fun c => ymu i c * Rpi r c) in
               let d2 := fun i r => yRpj i r * yRpi i r in
               let d2 := if (mr =? t0)%nat && (mc =? t1)%nat
                         then fun i r => d2 i r + mvn_yR coef i r * yRpj i r else d2 in
               - nsum n (fun i => nsum m (fun r => d2 i r)))
               (seq mr (m - mr))) (seq 0 m))
    end.
End Mvn.
