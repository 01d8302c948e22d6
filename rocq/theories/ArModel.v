(** AR(1) residuals: the whitening transform (utils.py), the log-likelihood of additive models
    (models.py) and the correction of hidden semi-Markov models (hsmm.py).  Real numbers;
    rounding is not modelled. *)

From Coq Require Import List Arith Bool Reals.
Import ListNotations.
Local Open Scope R_scope.

(** ** computeAr1Chol, utils.py:58-100 *)

(** 1 / np.sqrt(1 - np.power(rho, 2)), utils.py:76 *)
Definition ar_w (rho : R) : R := 1 / sqrt (1 - rho * rho).

(** v[mask], selection by a boolean mask. *)
Fixpoint masked {A} (v : list A) (mask : list bool) : list A :=
  match v, mask with
  | x :: v', b :: mask' => if b then x :: masked v' mask' else masked v' mask'
  | _, _ => []
  end.

(** start = np.tile(False, n); start[sid] = True; start[NOT_NA_flat], utils.py:81-83.  Entries of
    sid are row numbers. *)
Definition start_flags (not_na : list bool) (sid : list nat) : list bool :=
  masked (map (fun i => existsb (Nat.eqb i) sid) (seq 0 (length not_na))) not_na.

(** np.where(mask)[0], utils.py:84 *)
Definition where_true (mask : list bool) : list nat :=
  filter (fun i => nth i mask false) (seq 0 (length mask)).

(** v[idx] = x for a list of positions. *)
Definition put (v : list R) (idx : list nat) (x : R) : list R :=
  map (fun p => if existsb (Nat.eqb (fst p)) idx then x else snd p)
      (combine (seq 0 (length v)) v).

(** utils.py:74-100.  [not_na] is formula.NOT_NA_flat, [sid] is formula.sid if formula.series_id
    is not None.  Returned: the diagonal d0, the diagonal d1 above it, and llc.  None: no row is
    left (np.tile with a negative number of repetitions). *)
Definition computeAr1Chol (not_na : list bool) (sid : option (list nat)) (rho : R)
  : option (list R * list R * R) :=
  match length (filter (fun b => b) not_na) with
  | O => None
  | S m =>
      let d0 := repeat (ar_w rho) (S m) in
      let d1 := repeat (- rho / sqrt (1 - rho * rho)) m in
      match sid with
      | Some s =>
          let start := start_flags not_na s in
          let sid0 := where_true start in
          let sid1 := map (fun i => i - 1)%nat (skipn 1 sid0) in
          Some (put d0 sid0 1, put d1 sid1 0,
                (INR (S m) - INR (length (filter (fun b => b) start))) * ln (ar_w rho))
      | None => Some (put d0 [0%nat] 1, d1, (INR (S m) - 1) * ln (ar_w rho))
      end
  end.

(** scp.sparse.diags_array([d0, d1], offsets=[0, 1]), utils.py:91, entry (i,j). *)
Definition banded (d0 d1 : list R) (i j : nat) : R :=
  if (i =? j)%nat then nth i d0 0 else if (S i =? j)%nat then nth i d1 0 else 0.

(** Lrhoi.T @ v (gamm_solvers.py:2788, models.py res_ar, hsmm.py:124): the sum of the two
    diagonals' contributions to each row. *)
Definition apply_tr (d0 d1 : list R) (v : nat -> R) (j : nat) : R :=
  match j with
  | O => nth 0 d0 0 * v O
  | S i => nth i d1 0 * v i + nth (S i) d0 0 * v (S i)
  end.

(** ** GAMM.get_llk, models.py:2681-2744, for a Gaussian model with identity link and rho. *)

(** Gaussian.llk, exp_fam.py:1031-1070: the sum of norm.logpdf(y, loc=mu, scale=sqrt(scale)). *)
Definition gaussian_llk (n : nat) (y mu : nat -> R) (scale : R) : R :=
  fold_right Rplus 0
    (map (fun i => - ((y i - mu i) * (y i - mu i)) / (2 * scale) - ln (2 * PI * scale) / 2) (seq 0 n)).

(** models.py:2707-2743.  [res_ar] is Lrhoi.T @ (y - mu) (gamm_solvers.py:3144-3170), [pen_half] is
    0.5*self.penalty or 0. *)
Definition gamm_get_llk (n : nat) (res_ar : nat -> R) (scale pen_half ar_cor : R) : R :=
  let pen := pen_half - ar_cor in
  gaussian_llk n res_ar (fun _ => 0) scale - pen.

(** ** HSMMFamily.llk, hsmm.py:2999-3005 and 3077-3080 *)

(** llc = np.log(d0[d0 != 1]).sum(), hsmm.py:3004 *)
Definition hsmm_llc (d0 : list R) : R :=
  fold_right Rplus 0 (map (fun d => if Req_EM_T d 1 then 0 else ln d) d0).

(** hsmm.py:3077-3080; [forward] is the log-likelihood of the transformed series. *)
Definition hsmm_llk (forward : R) (d0 : list R) : R := forward - hsmm_llc d0.

(** rho = np.sqrt(-1 * (np.power(1 / Lrhoi[1, 1], 2) - 1)), hsmm.py:1385 and 3005 *)
Definition hsmm_rho (d0 : list R) : R := sqrt (-1 * ((1 / nth 1 d0 0) * (1 / nth 1 d0 0) - 1)).

(** compute_od_probs, hsmm.py:395-399 and 573-600: the expected value at time t in a bump of the
    transformed series, after [d] samples in the bump; [mu] is mus[:, m, j], [template] is
    event_template. *)
Definition bump_mean (rho : R) (template : list R) (mu : nat -> R) (d t : nat) : R :=
  let w0 := 1 / sqrt (1 - rho * rho) in
  let w1 := - rho / sqrt (1 - rho * rho) in
  let E := nth d template 0 * mu t in
  match d with
  | O => w0 * E
  | S d' => w0 * E + w1 * (nth d' template 0 * match t with O => 0 | S t' => mu t' end)
  end.
