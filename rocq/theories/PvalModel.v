(** Approximate p-values of smooth terms: approx_smooth_p_values, utils.py:1096-1538, and the degrees of freedom listed by
    print_smooth_terms, utils.py:808-1023. *)

From Coq Require Import List Bool Arith Reals.
Import ListNotations.

(** ** Which coefficients are tested *)

(** What is used of a term: number of coefficients and how many of them __get_coef_info counts as unpenalised
    (formula.py:793-874), levels of the by-factor and whether the levels share one smooth (id). *)
Record sterm := STerm { t_coef : nat; t_unpen : nat; t_by : option nat; t_id : bool; t_fs : bool }.

(** The terms of a formula in the order in which their coefficients are laid out. *)
Record form := Form { linear : list sterm; irfs : list sterm; smooths : list sterm; randoms : list sterm }.
Definition all_terms (f : form) : list sterm := linear f ++ irfs f ++ smooths f ++ randoms f.

(** unpenalized_coef, formula.py:783-874. *)
Definition unpenalized_coef (f : form) : nat := list_sum (map t_unpen (all_terms f)).

(** The loop over smooth terms, utils.py:1249-1284, 1528-1536: for every test first coefficient, number of coefficients and
    the index into term_edf. *)
Fixpoint tests (l : list sterm) (start_coef edf_idx : nat) : list (nat * nat * nat) :=
  match l with
  | [] => []
  | t :: r =>
      if t_fs t then tests r (start_coef + t_coef t) (edf_idx + 1)
      else
        let n_levels := match t_by t with Some k => if t_id t then 1 else k | None => 1 end in
        let n_s := match t_by t with Some k => if t_id t then t_coef t else t_coef t / k | None => t_coef t end in
        map (fun i => (start_coef + i * n_s, n_s, edf_idx + i)) (seq 0 n_levels)
          ++ tests r (start_coef + n_levels * n_s) (edf_idx + n_levels)
  end.
Definition approx_tests (f : form) : list (nat * nat * nat) := tests (smooths f) (unpenalized_coef f) 0.

(** The entries of term_edf that print_smooth_terms shows for smooth and for random terms, utils.py:901-1001 (a random
    intercept has no by-factor, a random slope no id). *)
Fixpoint shown (l : list sterm) (edf_idx : nat) : list nat :=
  match l with
  | [] => []
  | t :: r =>
      let n := match t_by t with Some k => if t_id t then 1 else k | None => 1 end in
      map (fun i => edf_idx + i) (seq 0 n) ++ shown r (edf_idx + n)
  end.
Definition shown_edf (f : form) : list nat := shown (smooths f ++ randoms f) 0.

(** ** The test statistic *)
Local Open Scope R_scope.

Definition sum_to (n : nat) (f : nat -> R) : R := fold_right Rplus 0 (map f (seq 0 n)).
(** np.sign *)
Definition sign (x : R) : R := if Rlt_dec x 0 then -1 else if Rlt_dec 0 x then 1 else 0.

(** (s_coef.T @ R.T @ (U @ S @ U.T) @ R @ s_coef)[0, 0] for [b] = R @ s_coef of length [n], U with [m] columns. *)
Definition quadratic (n m : nat) (U S : nat -> nat -> R) (b : nat -> R) : R :=
  sum_to n (fun r => sum_to n (fun q => b r * sum_to m (fun i => sum_to m (fun j => U r i * S i j * U q j)) * b q)).
(** U *= sign *)
Definition signed (U : nat -> nat -> R) (sg : nat -> R) : nat -> nat -> R := fun r c => U r c * sg c.

(** S of the case that the degrees of freedom are the integer k, utils.py:1299-1302. *)
Definition S_int (k : nat) (s : nat -> R) : nat -> nat -> R := fun i j => if (i =? j)%nat then (if (i <? k)%nat then 1 / s i else 0) else 0.
(** S otherwise, utils.py:1341-1356: 1 / lam for the first k - 1, and the 2 x 2 block B = Lb @ Bb @ Lb.T. *)
Definition S_real (k : nat) (v : R) (s : nat -> R) : nat -> nat -> R := fun i j =>
  let p := sqrt (v * (1 - v) / 2) in
  let l0 := / sqrt (s (k - 1)%nat) in let l1 := / sqrt (s k) in
  if (i <? k - 1)%nat || (j <? k - 1)%nat then (if (i =? j)%nat then 1 / s i else 0)
  else if (i =? k - 1)%nat && (j =? k - 1)%nat then l0 * 1 * l0
  else if (i =? k)%nat && (j =? k)%nat then l1 * v * l1
  else l0 * p * l1.

(** The two statistics, utils.py:1304-1314, 1335-1367; [U] holds the eigenvectors as eigh returns them, in decreasing order
    of the eigenvalues [s].  U *= sign is applied twice to the same array. *)
Definition statistics (n k : nat) (v : R) (s : nat -> R) (U : nat -> nat -> R) (b : nat -> R) : R * R :=
  let sg := fun c => sign (U 0%nat c) in
  let U1 := signed U sg in
  let U2 := signed U1 sg in
  if Req_EM_T v 0 then (quadratic n n U1 (S_int k s) b, quadratic n n U2 (S_int k s) b)
  else (quadratic n (S k) U1 (S_real k v s) b, quadratic n (S k) U2 (S_real k v s) b).

(** p-value and statistic of one smooth, utils.py:1285-1526.  [pval k v x]: probability of a larger value for degrees of freedom
    k + v, from the F, chi-square, or weighted chi-square distribution; [div]: whether the statistic is divided by k + v (estimated
    scale).  [k = 0]: fully penalised. *)
Definition smooth_test (pval : nat -> R -> R -> R) (div : bool) (n k : nat) (v : R) (s : nat -> R) (U : nat -> nat -> R) (b : nat -> R) : R * R :=
  if (k =? 0)%nat then (1, -1)
  else
    let '(t1, t2) := statistics n k v s U b in
    let p := (pval k v t1 + pval k v t2) / 2 in
    let sc t := if div then t / (INR k + v) else t in
    (p, Rmax (sc t1) (sc t2)).
