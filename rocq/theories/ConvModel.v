(** Which statistics decide about convergence: /repo/src/mssm/src/python/mcmc.py, check_convergence.

    An array of samples is a list (one entry per chain) of lists of rows.  [stat] is one of arviz.ess, arviz.rhat and
    arviz.mcse for one parameter: a function of its values in every half chain.  Design matrices have integer
    entries (only signs of column sums matter). *)

From Coq Require Import List Arith ZArith Bool.
From Verif Require Import StoreModel.
Import ListNotations.

Section Conv.
Variables (A B : Type) (dummy : A) (stat : list (list A) -> B).

(** par_samples_split, mcmc.py:117-134: the halves of every chain (without the last row if their number is odd). *)
Definition halves (arr : array A) : array A :=
  flat_map (fun rows => let N := length rows in let N := if Nat.eqb (N mod 2) 0 then N else N - 1 in
                        [firstn (N / 2) (firstn N rows); skipn (N / 2) (firstn N rows)]) arr.
(** The values of parameter [p]. *)
Definition values (p : nat) (arr : array A) : list (list A) := map (map (fun row => nth p row dummy)) arr.
(** ess.x.data, mcmc.py:136-143; [w] is the number of parameters. *)
Definition stats (w : nat) (arr : array A) : list B := map (fun p => stat (values p (halves arr))) (seq 0 w).

(** np.split(v, idx). *)
Fixpoint split_at (v : list B) (from : nat) (idx : list nat) : list (list B) :=
  match idx with
  | [] => [skipn from v]
  | i :: idx => skipn from (firstn i v) :: split_at v i idx
  end.

(** np.arange(fixedX.shape[1])[fixedX.sum(axis=0) > 0], mcmc.py:175. *)
Definition column_sum (X : list (list Z)) (k : nat) : Z := fold_right Z.add 0%Z (map (fun row => nth k row 0%Z) X).
Definition fcidx (w : nat) (X : list (list Z)) : list nat := filter (fun k => (0 <? column_sum X k)%Z) (seq 0 w).

(** split_ess[fidx][fcidx] for all formulas, mcmc.py:164-179: (number of columns, fixedX) per formula.  (A position
    outside the block raises an exception; here it is skipped.) *)
Fixpoint pick (l : list (list B)) (forms : list (nat * list (list Z))) : list B :=
  match l, forms with
  | v :: l, (w, X) :: forms => flat_map (fun k => match nth_error v k with Some b => [b] | None => [] end) (fcidx w X) ++ pick l forms
  | _, _ => []
  end.

(** check_convergence, mcmc.py:100-205, one of the three results: [w] with the number of parameters of an array. *)
Definition check_convergence (n_coef n_scale n_theta n_lam type : nat) (split_idx : list nat) (forms : list (nat * list (list Z)))
    (sm : samples A) : list B :=
  let ess0 := stats n_coef (coefs A sm) in
  let opt w a := match a with None => [] | Some a => stats w a end in
  (if Nat.eqb type 0 then ess0 else pick (split_at ess0 0 split_idx) forms)
  ++ opt n_scale (lscales A sm) ++ opt n_theta (thetas A sm) ++ opt n_lam (rhos A sm) ++ stats 1 (lps A sm).
End Conv.

(** np.min(ess) > min_ess * n_chains and np.max(rhat) < max_rhat, mcmc.py:1322-1323: [ess_ok] and [rhat_ok] say whether
    one value meets its threshold. *)
Definition met (ess_ok rhat_ok : list bool) : bool := forallb (fun b => b) ess_ok && forallb (fun b => b) rhat_ok.
