(** Traces when derivatives are approximated.
    Source: /repo/src/mssm/src/python/matrix_solvers.py (compute_B, compute_block_B_shared,
    compute_block_B_shared_cluster) and gamm_solvers.py (calculate_edf).

    Entries are exact.  compute_B is called by calculate_edf when no inverse factor is formed, which is the case when
    the formula has a factor smooth with approx_deriv (models.py:3262, :3360); method must be "Chol" then
    (models.py:3101), so that nothing is dropped and drop is None.
    Shared memory holds a copy of L for every process, so processes work on the same L. *)
From mathcomp Require Import all_ssreflect all_algebra.
Set Implicit Arguments.
Unset Strict Implicit.
Unset Printing Implicit Defensive.
Import GRing.Theory Num.Theory.
Local Open Scope ring_scope.

Section Model.
Variable F : realFieldType.

(** LambdaTerm, custom_types.py:60-110: start_index, S_J, rep_sj, rank, type == PenType.NULL, lam, D_J_emb, and
    clust_series with clust_weights. *)
Record lterm n := LTerm {
  l_start : nat; l_nc : nat; l_SJ : 'M[F]_l_nc; l_rep : nat; l_rank : nat; l_null : bool; l_lam : F;
  l_D : 'M[F]_n; l_clust : option (seq (nat * seq F))
}.

(** S_J.sum(axis=0), matrix_solvers.py:662. *)
Definition col_sums n (t : lterm n) : seq F := [seq \sum_i l_SJ t i j | j <- enum 'I_(l_nc t)].

(** np.argmax, matrix_solvers.py:666. *)
Fixpoint argmax (l : seq F) : nat :=
  match l with
  | [::] => 0
  | [:: x] => 0
  | x :: t => let k := argmax t in if x < nth 0 t k then k.+1 else 0%N
  end.

(** np.arange(a, b, s). *)
Definition arange (a b s : nat) : seq nat := [seq (a + k * s)%N | k <- iota 0 ((b - a + s.-1) %/ s)].

(** matrix_solvers.py:663: the penalty has a single non-zero column. *)
Definition single_column n (t : lterm n) : bool :=
  l_null t && (\sum_(s <- col_sums t | 0 < s) s == 1).

(** D_idx, matrix_solvers.py:666-683. *)
Definition D_idx n (t : lterm n) : seq nat :=
  if single_column t then
    arange (l_start t + argmax (col_sums t)) (l_nc t * (l_rep t).+1) (l_nc t)
  else [seq j <- iota (l_start t) (l_rep t * l_nc t) | (j < n)%N].

(** Column [j] of a matrix. *)
Definition colN n (D : 'M[F]_n) (j : nat) : 'cV[F]_n := \col_i (if insub j is Some k then D i k else 0).

(** np.array_split(range(len), k), matrix_solvers.py:694. *)
Definition array_split (len k : nat) : seq (seq nat) :=
  reshape [seq (len %/ k + (i < len %% k))%N | i <- iota 0 k] (iota 0 len).

Inductive result := One of F | Two of F & F | IndexError.

(** cpp_solve_tr, one column at a time. *)
Variable solve : forall n, 'M[F]_n -> 'cV[F]_n -> 'cV[F]_n.

(** B.power(2).sum() for the columns [cols] of P @ D_J_emb, matrix_solvers.py:571-574, :736-737, :768-769. *)
Definition pow_sum n (L P D : 'M[F]_n) (cols : seq nat) : F :=
  \sum_(j <- cols) \sum_i (solve L (P *m colN D j)) i 0 ^+ 2.

(** Columns of the level with number [s], matrix_solvers.py:747-762; slices end at the last column. *)
Definition target n (t : lterm n) (s : nat) : seq nat :=
  [seq j <- iota (l_start t + s * l_nc t) (l_rank t %/ l_rep t) | (j < n)%N].

(** compute_block_B_shared_cluster and the loop at :766-771. *)
Definition cluster_sums n (L P : 'M[F]_n) (t : lterm n) (c : nat * seq F) : F * F :=
  let BBps := pow_sum L P (l_D t) (target t c.1) in
  (\sum_(w <- c.2) w * BBps, (size c.2)%:R * BBps).

(** compute_B, matrix_solvers.py:625-813. *)
Definition compute_B n (L P : 'M[F]_n) (t : lterm n) (n_c : nat) : result :=
  match l_clust t with
  | None =>
      let cols := D_idx t in
      if all (fun j => j < n)%N cols then
        let D_r := (size cols %/ 2000)%N in
        if (1 < D_r)%N && (1 < n_c)%N then
          let split := array_split (size cols) (minn D_r n_c) in
          One (\sum_(b <- [seq pow_sum L P (l_D t) [seq nth 0%N cols i | i <- is_] | is_ <- split]) b)
        else One (pow_sum L P (l_D t) cols)
      else IndexError
  | Some cl =>
      if (size cl < 20 * n_c)%N then
        let '(lw, up) := foldl (fun acc c => let s := cluster_sums L P t c in (acc.1 + s.1, acc.2 + s.2)) (0, 0) cl in
        Two lw up
      else
        let all_ := [seq cluster_sums L P t c | c <- cl] in
        Two (\sum_(s <- all_) s.1) (\sum_(s <- all_) s.2)
  end.

(** calculate_edf, gamm_solvers.py:971-984: the trace that is used. *)
Definition choose (lgdetD : F) (Bps : result) : option F :=
  match Bps with
  | One b => Some b
  | Two lw up =>
      Some (if up < lgdetD then up
            else if up * (7%:R / 10%:R) + lw * (3%:R / 10%:R) < lgdetD
                 then up * (7%:R / 10%:R) + lw * (3%:R / 10%:R)
            else if (up + lw) / 2%:R < lgdetD then (up + lw) / 2%:R
            else if lw < lgdetD then lw
            else lgdetD - 1 / (10%:R ^+ 7))
  | IndexError => None
  end.

(** calculate_edf, gamm_solvers.py:948-991: total_edf and term_edfs for penalties without shared ids. *)
Fixpoint calculate_edf n (L P : 'M[F]_n) (n_c : nat) (colsX : F) (pens : seq (lterm n * F)) : option (F * seq F) :=
  match pens with
  | [::] => Some (colsX, [::])
  | (t, lgdetD) :: pens =>
      match choose lgdetD (compute_B L P t n_c) with
      | None => None
      | Some Bps =>
          match calculate_edf L P n_c (colsX - l_lam t * Bps) pens with
          | None => None
          | Some (total, edfs) => Some (total, l_lam t * Bps :: edfs)
          end
      end
  end.
End Model.
Arguments IndexError {F}.
