(** Nested smooth terms.
    Source: /repo/src/mssm/src/python/formula.py (__fix_nested) and /repo/src/mssm/src/cpp/eigen_solvers.cpp
    (id_dependencies).

    Entries are exact.  Columns of a matrix are a list of vectors. *)
From Coq Require Import String.
From mathcomp Require Import all_ssreflect all_algebra.
Set Implicit Arguments.
Unset Strict Implicit.
Unset Printing Implicit Defensive.
Import GRing.Theory Num.Theory.
Local Open Scope ring_scope.

(** ** id_dependencies, eigen_solvers.cpp:758-815 *)
Section Dependencies.
Variables (F : realFieldType) (n : nat).

(** B(seq(X1cols, last), all), eigen_solvers.cpp:781; rows above are set to zero instead of being removed, which keeps
    all relations between columns. *)
Definition lower (k : nat) (v : 'cV[F]_n) : 'cV[F]_n := \col_i (if (i < k)%N then 0 else v i 0).

(** Householder QR of X1: the orthogonal factor and R1(0, 0), eigen_solvers.cpp:770-774. *)
Variable qr1 : seq 'cV[F]_n -> 'M[F]_n * F.
(** QR with column pivoting: indices of columns, rank and R, eigen_solvers.cpp:784-792. *)
Variable qr2 : seq 'cV[F]_n -> seq nat * nat * (nat -> nat -> F).

(** Mean of absolute values of the block of R2 (r0 rows) that starts at [k], eigen_solvers.cpp:799-800. *)
Definition block_mean (R2 : nat -> nat -> F) (r0 k : nat) : F :=
  (\sum_(i <- iota k (r0 - k)) \sum_(j <- iota k (r0 - k)) `|if (i <= j)%N then R2 i j else 0|) / ((r0 - k) ^ 2)%:R.

(** while (r > 0), eigen_solvers.cpp:795-811. *)
Fixpoint lower_rank (R2 : nat -> nat -> F) (r0 : nat) (thresh : F) (r : nat) : nat :=
  match r with
  | 0 => 0
  | r'.+1 => if thresh <= block_mean R2 r0 r' then r else lower_rank R2 r0 thresh r'
  end.

Definition id_dependencies (tol : F) (X1 X2 : seq 'cV[F]_n) : seq nat * nat :=
  let '(Q1, R00) := qr1 X1 in
  let thresh := `|R00| * tol in
  let B := [seq Q1^T *m x | x <- X2] in
  let Blb := [seq lower (size X1) b | b <- B] in
  let '(piv, r, R2) := qr2 Blb in
  (piv, lower_rank R2 r thresh r).
End Dependencies.

(** ** __fix_nested, formula.py:1668-1948 *)
Section Nested.
Variables (F : realFieldType) (n : nat).

(** A smooth term that is no fs term: variables, names of the levels of by with the code of every row, binary with the
    rows of its level, by_cont, and matrix_term (after constraints, reparameterisation and by_cont,
    formula.py:1743-1849). *)
Record term := Term {
  t_vars : seq string;
  t_by : option (seq string * ('I_n -> nat));
  t_binary : option (string * string * ('I_n -> bool));
  t_by_cont : option string;
  t_mat : seq 'cV[F]_n
}.

Definition join (a b : string) : string := (a ++ "_" ++ b)%string.

(** ext_vars, formula.py:1705-1725. *)
Definition ext_vars (t : term) (var : string) : seq string :=
  let e := match t_by t with Some (lvls, _) => [seq join var l | l <- lvls] | None => [:: var] end in
  let e := match t_binary t with Some (b, l, _) => [seq join (join v b) l | v <- e] | None => e end in
  match t_by_cont t with Some c => [seq join v c | v <- e] | None => e end.
Definition term_var (t : term) : seq string := flatten [seq ext_vars t v | v <- t_vars t].

(** np.max, formula.py:1689. *)
Definition max_var (ts : seq term) : nat := foldr maxn 0%N [seq size (t_vars t) | t <- ts].

(** Rows of a column that are kept, others are set to zero, formula.py:1861, :1868. *)
Definition masked (p : 'I_n -> bool) (v : 'cV[F]_n) : 'cV[F]_n := \col_i (if p i then v i 0 else 0).

(** Xs[tii] and n_term_by, formula.py:1852-1873. *)
Definition columns (t : term) : seq (seq 'cV[F]_n) :=
  match t_by t with
  | Some (lvls, code) => [seq [seq masked (fun i => code i == k) v | v <- t_mat t] | k <- iota 0 (size lvls)]
  | None =>
      match t_binary t with
      | Some (_, _, rows) => [:: [seq masked rows v | v <- t_mat t]]
      | None => [:: t_mat t]
      end
  end.
Definition n_by (t : term) : nat := match t_by t with Some (lvls, _) => size lvls | None => 1 end.

(** otis_var, formula.py:1888-1895. *)
Definition otis_var (t : term) (k : nat) : seq string :=
  if (1 < n_by t)%N then [seq nth EmptyString (term_var t) (k + i * n_by t) | i <- iota 0 (size (t_vars t))]
  else term_var t.
Definition shares (vars : seq string) (t : term) : bool := has (fun v => has (String.eqb v) vars) (term_var t).

Inductive outcome (A : Type) := Done of A | IndexError | ValueError.

(** Xs[ti][by_idx] for all ti, formula.py:1906, :1914. *)
Fixpoint gather (Xs : seq (seq (seq 'cV[F]_n))) (k : nat) (tis : seq nat) : option (seq 'cV[F]_n) :=
  match tis with
  | [::] => Some [::]
  | ti :: tis =>
      if (k < size (nth [::] Xs ti))%N then
        omap (cat (nth [::] (nth [::] Xs ti) k)) (gather Xs k tis)
      else None
  end.

(** np.delete(X, idx, axis=1). *)
Definition delete (X : seq 'cV[F]_n) (idx : seq nat) : seq 'cV[F]_n :=
  [seq nth 0 X i | i <- iota 0 (size X) & i \notin idx].

(** Terms that the columns of a term are compared to, formula.py:1898-1914. *)
Definition others (ts : seq term) (t0 : term) (osize : nat) (earlier : seq nat) (oti k : nat) : seq nat :=
  let vars := otis_var (nth t0 ts oti) k in
  [seq ti <- iota 0 (size ts) | (size (t_vars (nth t0 ts ti)) <= osize.-1)%N && shares vars (nth t0 ts ti)] ++
  [seq ti <- earlier | shares vars (nth t0 ts ti)].

Variable dep : seq 'cV[F]_n -> seq 'cV[F]_n -> seq nat * nat.
Variable has_intercept : bool.
Variable ts : seq term.
Let t0 := Term [::] None None None [::].

(** Columns and dropped coefficients of every term. *)
Definition state := (seq (seq (seq 'cV[F]_n)) * seq (seq nat))%type.

(** One term and level, formula.py:1888-1942. *)
Definition fix_level (osize : nat) (earlier : seq nat) (oti k : nat) (s : state) : outcome state :=
  let '(Xs, drop) := s in
  match gather Xs k (others ts t0 osize earlier oti k) with
  | None => IndexError _
  | Some X1 =>
      if others ts t0 osize earlier oti k is [::] then Done s
      else
        let X1 := if has_intercept then const_mx 1 :: X1 else X1 in
        let X2 := nth [::] (nth [::] Xs oti) k in
        let '(nid, rank) := dep X1 X2 in
        if (rank < size X2)%N then
          Done (set_nth [::] Xs oti (set_nth [::] (nth [::] Xs oti) k (delete X2 (seq.drop rank nid))),
                set_nth [::] drop oti (nth [::] drop oti ++ [seq (i + k * size nid)%N | i <- sort leq (seq.drop rank nid)]))
        else Done s
  end.

Fixpoint fix_levels (osize : nat) (earlier : seq nat) (oti : nat) (ks : seq nat) (s : state) : outcome state :=
  match ks with
  | [::] => Done s
  | k :: ks => match fix_level osize earlier oti k s with Done s => fix_levels osize earlier oti ks s | e => e end
  end.

(** for otii, oti in enumerate(otis), formula.py:1883. *)
Fixpoint fix_terms (osize : nat) (earlier : seq nat) (otis : seq nat) (s : state) : outcome state :=
  match otis with
  | [::] => Done s
  | oti :: otis =>
      match fix_levels osize earlier oti (iota 0 (n_by (nth t0 ts oti))) s with
      | Done s => fix_terms osize (rcons earlier oti) otis s
      | e => e
      end
  end.

(** while osize <= max_var, formula.py:1877-1944; [m] sizes from [osize] on. *)
Definition of_size (osize : nat) : seq nat := [seq ti <- iota 0 (size ts) | size (t_vars (nth t0 ts ti)) == osize].
Fixpoint fix_sizes (m osize : nat) (s : state) : outcome state :=
  match m with
  | 0 => Done s
  | m'.+1 => match fix_terms osize [::] (of_size osize) s with Done s => fix_sizes m' osize.+1 s | e => e end
  end.

(** len(unlist_var) == len(np.unique(unlist_var)), formula.py:1728. *)
Fixpoint distinct (l : seq string) : bool :=
  if l is v :: l then ~~ has (String.eqb v) l && distinct l else true.

(** __fix_nested: dropped coefficients of every term; none is the empty list.  np.max fails for no terms. *)
Definition fix_nested : outcome (seq (seq nat)) :=
  match ts with
  | [::] => ValueError _
  | _ =>
      if (max_var ts == 1)%N then Done (nseq (size ts) [::])
      else
        let unlist := flatten [seq term_var t | t <- ts] in
        if distinct unlist then Done (nseq (size ts) [::])
        else
          match fix_sizes (max_var ts).-1 2 ([seq columns t | t <- ts], nseq (size ts) [::]) with
          | Done (_, drop) => Done drop
          | IndexError => IndexError _
          | ValueError => ValueError _
          end
  end.
End Nested.

(** The call by __init__, formula.py:657-659, for smooth terms of which some are fs terms (true), formula.py:1684-1685;
    fs is a subclass of f, terms.py. *)
Definition fix_formula (F : realFieldType) (n : nat) (dep : seq 'cV[F]_n -> seq 'cV[F]_n -> seq nat * nat)
    (has_intercept find_nested : bool) (smooths : seq (bool * term F n)) : outcome (seq (seq nat)) :=
  let ts := [seq t.2 | t <- smooths & ~~ t.1] in
  if find_nested && (0 < size smooths)%N then fix_nested dep has_intercept ts
  else Done (nseq (size ts) [::]).
