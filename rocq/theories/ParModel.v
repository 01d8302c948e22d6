(** Cross products and linear predictors computed in blocks, over files and processes: gamm_solvers.py,
    file_loading.py, formula.py, models.py.

    Real numbers stand for floats, [None] for NaN.  Columns of a file are those of the dependent variable and of the
    encoded predictors. *)

From Coq Require Import List Bool Arith Reals String Ascii.
From Verif Require SplModel.
Import ListNotations.
Local Open Scope R_scope.

Notation cov := (list (option R)).
Notation table := (list (option R * cov)).
Notation rows := (list (list R)).

(** np.array_split, gamm_solvers.py:3470, 3551: the first [total mod n] parts have one element more.  [None]: the
    ValueError for no parts. *)
Fixpoint cut {A} (sizes : list nat) (l : list A) : list (list A) :=
  match sizes with [] => [] | s :: r => firstn s l :: cut r (skipn s l) end.
Definition section_sizes (total n : nat) : list nat :=
  repeat (S (total / n)) (total mod n) ++ repeat (total / n)%nat (n - total mod n).
Definition array_split {A} (l : list A) (n : nat) : option (list (list A)) :=
  if (n =? 0)%nat then None else Some (cut (section_sizes (List.length l) n) l).

(** The name of a cached matrix without its number, gamm_solvers.py:3297: file.split("/")[-1].split(".csv")[0]. *)
Local Open Scope string_scope.
Fixpoint after_slash (s cur : string) : string :=
  match s with EmptyString => cur | String c r => if (c =? "/")%char then after_slash r r else after_slash r cur end.
Fixpoint before_csv (s : string) : string :=
  if prefix ".csv" s then "" else match s with EmptyString => "" | String c r => String c (before_csv r) end.
Definition stem (file : string) : string := before_csv (after_slash file file).
Local Open Scope list_scope.

(** Where a subset comes from: a file, or part [fi] of the data kept in memory, called "/outer_split_{fi}.csv"
    (gamm_solvers.py:3568, 3809).  The two are not mixed in one fit. *)
Inductive source := FromFile (file : string) | Outer (fi : nat).
Inductive name := Stem (s : string) | OuterSplit (fi : nat).
Definition name_of (src : source) : name := match src with FromFile f => Stem (stem f) | Outer fi => OuterSplit fi end.
Definition name_eqb (a b : name) : bool :=
  match a, b with Stem s, Stem t => String.eqb s t | OuterSplit i, OuterSplit j => (i =? j)%nat | _, _ => false end.

(** The matrices in the cache, by name and number of the subset, gamm_solvers.py:3297. *)
Notation cache := (list (name * nat * rows)).
Definition cached (c : cache) (nm : name) (fi : nat) : option rows :=
  option_map snd (find (fun e => name_eqb (fst (fst e)) nm && (snd (fst e) =? fi)%nat) c).

Section Blocks.
(** build_sparse_matrix_from_formula for one row, formula.py:2544-2721.  Terms other than impulse response terms
    build each row from the predictors in that row, given the minima, maxima and levels stored in the formula. *)
Variable row_of : cov -> list R.
(** SHOULD_CACHE, gamm_solvers.py:42. *)
Variable should_cache : bool.

(** read_mmat, gamm_solvers.py:3238-3338. *)
Definition read_mmat (c : cache) (src : source) (fi : nat) (cov_flat_file : list cov) : rows * cache :=
  if should_cache then
    match cached c (name_of src) fi with
    | None => let mmat := map row_of cov_flat_file in (mmat, (name_of src, fi, mmat) :: c)
    | Some mmat => (mmat, c)
    end
  else (map row_of cov_flat_file, c).

(** pool.starmap, gamm_solvers.py:3475, 3561, 3732, 3802: the processes take up the subsets in the order [order];
    results are returned by number of the subset. *)
Fixpoint workers (src : source) (subs : list (list cov)) (order : list nat) (c : cache) : list (nat * rows) * cache :=
  match order with
  | [] => ([], c)
  | i :: r =>
      let '(m, c) := read_mmat c src i (nth i subs []) in
      let '(rest, c) := workers src subs r c in
      ((i, m) :: rest, c)
  end.
Definition starmap (src : source) (subs : list (list cov)) (order : list nat) (c : cache) : list rows * cache :=
  let '(res, c) := workers src subs order c in
  (map (fun i => match find (fun e => (fst e =? i)%nat) res with Some e => snd e | None => [] end)
       (seq 0 (List.length subs)), c).

(** X.T @ X and X.T @ y, gamm_solvers.py:3422-3423. *)
Definition cross (X : rows) : nat -> nat -> R :=
  fun i j => fold_right Rplus 0 (map (fun x => nth i x 0 * nth j x 0) X).
Definition cross_y (X : rows) (y : list R) : nat -> R :=
  fun i => fold_right Rplus 0 (map (fun p => nth i (fst p) 0 * snd p) (combine X y)).
Notation products := ((nat -> nat -> R) * (nat -> R))%type.
Definition form_cross_prod (X : rows) (y : list R) : products := (cross X, cross_y X y).
Definition plus (a b : products) : products :=
  (fun i j => fst a i j + fst b i j, fun i => snd a i + snd b i).

(** reduce, gamm_solvers.py:3502-3503, 3584-3585; [None]: TypeError for an empty sequence. *)
Definition reduce (l : list products) : option products :=
  match l with [] => None | x :: r => Some (fold_left plus r x) end.

(** The part read_XTX and keep_XTX share, gamm_solvers.py:3468-3503, 3553-3585: split by processes, multiply, add. *)
Definition block_XTX (nc : nat) (order : nat -> list nat) (src : source) (covs : list cov) (ys : list R) (c : cache)
    : option (products * cache) :=
  let k := Nat.min nc (List.length covs) in
  match array_split covs k, array_split ys k with
  | Some cov_flat_files, Some y_flat_files =>
      let '(Xs, c) := starmap src cov_flat_files (order (List.length cov_flat_files)) c in
      match reduce (map (fun p => form_cross_prod (fst p) (snd p)) (combine Xs y_flat_files)) with
      | Some p => Some (p, c)
      | None => None
      end
  | _, _ => None
  end.

(** The loops over files or outer parts, gamm_solvers.py:3553-3594 and 3961-3979; [order] is what the processes do in the
    next calls of starmap. *)
Fixpoint all_XTX (nc : nat) (order : nat -> nat -> list nat) (fi : nat) (parts : list (source * list cov * list R))
    (acc : option products) (c : cache) : option (products * cache) :=
  match parts with
  | [] => match acc with Some p => Some (p, c) | None => None end
  | (src, covs, ys) :: r =>
      match block_XTX nc (order fi) src covs ys c with
      | Some (p, c) => all_XTX nc order (S fi) r (Some (match acc with None => p | Some a => plus a p end)) c
      | None => None
      end
  end.

(** X @ coef, gamm_solvers.py:3685. *)
Definition mat_vec (X : rows) (coef : list R) : list R :=
  map (fun x => fold_right Rplus 0 (map (fun p => fst p * snd p) (combine x coef))) X.

(** read_eta and one pass of the loop in keep_eta, gamm_solvers.py:3722-3760, 3794-3829. *)
Definition block_eta (nc : nat) (order : nat -> list nat) (src : source) (covs : list cov) (coef : list R) (c : cache)
    : option (list R * cache) :=
  match array_split covs (Nat.min nc (List.length covs)) with
  | Some cov_flat_files =>
      let '(Xs, c) := starmap src cov_flat_files (order (List.length cov_flat_files)) c in
      Some (flat_map (fun X => mat_vec X coef) Xs, c)
  | None => None
  end.
(** keep_eta and the loop over read_eta, gamm_solvers.py:3765-3832, 1346-1350. *)
Fixpoint all_eta (nc : nat) (order : nat -> nat -> list nat) (fi : nat) (parts : list (source * list cov * list R))
    (coef : list R) (c : cache) : option (list R * cache) :=
  match parts with
  | [] => Some ([], c)
  | (src, covs, _) :: r =>
      match block_eta nc (order fi) src covs coef c with
      | Some (e, c) =>
          match all_eta nc order (S fi) r coef c with Some (e', c) => Some (e ++ e', c) | None => None end
      | None => None
      end
  end.

(** The calls in a fit: products once, then predictors for one coefficient vector after the other.  The cache is empty at the
    beginning, since setup_cache has created its directory. *)
Fixpoint etas (nc : nat) (order : nat -> nat -> nat -> list nat) (call : nat) (parts : list (source * list cov * list R))
    (coefs : list (list R)) (c : cache) : option (list (list R)) :=
  match coefs with
  | [] => Some []
  | coef :: r =>
      match all_eta nc (order call) 0 parts coef c with
      | Some (e, c) => match etas nc order (S call) parts r c with Some l => Some (e :: l) | None => None end
      | None => None
      end
  end.
Definition fit_calls (nc : nat) (order : nat -> nat -> nat -> list nat) (parts : list (source * list cov * list R))
    (coefs : list (list R)) : option (products * list (list R)) :=
  match all_XTX nc (order 0%nat) 0 parts None [] with
  | Some (p, c) => match etas nc order 1 parts coefs c with Some l => Some (p, l) | None => None end
  | None => None
  end.

(** Building the model matrix in parallel from data in memory, models.py:3200-3225, without impulse response terms. *)
Definition build_parallel (nc : nat) (covs : list cov) : option rows :=
  match array_split covs nc with
  | Some subs => Some (flat_map (fun s => map row_of s) subs)
  | None => None
  end.
End Blocks.

(** The same with impulse response terms: the rows are split, but each process gets the predictors of all series
    ([cov], models.py:3222), from which build_sparse_matrix_from_formula builds these terms for as many rows as there
    are in its subset. *)
Definition build_parallel_irf (nc n_y : nat) (levels : nat -> nat) (var_mins var_maxs : nat -> option R)
    (cov : list (list (list R))) (tol : R) (terms : list (SplModel.irf_term * bool)) :=
  match array_split (seq 0 n_y) nc with
  | Some subs =>
      SplModel.map_opt (fun sub => SplModel.build_irfs false levels var_mins var_maxs cov (seq 0 (List.length sub)) tol 0 terms) subs
  | None => None
  end.

(** ** Reading files *)

Section Files.
Variable kwargs : Type.
(** The keyword arguments in effect if none are passed to pd.read_csv. *)
Variable defaults : kwargs.
(** pd.read_csv: the columns of the formula's variables in a file. *)
Variable read_csv : kwargs -> string -> table.

Definition is_na {A} (x : option A) : bool := match x with None => true | Some _ => false end.

(** The rows encode_data keeps if it is given a data frame, formula.py:927-946: no missing value in any of the
    columns. *)
Definition complete (r : option R * cov) : bool := negb (is_na (fst r)) && forallb (fun v => negb (is_na v)) (snd r).
(** The rows it keeps if it reads the data itself, formula.py:917-924: the dependent variable is not missing. *)
Definition has_y (r : option R * cov) : bool := negb (is_na (fst r)).

Definition y_of (r : option R * cov) : R := match fst r with Some v => v | None => 0 end.

(** Data of one file in read_XTX and read_eta, gamm_solvers.py:3458-3466, 3716-3720. *)
Definition file_part (file : string) : source * list cov * list R :=
  let d := filter complete (read_csv defaults file) in (FromFile file, map snd d, map y_of d).

(** The data kept in memory with keep_cov, formula.py:609-620 (read_cov_no_cor, file_loading.py:125-149) and
    gamm_solvers.py:3943-3952. *)
Definition kept (kw : kwargs) (files : list string) : list (option R * cov) :=
  filter has_y (flat_map (read_csv kw) files).
(** The outer parts, gamm_solvers.py:3544-3545, 3789-3791. *)
Definition outer_parts (kw : kwargs) (files : list string) : option (list (source * list cov * list R)) :=
  let d := kept kw files in
  match array_split (map snd d) (List.length files), array_split (map y_of d) (List.length files) with
  | Some cov_split, Some y_split =>
      Some (map (fun p => (Outer (fst p), fst (snd p), snd (snd p))) (combine (seq 0 (List.length cov_split)) (combine cov_split y_split)))
  | _, _ => None
  end.

(** solve_gamm_sparse2 as far as the data are concerned, gamm_solvers.py:3936-3979. *)
Definition fit_files (row_of : cov -> list R) (should_cache keep_cov : bool) (kw : kwargs) (nc : nat)
    (order : nat -> nat -> nat -> list nat) (files : list string) (coefs : list (list R)) :=
  match (if keep_cov then outer_parts kw files else Some (map file_part files)) with
  | Some parts =>
      match fit_calls row_of should_cache nc order parts coefs with
      | Some (p, l) => Some (p, flat_map snd parts, l)
      | None => None
      end
  | None => None
  end.

(** ** Levels and limits *)

(** read_unique, file_loading.py:30-54: the distinct values in the order in which a set is iterated, which is some
    order.  [iter] is that order. *)
Definition np_unique_values (values : list nat) : list nat := nodup Nat.eq_dec values.
Definition read_unique (column : string -> list nat) (iter : list nat -> list nat) (files : list string) : list nat :=
  iter (np_unique_values (flat_map column files)).

(** The smallest value of a numeric variable: np.nanmin of a column of a data frame, formula.py:705, and np.min of the
    distinct values in files, formula.py:714, which is NaN if one of them is. *)
Definition np_min (l : list (option R)) : option R :=
  match l with
  | [] => None
  | x :: r => fold_left (fun a b => match a, b with Some u, Some v => Some (Rmin u v) | _, _ => None end) r x
  end.
Definition np_nanmin (l : list (option R)) : option R := np_min (filter (fun v => negb (is_na v)) l).
Definition min_frame (column : list (option R)) : option R := np_nanmin column.
Definition min_files (column : string -> list (option R)) (files : list string) : option R := np_min (flat_map column files).

(** ** Constraints *)

(** Column sums of a marginal basis over one file, formula.py:52-137, and over all files, formula.py:1483-1503, with
    [basis] the row of the (tensor product) basis for the predictors in a row. *)
Definition col_sums (n : nat) (X : rows) : list R := map (fun j => fold_right Rplus 0 (map (fun x => nth j x 0) X)) (seq 0 n).
Definition constraint_single (kw : kwargs) (n : nat) (basis : cov -> list R) (file : string) : list R :=
  col_sums n (map (fun r => basis (snd r)) (filter has_y (read_csv kw file))).
Definition add_lists (a b : list R) : list R := map (fun p => fst p + snd p) (combine a b).
Definition constraint_files (kw : kwargs) (n : nat) (basis : cov -> list R) (files : list string) : list R :=
  fold_left add_lists (map (constraint_single kw n basis) files) (repeat 0 n).
(** The same for a data frame, formula.py:1574-1600: rows without missing values. *)
Definition constraint_frame (n : nat) (basis : cov -> list R) (data : table) : list R :=
  col_sums n (map (fun r => basis (snd r)) (filter complete data)).
End Files.
