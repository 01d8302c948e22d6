(** Formulas: coding of factors, model matrices and coefficient names (formula.py, terms.py).

    Simplifications used throughout.  A variable and a factor level are numbers (levels compare like the
    strings they stand for).  cov_flat is looked up by variable instead of by column number, and keeps
    factor codes and numeric covariates apart: a code that is nan or -1 is [None].  A coefficient name is
    kept as the pieces that are formatted into the string. *)

From Coq Require Import List Bool Arith.
Import ListNotations.

Definition var := nat.
Definition level := nat.
Inductive vtype := Numeric | Factor.

(** Pieces of the strings built in the get_coef_info methods, terms.py:155, 1413-1417, 2215-2219, 2514,
    3009-3019, 3208-3245. *)
Inductive cname :=
| NInt
| NLin (parts : list (var * option level))
| NIrf (ti : bool) (vars : list var) (ink : nat) (lvl : option level)
| NF (vars : list var) (bin : option var) (ink : nat) (lvl : option level)
| NRi (v : var) (lvl : level)
| NRs (base : cname) (lvl : option level).

(** ** Coding of factors *)

(** np.unique: sorted, without repetition; used at formula.py:729. *)
Fixpoint insert_unique (x : level) (l : list level) : list level :=
  match l with
  | [] => [x]
  | y :: t => if x =? y then l else if x <? y then x :: l else y :: insert_unique x t
  end.
Definition np_unique (l : list level) : list level := fold_right insert_unique [] l.

(** dat_var[~pd.isnull(dat_var)], formula.py:729. *)
Fixpoint not_null (l : list (option level)) : list level :=
  match l with
  | [] => []
  | None :: t => not_null t
  | Some x :: t => x :: not_null t
  end.

(** factor_levels[var], formula.py:724-729, 759 (data frame, no subgroup). *)
Definition factor_levels_of (column : list (option level)) : list level := np_unique (not_null column).

(** The loop formula.py:761-767: position of a level among the levels, or its code in the codebook. *)
Fixpoint position (x : level) (l : list level) (ci : nat) : option nat :=
  match l with
  | [] => None
  | y :: t => if x =? y then Some ci else position x t (S ci)
  end.
Definition factor_coding (codebook : option (level -> nat)) (levels : list level) (c : level) : option nat :=
  match position c levels 0, codebook with
  | None, _ => None
  | Some ci, None => Some ci
  | Some _, Some cb => Some (cb c)
  end.

(** coding_factors[var], formula.py:764, 767: the last level written under a code wins. *)
Fixpoint coding_factor (codebook : option (level -> nat)) (levels : list level) (ci : nat) (k : nat) : option level :=
  match levels with
  | [] => None
  | c :: t =>
      match coding_factor codebook t (S ci) k with
      | Some c' => Some c'
      | None => if (match codebook with None => ci | Some cb => cb c end) =? k then Some c else None
      end
  end.

(** c_code, formula.py:1040-1042: levels that were not seen get nan. *)
Definition encode_column (codebook : option (level -> nat)) (levels : list level) (column : list (option level))
  : list (option nat) :=
  map (fun cr => match cr with None => None | Some c => factor_coding codebook levels c end) column.

(** ** li, terms.py:2706-2712; itertools.combinations keeps the order of the variables *)
Fixpoint combinations (vars : list var) (order : nat) : list (list var) :=
  match order, vars with
  | 0, _ => [[]]
  | S _, [] => []
  | S o, v :: t => map (cons v) (combinations t o) ++ combinations t order
  end.
Definition li (vars : list var) : list (list var) :=
  flat_map (combinations vars) (seq 1 (length vars)).

(** ** Model matrices *)
Section Matrices.
Variable K : Type.
Variables (k0 k1 : K) (kadd kmul ksub : K -> K -> K).
(** abs(x) > tol, e.g. terms.py:1357. *)
Variable big : K -> bool.

(** A numpy matrix: number of columns and entries; the number of rows is known from the context. *)
Record mat := Mat { mcols : nat; mval : nat -> nat -> K }.

(** cov_flat, formula.py:1007-1047. *)
Record frame := Frame { n_y : nat; num : nat -> var -> K; code : nat -> var -> option nat }.

(** What Formula keeps about variables: var_types, factor_levels, coding_factors. *)
Record env := Env { vt : var -> vtype; levels : var -> list level; decode : var -> nat -> level }.

Definition is_level (d : frame) (v : var) (fl r : nat) : bool :=
  match code d r v with Some k => k =? fl | None => false end.

(** elements, rows, cols: (data, row, column) triplets. *)
Definition triplets := list (K * nat * nat).

(** The cell of scp.sparse.csc_array((elements, (rows, cols))), formula.py:2719: repeated positions add. *)
Fixpoint entry (ts : triplets) (r c : nat) : K :=
  match ts with
  | [] => k0
  | (x, i, j) :: t => if (i =? r) && (j =? c) then kadd x (entry t r c) else entry t r c
  end.

(** One column: elements, row indices and [ci for _ in ...]. *)
Definition column_triplets (f : nat -> K) (rows : list nat) (ci : nat) : triplets :=
  map (fun r => (f r, r, ci)) rows.

(** *** i, terms.py:119-155 *)
Definition i_build (d : frame) (ci : nat) (used : bool) : triplets * nat :=
  if used then (column_triplets (fun _ => k1) (seq 0 (n_y d)) ci, 1) else ([], 1).
Definition i_info : nat * nat * list cname := (1, 1, [NInt]).

(** *** Linear terms *)

(** range(fl_start, len(factor_levels[var])), terms.py:3085-3090. *)
Definition level_range (e : env) (has_intercept : bool) (v : var) : list nat :=
  let fl_start := if has_intercept then 1 else 0 in
  seq fl_start (length (levels e v) - fl_start).

(** One pass of the loop over variables, terms.py:3112-3148: pairs of values and row selections. *)
Definition inter_step (e : env) (d : frame) (has_intercept : bool)
    (inter : list ((nat -> K) * (nat -> bool))) (v : var) : list ((nat -> K) * (nat -> bool)) :=
  match vt e v with
  | Factor =>
      match inter with
      | [] => map (fun fl => (fun _ => k1, is_level d v fl)) (level_range e has_intercept v)
      | _ => flat_map (fun p => map (fun fl => (fst p, fun r => snd p r && is_level d v fl r))
                                    (level_range e has_intercept v)) inter
      end
  | Numeric =>
      match inter with
      | [] => [(fun r => num d r v, fun _ => true)]
      | _ => map (fun p => (fun r => kmul (fst p r) (num d r v), snd p)) inter
      end
  end.

(** The loops that emit columns, terms.py:3090-3097, 3151-3157. *)
Fixpoint emit_masked (d : frame) (used : bool) (cols : list ((nat -> K) * (nat -> bool))) (ci : nat) : triplets :=
  match cols with
  | [] => []
  | (f, m) :: t =>
      (if used then column_triplets f (filter m (seq 0 (n_y d))) ci else [])
      ++ emit_masked d used t (S ci)
  end.

(** build_linear_term, terms.py:3025-3159. *)
Definition build_linear_term (e : env) (d : frame) (vars : list var) (has_intercept : bool) (ci : nat) (used : bool)
  : triplets * nat :=
  match vars with
  | [v] =>
      match vt e v with
      | Factor =>
          let cols := map (fun fl => (fun _ : nat => k1, is_level d v fl)) (level_range e has_intercept v) in
          (emit_masked d used cols ci, length cols)
      | Numeric => (if used then column_triplets (fun r => num d r v) (seq 0 (n_y d)) ci else [], 1)
      end
  | _ =>
      let inter := fold_left (inter_step e d has_intercept) vars [] in
      (emit_masked d used inter ci, length inter)
  end.

(** get_linear_coef_info, terms.py:3162-3255. *)
Definition name_step (e : env) (has_intercept : bool) (names : list (list (var * option level))) (v : var)
  : list (list (var * option level)) :=
  match vt e v with
  | Factor =>
      match names with
      | [] => map (fun fl => [(v, Some (decode e v fl))]) (level_range e has_intercept v)
      | _ => flat_map (fun nm => map (fun fl => nm ++ [(v, Some (decode e v fl))]) (level_range e has_intercept v)) names
      end
  | Numeric =>
      match names with
      | [] => [[(v, None)]]
      | _ => map (fun nm => nm ++ [(v, None)]) names
      end
  end.
Definition linear_info (e : env) (vars : list var) (has_intercept : bool) : nat * nat * list cname :=
  let names :=
    match vars with
    | [v] =>
        match vt e v with
        | Factor => map (fun fl => [(v, Some (decode e v fl))]) (level_range e has_intercept v)
        | Numeric => [[(v, None)]]
        end
    | _ => fold_left (name_step e has_intercept) vars []
    end in
  (length names, length names, map NLin names).

(** *** Smooth terms *)

(** Constraint, custom_types.py:175-200. *)
Inductive constraint :=
| CQR (Z : mat)
| CDrop (z : nat)
| CDiff (z : nat).

(** X @ Z; the inner dimension is the number of columns of X. *)
Fixpoint ksum (n : nat) (f : nat -> K) : K :=
  match n with 0 => k0 | S m => kadd (ksum m f) (f m) end.
Definition mat_mul (X Z : mat) : mat :=
  Mat (mcols Z) (fun r c => ksum (mcols X) (fun k => kmul (mval X r k) (mval Z k c))).

(** np.delete(X, z, axis=1), terms.py:1232. *)
Definition delete_col (X : mat) (z : nat) : mat :=
  Mat (mcols X - 1) (fun r c => mval X r (if c <? z then c else S c)).

(** np.concatenate((X[:, s:], X[:, :s]), axis=1), terms.py:1239-1248. *)
Definition rotate (X : mat) (s : nat) : mat :=
  Mat (mcols X) (fun r c => mval X r (if c <? mcols X - s then s + c else c - (mcols X - s))).
(** np.diff along the columns. *)
Definition diff_cols (X : mat) : mat :=
  Mat (mcols X - 1) (fun r c => ksub (mval X r (S c)) (mval X r c)).

(** Absorbing a constraint into a matrix, terms.py:1228-1258 and 1271-1297: rotate, difference, rotate
    back (the second rotation starts at shape[1] - Z). *)
Definition absorb (X : mat) (Z : constraint) : mat :=
  match Z with
  | CQR Z => mat_mul X Z
  | CDrop z => delete_col X z
  | CDiff z => let D := diff_cols (rotate X z) in rotate D (mcols D - z)
  end.

(** The root D (n rows) and the penalty S of a difference penalty under a constraint, penalties.py:530-563;
    the matrix product needs the number of rows n. *)
Definition absorb_root (n : nat) (D : mat) (Z : constraint) : mat :=
  match Z with
  | CQR Z => Mat (mcols D) (fun i j => ksum n (fun k => kmul (mval Z k i) (mval D k j)))
  | CDrop z => Mat (mcols D) (fun i j => mval D (if i <? z then i else S i) j)
  | CDiff z =>
      let D1 i j := mval D (if i <? n - z then z + i else i - (n - z)) j in
      let D2 i j := ksub (D1 (S i) j) (D1 i j) in
      let n' := n - 1 in
      Mat (mcols D) (fun i j => D2 (if i <? z then n' - z + i else i - z) j)
  end.
Definition absorb_penalty (n : nat) (S_J D : mat) (Z : constraint) : mat :=
  match Z with
  | CQR Z => Mat (mcols Z) (fun i j =>
               ksum n (fun l => kmul (ksum n (fun k => kmul (mval Z k i) (mval S_J k l))) (mval Z l j)))
  | CDrop z => Mat (n - 1) (fun i j => mval S_J (if i <? z then i else S i) (if j <? z then j else S j))
  | CDiff z => let D' := absorb_root n D Z in
               Mat (n - 1) (fun i j => ksum (mcols D') (fun k => kmul (mval D' i k) (mval D' j k)))
  end.

(** TP_basis_calc, smooths.py:179-200: row-wise Kronecker product. *)
Definition tp_basis (A B : mat) : mat :=
  Mat (mcols A * mcols B) (fun r c => kmul (mval A r (c / mcols B)) (mval B r (c mod mcols B))).

(** f, terms.py:158-457.  [f_basis vi nk] is the basis evaluated at the data for variable number vi
    (matrix_term_v, :1218-1225); [f_rp] holds RP[vi].C, empty if no reparameterisation was asked for;
    [f_nk] has one entry per variable. *)
Record smooth := Smooth {
  f_vars : list var; f_nk : list nat; f_te : bool; f_ident : bool; f_Z : list constraint;
  f_rp : list mat; f_basis : nat -> nat -> mat;
  f_by : option var; f_by_cont : option var; f_binary : option (var * nat);
  f_drop : option (list nat); f_penalized : bool }.

Definition np_prod (l : list nat) : nat := fold_left Nat.mul l 1.

(** np.prod(nk) (or nk), minus one for identifiable tensor terms, terms.py:1187-1192, 1384-1394. *)
Definition f_term_coef (s : smooth) : nat :=
  match f_vars s with
  | [_] => nth 0 (f_nk s) 0
  | _ => if f_te s && f_ident s then np_prod (f_nk s) - 1 else np_prod (f_nk s)
  end.

(** matrix_term_v for one variable, terms.py:1209-1263.  An index error of Z or RP is [None]. *)
Definition f_marginal (s : smooth) (vi : nat) : option mat :=
  let id_nk := nth vi (f_nk s) 0 in
  let id_nk := if f_ident s && negb (f_te s) then S id_nk else id_nk in
  let X := f_basis s vi id_nk in
  let X1 := if f_ident s && negb (f_te s)
            then match nth_error (f_Z s) vi with Some Z => Some (absorb X Z) | None => None end
            else Some X in
  match X1, f_rp s with
  | None, _ => None
  | Some X1, [] => Some X1
  | Some X1, _ => match nth_error (f_rp s) vi with Some C => Some (mat_mul X1 C) | None => None end
  end.

(** The loop terms.py:1207-1268. *)
Definition f_tensor (s : smooth) : option mat :=
  let step acc vi :=
    match acc, f_marginal s vi with
    | Some None, Some X => Some (Some X)
    | Some (Some T), Some X => Some (Some (tp_basis T X))
    | _, _ => None
    end in
  match fold_left step (seq 0 (length (f_vars s))) (Some None) with
  | Some (Some T) => Some T
  | _ => None
  end.

(** matrix_term before it is spread over levels, terms.py:1207-1305. *)
Definition f_matrix (s : smooth) (d : frame) : option mat :=
  let T := match f_tensor s with
           | Some T =>
               if f_ident s && f_te s
               then match nth_error (f_Z s) 0 with Some Z => Some (absorb T Z) | None => None end
               else Some T
           | None => None
           end in
  match T, f_by_cont s with
  | Some T, Some v => Some (Mat (mcols T) (fun r c => kmul (mval T r c) (num d r v)))
  | _, _ => T
  end.

(** *** Constraints, formula.py:1509-1666 (data frame without missing rows) *)

(** np.sum(X, axis=0), formula.py:1592, 1656. *)
Definition col_sums (n : nat) (X : mat) (c : nat) : K := ksum n (fun r => mval X r c).

(** _const_type of a term. *)
Inductive const_type := QR | DROP | DIFF.

(** The constraint for a matrix; [qr n C] is the square factor Q of the n x 1 matrix C, of which the first
    column is removed, formula.py:1590-1603, 1654-1666. *)
Definition make_constraint (qr : nat -> (nat -> K) -> mat) (ct : const_type) (n : nat) (X : mat) : constraint :=
  match ct with
  | QR => let Q := qr (mcols X) (col_sums n X) in CQR (Mat (mcols X - 1) (fun r c => mval Q r (S c)))
  | DROP => CDrop (mcols X / 2)
  | DIFF => CDiff (mcols X / 2)
  end.

(** sterm.Z and sterm.RP after __absorb_constraints for an identifiable term.  [repara vi X] is the matrix
    RP[vi].C that absorb_repara (terms.py:459-639) finds for the basis X; [rp] says that one was asked for.
    For te terms the tensor product is formed from the bases as they were before reparameterisation
    (formula.py:1646-1650). *)
Definition absorb_constraints (qr : nat -> (nat -> K) -> mat) (repara : nat -> mat -> mat) (ct : const_type)
    (rp : bool) (d : frame) (s : smooth) : smooth :=
  let vis := seq 0 (length (f_vars s)) in
  let nk vi := nth vi (f_nk s) 0 in
  let X vi := if f_te s then f_basis s vi (nk vi) else f_basis s vi (S (nk vi)) in
  let con vi := make_constraint qr ct (n_y d) (X vi) in
  let tensor := fold_left (fun T vi => tp_basis T (X vi)) (tl vis) (X 0) in
  let Z := if f_te s then [make_constraint qr ct (n_y d) tensor] else map con vis in
  let XP vi := if f_te s then X vi else absorb (X vi) (con vi) in
  Smooth (f_vars s) (f_nk s) (f_te s) (f_ident s) Z
    (if rp then map (fun vi => repara vi (XP vi)) vis else [])
    (f_basis s) (f_by s) (f_by_cont s) (f_binary s) (f_drop s) (f_penalized s).

Definition mem (x : nat) (l : list nat) : bool := existsb (Nat.eqb x) l.
Definition dropped (s : smooth) (c : nat) : bool :=
  match f_drop s with None => false | Some l => mem c l end.

(** term_ridx, terms.py:1308-1344.  The counter m_coli_by equals by_level * m_cols + m_coli. *)
Definition f_term_ridx (s : smooth) (e : env) (d : frame) (m_cols : nat) : list (list nat) :=
  let ridx := seq 0 (n_y d) in
  match f_by s, f_binary s with
  | Some v, _ =>
      flat_map (fun lvl =>
          flat_map (fun c => if dropped s (lvl * m_cols + c) then [] else [filter (is_level d v lvl) ridx])
                   (seq 0 m_cols))
        (seq 0 (length (levels e v)))
  | None, Some (v, binary_level) =>
      flat_map (fun c => if dropped s c then [] else [filter (is_level d v binary_level) ridx]) (seq 0 m_cols)
  | None, None => flat_map (fun c => if dropped s c then [] else [ridx]) (seq 0 m_cols)
  end.

(** The loop terms.py:1352-1364. *)
Fixpoint f_emit (T : mat) (used : bool) (term_ridx : list (list nat)) (m_coli ci : nat) : triplets :=
  match term_ridx with
  | [] => []
  | rows :: t =>
      let f r := mval T r (m_coli mod mcols T) in
      (if used then column_triplets f (filter (fun r => big (f r)) rows) ci else [])
      ++ f_emit T used t (S m_coli) (S ci)
  end.

(** n_coef, terms.py:1187-1201, before dropped coefficients are taken off. *)
Definition f_all_coef (s : smooth) (e : env) : nat :=
  match f_by s with Some v => f_term_coef s * length (levels e v) | None => f_term_coef s end.
Definition n_dropped (s : smooth) : nat := match f_drop s with None => 0 | Some l => length l end.

(** f.build_matrix, terms.py:1123-1366; [None] is an exception (the KeyError of :1349 or an index error).
    n_coef - len(drop) != f_cols is written without subtraction. *)
Definition f_build (s : smooth) (e : env) (d : frame) (ci : nat) (used : bool) : option (triplets * nat) :=
  match f_matrix s d with
  | None => None
  | Some T =>
      let term_ridx := f_term_ridx s e d (mcols T) in
      if f_all_coef s e =? length term_ridx + n_dropped s
      then Some (f_emit T used term_ridx 0 ci, length term_ridx)
      else None
  end.

(** f.get_coef_info, terms.py:1368-1431. *)
Definition f_all_names (s : smooth) (e : env) : list cname :=
  let nm lvl ink := NF (f_vars s) (option_map fst (f_binary s)) ink lvl in
  match f_by s with
  | Some v => flat_map (fun lvl => map (nm (Some lvl)) (seq 0 (f_term_coef s))) (levels e v)
  | None => map (nm None) (seq 0 (f_term_coef s))
  end.
(** [coef_names[ni] for ni in n_idx[keep]], terms.py:1422-1424. *)
Fixpoint keep_names (s : smooth) (ni : nat) (names : list cname) : list cname :=
  match names with
  | [] => []
  | nm :: t => if dropped s ni then keep_names s (S ni) t else nm :: keep_names s (S ni) t
  end.
Definition f_info (s : smooth) (e : env) : nat * nat * list cname :=
  let n_coef := f_all_coef s e - n_dropped s in
  (n_coef, if f_penalized s then 0 else n_coef, keep_names s 0 (f_all_names s e)).

(** *** Impulse response terms, terms.py:1713-2328 *)

(** [i_basis si vi nk] is the basis of series si for variable number vi; [i_events] the number of event
    onsets. *)
Record irf := Irf {
  i_vars : list var; i_nk : list nat; i_by : option var; i_penalized : bool;
  i_events : nat; i_basis : nat -> nat -> nat -> mat }.

Definition i_term_coef (s : irf) : nat :=
  match i_vars s with [_] => nth 0 (i_nk s) 0 | _ => np_prod (i_nk s) end.
Definition i_n_coef (s : irf) (e : env) : nat :=
  match i_by s with Some v => i_term_coef s * length (levels e v) | None => i_term_coef s end.

(** len(np.unique(by_cov)) > 1, terms.py:2307. *)
Definition same_code (a b : option nat) : bool :=
  match a, b with Some x, Some y => x =? y | None, None => true | _, _ => false end.

(** build_ir_smooth_series, terms.py:2230-2328, for the series in rows off .. off + len - 1. *)
Definition i_series (s : irf) (e : env) (d : frame) (si off len : nat) : option mat :=
  let marg vi := i_basis s si vi (nth vi (i_nk s) 0) in
  let X := match i_vars s with
           | [] => None
           | _ :: t => Some (fold_left (fun T vi => tp_basis T (marg vi)) (seq 1 (length t)) (marg 0))
           end in
  match X, i_by s with
  | Some X, Some v =>
      if forallb (fun r => same_code (code d r v) (code d off v)) (seq off len) then
        Some (Mat (mcols X * length (levels e v))
                  (fun r c => if is_level d v (c / mcols X) off then mval X r (c mod mcols X) else k0))
      else None
  | _, _ => X
  end.

(** The series that zip(cov, self.event_onset) pairs up, terms.py:2120, with their first rows. *)
Fixpoint i_all_series (s : irf) (e : env) (d : frame) (lens : list nat) (si off : nat) : option (list (nat * mat)) :=
  match lens with
  | [] => Some []
  | len :: t =>
      if si <? i_events s then
        match i_series s e d si off len, i_all_series s e d t (S si) (off + len) with
        | Some T, Some rest => Some ((len, T) :: rest)
        | _, _ => None
        end
      else Some []
  end.

(** final_term[:, m_coli] of all series one after the other, terms.py:2134-2138. *)
Definition i_column (series : list (nat * mat)) (c : nat) : list K :=
  flat_map (fun p => map (fun r => mval (snd p) r c) (seq 0 (fst p))) series.
Definition i_triplets (d : frame) (cells : list K) (ci : nat) : triplets :=
  map (fun p => (fst p, snd p, ci)) (filter (fun p => big (fst p)) (combine cells (seq 0 (n_y d)))).
Fixpoint i_emit (d : frame) (used : bool) (series : list (nat * mat)) (cols : list nat) (ci : nat) : triplets :=
  match cols with
  | [] => []
  | c :: t => (if used then i_triplets d (i_column series c) ci else []) ++ i_emit d used series t (S ci)
  end.

(** irf.build_matrix, terms.py:2044-2179.  Serial and pooled evaluation differ in the check of the number
    of columns only.  A mask of the wrong length is an IndexError (:2148, :2174). *)
Definition irf_build (s : irf) (e : env) (d : frame) (lens : list nat) (pool : bool) (ci : nat) (used : bool)
  : option (triplets * nat) :=
  match i_all_series s e d lens 0 0 with
  | Some ((len, T) :: rest) =>
      let series := (len, T) :: rest in
      if forallb (fun p => mcols (snd p) =? mcols T) rest
         && (pool || (i_n_coef s e =? mcols T))
         && (negb used || (mcols T =? 0) || (fold_right Nat.add 0 (map fst series) =? n_y d))
      then Some (i_emit d used series (seq 0 (mcols T)) ci, mcols T)
      else None
  | _ => None
  end.

(** irf.get_coef_info, terms.py:2181-2227: inside the loop over levels n_coef is already multiplied.
    The first argument is bound to has_intercept by the caller (formula.py:826-828). *)
Definition irf_info (s : irf) (e : env) (ti : bool) : nat * nat * list cname :=
  let n_coef := i_n_coef s e in
  let names :=
    match i_by s with
    | Some v => flat_map (fun lvl => map (fun ink => NIrf ti (i_vars s) ink (Some lvl)) (seq 0 n_coef)) (levels e v)
    | None => map (fun ink => NIrf ti (i_vars s) ink None) (seq 0 n_coef)
    end in
  (n_coef, if i_penalized s then 0 else n_coef, names).

(** *** Random terms *)

(** ri, terms.py:2432-2517. *)
Definition ri_build (e : env) (d : frame) (v : var) (ci : nat) (used : bool) : triplets * nat :=
  let cols := map (fun fl => (fun _ : nat => k1, is_level d v fl)) (seq 0 (length (levels e v))) in
  (emit_masked d used cols ci, length cols).
Definition ri_info (e : env) (v : var) : nat * nat * list cname :=
  let names := map (fun fl => NRi v (decode e v fl)) (seq 0 (length (levels e v))) in
  (length names, 0, names).

(** rs, terms.py:2880-3022.  The inner selection lin_cols == old_ci + coef_i, :2961-2966. *)
Definition rs_select (d : frame) (lin : triplets) (by_var : var) (fl old : nat) (ci : nat) : triplets :=
  map (fun t => (fst t, ci))
    (filter (fun t => is_level d by_var fl (snd (fst t))) (filter (fun t => snd t =? old) lin)).
Fixpoint rs_emit (d : frame) (used : bool) (lin : triplets) (by_var : var) (old_ci : nat)
    (pairs : list (nat * nat)) (ci : nat) : triplets :=
  match pairs with
  | [] => []
  | (fl, coef_i) :: t =>
      (if used then rs_select d lin by_var fl (old_ci + coef_i) ci else [])
      ++ rs_emit d used lin by_var old_ci t (S ci)
  end.
Definition rs_build (e : env) (d : frame) (vars : list var) (by_var : option var) (ci : nat) (used : bool)
  : triplets * nat :=
  let (lin, lin_ci) := build_linear_term e d vars false ci true in
  match by_var with
  | None => (if used then lin else [], lin_ci)
  | Some v =>
      let pairs := flat_map (fun fl => map (fun coef_i => (fl, coef_i)) (seq 0 lin_ci))
                            (seq 0 (length (levels e v))) in
      (rs_emit d used lin v ci pairs ci, length pairs)
  end.
Definition rs_info (e : env) (vars : list var) (by_var : option var) : nat * nat * list cname :=
  let '(total, _, names) := linear_info e vars false in
  match by_var with
  | None => (total, 0, map (fun nm => NRs nm None) names)
  | Some v =>
      (total * length (levels e v), 0,
       flat_map (fun fl => map (fun nm => NRs nm (Some (decode e v fl))) names) (seq 0 (length (levels e v))))
  end.

(** ** Formulas *)
Inductive term :=
| TI
| TL (vars : list var)
| TF (s : smooth)
| TIrf (s : irf)
| TRi (v : var)
| TRs (vars : list var) (by_var : option var).

(** The four lists of term indices, formula.py:399-421. *)
Definition is_linear (t : term) : bool := match t with TI | TL _ => true | _ => false end.
Definition is_irf (t : term) : bool := match t with TIrf _ => true | _ => false end.
Definition is_smooth (t : term) : bool := match t with TF _ => true | _ => false end.
Definition is_random (t : term) : bool := match t with TRi _ | TRs _ _ => true | _ => false end.
Definition term_idx (p : term -> bool) (terms : list term) : list nat :=
  filter (fun ti => match nth_error terms ti with Some t => p t | None => false end) (seq 0 (length terms)).
(** The order in which both loops visit the terms, formula.py:793-854, 2620-2702. *)
Definition visit (terms : list term) : list nat :=
  term_idx is_linear terms ++ term_idx is_irf terms ++ term_idx is_smooth terms ++ term_idx is_random terms.
(** has_intercept, formula.py:406. *)
Definition has_intercept (terms : list term) : bool := existsb (fun t => match t with TI => true | _ => false end) terms.

(** has_constant after a linear term, formula.py:808-812, 2645-2649. *)
Definition constant_after (e : env) (has_constant : bool) (t : term) : bool :=
  match t with
  | TL vars => has_constant || existsb (fun v => match vt e v with Factor => true | Numeric => false end) vars
  | _ => has_constant
  end.

Definition term_info (e : env) (icpt has_constant : bool) (t : term) : nat * nat * list cname :=
  match t with
  | TI => i_info
  | TL vars => linear_info e vars has_constant
  | TIrf s => irf_info s e icpt
  | TF s => f_info s e
  | TRi v => ri_info e v
  | TRs vars b => rs_info e vars b
  end.
Definition term_build (e : env) (d : frame) (lens : list nat) (pool has_constant : bool) (t : term) (ci : nat) (used : bool)
  : option (triplets * nat) :=
  match t with
  | TI => Some (i_build d ci used)
  | TL vars => Some (build_linear_term e d vars has_constant ci used)
  | TIrf s => irf_build s e d lens pool ci used
  | TF s => f_build s e d ci used
  | TRi v => Some (ri_build e d v ci used)
  | TRs vars b => Some (rs_build e d vars b ci used)
  end.

(** One row of the bookkeeping of __get_coef_info, formula.py:793-874: coef_names, coef_per_term and the
    first element of coef_idx_per_term. *)
Record info := Info { in_n : nat; in_unpen : nat; in_names : list cname; in_terms : list (nat * (nat * nat)) }.
Fixpoint info_loop (e : env) (terms : list term) (order : list nat) (has_constant : bool) (acc : info) : info :=
  match order with
  | [] => acc
  | ti :: rest =>
      match nth_error terms ti with
      | None => acc
      | Some t =>
          let '(n, u, names) := term_info e (has_intercept terms) has_constant t in
          info_loop e terms rest (constant_after e has_constant t)
            (Info (in_n acc + n) (in_unpen acc + u) (in_names acc ++ names)
                  (in_terms acc ++ [(ti, (in_n acc, n))]))
      end
  end.
Definition get_coef_info (e : env) (terms : list term) : info :=
  info_loop e terms (visit terms) (has_intercept terms) (Info 0 0 [] []).

(** build_sparse_matrix_from_formula, formula.py:2544-2721: triplets and number of columns.
    [use_only] says which terms are wanted (None: all). *)
Fixpoint build_loop (e : env) (d : frame) (lens : list nat) (pool : bool) (terms : list term)
    (use_only : option (list nat)) (order : list nat) (has_constant : bool) (acc : triplets * nat)
  : option (triplets * nat) :=
  match order with
  | [] => Some acc
  | ti :: rest =>
      match nth_error terms ti with
      | None => None
      | Some t =>
          let used := match use_only with None => true | Some l => mem ti l end in
          match term_build e d lens pool has_constant t (snd acc) used with
          | None => None
          | Some (ts, new_ci) =>
              build_loop e d lens pool terms use_only rest (constant_after e has_constant t)
                (fst acc ++ ts, snd acc + new_ci)
          end
      end
  end.
Definition build_sparse (e : env) (d : frame) (lens : list nat) (pool : bool) (terms : list term)
    (use_only : option (list nat)) : option (triplets * nat) :=
  build_loop e d lens pool terms use_only (visit terms) (has_intercept terms) ([], 0).
End Matrices.

Arguments Mat {K}. Arguments mcols {K}. Arguments mval {K}.
Arguments Frame {K}. Arguments n_y {K}. Arguments num {K}. Arguments code {K}.
Arguments CQR {K}. Arguments CDrop {K}. Arguments CDiff {K}.
Arguments Smooth {K}. Arguments f_vars {K}. Arguments f_nk {K}. Arguments f_te {K}. Arguments f_ident {K}.
Arguments f_Z {K}. Arguments f_rp {K}. Arguments f_basis {K}. Arguments f_by {K}. Arguments f_by_cont {K}.
Arguments f_binary {K}. Arguments f_drop {K}. Arguments f_penalized {K}.
Arguments Irf {K}. Arguments i_vars {K}. Arguments i_nk {K}. Arguments i_by {K}. Arguments i_penalized {K}.
Arguments i_events {K}. Arguments i_basis {K}.
Arguments TI {K}. Arguments TL {K}. Arguments TF {K}. Arguments TIrf {K}. Arguments TRi {K}. Arguments TRs {K}.
Arguments is_level {K}. Arguments column_triplets {K}. Arguments delete_col {K}. Arguments rotate {K}.
Arguments f_term_coef {K}. Arguments dropped {K}. Arguments f_term_ridx {K}. Arguments f_all_coef {K}.
Arguments n_dropped {K}. Arguments f_all_names {K}. Arguments keep_names {K}. Arguments f_info {K}.
Arguments i_term_coef {K}. Arguments i_n_coef {K}. Arguments irf_info {K}. Arguments is_linear {K}.
Arguments is_irf {K}. Arguments is_smooth {K}. Arguments is_random {K}. Arguments term_idx {K}.
Arguments visit {K}. Arguments has_intercept {K}. Arguments constant_after {K}. Arguments term_info {K}.
Arguments info_loop {K}. Arguments get_coef_info {K}.
