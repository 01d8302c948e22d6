(** B-spline bases and impulse response smooths: smooths.py and irf terms of terms.py.

    Real numbers stand for floats.  Matrices are lists of rows. *)

From Coq Require Import List Bool Arith Reals.
Import ListNotations.
Local Open Scope R_scope.

Definition sum_list (l : list R) : R := fold_right Rplus 0 l.
Definition column (j : nat) (M : list (list R)) : list R := map (fun row => nth j row 0) M.

(** tpower, smooths.py:42-59. *)
Definition tpower (x t : R) (p : nat) : R := (x - t) ^ p * (if Rlt_dec t x then 1 else 0).

(** np.diff(a, n) of one row, as called in smooths.py:84: n times a[1:] - a[:-1]. *)
Definition diff1 (l : list R) : list R := map (fun p => snd p - fst p) (combine l (tl l)).
Fixpoint np_diff (q : nat) (l : list R) : list R := match q with O => l | S q => np_diff q (diff1 l) end.

(** A row of np.identity, smooths.py:84. *)
Definition identity_row (n k : nat) : list R := map (fun i => if (i =? k)%nat then 1 else 0) (seq 0 n).
(** Row vector times matrix with the given number of columns. *)
Definition vec_mat (v : list R) (M : list (list R)) (cols : nat) : list R :=
  map (fun i => sum_list (map (fun p => fst p * nth i (snd p) 0) (combine v M))) (seq 0 cols).

(** One row of bbase, smooths.py:62-89; scp.special.gamma(deg + 1) is the factorial. *)
Definition bbase (x : R) (knots : list R) (dx : R) (deg : nat) : list R :=
  let P := map (fun t => tpower x t deg) knots in
  let n := length P in
  let D := map (fun k => map (fun v => v / (INR (fact deg) * dx ^ deg)) (np_diff (deg + 1) (identity_row n k))) (seq 0 n) in
  vec_mat (map (fun v => (-1) ^ (deg + 1) * v) P) D (n - (deg + 1)).

(** np.linspace, as called in smooths.py:157, 160. *)
Definition linspace (a b : R) (num : nat) : list R :=
  map (fun k => a + INR k * ((b - a) / (INR num - 1))) (seq 0 num).

(** convolve_event, smooths.py:7-36; fftconvolve computes sum_s f[s] spike[r - s] for all r below the sum of the
    lengths minus one. *)
Definition spike (loc : nat) : list R := map (fun i => if (i =? loc)%nat then 1 else 0) (seq 0 (loc + 1)).
Definition fftconvolve (f g : list R) : list R :=
  map (fun r => sum_list (map (fun s => if (s <=? r)%nat then nth s f 0 * nth (r - s) g 0 else 0) (seq 0 (length f))))
      (seq 0 (length f + length g - 1)).
Definition convolve_event (f : list R) (loc : nat) : list R := fftconvolve f (spike loc).

(** Keyword arguments of B_spline_basis, smooths.py:92-101; drop_outer_k is not used by it.  A key that is not
    in the dictionary is [None]. *)
Record kwargs := Kw { min_c : option R; max_c : option R; convolve : bool; degree : nat }.

(** Python's min and max, smooths.py:139-140. *)
Definition list_min (l : list R) : R := fold_right Rmin (hd 0 l) l.
Definition list_max (l : list R) : R := fold_right Rmax (hd 0 l) l.

(** B_spline_basis, smooths.py:92-176.  [None]: an exception (no observations; convolution without limits) or,
    not modelled, fewer basis functions than degree + 1. *)
Definition b_spline_basis (cov : list R) (onset : nat) (nk : nat) (kw : kwargs) : option (list (list R)) :=
  let deg := degree kw in
  if (length cov =? 0)%nat || (nk <=? deg)%nat then None else
  let xl := match min_c kw with Some v => v | None => list_min cov end in
  let xr := match max_c kw with Some v => v | None => list_max cov end in
  let ndx := (nk - deg)%nat in
  if convolve kw then
    match min_c kw, max_c kw with
    | Some lo, Some hi =>
        let dx := (xr - xl) / INR (ndx + 2 * deg) in
        let knots := linspace lo hi (ndx + 1 + 2 * deg) in
        let B := map (fun x => bbase x knots dx deg) cov in
        let cols := map (fun nki => firstn (length cov) (convolve_event (column nki B) onset)) (seq 0 nk) in
        Some (map (fun r => map (fun o => nth r o 0) cols) (seq 0 (length cov)))
    | _, _ => None
    end
  else
    let dx := (xr - xl) / INR ndx in
    let knots := linspace (xl - dx * INR deg) (xr + dx * INR deg) (ndx + 1 + 2 * deg) in
    Some (map (fun x => bbase x knots dx deg) cov).

(** TP_basis_calc, smooths.py:179-200. *)
Definition tp_row (a b : list R) : list R := flat_map (fun v => map (fun w => v * w) b) a.
Definition tp_basis (A B : list (list R)) : list (list R) := map (fun p => tp_row (fst p) (snd p)) (combine A B).

(** An irf term, terms.py:1713-1900: columns of its variables in the encoded predictors (var_map), nk and
    basis_kwargs per variable, column of the by factor, event onset per series. *)
Record irf_term := Irf { variables : list nat; nks : list nat; basis_kwargs : list kwargs; by_col : option nat; event_onset : list nat }.

(** The marginal basis of variable [vi], terms.py:2266-2289: limits from the dictionary if both are in it, else
    those of the data; a keyword passed twice is a TypeError. *)
Definition marginal (t : irf_term) (var_mins var_maxs : nat -> option R) (s_cov : list (list R)) (s_event vi : nat) : option (list (list R)) :=
  let v := nth vi (variables t) 0%nat in
  let nk := nth vi (nks t) 0%nat in
  match nth_error (basis_kwargs t) vi with
  | None => None
  | Some kw =>
      match min_c kw, max_c kw with
      | Some _, Some _ => b_spline_basis (column v s_cov) s_event nk kw
      | None, None => b_spline_basis (column v s_cov) s_event nk (Kw (var_mins v) (var_maxs v) (convolve kw) (degree kw))
      | _, _ => None
      end
  end.

(** The loop over variables, terms.py:2263-2294. *)
Fixpoint tensor_loop (t : irf_term) (var_mins var_maxs : nat -> option R) (s_cov : list (list R)) (s_event : nat)
    (acc : list (list R)) (vis : list nat) : option (list (list R)) :=
  match vis with
  | [] => Some acc
  | vi :: r =>
      match marginal t var_mins var_maxs s_cov s_event vi with
      | None => None
      | Some m => tensor_loop t var_mins var_maxs s_cov s_event (if (vi =? 0)%nat then m else tp_basis acc m) r
      end
  end.

(** build_ir_smooth_series, terms.py:2230-2328; [None]: an exception, here a by factor that varies within the
    series. *)
Definition build_ir_smooth_series (t : irf_term) (var_mins var_maxs : nat -> option R) (n_levels : nat)
    (s_cov : list (list R)) (s_event : nat) : option (list (list R)) :=
  match tensor_loop t var_mins var_maxs s_cov s_event [] (seq 0 (length (variables t))) with
  | None => None
  | Some term =>
      match by_col t with
      | None => Some term
      | Some bcol =>
          let by_cov := column bcol s_cov in
          let m_cols := length (hd [] term) in
          if forallb (fun v => if Req_EM_T v (hd 0 by_cov) then true else false) by_cov then
            Some (map (fun row => flat_map (fun level => if Req_EM_T (INR level) (hd 0 by_cov) then row else repeat 0 m_cols)
                                           (seq 0 n_levels)) term)
          else None
      end
  end.

Fixpoint map_opt {A B} (f : A -> option B) (l : list A) : option (list B) :=
  match l with
  | [] => Some []
  | x :: r => match f x, map_opt f r with Some y, Some ys => Some (y :: ys) | _, _ => None end
  end.

(** np.prod(self.nk) times the number of levels, terms.py:2111-2119. *)
Definition n_coef (t : irf_term) (n_levels : nat) : nat :=
  (fold_right Nat.mul 1 (nks t) * match by_col t with None => 1 | Some _ => n_levels end)%nat.

(** abs(final_col) > tol and selection with a boolean array, terms.py:2137-2139, 2175-2177. *)
Definition flags (tol : R) (col : list R) : list bool := map (fun v => if Rlt_dec tol (Rabs v) then true else false) col.
Definition select {A} (l : list A) (f : list bool) : list A := map fst (filter snd (combine l f)).

(** irf.build_matrix without a pool, terms.py:2121-2156: triplets (row, column, value) and number of columns.
    [None]: an exception.  [keep] says whether the term is in use_only, [ridx] are the rows. *)
Definition build_serial (t : irf_term) (var_mins var_maxs : nat -> option R) (n_levels : nat)
    (cov : list (list (list R))) (ridx : list nat) (tol : R) (keep : bool) (ci : nat) : option (list (nat * nat * R) * nat) :=
  match map_opt (fun p => build_ir_smooth_series t var_mins var_maxs n_levels (fst p) (snd p)) (combine cov (event_onset t)) with
  | None => None
  | Some finals =>
      let m_cols := match finals with [] => 0%nat | f :: _ => length (hd [] f) end in
      let term_elements := map (fun j => flat_map (fun f => let col := column j f in select col (flags tol col)) finals) (seq 0 m_cols) in
      let term_idx := map (fun j => flat_map (fun f => flags tol (column j f)) finals) (seq 0 m_cols) in
      if negb (n_coef t n_levels =? length term_elements)%nat then None
      else if keep && negb (forallb (fun f => (length f =? length ridx)%nat) term_idx) then None
      else Some (flat_map (fun j =>
                   if keep then
                     let els := nth j term_elements [] in
                     combine (combine (select ridx (nth j term_idx [])) (map (fun _ => (ci + j)%nat) els)) els
                   else []) (seq 0 m_cols), m_cols)
  end.

(** irf.build_matrix with a pool, terms.py:2158-2182. *)
Definition build_parallel (t : irf_term) (var_mins var_maxs : nat -> option R) (n_levels : nat)
    (cov : list (list (list R))) (ridx : list nat) (tol : R) (keep : bool) (ci : nat) : option (list (nat * nat * R) * nat) :=
  match map_opt (fun p => build_ir_smooth_series t var_mins var_maxs n_levels (fst p) (snd p)) (combine cov (event_onset t)) with
  | None => None
  | Some [] => None
  | Some finals =>
      let final := concat finals in
      let m_cols := length (hd [] final) in
      if keep && negb (length final =? length ridx)%nat then None
      else Some (flat_map (fun j =>
                   if keep then
                     let col := column j final in
                     let f := flags tol col in
                     let els := select col f in
                     combine (combine (select ridx f) (map (fun _ => (ci + j)%nat) (select ridx f))) els
                   else []) (seq 0 m_cols), m_cols)
  end.

(** The loop over irf terms in build_sparse_matrix_from_formula, formula.py:2655-2676; [levels] are the numbers of
    levels of the factors, [pool] says whether there is a pool, [use] whether a term is in use_only. *)
Fixpoint build_irfs (pool : bool) (levels : nat -> nat) (var_mins var_maxs : nat -> option R) (cov : list (list (list R)))
    (ridx : list nat) (tol : R) (ci : nat) (ts : list (irf_term * bool)) : option (list (nat * nat * R) * nat) :=
  match ts with
  | [] => Some ([], ci)
  | (t, use) :: r =>
      let n_levels := match by_col t with None => 1%nat | Some b => levels b end in
      match (if pool then build_parallel else build_serial) t var_mins var_maxs n_levels cov ridx tol use ci with
      | None => None
      | Some (tri, new_ci) =>
          match build_irfs pool levels var_mins var_maxs cov ridx tol (ci + new_ci) r with
          | None => None
          | Some (tri', ci') => Some (tri ++ tri', ci')
          end
      end
  end.
