(** Model of the penalty bookkeeping of mssm.

    Sources: /repo/src/mssm/src/python/penalties.py, custom_types.py and
    compute_S_emb_pinv_det / calculate_edf / calculate_term_edf of
    gamm_solvers.py.

    Numbers are elements of an arbitrary type [K] with the operations the code uses;
    floating point rounding is not modelled.  Matrices are functions from row and
    column to a number: a dense or sparse array of known shape is represented by its
    entries, and its shape is kept separately where the code reads it. *)

From Coq Require Import List Arith Bool.
Import ListNotations.

Set Implicit Arguments.

(** custom_types.py:8-20 (PenType), all members. *)
Inductive pentype :=
  IDENTITY | DIFFERENCE | DISTANCE | REPARAM1 | REPARAM2 | NULL | DERIVATIVE
| COEFFICIENTS | CUSTOM | SHARED.

Section Pen.

Variable K : Type.
Variables (k0 k1 : K) (kadd kmul ksub : K -> K -> K).

(** A matrix is given by its entries. *)
Definition mat := nat -> nat -> K.

(** [A + B] of two sparse arrays of equal shape, entry by entry. *)
Definition madd (A B : mat) : mat := fun i j => kadd (A i j) (B i j).

(** [A * lam], a sparse array times a float, as in gamm_solvers.py:239,241. *)
Definition mscale (l : K) (A : mat) : mat := fun i j => kmul (A i j) l.

(** The zero matrix. *)
Definition mzero : mat := fun _ _ => k0.

(** [A[a:, a:]] : the slice of a matrix from row and column [a] on
    (penalties.py:84-93).  The upper end of the slice is kept as the shape. *)
Definition mslice (a : nat) (A : mat) : mat := fun i j => A (a + i) (a + j).

(** One original penalty inside a merged one: the m-th entries of the lists
    S_Js, S_J_embs, D_J_embs, rep_sjs, start_indices, types, ranks, term and
    dist_param of LambdaTerm (custom_types.py:109-118).
    [pt_dim] is S_Js[m].shape[1]. *)
Record part := mkPart {
  pt_S : mat; pt_dim : nat; pt_Semb : mat; pt_Demb : mat; pt_rep : nat;
  pt_start : nat; pt_type : pentype; pt_rank : nat; pt_term : nat; pt_dist : nat }.

(** LambdaTerm, custom_types.py:62-118.  [t_dim] is S_J.shape[1].  [t_term] and
    [t_dist] are an int for an ordinary penalty (a list with one element here) and a
    list for a merged one.  [t_parts] is [None] for an ordinary penalty (S_Js is None)
    and collects the eight list-valued fields of a merged one.  [t_clust] stands for
    the pair clust_series/clust_weights (None, or a tag naming the value).  rp_idx is
    left out: no function modelled here reads it. *)
Record lterm := mkTerm {
  t_S : mat; t_dim : nat; t_Semb : mat; t_Demb : mat; t_rep : nat; t_lam : K;
  t_start : nat; t_frozen : bool; t_type : pentype; t_rank : nat;
  t_term : list nat; t_clust : option nat; t_dist : list nat; t_id : option nat;
  t_parts : option (list part) }.

(** ** sort_penalties, penalties.py:12-23

    np.argsort of the start indices.  Modelled as a stable insertion sort; numpy
    does not promise stability, so equal start indices may come out in another
    order than here. *)
Fixpoint insert_pen (p : lterm) (l : list lterm) : list lterm :=
  match l with
  | [] => [p]
  | q :: l' => if t_start q <=? t_start p then q :: insert_pen p l' else p :: l
  end.

(** penalties.py:12-23. *)
Definition sort_penalties (l : list lterm) : list lterm :=
  fold_left (fun acc p => insert_pen p acc) l [].

(** ** create_id_dict, penalties.py:26-49

    The python dict is an association list in insertion order. *)
Fixpoint dict_add (d : list (nat * list nat)) (k peni : nat) : list (nat * list nat) :=
  match d with
  | [] => [(k, [peni])]
  | (k', v) :: d' => if k' =? k then (k', v ++ [peni]) :: d' else (k', v) :: dict_add d' k peni
  end.

(** The loop of penalties.py:39-44, [peni] counts the penalties. *)
Fixpoint id_dict_loop (peni : nat) (ps : list lterm) (d : list (nat * list nat))
  : list (nat * list nat) :=
  match ps with
  | [] => d
  | p :: ps' =>
      id_dict_loop (S peni) ps'
        (match t_id p with Some k => dict_add d k peni | None => d end)
  end.

(** penalties.py:26-49. *)
Definition create_id_dict (ps : list lterm) : option (list (nat * list nat)) :=
  let d := id_dict_loop 0 ps [] in
  if (0 <? length d) && (1 <? fold_right Nat.max 0 (map (fun kv => length (snd kv)) d))
  then Some d else None.

(** [id_dict[id]], None if [id] is not a key. *)
Fixpoint dict_get (d : list (nat * list nat)) (k : nat) : option (list nat) :=
  match d with
  | [] => None
  | (k', v) :: d' => if k' =? k then Some v else dict_get d' k
  end.

(** The condition [(pen.id not in id_dict) or (len(id_dict[pen.id]) <= 1)] of
    penalties.py:71 (also gamm_solvers.py:397-398 and 998-999). *)
Definition not_merged (d : list (nat * list nat)) (id : option nat) : bool :=
  match id with
  | None => true
  | Some k => match dict_get d k with
              | None => true
              | Some v => length v <=? 1
              end
  end.

(** [pen.id == id]. *)
Definition has_id (k : nat) (p : lterm) : bool :=
  match t_id p with Some k' => k' =? k | None => false end.

(** The list entries stored for one original penalty, penalties.py:101-109. *)
Definition part_of (p : lterm) : part :=
  mkPart (t_S p) (t_dim p) (t_Semb p) (t_Demb p) (t_rep p) (t_start p) (t_type p)
         (t_rank p) (hd 0 (t_term p)) (hd 0 (t_dist p)).

(** penalties.py:75-111: the merged penalty for one id.  [S_J_emb += ...] on a scipy
    sparse array builds a new array (it has no in-place addition), so the original
    penalties are not changed.  [m_pens] is never empty for a key of the dict; the
    model returns None for an empty list (python would raise an IndexError). *)
Definition merge_id (k : nat) (ps : list lterm) : option lterm :=
  match filter (has_id k) ps with
  | [] => None
  | m0 :: ms =>
      let Semb := fold_left (fun A p => madd A (t_Semb p)) ms (t_Semb m0) in
      let Demb := fold_left (fun A p => madd A (t_Demb p)) ms (t_Demb m0) in
      let lst := last ms m0 in
      Some (mkTerm (mslice (t_start m0) Semb)
             (t_start lst + t_dim lst * t_rep lst - t_start m0)
             Semb Demb 1 (t_lam m0) (t_start m0) false SHARED
             (fold_right Nat.add 0 (map t_rank (m0 :: ms)))
             (map (fun p => hd 0 (t_term p)) (m0 :: ms))
             None
             (map (fun p => hd 0 (t_dist p)) (m0 :: ms))
             (Some k)
             (Some (map part_of (m0 :: ms))))
  end.

(** Sequence a list of options; None if any element is None. *)
Fixpoint all_some (A : Type) (l : list (option A)) : option (list A) :=
  match l with
  | [] => Some []
  | None :: _ => None
  | Some x :: l' => match all_some l' with Some r => Some (x :: r) | None => None end
  end.

(** penalties.py:52-115. *)
Definition combine_shared_penalties (ps : list lterm) : option (list lterm) :=
  match create_id_dict ps with
  | None => Some ps
  | Some d =>
      match all_some (map (fun k => merge_id k ps) (map fst d)) with
      | None => None
      | Some merged => Some (filter (fun p => not_merged d (t_id p)) ps ++ merged)
      end
  end.

(** One penalty rebuilt from a merged one, penalties.py:153-167. *)
Definition term_of_part (m : lterm) (q : part) : lterm :=
  mkTerm (pt_S q) (pt_dim q) (pt_Semb q) (pt_Demb q) (pt_rep q) (t_lam m)
         (pt_start q) false (pt_type q) (pt_rank q) [pt_term q] None [pt_dist q]
         (t_id m) None.

(** [isinstance(pen.S_Js, list)], penalties.py:134. *)
Definition is_merged (p : lterm) : bool :=
  match t_parts p with Some _ => true | None => false end.

(** The penalties a merged one is split into, penalties.py:149-167. *)
Definition split_one (m : lterm) : list lterm :=
  match t_parts m with Some qs => map (term_of_part m) qs | None => [] end.

(** penalties.py:118-171. *)
Definition split_shared_penalties (ms : list lterm) : list lterm :=
  let plain := filter (fun p => negb (is_merged p)) ms in
  let merged := filter is_merged ms in
  match merged with
  | [] => plain
  | _ => sort_penalties (plain ++ flat_map split_one merged)
  end.

(** ** Embedding of penalty blocks *)

(** A sparse matrix given as three lists data, rows, cols is a list of triplets. *)
Definition triplets := list (K * nat * nat).

(** scipy.sparse.csc_array((data,(rows,cols))): entries with equal indices are added. *)
Definition csc (ts : triplets) : mat :=
  fun i j => fold_right (fun t acc =>
     match t with (v, r, c) => if (r =? i) && (c =? j) then kadd v acc else acc end) k0 ts.

(** The check scipy makes for [shape=(n,n)]: every index must be below [n]. *)
Definition in_shape (n : nat) (ts : triplets) : bool :=
  forallb (fun t => match t with (_, r, c) => (r <? n) && (c <? n) end) ts.

(** [np.array(rows) + c, np.array(cols) + c]. *)
Definition shift_triplets (c : nat) (ts : triplets) : triplets :=
  map (fun t => match t with (v, r, cc) => (v, r + c, cc + c) end) ts.

(** embed_in_S_sparse, penalties.py:228-273; None is scipy's ValueError for an index
    outside of the shape. *)
Definition embed_in_S_sparse (ts : triplets) (S_emb : option mat)
    (S_col SJ_col cIndex : nat) : option (mat * nat) :=
  let e := shift_triplets cIndex ts in
  if in_shape S_col e then
    Some (match S_emb with None => csc e | Some A => madd A (csc e) end, cIndex + SJ_col)
  else None.

(** embed_in_Sj_sparse, penalties.py:276-312. *)
Definition embed_in_Sj_sparse (ts : triplets) (Sj : option mat) (SJ_col : nat) : option mat :=
  if in_shape SJ_col ts then
    Some (match Sj with None => csc ts | Some A => madd A (csc ts) end)
  else None.

(** The repetition of a block's triplets for the remaining levels of a by-factor:
    np.tile of data/rows/cols plus np.repeat(np.arange(pen_iter), len)*id_k,
    terms.py:902-917 (also formula.py:2428-2470). *)
Definition tile_triplets (pen_iter id_k : nat) (ts : triplets) : triplets :=
  flat_map (fun r => map (fun t => match t with (v, i, j) => (v, i + r * id_k, j + r * id_k) end) ts)
           (seq 0 pen_iter).

(** f.build_penalty, terms.py:807-816 and 886-931: the embedded penalty of a
    by-smooth with a shared id and no dropped coefficients - the first level is
    embedded, then the remaining [n_levels - 1] levels.  Returns S_J, S_J_emb, the next
    free index, and rep_sj (terms.py:1003). *)
Definition build_by_id_penalty (ts : triplets) (id_k n_levels col_S cur_pen_idx : nat)
  : option (mat * mat * nat * nat) :=
  match embed_in_Sj_sparse ts None id_k with
  | None => None
  | Some SJ =>
    match embed_in_S_sparse ts None col_S id_k cur_pen_idx with
    | None => None
    | Some (S1, idx1) =>
      let pen_iter := n_levels - 1 in
      match embed_in_S_sparse (tile_triplets pen_iter id_k ts) (Some S1) col_S
              (id_k * pen_iter) idx1 with
      | None => None
      | Some (S2, idx2) => Some (SJ, S2, idx2, pen_iter + 1)
      end
    end
  end.

(** ** embed_shared_penalties, penalties.py:315-449 *)

(** vstack/hstack of [n] zero rows and columns before a matrix. *)
Definition pad_before (n : nat) (A : mat) : mat :=
  fun i j => if (n <=? i) && (n <=? j) then A (i - n) (j - n) else k0.

(** vstack/hstack of zero rows and columns behind a matrix of size [sz]. *)
Definition pad_after (sz : nat) (A : mat) : mat :=
  fun i j => if (i <? sz) && (j <? sz) then A i j else k0.

(** A penalty together with the current number of rows/columns of its S_J_emb. *)
Definition sized := (lterm * nat)%type.

(** Replace the embedded matrices and the start index of a penalty. *)
Definition set_emb (p : lterm) (Semb Demb : mat) (start : nat) : lterm :=
  mkTerm (t_S p) (t_dim p) Semb Demb (t_rep p) (t_lam p) start (t_frozen p) (t_type p)
         (t_rank p) (t_term p) (t_clust p) (t_dist p) (t_id p) (t_parts p).

(** Assign dist_param, penalties.py:332-334. *)
Definition set_dist (p : lterm) (fi : nat) : lterm :=
  mkTerm (t_S p) (t_dim p) (t_Semb p) (t_Demb p) (t_rep p) (t_lam p) (t_start p)
         (t_frozen p) (t_type p) (t_rank p) (t_term p) (t_clust p) [fi] (t_id p) (t_parts p).

(** The effect of one other formula [ofi] with [n] coefficients on a penalty of formula
    [fi], penalties.py:337-416. *)
Definition embed_other (fi ofi n : nat) (ps : sized) : sized :=
  let (p, sz) := ps in
  if ofi <? fi then
    (set_emb p (pad_before n (t_Semb p)) (pad_before n (t_Demb p)) (t_start p + n), sz + n)
  else if fi <? ofi then
    (set_emb p (pad_after sz (t_Semb p)) (pad_after sz (t_Demb p)) (t_start p), sz + n)
  else ps.

(** All other formulas in order, for one penalty, penalties.py:336-337; then the extra
    coefficients, penalties.py:418-447. *)
Definition embed_one (n_coefs : list nat) (extra : option nat) (fi : nat) (p : lterm) : lterm :=
  let p1 := (set_dist p fi, nth fi n_coefs 0) in
  let p2 := fold_left (fun acc on => embed_other fi (fst on) (snd on) acc)
              (combine (seq 0 (length n_coefs)) n_coefs) p1 in
  match extra with
  | None => fst p2
  | Some _ => set_emb (fst p2) (pad_after (snd p2) (t_Semb (fst p2)))
                      (pad_after (snd p2) (t_Demb (fst p2))) (t_start (fst p2))
  end.

(** penalties.py:315-449.  [n_coefs] lists form.n_coef of each formula. *)
Definition embed_shared_penalties (shared : list (list lterm)) (n_coefs : list nat)
    (extra : option nat) : list (list lterm) :=
  map (fun fp => map (embed_one n_coefs extra (fst fp)) (snd fp))
      (combine (seq 0 (length shared)) shared).

(** ** compute_S_emb_pinv_det, gamm_solvers.py:185-413 *)

(** One entry of the parallel lists SJs, SJ_terms, SJ_types (None/Some), SJ_reps and
    SJ_idx (gamm_solvers.py:218-230).  [g_dim] is SJs[i].shape[1].  DJs and SJ_lams are
    left out (DJs only feeds the optional root). *)
Record group := mkGroup { g_S : mat; g_dim : nat; g_terms : nat; g_rep : nat; g_start : nat }.

(** gamm_solvers.py:258-276: add a penalty to the group with the same start index.
    None: ValueError for several matches, IndexError for no match, ValueError for
    another repeat number, or numpy's error for different shapes. *)
Definition group_add (gs : list group) (p : lterm) : option (list group) :=
  match filter (fun g => g_start g =? t_start p) gs with
  | [g] =>
      if (g_rep g =? t_rep p) && (g_dim g =? t_dim p) then
        Some (map (fun h => if g_start h =? t_start p
                            then mkGroup (madd (g_S h) (mscale (t_lam p) (t_S p)))
                                   (g_dim h) (g_terms h + 1) (g_rep h) (g_start h)
                            else h) gs)
      else None
  | _ => None
  end.

(** The loop gamm_solvers.py:233-276 over the (split) penalties.  [mx] is SJ_idx_max. *)
Fixpoint group_loop (first : bool) (mx : nat) (gs : list group) (ps : list lterm)
  : option (list group) :=
  match ps with
  | [] => Some gs
  | p :: ps' =>
      if first || (mx <? t_start p) then
        group_loop false (t_start p)
          (gs ++ [mkGroup (mscale (t_lam p) (t_S p)) (t_dim p) 1 (t_rep p) (t_start p)]) ps'
      else
        match group_add gs p with
        | None => None
        | Some gs' => group_loop false mx gs' ps'
        end
  end.

(** S_emb of gamm_solvers.py:237-241: the lambda-weighted sum of the embedded penalties. *)
Definition S_emb_of (ps : list lterm) : mat :=
  fold_left (fun A p => madd A (mscale (t_lam p) (t_Semb p))) ps mzero.

(** A block [B] of size [n] put on the diagonal at position [c] (the triplets of the
    pseudo-inverse shifted by cIndexPinv, gamm_solvers.py:361-369). *)
Definition block_at (c n : nat) (B : mat) : mat :=
  fun i j => if (c <=? i) && (i <? c + n) && (c <=? j) && (j <? c + n)
             then B (i - c) (j - c) else k0.

(** [rep] copies of a block from position [c] on, gamm_solvers.py:361-369. *)
Fixpoint blocks_at (rep c n : nat) (B : mat) : mat :=
  match rep with
  | 0 => mzero
  | S r => madd (block_at c n B) (blocks_at r (c + n) n B)
  end.

(** The loop gamm_solvers.py:289-372 that fills S_pinv.  [pinv] is the pseudo-inverse
    routine (scipy's svd, lines 327-341) applied to the summed block of a group; [c] is
    cIndexPinv. *)
Fixpoint pinv_loop (pinv : nat -> mat -> mat) (c : nat) (gs : list group) : mat :=
  match gs with
  | [] => mzero
  | g :: gs' =>
      let c' := c + g_dim g * g_rep g in
      if g_terms g =? 1 then pinv_loop pinv c' gs'
      else madd (blocks_at (g_rep g) c (g_dim g) (pinv (g_dim g) (g_S g)))
                (pinv_loop pinv c' gs')
  end.

(** FS_use_rank per split penalty, gamm_solvers.py:300 and 371-372. *)
Definition use_rank_of_groups (gs : list group) : list bool :=
  flat_map (fun g => if g_terms g =? 1 then [true] else repeat false (g_terms g)) gs.

(** Select the entries of a list [xs] (one per penalty) whose penalty satisfies [f]. *)
Definition select (A : Type) (f : lterm -> bool) (ps : list lterm) (xs : list A) : list A :=
  map snd (filter (fun px => f (fst px)) (combine ps xs)).

(** gamm_solvers.py:391-411: from one decision per penalty to one per smoothing
    parameter; None for a disagreement within an id. *)
Definition merge_use_rank (ps : list lterm) (fs : list bool) : option (list bool) :=
  match create_id_dict ps with
  | None => Some fs
  | Some d =>
      match all_some (map (fun k =>
               match select (has_id k) ps fs with
               | [] => None
               | r :: rs => if forallb (Bool.eqb r) rs then Some r else None
               end) (map fst d)) with
      | None => None
      | Some l => Some (select (fun p => not_merged d (t_id p)) ps fs ++ l)
      end
  end.

(** gamm_solvers.py:185-413 (the optional root is in RootModel).  None: an exception.
    SJ_idx[0] at line 282 is an IndexError for an empty list of penalties. *)
Definition compute_S_emb_pinv_det (pinv : nat -> mat -> mat) (merged : list lterm)
  : option (mat * mat * list bool) :=
  let ps := split_shared_penalties merged in
  match group_loop true 0 [] ps with
  | None => None
  | Some gs =>
      match gs with
      | [] => None
      | g0 :: _ =>
          let fs := use_rank_of_groups gs in
          if length fs =? length ps then
            match merge_use_rank ps fs with
            | None => None
            | Some fs' => Some (S_emb_of ps, pinv_loop pinv (g_start g0) gs, fs')
            end
          else None
      end
  end.

(** ** calculate_edf, gamm_solvers.py:890-1012

    [B] returns the sum of squares Bps computed for a penalty (lines 960-984; the choice
    between the two bounds for clustered series is left out: t_clust = None).  Returns
    total_edf, term_edfs and Bs. *)
Definition calculate_edf (B : lterm -> K) (colsX : K) (merged : list lterm)
  : K * list K * list K :=
  let ps := split_shared_penalties merged in
  let Bs := map B ps in
  let pp := map (fun p => kmul (t_lam p) (B p)) ps in
  let total := fold_left ksub pp colsX in
  let Bs' := match create_id_dict ps with
             | None => Bs
             | Some d => select (fun p => not_merged d (t_id p)) ps Bs ++
                         map (fun k => fold_right kadd k0 (select (has_id k) ps Bs)) (map fst d)
             end in
  (total, pp, Bs').

(** An entry of term_n_coef, term_pen_params and term_idx, gamm_solvers.py:1040-1045. *)
Record edf_group := mkEdf { e_n : nat; e_pen : K; e_start : nat }.

(** gamm_solvers.py:1060-1073; None as in [group_add]. *)
Definition edf_add (gs : list edf_group) (p : lterm) (pp : K) : option (list edf_group) :=
  match filter (fun g => e_start g =? t_start p) gs with
  | [g] =>
      if e_n g =? t_dim p * t_rep p then
        Some (map (fun h => if e_start h =? t_start p
                            then mkEdf (e_n h) (kadd (e_pen h) pp) (e_start h) else h) gs)
      else None
  | _ => None
  end.

(** The loop gamm_solvers.py:1049-1073. *)
Fixpoint edf_loop (first : bool) (mx : nat) (gs : list edf_group) (ps : list (lterm * K))
  : option (list edf_group) :=
  match ps with
  | [] => Some gs
  | (p, pp) :: ps' =>
      if first || (mx <? t_start p) then
        edf_loop false (t_start p) (gs ++ [mkEdf (t_dim p * t_rep p) pp (t_start p)]) ps'
      else
        match edf_add gs p pp with
        | None => None
        | Some gs' => edf_loop false mx gs' ps'
        end
  end.

(** An integer as a number. *)
Fixpoint kof (n : nat) : K := match n with 0 => k0 | S m => kadd k1 (kof m) end.

(** calculate_term_edf, gamm_solvers.py:1015-1077. *)
Definition calculate_term_edf (merged : list lterm) (param_penalized : list K)
  : option (list K) :=
  match edf_loop true 0 [] (combine (split_shared_penalties merged) param_penalized) with
  | None => None
  | Some gs => Some (map (fun g => ksub (kof (e_n g)) (e_pen g)) gs)
  end.

(** ** Difference and identity penalties *)

(** np.identity(n): entry (i,j); the shape is n. *)
Definition identity_mat : mat := fun i j => if i =? j then k1 else k0.

(** np.diff(A) along the last axis: column j becomes A[:,j+1] - A[:,j]; one column less. *)
Definition diff_cols (A : mat) : mat := fun i j => ksub (A i (S j)) (A i j).

(** D = np.diff(np.identity(n), m), penalties.py:522, shape n x (n-m). *)
Definition diff_D (m : nat) : mat := Nat.iter m diff_cols identity_mat.

(** Sum of f 0 + ... + f (n-1). *)
Fixpoint ksum (n : nat) (f : nat -> K) : K :=
  match n with 0 => k0 | S p => kadd (ksum p f) (f p) end.

(** S = D @ D.T for D with [q] columns, penalties.py:523. *)
Definition mul_tr (q : nat) (D : mat) : mat := fun i j => ksum q (fun l => kmul (D i l) (D j l)).

(** DifferencePenalty.constructor without constraint, penalties.py:522-526 and 573-581:
    S, D and rank.  The translation to triplets is left out. *)
Definition difference_penalty (n m : nat) : mat * mat * nat :=
  let D := diff_D m in (mul_tr (n - m) D, D, n - m).

(** IdentityPenalty.constructor with f=None, penalties.py:622-644: triplets of S and of
    its root, and the rank. [constrained] says whether constraint is not None. *)
Definition identity_penalty (n : nat) (constrained : bool) : triplets * triplets * nat :=
  let n' := if constrained then n - 1 else n in
  let ts := map (fun i => (k1, i, i)) (seq 0 n') in
  (ts, ts, n').

(** ** adjust_pen_drop, penalties.py:174-225 *)

(** np.isin(x, xs). *)
Definition isin (x : nat) (xs : list nat) : bool := existsb (Nat.eqb x) xs.

(** penalties.py:200-225.  Returns the kept triplets, re-aligned, and the number of
    dropped columns. *)
Definition adjust_pen_drop (ts : triplets) (drop : list nat) (offset : nat) : triplets * nat :=
  let cols := map (fun t => match t with (_, _, c) => c + offset end) ts in
  let drop' := filter (fun d => isin d cols) drop in
  let keep := filter (fun t => match t with (_, r, c) =>
                 negb (isin (c + offset) drop') && negb (isin (r + offset) drop') end) ts in
  let realign i := i - length (filter (fun d => d <? i + offset) drop') in
  (map (fun t => match t with (v, r, c) => (v, realign r, realign c) end) keep,
   length drop').

(** ** TP_pen, penalties.py:647-767 (no constraint, scale_pen=False) *)

(** scipy.sparse.kron(A,B) for B with [q] rows and columns. *)
Definition kron (q : nat) (A B : mat) : mat :=
  fun i j => kmul (A (i / q) (j / q)) (B (i mod q) (j mod q)).

(** The loop penalties.py:695-702 for marginals [i], [i+1], ... of sizes [ks]. *)
Fixpoint tp_loop (j i : nat) (ks : list nat) (Sj acc : mat) : mat :=
  match ks with
  | [] => acc
  | k :: ks' => tp_loop j (S i) ks' Sj (kron k acc (if j =? i then Sj else identity_mat))
  end.

(** penalties.py:687-702; [ks] must not be empty (python: IndexError). *)
Definition tp_pen (Sj : mat) (j : nat) (ks : list nat) : option mat :=
  match ks with
  | [] => None
  | _ :: ks' => Some (tp_loop j 1 ks' Sj (if j =? 0 then Sj else identity_mat))
  end.

(** TP_basis_calc, smooths.py:179-200: scipy.linalg.khatri_rao(A.T, B.T).T for B with [q]
    columns; column c of the result belongs to column c / q of A and c mod q of B. *)
Definition tp_basis_calc (q : nat) (A B : mat) : mat :=
  fun r c => kmul (A r (c / q)) (B r (c mod q)).

(** The loop over the marginals of a tensor smooth, terms.py:1265-1268: marginal bases with
    their numbers of columns. *)
Definition tp_basis (marginals : list (mat * nat)) : option mat :=
  match marginals with
  | [] => None
  | (B0, _) :: rest => Some (fold_left (fun acc Bq => tp_basis_calc (snd Bq) acc (fst Bq)) rest B0)
  end.

End Pen.
