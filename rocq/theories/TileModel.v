(** Positions of penalties: build_penalties (formula.py:2058-2541) and the build_penalty methods
    (terms.py:641-1121, 1881-2042, 2371-2430, 2783-2878).

    Simplification: of a penalty only its position is kept: the first coefficient (start_index), the size of
    S_J and the number of repetitions rep_sj.  Entries and embeddings are modelled in PenModel.v. *)

From Coq Require Import List Bool Arith.
From Verif Require Import FormModel.
Import ListNotations.

(** LambdaTerm.term, .start_index, the size of .S_J, .rep_sj. *)
Record pen := Pen { p_term : nat; p_start : nat; p_dim : nat; p_rep : nat }.

(** What a term says about its penalties: was an id given, number of penalties, has_null_penalty,
    the null space dimension if the penalty has type REPARAM1 (formula.py:2297, 2359), and the number of
    coefficients that adjust_pen_drop removes from every level (terms.py:823, 914, 1050). *)
Record pspec := PSpec { ps_shared : bool; ps_pens : nat; ps_null : bool; ps_reparam : option nat; ps_dropped : nat -> nat }.

Section Tile.
Variable K : Type.
Notation smooth := (smooth K).
Notation term := (term K).

(** Independent penalties for consecutive blocks, terms.py:1014-1113, 2008-2035, 2834-2857. *)
Fixpoint place (ti cur : nat) (ws : list nat) : list pen * nat :=
  match ws with
  | [] => ([], cur)
  | w :: t => let '(ps, c) := place ti (cur + w) t in (Pen ti cur w 1 :: ps, c)
  end.

Definition sum_nat (l : list nat) : nat := fold_left Nat.add l 0.

(** [dropped] of terms.py:823, 914, 1050 for one level; nothing is dropped if drop_coef is None. *)
Definition dropped_at (s : smooth) (sp : pspec) (k : nat) : nat :=
  match f_drop s with None => 0 | Some _ => ps_dropped sp k end.

(** f.build_penalty, terms.py:641-1121. *)
Definition f_build_penalty (s : smooth) (e : env) (sp : pspec) (ti cur : nat) : list pen * nat :=
  let id_k := f_term_coef s in
  let dr := dropped_at s sp in
  let cur1 := cur + (id_k - dr 0) in
  match f_by s with
  | None => ([Pen ti cur (id_k - dr 0) 1], cur1)
  | Some v =>
      let pen_iter := length (levels e v) - 1 in
      if ps_shared sp then
        match f_drop s with
        | None => ([Pen ti cur id_k (pen_iter + 1)], cur1 + id_k * pen_iter)
        | Some _ =>
            let cur2 := cur1 + (id_k * pen_iter - sum_nat (map dr (seq 1 pen_iter))) in
            ([Pen ti cur (cur2 - cur) 1], cur2)
        end
      else
        let '(ps, c) := place ti cur1 (map (fun k => id_k - dr k) (seq 1 pen_iter)) in
        (Pen ti cur (id_k - dr 0) 1 :: ps, c)
  end.

(** irf.build_penalty, terms.py:1881-2042. *)
Definition irf_build_penalty (s : irf K) (e : env) (sp : pspec) (ti cur : nat) : list pen * nat :=
  let id_k := i_term_coef s in
  match i_by s with
  | None => ([Pen ti cur id_k 1], cur + id_k)
  | Some v =>
      let n := length (levels e v) in
      if ps_shared sp then ([Pen ti cur id_k n], cur + id_k + (n - 1) * id_k)
      else let '(ps, c) := place ti (cur + id_k) (repeat id_k (n - 1)) in (Pen ti cur id_k 1 :: ps, c)
  end.

(** ri.build_penalty and rs.build_penalty, terms.py:2371-2430, 2783-2878; var_coef is set by
    rs.get_coef_info. *)
Definition random_build_penalty (e : env) (t : term) (ti cur : nat) : list pen * nat :=
  match t with
  | TRi v => let idk := length (levels e v) in ([Pen ti cur idk 1], cur + idk)
  | TRs vars b =>
      let idk := fst (fst (linear_info e vars false)) in
      match b with
      | Some v => place ti cur (repeat idk (length (levels e v)))
      | None => ([Pen ti cur idk 1], cur + idk)
      end
  | _ => ([], cur)
  end.

(** The loop formula.py:2144-2154.  The first round starts at cur_pen_idx, the others at prev_pen_idx; the two
    are equal when a term is begun (:2099, 2157, 2522). *)
Fixpoint irf_penids (s : irf K) (e : env) (sp : pspec) (ti prev : nat) (n : nat) (acc : list pen * nat) : list pen * nat :=
  match n with
  | 0 => acc
  | S m => let '(ps, c) := irf_build_penalty s e sp ti prev in irf_penids s e sp ti prev m (fst acc ++ ps, c)
  end.

(** Null space penalties of one term, formula.py:2304-2519: [dims] are the sizes of the matrices S_j_last,
    [nulls] the number of penalties. *)
Fixpoint null_levels (ti prev : nat) (dims : list nat) : list pen * nat :=
  match dims with
  | [] => ([], prev)
  | idk :: t => let '(ps, c) := null_levels ti (prev + idk) t in (Pen ti prev idk 1 :: ps, c)
  end.
Definition null_one (ti prev idk last_pen_rep added : nat) : list pen * nat :=
  if added =? 1
  then ([Pen ti prev idk last_pen_rep], prev + idk + (if 1 <? last_pen_rep then idk * (last_pen_rep - 1) else 0))
  else let '(ps, c) := place ti (prev + idk) (repeat idk (added - 1)) in (Pen ti prev idk 1 :: ps, c).
Fixpoint null_many (ti prev idk last_pen_rep added cur nulls : nat) : list pen * nat :=
  match nulls with
  | 0 => ([], cur)
  | S m => let '(ps, c) := null_one ti prev idk last_pen_rep added in
           let '(qs, c') := null_many ti prev idk last_pen_rep added c m in (ps ++ qs, c')
  end.

(** The loop formula.py:2203-2519: penalties of one smooth and cur_pen_idx after it.  [acc] holds the
    penalties of this term so far. *)
Fixpoint f_penids (s : smooth) (e : env) (sp : pspec) (ti prev : nat) (left : nat) (acc : list pen * nat) : list pen * nat :=
  match left with
  | 0 => acc
  | S m =>
      let '(ps, cur) := f_build_penalty s e sp ti prev in
      let all := fst acc ++ ps in
      if negb (ps_null sp) then f_penids s e sp ti prev m (all, cur)
      else
        let last := last ps (Pen ti 0 0 0) in
        if 1 <? length (f_vars s) then
          if 0 <? m then f_penids s e sp ti prev m (all, cur)
          else
            let added := length all / length (f_vars s) in
            match f_drop s, f_by s with
            | Some _, Some v =>
                if ps_shared sp || (length (levels e v) <=? 1)
                then let '(qs, c) := null_many ti prev (p_dim last) (p_rep last) added cur 1 in (all ++ qs, c)
                else let '(qs, c) := null_levels ti prev (map p_dim ps) in (all ++ qs, c)
            | _, _ => let '(qs, c) := null_many ti prev (p_dim last) (p_rep last) added cur 1 in (all ++ qs, c)
            end
        else
          let nulls := match ps_reparam sp with None => 1 | Some k => k end in
          let '(qs, c) := null_many ti prev (p_dim last) (p_rep last) (length ps) cur nulls in
          f_penids s e sp ti prev m (all ++ qs, c)
  end.

(** penalties, start_idx, cur_pen_idx, prev_pen_idx. *)
Record state := St { st_pens : list pen; st_start : nat; st_cur : nat; st_prev : nat }.

(** One round of the loops formula.py:2101-2530; a KeyError is [None].  Coefficients of by-terms are counted
    by i_n_coef; the number added to start_idx for a smooth is not used any more and left out. *)
Definition pen_term (e : env) (t : term) (sp : pspec) (ti : nat) (st : state) : option state :=
  match t with
  | TI | TL _ => Some st
  | TIrf s =>
      if i_penalized s then
        let '(ps, c) := irf_penids s e sp ti (st_prev st) (ps_pens sp) ([], st_cur st) in
        Some (St (st_pens st ++ ps) (st_start st) c c)
      else
        match st_pens st with
        | [] => let start := st_start st + i_n_coef s e in Some (St [] start start start)
        | _ => None
        end
  | TF s =>
      if f_penalized s then
        let '(ps, c) := f_penids s e sp ti (st_prev st) (ps_pens sp) ([], st_cur st) in
        Some (St (st_pens st ++ ps) (st_start st) c c)
      else
        match st_pens st with
        | [] => Some (St [] (st_start st) (st_cur st) (st_cur st))
        | _ => None
        end
  | _ =>
      let '(ps, c) := random_build_penalty e t ti (st_cur st) in
      Some (St (st_pens st ++ ps) (st_start st) c (st_prev st))
  end.

Fixpoint pen_loop (e : env) (terms : list term) (spec : nat -> pspec) (order : list nat) (st : state) : option state :=
  match order with
  | [] => Some st
  | ti :: rest =>
      match nth_error terms ti with
      | None => None
      | Some t => match pen_term e t (spec ti) ti st with Some st' => pen_loop e terms spec rest st' | None => None end
      end
  end.

(** build_penalties, formula.py:2058-2541; the exceptions are [None]. *)
Definition build_penalties (e : env) (terms : list term) (spec : nat -> pspec) : option (list pen) :=
  let out := get_coef_info e terms in
  let start := in_unpen out in
  match pen_loop e terms spec (visit terms) (St [] start start start) with
  | Some st => if st_cur st =? in_n out then Some (st_pens st) else None
  | None => None
  end.
End Tile.
