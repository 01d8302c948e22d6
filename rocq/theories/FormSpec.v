(** What a model matrix should look like: every term stands for a list of columns, a column being a function
    of the row.  Written with lists of columns, independently of the index arithmetic of FormModel. *)

From Coq Require Import List Bool Arith.
From Verif Require Import FormModel.
Import ListNotations.

Section Spec.
Variable K : Type.
Variables (k0 k1 : K) (kadd kmul ksub : K -> K -> K).
Variable big : K -> bool.

Definition column := nat -> K.

(** The columns of a numpy matrix. *)
Definition cols_of (X : mat K) : list column := map (fun c r => mval X r c) (seq 0 (mcols X)).

(** Two lists of columns agree on the rows below n. *)
Definition same_cols (n : nat) (A B : list column) : Prop := Forall2 (fun a b => forall r, r < n -> a r = b r) A B.

(** Rows that have level number k of a factor. *)
Definition on_level (d : frame K) (v : var) (k : nat) (a : column) : column :=
  fun r => match code d r v with Some j => if j =? k then a r else k0 | None => k0 end.
Definition one : column := fun _ => k1.
Definition times (a b : column) : column := fun r => kmul (a r) (b r).

(** All products of a column of A with a column of B, the columns of A varying slowest. *)
Definition kron (A B : list column) : list column := flat_map (fun a => map (times a) B) A.

(** *** Linear terms *)

(** A numeric variable is one column, a factor one indicator for every level (but the first if there
    already is a constant). *)
Definition var_cols (e : env) (d : frame K) (constant : bool) (v : var) : list column :=
  match vt e v with
  | Numeric => [fun r => num d r v]
  | Factor => map (fun k => on_level d v k one)
                  (filter (fun k => negb (constant && (k =? 0))) (seq 0 (length (levels e v))))
  end.
Definition linear_cols (e : env) (d : frame K) (constant : bool) (vars : list var) : list column :=
  match vars with
  | [] => []
  | v :: t => fold_left kron (map (var_cols e d constant) t) (var_cols e d constant v)
  end.
(** In an interaction every factor must have a level to code. *)
Definition codable (e : env) (constant : bool) (vars : list var) : Prop :=
  Forall (fun v => vt e v = Factor -> (if constant then 2 else 1) <= length (levels e v)) vars.

(** *** Smooth terms *)

(** X @ Z on columns. *)
Definition combine_cols (X : list column) (Z : mat K) : list column :=
  map (fun c r => fold_left kadd (map (fun p => kmul (snd p r) (mval Z (fst p) c)) (combine (seq 0 (length X)) X)) k0)
      (seq 0 (mcols Z)).
Definition zero : column := fun _ => k0.
Definition col (X : list column) (c : nat) : column := nth c X zero.
(** Constraints: orthogonal factor, leave out column z, differences of neighbours with column z joined to the
    end. *)
Definition constrained (X : list column) (Z : constraint K) : list column :=
  match Z with
  | CQR Z => combine_cols X Z
  | CDrop z => firstn z X ++ skipn (S z) X
  | CDiff z =>
      let n := length X in
      map (fun c r => if c <? z then ksub (col X c r) (col X ((c + n - 1) mod n) r)
                      else ksub (col X (S c) r) (col X c r)) (seq 0 (n - 1))
  end.

(** Marginal basis number vi of a smooth. *)
Definition marginal (s : smooth K) (vi : nat) : list column :=
  let nk := nth vi (f_nk s) 0 in
  let own := f_ident s && negb (f_te s) in
  let X := cols_of (f_basis s vi (if own then S nk else nk)) in
  let X := if own then constrained X (nth vi (f_Z s) (CDrop 0)) else X in
  match f_rp s with [] => X | rp => combine_cols X (nth vi rp (Mat 0 (fun _ _ => k0))) end.
Definition smooth_base (s : smooth K) (d : frame K) : list column :=
  let T := match map (marginal s) (seq 0 (length (f_vars s))) with [] => [] | X :: rest => fold_left kron rest X end in
  let T := if f_ident s && f_te s then constrained T (nth 0 (f_Z s) (CDrop 0)) else T in
  match f_by_cont s with None => T | Some v => map (fun a => times a (fun r => num d r v)) T end.

(** Values below the tolerance are not stored. *)
Definition pruned (a : column) : column := fun r => if big (a r) then a r else k0.

(** The base columns for every level of the by-factor, levels varying slowest. *)
Definition smooth_all (s : smooth K) (e : env) (d : frame K) : list column :=
  let base := map pruned (smooth_base s d) in
  match f_by s, f_binary s with
  | Some v, _ => flat_map (fun k => map (on_level d v k) base) (seq 0 (length (levels e v)))
  | None, Some (v, k) => map (on_level d v k) base
  | None, None => base
  end.
(** The columns whose numbers are not listed. *)
Fixpoint without (A : Type) (drop : list nat) (i : nat) (l : list A) : list A :=
  match l with
  | [] => []
  | a :: t => if existsb (Nat.eqb i) drop then without A drop (S i) t else a :: without A drop (S i) t
  end.
Definition smooth_cols (s : smooth K) (e : env) (d : frame K) : list column :=
  match f_drop s with None => smooth_all s e d | Some l => without _ l 0 (smooth_all s e d) end.

(** A smooth as Formula sets it up: one basis size per variable, the basis delivers what it is asked for,
    constraints and reparameterisations fit. *)
Definition fits (Z : constraint K) (n : nat) : Prop :=
  match Z with CQR Z => S (mcols Z) = n | CDrop z => z < n | CDiff z => z < n end.
Record well_formed (s : smooth K) (e : env) : Prop := {
  wf_vars : f_vars s <> [];
  wf_nk : length (f_nk s) = length (f_vars s);
  wf_basis : forall vi n, mcols (f_basis s vi n) = n;
  wf_te : f_ident s = true -> f_te s = true -> 1 < length (f_vars s);
  wf_Z : f_ident s = true -> f_te s = false ->
         forall vi, vi < length (f_vars s) ->
         exists Z, nth_error (f_Z s) vi = Some Z /\ fits Z (S (nth vi (f_nk s) 0));
  wf_Z_te : f_ident s = true -> f_te s = true ->
         exists Z, nth_error (f_Z s) 0 = Some Z /\ fits Z (fold_right Nat.mul 1 (f_nk s));
  wf_rp : f_rp s <> [] ->
         forall vi, vi < length (f_vars s) -> exists C, nth_error (f_rp s) vi = Some C /\ mcols C = nth vi (f_nk s) 0 }.

(** What numpy's complete QR decomposition of one column promises: the columns of Q are orthogonal, the
    first one has length one and the column is a multiple of it. *)
Fixpoint total_of (n : nat) (f : nat -> K) : K :=
  match n with 0 => k0 | S m => kadd (total_of m f) (f m) end.
Definition qr_of (n : nat) (C : nat -> K) (Q : mat K) : Prop :=
  (exists x, forall k, k < n -> C k = kmul x (mval Q k 0)) /\
  forall c c', c < n -> c' < n ->
    total_of n (fun k => kmul (mval Q k c) (mval Q k c')) = if c =? c' then k1 else k0.

(** *** Impulse responses *)

(** Number of the series that row r belongs to, and the position in it. *)
Fixpoint locate (lens : list nat) (si r : nat) : option (nat * nat) :=
  match lens with
  | [] => None
  | len :: t => if r <? len then Some (si, r) else locate t (S si) (r - len)
  end.
(** The basis of the series a row belongs to: products over the variables. *)
Definition irf_base (s : irf K) (lens : list nat) : list column :=
  let marg vi := map (fun c r => match locate lens 0 r with
                                 | Some (si, q) => mval (i_basis s si vi (nth vi (i_nk s) 0)) q c
                                 | None => k0
                                 end) (seq 0 (nth vi (i_nk s) 0)) in
  match map marg (seq 0 (length (i_vars s))) with [] => [] | X :: rest => fold_left kron rest X end.
Definition irf_cols (s : irf K) (e : env) (d : frame K) (lens : list nat) : list column :=
  let base := map pruned (irf_base s lens) in
  match i_by s with
  | Some v => flat_map (fun k => map (on_level d v k) base) (seq 0 (length (levels e v)))
  | None => base
  end.
Definition irf_well_formed (s : irf K) : Prop :=
  i_vars s <> [] /\ length (i_nk s) = length (i_vars s) /\
  forall si vi n, mcols (i_basis s si vi n) = n.
(** One event per series, the series cover the rows, and the by-factor is constant within a series. *)
Definition series_fit (s : irf K) (d : frame K) (lens : list nat) : Prop :=
  lens <> [] /\ Forall (fun n => 0 < n) lens /\
  length lens <= i_events s /\ fold_right Nat.add 0 lens = n_y d /\
  match i_by s with
  | None => True
  | Some v => forall r r' si q q', locate lens 0 r = Some (si, q) -> locate lens 0 r' = Some (si, q') ->
              code d r v = code d r' v
  end.

(** *** Random terms and formulas *)
Definition random_cols (e : env) (d : frame K) (v : var) (X : list column) : list column :=
  flat_map (fun k => map (on_level d v k) X) (seq 0 (length (levels e v))).

(** The columns of one term; [constant] says that the columns before it span the constant. *)
Definition term_cols (e : env) (d : frame K) (lens : list nat) (constant : bool) (t : term K) : list column :=
  match t with
  | TI => [one]
  | TL vars => linear_cols e d constant vars
  | TF s => smooth_cols s e d
  | TIrf s => irf_cols s e d lens
  | TRi v => random_cols e d v [one]
  | TRs vars None => linear_cols e d false vars
  | TRs vars (Some v) => random_cols e d v (linear_cols e d false vars)
  end.

(** Columns are dropped at the end only. *)
Definition drops_last (s : smooth K) (e : env) (d : frame K) : Prop :=
  match f_drop s with
  | None => True
  | Some l => NoDup l /\ exists k, k + length l = length (smooth_all s e d) /\
              forall i, In i l <-> k <= i < length (smooth_all s e d)
  end.

(** A term that can be built. *)
Definition term_ok (e : env) (d : frame K) (lens : list nat) (constant : bool) (t : term K) : Prop :=
  match t with
  | TI | TRi _ => True
  | TL vars => vars <> [] /\ (length vars = 1 \/ codable e constant vars)
  | TRs vars _ => vars <> [] /\ (length vars = 1 \/ codable e false vars)
  | TF s => well_formed s e /\ drops_last s e d
  | TIrf s => irf_well_formed s /\ series_fit s d lens
  end.

(** The terms with their numbers, in the order of the coefficients: linear terms, impulse responses,
    smooths, random terms. *)
Definition kind (t : term K) : nat :=
  match t with TI | TL _ => 0 | TIrf _ => 1 | TF _ => 2 | TRi _ | TRs _ _ => 3 end.
Definition ordered (terms : list (term K)) : list (nat * term K) :=
  let numbered := combine (seq 0 (length terms)) terms in
  flat_map (fun k => filter (fun p => kind (snd p) =? k) numbered) [0; 1; 2; 3].

(** A linear term with a factor makes the constant available to the terms after it. *)
Definition spans_constant (e : env) (t : term K) : bool :=
  match t with
  | TL vars => existsb (fun v => match vt e v with Factor => true | Numeric => false end) vars
  | _ => false
  end.
(** Columns of every term in turn; terms that are not wanted give columns of zeros. *)
Fixpoint design (e : env) (d : frame K) (lens : list nat) (wanted : nat -> bool) (constant : bool)
    (terms : list (nat * term K)) : list (list column) :=
  match terms with
  | [] => []
  | (ti, t) :: rest =>
      (if wanted ti then term_cols e d lens constant t else map (fun _ => zero) (term_cols e d lens constant t))
      :: design e d lens wanted (constant || spans_constant e t) rest
  end.
Fixpoint all_ok (e : env) (d : frame K) (lens : list nat) (constant : bool) (terms : list (nat * term K)) : Prop :=
  match terms with
  | [] => True
  | (ti, t) :: rest => term_ok e d lens constant t /\ all_ok e d lens (constant || spans_constant e t) rest
  end.
Definition intercept (terms : list (term K)) : bool := existsb (fun t => match t with TI => true | _ => false end) terms.

(** Does row r have the levels that a coefficient name mentions? *)
Definition level_of (e : env) (d : frame K) (v : var) (r : nat) : option level :=
  match code d r v with Some k => Some (decode e v k) | None => None end.
Definition parts_hold (e : env) (d : frame K) (parts : list (var * option level)) (r : nat) : Prop :=
  forall v l, In (v, Some l) parts -> level_of e d v r = Some l.
Definition name_holds (e : env) (d : frame K) (t : term K) (nm : cname) (r : nat) : Prop :=
  match t, nm with
  | TL _, NLin parts => parts_hold e d parts r
  | TF s, NF _ _ _ (Some l) => exists v, f_by s = Some v /\ level_of e d v r = Some l
  | TRi v, NRi w l => v = w /\ level_of e d v r = Some l
  | TRs _ None, NRs (NLin parts) None => parts_hold e d parts r
  | TRs _ (Some v), NRs (NLin parts) (Some l) => parts_hold e d parts r /\ level_of e d v r = Some l
  | TI, NInt => True
  | TF s, NF _ _ _ None => f_by s = None
  | _, _ => False
  end.
(** Levels are numbered in the order in which they are listed. *)
Definition in_order (e : env) (v : var) : Prop :=
  levels e v = map (decode e v) (seq 0 (length (levels e v))).

(** The matrix with the given columns. *)
Definition is_matrix (n : nat) (cells : nat -> nat -> K) (cols : list column) : Prop :=
  forall r c, cells r c = if (r <? n) && (c <? length cols) then col cols c r else k0.
(** Blocks of the given widths lie one after the other, starting at column ci. *)
Fixpoint tiles (ci : nat) (blocks : list (nat * nat)) (widths : list nat) : Prop :=
  match blocks, widths with
  | [], [] => True
  | (start, n) :: bs, w :: ws => start = ci /\ n = w /\ tiles (ci + w) bs ws
  | _, _ => False
  end.
End Spec.
