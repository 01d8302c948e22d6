(** Terms as objects: what a Formula changes in the terms it is given, which penalties share a smoothing parameter, and
    which penalties a smooth term gets.  Sources (under /repo/src/mssm/src/python): terms.py, formula.py, penalties.py. *)
From Coq Require Import List Arith Bool String.
Import ListNotations.
Local Open Scope nat_scope.

Inductive result (A : Type) := Ok (a : A) | KeyError | ValueError | TypeError | IndexError.
Arguments Ok {A}. Arguments KeyError {A}. Arguments ValueError {A}. Arguments TypeError {A}. Arguments IndexError {A}.

(** ** Formula.__init__ and the terms it is given *)

Section Objects.
(** Data; what never changes in a term; constraints (Z); transformations (RP). *)
Variables D S C T : Type.
(** [col in self.data.columns]. *)
Variable has_column : D -> string -> bool.
(** The constraint and transformation computed from the data, formula.py:1517-1668 (of the variables and basis of the
    term only). *)
Variable constraint : D -> S -> C.
Variable transform : D -> S -> T.
(** drop.get(ti) of __fix_nested, formula.py:1670-1948: what depends on the smaller terms of the formula. *)
Variable nested : D -> list S -> nat -> option (list nat).

(** A smooth term: by, by_subgroup, is_identifiable, should_rp > 0, Z, RP, drop_coef.  (Other kinds of terms and
    binary smooths are left out.) *)
Record term := mkTerm { s_of : S; s_by : option string; s_sub : option (string * string); s_ident : bool; s_rp : bool;
                        s_Z : option C; s_RP : option T; s_drop : option (list nat) }.

(** The objects by address; python lists of terms hold addresses. *)
Definition heap := nat -> term.
Definition put (h : heap) (a : nat) (t : term) : heap := fun b => if a =? b then t else h b.

(** The loop over terms, formula.py:472-564: by-variables are looked up, term.by += ":" + by_subgroup[1]. *)
Definition visit (d : D) (t : term) : result term :=
  match s_by t with
  | None => Ok t
  | Some v =>
      if negb (has_column d v) then KeyError
      else match s_sub t with
           | None => Ok t
           | Some (w, lvl) =>
               if negb (has_column d w) then KeyError
               else Ok (mkTerm (s_of t) (Some (v ++ ":" ++ lvl)%string) (s_sub t) (s_ident t) (s_rp t) (s_Z t) (s_RP t) (s_drop t))
           end
  end.
Fixpoint visit_all (d : D) (h : heap) (l : list nat) : result heap :=
  match l with
  | [] => Ok h
  | a :: r => match visit d (h a) with
              | Ok t => visit_all d (put h a t) r
              | KeyError => KeyError | ValueError => ValueError | TypeError => TypeError | IndexError => IndexError
              end
  end.

(** __absorb_constraints, formula.py:1517-1668: Z is set if the term is to be identifiable, RP if asked for. *)
Definition absorb (d : D) (t : term) : term :=
  mkTerm (s_of t) (s_by t) (s_sub t) (s_ident t) (s_rp t)
    (if s_ident t then Some (constraint d (s_of t)) else s_Z t)
    (if s_rp t then Some (transform d (s_of t)) else s_RP t) (s_drop t).

(** self.terms[ti].drop_coef = drop[ti], formula.py:1946-1948. *)
Definition fix_one (o : option (list nat)) (t : term) : term :=
  match o with
  | None => t
  | Some l => mkTerm (s_of t) (s_by t) (s_sub t) (s_ident t) (s_rp t) (s_Z t) (s_RP t) (Some l)
  end.
Fixpoint fix_nested (d : D) (ss : list S) (i : nat) (h : heap) (l : list nat) : heap :=
  match l with
  | [] => h
  | a :: r => fix_nested d ss (i + 1) (put h a (fix_one (nested d ss i) (h a))) r
  end.

(** Formula(lhs, terms, data), formula.py:312-664: self.terms = terms (line 328) without a copy. *)
Definition formula (d : D) (h : heap) (l : list nat) : result heap :=
  match visit_all d h l with
  | Ok h1 => let h2 := fold_left (fun k a => put k a (absorb d (k a))) l h1 in
             Ok (fix_nested d (map (fun a => s_of (h2 a)) l) 0 h2 l)
  | e => e
  end.
End Objects.
Arguments mkTerm {S C T}. Arguments s_of {S C T}. Arguments s_by {S C T}. Arguments s_sub {S C T}.
Arguments s_ident {S C T}. Arguments s_rp {S C T}. Arguments s_Z {S C T}. Arguments s_RP {S C T}. Arguments s_drop {S C T}.
Arguments put {S C T}.

(** ** Which penalties share a smoothing parameter *)

Inductive kind := Smooth | Impulse | RandomIntercept | RandomSlope.
(** A term: kind, number of levels of by, id, len(term.penalty). *)
Record shared := mkShared { i_kind : kind; i_by : option nat; i_id : option nat; i_pens : nat }.
(** A LambdaTerm: its term, the number of the penalty or of the level within the term, its id. *)
Record lterm := mkL { l_term : nat; l_pen : nat; l_lvl : nat; l_id : option nat }.

(** build_penalty for penalty [penid]: f, terms.py:872-1119; irf, :1975-2040; ri, :2427; rs, :2829-2876. *)
Definition build_ids (ti : nat) (t : shared) (penid : nat) : list lterm :=
  match i_kind t with
  | Smooth | Impulse =>
      match i_by t with
      | Some n => match i_id t with
                  | Some _ => [mkL ti penid 0 None]
                  | None => map (fun v => mkL ti penid v None) (seq 0 n)
                  end
      | None => [mkL ti penid 0 (option_map (fun i => i + penid) (i_id t))]
      end
  | RandomIntercept => [mkL ti penid 0 (i_id t)]
  | RandomSlope =>
      match i_by t with
      | Some n => map (fun v => mkL ti penid v (option_map (fun i => i + v) (i_id t))) (seq 0 n)
      | None => [mkL ti penid 0 (i_id t)]
      end
  end.

(** build_penalties, formula.py:2101-2530, without penalties of null spaces (which get no id). *)
Fixpoint all_ids (ti : nat) (l : list shared) : list lterm :=
  match l with
  | [] => []
  | t :: r => flat_map (build_ids ti t) (seq 0 (i_pens t)) ++ all_ids (S ti) r
  end.

Definition id_eqb (a b : option nat) : bool :=
  match a, b with Some x, Some y => x =? y | _, _ => false end.

(** id_dict, penalties.py:37-49: ids in the order of their first use, if one of them is used more than once. *)
Definition used (ps : list lterm) (i : nat) : list lterm := filter (fun p => id_eqb (l_id p) (Some i)) ps.
Fixpoint first_uses (seen : list nat) (ps : list lterm) : list nat :=
  match ps with
  | [] => []
  | p :: r => match l_id p with
              | None => first_uses seen r
              | Some i => if existsb (Nat.eqb i) seen then first_uses seen r else i :: first_uses (i :: seen) r
              end
  end.

(** combine_shared_penalties, penalties.py:52-115: the lists of penalties that get one parameter. *)
Definition combine (ps : list lterm) : list (list lterm) :=
  let ids := first_uses [] ps in
  if existsb (fun i => 1 <? List.length (used ps i)) ids then
    map (fun p => [p]) (filter (fun p => match l_id p with None => true | Some i => List.length (used ps i) <=? 1 end) ps)
      ++ map (used ps) ids
  else map (fun p => [p]) ps.

(** ** The penalties of a smooth term *)

(** nk: a number or a list; basis_kwargs: a dictionary or a list of dictionaries. *)
Inductive nk_arg := NkInt (n : nat) | NkList (l : list nat).
Inductive kw_arg := KwDict | KwList.

Section Smooth.
(** Penalties with their arguments. *)
Variable P : Type.

(** f after __init__: number of variables, nk, penalties, is_identifiable, te, should_rp, len(RP), basis_kwargs. *)
Record fterm := mkF { f_n : nat; f_nk : nk_arg; f_pens : list P; f_ident : bool; f_te : bool; f_should_rp : nat;
                      f_RP : nat; f_kw : kw_arg }.

(** f.__init__, terms.py:331-457.  [pens] is zip(penalty, pen_kwargs), [dflt] a difference penalty with m=2. *)
Definition f_init (dflt : P) (n : nat) (binary by_ : bool) (nk : option nk_arg) (te : bool) (rp : option nat)
    (identifiable : bool) (kw : kw_arg) (pens : option (list P)) : result fterm :=
  if binary && by_ then ValueError
  else if te && (n =? 1) then ValueError
  else
    let rp := match rp with Some r => r | None => if n =? 1 then 0 else 2 end in
    if negb (rp =? 0) && match pens with Some l => n <? List.length l | None => false end then ValueError
    else
      let nk := match nk with Some k => k | None => NkInt (if n =? 1 then 9 else if te then 5 else 4) end in
      match (if binary && identifiable && negb te
             then match nk with NkInt k => Ok (NkInt (k + 1)) | NkList _ => TypeError end
             else Ok nk) with
      | Ok nk =>
          let ident := identifiable && negb binary in
          let pens := match pens with Some l => l | None => [dflt] end in
          let pens := if 1 <? n then flat_map (fun p => repeat p n) pens else pens in
          let nk := match nk with
                    | NkInt k => if n =? 1 then NkInt k else NkList (repeat k n)
                    | NkList l => NkList l
                    end in
          Ok (mkF n nk pens ident te rp (if rp =? 0 then 0 else n) kw)
      | _ => TypeError
      end.

(** A penalty that was built: the penalty, the variable whose basis it was built for, the size of that basis, and for
    which penalty the transformation was computed that was applied to it, if any. *)
Record built := mkB { b_pen : P; b_var : nat; b_size : nat; b_rp : option P }.

(** self.nk[v] if there are several variables, self.nk otherwise (a list is no number of functions). *)
Definition nk_at (t : fterm) (v : nat) : result nat :=
  match f_nk t with
  | NkInt k => Ok k
  | NkList l => if 1 <? f_n t then match nth_error l v with Some k => Ok k | None => IndexError end else TypeError
  end.

(** __absorb_constraints, formula.py:1522-1668: bases are set up with **basis_kwargs for identifiable terms and those
    that are transformed; absorb_repara (terms.py:459-639) is called for every variable and uses self.penalty[rpidx]. *)
Definition absorb_all (t : fterm) : result (list P) :=
  if negb (f_ident t) && (f_should_rp t =? 0) then Ok []
  else match f_kw t with
  | KwList => TypeError
  | KwDict =>
      match f_should_rp t with
      | 0 => Ok []
      | 1 => if 1 <? f_n t then ValueError else Ok (firstn (f_n t) (f_pens t))
      | 2 => if f_n t <? 2 then ValueError else Ok (firstn (f_n t) (f_pens t))
      | _ => ValueError
      end
  end.

(** f.build_penalty, terms.py:685-796: the penalty [penid]. *)
Definition build_one (t : fterm) (RP : list P) (penid : nat) : result built :=
  match nth_error (f_pens t) penid with
  | None => IndexError
  | Some p =>
      let v := if 1 <? f_n t then penid mod f_n t else 0 in
      match nk_at t v with
      | Ok k =>
          match f_should_rp t with
          | 0 => Ok (mkB p v k None)
          | 1 => match nth_error RP 0 with Some q => Ok (mkB p v k (Some q)) | None => IndexError end
          | _ => match nth_error RP penid with Some q => Ok (mkB p v k (Some q)) | None => IndexError end
          end
      | KeyError => KeyError | ValueError => ValueError | TypeError => TypeError | IndexError => IndexError
      end
  end.
Fixpoint build_from (t : fterm) (RP : list P) (ids : list nat) : result (list built) :=
  match ids with
  | [] => Ok []
  | i :: r => match build_one t RP i with
              | Ok b => match build_from t RP r with Ok l => Ok (b :: l) | e => e end
              | KeyError => KeyError | ValueError => ValueError | TypeError => TypeError | IndexError => IndexError
              end
  end.
(** The loop over penalties, formula.py:2203-2214, after the constraints. *)
Definition build_all (t : fterm) : result (list built) :=
  match absorb_all t with
  | Ok RP => build_from t RP (seq 0 (List.length (f_pens t)))
  | KeyError => KeyError | ValueError => ValueError | TypeError => TypeError | IndexError => IndexError
  end.
End Smooth.
Arguments mkF {P}. Arguments f_n {P}. Arguments f_nk {P}. Arguments f_pens {P}. Arguments f_ident {P}. Arguments f_te {P}.
Arguments f_should_rp {P}. Arguments f_RP {P}. Arguments f_kw {P}. Arguments mkB {P}. Arguments f_init {P}.
Arguments build_all {P}. Arguments build_one {P}. Arguments absorb_all {P}. Arguments build_from {P}. Arguments nk_at {P}.
