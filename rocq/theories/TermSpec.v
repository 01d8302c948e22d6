(** What users rely on when terms are used, share parameters and get penalties (C168-C170). *)
From Coq Require Import List Arith Bool String ZArith.
From Verif Require Import TermModel.
Import ListNotations.
Local Open Scope nat_scope.

(** No object is a term of both formulas. *)
Definition apart (l k : list nat) : Prop := forall a, In a l -> In a k -> False.

(** Two penalties get one smoothing parameter. *)
Definition together (groups : list (list lterm)) (p q : lterm) : Prop := exists g, In g groups /\ In p g /\ In q g.

(** The documentation of id: terms without by share by id, those with by have nothing in common with other terms; random
    slopes share level by level. *)
Definition takes_part (t : shared) : Prop :=
  match i_kind t with Smooth | Impulse => i_by t = None | _ => True end.
(** The number of a penalty within its term. *)
Definition number (p : lterm) : nat := l_pen p + l_lvl p.
Definition documented (l : list shared) (p q : lterm) : Prop :=
  exists t u i, nth_error l (l_term p) = Some t /\ nth_error l (l_term q) = Some u /\
    takes_part t /\ takes_part u /\ i_id t = Some i /\ i_id u = Some i /\ number p = number q.

(** How many penalties with an id a term has; random effects have one penalty (per level). *)
Definition count (t : shared) : nat :=
  match i_kind t, i_by t with RandomSlope, Some n => n | _, _ => i_pens t end.
Definition proper (t : shared) : Prop :=
  match i_kind t with RandomIntercept => i_by t = None /\ i_pens t = 1 | RandomSlope => i_pens t = 1 | _ => True end.
(** Between the ids of two terms there is room for the penalties of the first. *)
Definition spaced (l : list shared) : Prop :=
  forall t u a b, In t l -> In u l -> takes_part t -> takes_part u -> i_id t = Some a -> i_id u = Some b ->
    a < b -> a + count t <= b.

(** The number of basis functions asked for, variable [v] (binary smooths get one more for the lost constraint). *)
Definition asked (n : nat) (nk : option nk_arg) (te extra : bool) (v : nat) : nat :=
  match nk with
  | Some (NkInt k) => k + (if extra then 1 else 0)
  | Some (NkList l) => nth v l 0
  | None => (if n =? 1 then 9 else if te then 5 else 4) + (if extra then 1 else 0)
  end.
(** Transformations of the kind that exists for the number of variables. *)
Definition rp_fits (n : nat) (rp : option nat) : Prop :=
  match rp with None | Some 0 => True | Some 1 => n = 1 | Some 2 => 2 <= n | _ => False end.
Definition no_transform (n : nat) (rp : option nat) : Prop := rp = Some 0 \/ (rp = None /\ n = 1).
Definition nk_fits (n : nat) (extra : bool) (nk : option nk_arg) : Prop :=
  match nk with Some (NkList l) => 2 <= n /\ List.length l = n /\ extra = false | _ => True end.

(** Functions x and 10 - x with one coefficient: a constraint holds the sums of both over the data; the column is the
    combination that sums to zero. *)
Local Open Scope Z_scope.
Definition sums (d : list Z) (_ : unit) : Z * Z :=
  (fold_right Z.add 0 d, fold_right Z.add 0 (map (fun x => 10 - x) d)).
Definition column (c : Z * Z) (x : Z) : Z := x * snd c - (10 - x) * fst c.
