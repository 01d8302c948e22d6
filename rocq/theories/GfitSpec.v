(** Specifications for GfitModel. *)
From Coq Require Import List Arith ZArith QArith Bool Sorted.
From Verif Require Import GfitModel.
Import ListNotations.
Local Open Scope nat_scope.

(** Number of coefficients of the formulas before the i-th. *)
Definition before (ns : list nat) (i : nat) : nat := list_sum (firstn i ns).

(** [ps] are consecutive pieces of [l] with lengths [ns]. *)
Definition pieces {A} (l : list A) (ns : list nat) (ps : list (list A)) : Prop :=
  length ps = length ns /\
  forall i p, nth_error ps i = Some p ->
    length p = nth i ns 0 /\ forall k, k < length p -> nth_error p k = nth_error l (before ns i + k).

(** Numbers of coefficients of the formulas, and of the extra coefficients. *)
Definition sizes (ns : list nat) (extra : option nat) : list nat := ns ++ match extra with None => [] | Some e => [e] end.

(** Coefficients of all formulas and the extra coefficients of the family. *)
Definition total (fs : list form) (extra : option nat) : nat :=
  list_sum (map f_coef fs) + match extra with None => 0 | Some e => e end.

(** A "fixed" column: it belongs to a linear, impulse response or smooth term that is not a factor smooth, or to an
    extra coefficient. *)
Definition fixed_kind (k : kind) : Prop := k = Linear \/ k = Impulse \/ k = Smooth.
Definition fixed_column (fs : list form) (extra : option nat) (j : nat) : Prop :=
  (exists i f t c, nth_error fs i = Some f /\ In t (f_terms f) /\ fixed_kind (t_kind t) /\ In c (t_idx t) /\
                   j = before (map f_coef fs) i + c)
  \/ (exists e, extra = Some e /\ total fs None <= j < total fs extra).

(** Every coefficient of a formula belongs to exactly one term. *)
Definition form_ok (f : form) : Prop :=
  NoDup (concat (map t_idx (f_terms f))) /\ forall c, In c (concat (map t_idx (f_terms f))) -> c < f_coef f.

(** Draws without replacement. *)
Definition choice_ok (choice : nat -> list nat -> nat -> list nat) : Prop :=
  forall seed l n, n <= length l -> NoDup l ->
    length (choice seed l n) = n /\ NoDup (choice seed l n) /\ incl (choice seed l n) l.

(** max(1, q n), rounded down. *)
Definition rounded_share (q : Q) (n m : nat) : Prop :=
  1 <= m /\ (q * inject_Z (Z.of_nat n) < inject_Z (Z.of_nat m + 1))%Q /\
  (m = 1 \/ (inject_Z (Z.of_nat m) <= q * inject_Z (Z.of_nat n))%Q).

(** The number of columns a budget stands for, if there are [n] candidates: a number, or a share of the candidates, but
    at least one. *)
Definition budget_is (b : budget) (n m : nat) : Prop :=
  match b with
  | Columns l => False
  | Number z => z = Z.of_nat m /\ 1 <= m
  | Share q => (0 < q)%Q /\ (q <= 1)%Q /\ rounded_share q n m
  end.

(** Position of the k-th true entry. *)
Fixpoint kth_true (mask : list bool) (k : nat) : option nat :=
  match mask with
  | [] => None
  | true :: m => match k with O => Some 0 | S k' => option_map S (kth_true m k') end
  | false :: m => option_map S (kth_true m k)
  end.

(** Which responses are present. *)
Definition present {Y} (ys : list (option Y)) : list bool := map (fun y => match y with Some _ => true | None => false end) ys.
(** The entry of [l] for the k-th present response. *)
Definition entry {A} (mask : list bool) (l : list A) (k : nat) : option A :=
  match kth_true mask k with Some j => nth_error l j | None => None end.
(** One row of the matrix per row of the data; without impulse response terms rows do not depend on each other. *)
Definition rows_ok {Y C X} (l : lhs Y C X) : Prop :=
  length (v_cov Y C X l) = length (v_y Y C X l) /\
  (if v_irf Y C X l then length (v_rows Y C X l (v_cov Y C X l)) = length (v_cov Y C X l)
   else exists row, forall cov, v_rows Y C X l cov = map row cov).

(** Draws for the examples: the first [n]. *)
Definition first_n (seed : nat) (l : list nat) (n : nat) : list nat := firstn n l.
