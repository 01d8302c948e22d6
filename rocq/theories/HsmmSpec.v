(** What a hidden semi-Markov model means: a series is divided into segments, each with a state and a duration;
    neighbouring segments have different states. *)

From Coq Require Import List Bool Arith Reals.
From Verif Require Import HsmmModel.
Import ListNotations.
Local Open Scope nat_scope.

(** A segment: state and duration minus one. *)
Notation segment := (nat * nat)%type.
Definition span (s : list segment) : nat := fold_right Nat.add 0 (map (fun g => S (snd g)) s).

Fixpoint alternates (s : list segment) : Prop :=
  match s with
  | g :: ((h :: _) as r) => fst g <> fst h /\ alternates r
  | _ => True
  end.

(** Segmentations of a series of n time points with states below n_S and durations below D: only the last
    segment may reach the last time point, and it must.  It may go on beyond it unless the series
    ends with the end of a state; it has the last state if the series ends in the last state. *)
Definition segmentation {K} (m : tables K) (s : list segment) : Prop :=
  s <> [] /\ Forall (fun g => fst g < n_S m /\ snd g < D m - 1) s /\ alternates s /\
  span (removelast s) < n_T m <= span s /\
  (ends_with_last m = true -> span s = n_T m) /\
  (ends_in_last m = true -> fst (last s (0, 0)) = n_S m - 1).

(** Duration and transition tables may have a time axis; if the series need not start with the beginning of a state,
    the table of durations has n_S columns for first segments followed by n_S columns for later segments. *)
Definition duration {K} (m : tables K) (d j t : nat) : K := dur m d j (if tvdtpi m then t else 0).
Definition transition {K} (m : tables K) (i j t : nat) : K := tr m i j (if tvdtpi m then t else 0).
Definition later_column {K} (m : tables K) (j : nat) : nat := if starts_with_first m then j else j + n_S m.

Section Weight.
Variable K : Type.
Variable one : K.
Variable mul : K -> K -> K.

(** Probability of the k-th observation of a segment with state j that starts at time t: bumps (odd states
    of an HMP model) depend on k, the first observation of a flat follows the bump before it. *)
Definition observation (m : tables K) (initial : bool) (t k j : nat) : K :=
  if hmp m then
    if Nat.odd j then b m (t + k) k j
    else if (k =? 0) && negb initial then b m t 1 j else b m (t + k) 0 j
  else b m (t + k) 0 j.
(** All observations of a segment, up to the end of the series at time n. *)
Definition observations (m : tables K) (n : nat) (initial : bool) (t : nat) (g : segment) : K :=
  fold_right mul one (map (fun k => observation m initial t k (fst g))
                          (filter (fun k => t + k <? n) (seq 0 (S (snd g))))).

(** The first segment is entered with pi, the others with the transition matrix of the time point before; the
    durations of first and later segments can have different distributions. *)
Definition enter (m : tables K) (t : nat) (from : option nat) (g : segment) : K :=
  match from with
  | None => mul (pi m (fst g)) (duration m (snd g) (fst g) t)
  | Some i => mul (transition m i (fst g) (t - 1)) (duration m (snd g) (later_column m (fst g)) t)
  end.
Fixpoint weight_from (m : tables K) (n t : nat) (from : option nat) (s : list segment) : K :=
  match s with
  | [] => one
  | g :: r => mul (mul (enter m t from g) (observations m n (match from with None => true | _ => false end) t g))
                  (weight_from m n (t + S (snd g)) (Some (fst g)) r)
  end.
Definition weight (m : tables K) (s : list segment) : K := weight_from m (n_T m) 0 None s.
End Weight.

(** State at a time point, and what is left of the last segment at the end of the series. *)
Definition path (s : list segment) : list nat := flat_map (fun g => repeat (fst g) (S (snd g))) s.
Definition state_at (s : list segment) (t : nat) : nat := nth t (path s) 0.
Definition excess {K} (m : tables K) (s : list segment) : nat := span s - n_T m.

Local Open Scope R_scope.
Definition lsum {A} (l : list A) (f : A -> R) : R := fold_right Rplus 0 (map f l).
Definition lle (x y : lnum) : Prop :=
  match x, y with None, _ => True | Some _, None => False | Some a, Some c => a <= c end.

(** Tables without negative entries. *)
Definition nonnegative (m : tables R) : Prop :=
  (forall t k j, 0 <= b m t k j) /\ (forall d j t, 0 <= dur m d j t) /\ (forall i j t, 0 <= tr m i j t) /\ (forall j, 0 <= pi m j).
(** Bumps always last event_width time points (hsmm.py:691-692). *)
Definition fixed_bumps {K} (zero : K) (m : tables K) : Prop :=
  hmp m = true -> (1 <= event_width m)%nat /\
  forall d j t, (j < n_S m)%nat -> Nat.odd j = true -> d <> (event_width m - 1)%nat ->
    duration m d j t = zero /\ duration m d (later_column m j) t = zero.
(** First observations of flats are like the others (no AR model). *)
Definition plain_flats {K} (m : tables K) : Prop := hmp m = true -> forall t j, Nat.even j = true -> b m t 1 j = b m t 0 j.
(** A list of all segmentations of a series. *)
Definition lists_segmentations {K} (m : tables K) (L : list (list segment)) : Prop := NoDup L /\ forall s, In s L <-> segmentation m s.
