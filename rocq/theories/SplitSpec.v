(** Specifications for SplitModel. *)
From Coq Require Import List Arith Bool Sorted.
From Verif Require Import SplitModel.
Import ListNotations.

(** First rows of series: the first is 0, each series has rows, all of [n] rows are covered. *)
Definition starts (sid : list nat) (n : nat) : Prop :=
  (exists r, sid = 0 :: r) /\ StronglySorted lt sid /\ Forall (fun i => i < n) sid.

(** Rows of series [s] among those of [l]: from its first row to the first row of the next series. *)
Definition part_of {A} (sid : list nat) (s : nat) (l p : list A) : Prop :=
  forall k, nth_error p k = if nth s sid 0 + k <? nth (S s) sid (length l) then nth_error l (nth s sid 0 + k) else None.

(** Numbers of formulas, in the order of the documentation: shared terms, observations, durations, transitions, initial
    distribution. *)
Definition n_shared (c : settings) : nat := length (c_shared c) * (if c_sharedm c then 1 else c_M c).
Definition fam_count (j : nat) (f : fam) : nat := match f with FUni n | FMulti n => n | FNone => if Nat.odd j then 1 else 0 end.
Definition state_count (M j : nat) (fams : list fam) : nat :=
  match fams with FMulti n :: _ => n | _ => list_sum (map (fam_count j) (firstn M fams)) end.
Fixpoint states_count (M j : nat) (obs : list (list fam)) : nat :=
  match obs with [] => 0 | fams :: r => state_count M j fams + states_count M (S j) r end.
Definition n_obs (c : settings) : nat := states_count (c_M c) 0 (firstn (c_S c) (c_obs c)).
Definition n_dur (c : settings) : nat :=
  list_sum (map (fun f => match f with Some n => n | None => 0 end) (firstn (c_S c * (if c_first c then 1 else 2)) (c_dur c))).
Definition n_trans (c : settings) : nat := if c_fixT c then 0 else c_S c * (c_S c - 2).
Definition n_pi (c : settings) : nat := if c_fixT c then 0 else c_S c - 1.

(** How the rows of a formula are distributed: by series, by trial, or the first row of each trial. *)
Inductive use := BySeries | ByTrial | FirstRow.
Definition use_of (c : settings) (i : nat) : use :=
  if i <? n_shared c + n_obs c then BySeries
  else if i <? n_shared c + n_obs c + n_dur c + n_trans c then ByTrial else FirstRow.

(** Signals on the left hand side of the observation formulas. *)
Fixpoint fam_signals (j m : nat) (fams : list fam) : list nat :=
  match fams with [] => [] | f :: r => repeat m (fam_count j f) ++ fam_signals j (S m) r end.
Definition state_signals (M j : nat) (fams : list fam) : list nat :=
  match fams with FMulti n :: _ => seq 0 n | _ => fam_signals j 0 (firstn M fams) end.
Fixpoint states_signals (M j : nat) (obs : list (list fam)) : list nat :=
  match obs with [] => [] | fams :: r => state_signals M j fams ++ states_signals M (S j) r end.
(** Left hand sides of all formulas; a term shared by all signals has the first signal, [rest]: formulas of the latent
    process. *)
Definition variables (c : settings) (rest : list nat) : list nat :=
  flat_map (fun _ => if c_sharedm c then [0] else seq 0 (c_M c)) (c_shared c) ++
  states_signals (c_M c) 0 (firstn (c_S c) (c_obs c)) ++ rest.

(** Index of the first formula of a signal in a state: all formulas of earlier states and signals come before. *)
Definition own_index (first : nat) (states : list (list nat)) (j m : nat) : nat :=
  first + list_sum (map (fun fams => list_sum fams) (firstn j states)) + list_sum (firstn m (nth j states [])).

(** The rows of [l] are distributed to series: none is lost or used twice, each series gets its own. *)
Definition distributed {A} (sid : list nat) (l : list A) (ps : list (list A)) : Prop :=
  length ps = length sid /\ concat ps = l /\
  forall s, s < length sid -> exists p, nth_error ps s = Some p /\ part_of sid s l p.
