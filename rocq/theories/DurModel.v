(** Residuals of durations: _compute_dur_res_series and the part of get_resid that uses it, hsmm.py. *)

From Coq Require Import List Bool Arith Reals.
Import ListNotations.

(** Arguments of _compute_dur_res_series, hsmm.py:1008-1015.  [dres col d row] is
    d_fams[col].get_resid([d], *mus_d[col])[row, 0]; [has col] is: mus_d[col] is not None. *)
Record durations := Durations {
  n_states : nat; first_starts : bool; varying : bool; has : nat -> bool; dres : nat -> nat -> nat -> R }.

(** res: a list per state, or None. *)
Notation store := (nat -> option (list R)).
Definition put (res : store) (j : nat) (x : option (list R)) : store := fun k => if k =? j then x else res k.
(** res[j] = None or res[j].append(...), hsmm.py:1052-1060, 1069-1076; None in place of the store: None has no append
    (AttributeError). *)
Definition record_duration (a : durations) (res : store) (j col d row : nat) : option store :=
  if has a col then
    match res j with Some l => Some (put res j (Some (l ++ [dres a col d (if varying a then row else 0)]))) | None => None end
  else Some (put res j None).

(** The variables of the loop, hsmm.py:1038-1042. *)
Record walk := Walk { w_res : option store; w_d : nat; w_j : nat; w_transitions : nat; w_t : nat }.
(** One state, hsmm.py:1044-1064. *)
Definition walk_step (a : durations) (w : walk) (s : nat) : walk :=
  if s =? w_j w then Walk (w_res w) (w_d w + 1) (w_j w) (w_transitions w) (w_t w + 1)
  else
    let col := if (w_transitions w =? 0) || first_starts a then w_j w else w_j w + n_states a in
    Walk (match w_res w with Some res => record_duration a res (w_j w) col (w_d w) (w_t w) | None => None end)
         1 s (w_transitions w + 1) (w_t w + 1).
(** _compute_dur_res_series, hsmm.py:1038-1078; there is at least one state. *)
Definition compute_dur_res (a : durations) (states : list nat) : option store :=
  let w := fold_left (walk_step a) states (Walk (Some (fun _ => Some [])) 0 (hd 0 states) 0 0) in
  let col := if first_starts a then w_j w else w_j w + n_states a in
  match w_res w with Some res => record_duration a res (w_j w) col (w_d w) (w_t w - 1) | None => None end.

(** One column of the result of get_resid, hsmm.py:2674-2679; None is NaN (also 0 / 0 for an empty list). *)
Definition average (x : option (list R)) : option R :=
  match x with
  | None | Some [] => None
  | Some l => Some (fold_right Rplus 0%R l / INR (length l))%R
  end.

Section Decode.
(** What decode_viterbi computes for one series from (fixed) transition and initial probabilities and from the data of
    the series; Lrhoi.T @ y applied to the data of all series; whether there is an autoregressive model and the number
    of rows of Lrhoi. *)
Variables (TP : Type) (decode : TP -> list R -> list nat).
Variables (tables : nat -> TP) (whiten : list (list R) -> list (list R)) (ar : bool) (rows : nat).

Definition split_matrices (transform : bool) (ys : list (list R)) : list (list R) := if transform then whiten ys else ys.
(** decode_viterbi, hsmm.py:2077-2084, 2137-2139, 2160-2196: the series are counted from the beginning of [sid]. *)
Definition decode_viterbi (ys : list (list R)) : list (list nat) :=
  let data := split_matrices (ar && (length (concat ys) =? rows)) ys in
  map (fun k => decode (tables k) (nth k data [])) (seq 0 (length data)).
(** The states used by get_resid for one series, hsmm.py:2657-2668, 2763-2799: decode_viterbi gets the part of the data
    that belongs to the series, with sid = [0]. *)
Definition resid_states (ys : list (list R)) (series : nat) : list nat :=
  nth 0 (decode_viterbi [nth series (split_matrices ar ys) []]) [].
End Decode.
