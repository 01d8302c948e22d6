(** Series of a hidden semi-Markov model: splitting data, reading signals, shared terms.
    Source: /repo/src/mssm/src/python/hsmm.py.

    Observations and rows of model matrices are elements of arbitrary types.  None as a result stands for an exception
    (IndexError, TypeError or ValueError). *)
From Coq Require Import List Bool Arith.
Import ListNotations.
Local Open Scope nat_scope.

(** np.split(l, cuts): l[0:c1], l[c1:c2], ..., l[ck:] (numpy; used at hsmm.py:120, 125, 190, 220). *)
Definition slice {A} (a b : nat) (l : list A) : list A := firstn (b - a) (skipn a l).
Fixpoint split_from {A} (a : nat) (cuts : list nat) (l : list A) : list (list A) :=
  match cuts with [] => [skipn a l] | c :: r => slice a c l :: split_from c r l end.
Definition np_split {A} (cuts : list nat) (l : list A) : list (list A) := split_from 0 cuts l.

(** Entries of obs_fams[j], hsmm.py:137-163: None, a family, a MultiGauss family; n_par of the family. *)
Inductive fam := FNone | FUni (n_par : nat) | FMulti (n_par : nat).

(** What is done with a formula: shared (True: par == 0 and m == 0), observations, durations and transitions, initial
    distribution. *)
Inductive kind := KShared (first : bool) | KObs | KLat | KPi.

(** The loop over shared_pars, hsmm.py:106-129. *)
Definition shared_kinds (shared_pars : list nat) (shared_m : bool) (M : nat) : list kind :=
  flat_map (fun par => map (fun m => KShared ((par =? 0) && (m =? 0))) (seq 0 (if shared_m then 1 else M))) shared_pars.

(** Lines 142-179 for one state and signal. *)
Definition fam_kinds (j : nat) (f : fam) : list kind :=
  match f with FUni n | FMulti n => repeat KObs n | FNone => if Nat.odd j then [KObs] else [] end.

(** obs_fams[j][m] for m in range(n): None is an IndexError. *)
Fixpoint take_fams (n : nat) (fams : list fam) : option (list fam) :=
  match n, fams with
  | O, _ => Some []
  | S n', f :: r => option_map (cons f) (take_fams n' r)
  | S _, [] => None
  end.
(** The families of a state that are looked at: iterM, hsmm.py:134-140. *)
Definition state_fams (M : nat) (fams : list fam) : option (list fam) :=
  match fams with FMulti n :: _ => Some [FMulti n] | _ => take_fams M fams end.

(** The loop over states, hsmm.py:132-179, from state [j] on. *)
Fixpoint obs_kinds (n j M : nat) (obs_fams : list (list fam)) : option (list kind) :=
  match n, obs_fams with
  | O, _ => Some []
  | S n', fams :: r =>
      match state_fams M fams, obs_kinds n' (S j) M r with
      | Some fs, Some ks => Some (flat_map (fam_kinds j) fs ++ ks)
      | _, _ => None
      end
  | S _, [] => None
  end.

(** Durations, hsmm.py:182-195: n_par of the families, None for bump states. *)
Fixpoint dur_kinds (n : nat) (d_fams : list (option nat)) : option (list kind) :=
  match n, d_fams with
  | O, _ => Some []
  | S n', f :: r => option_map (app (match f with Some k => repeat KLat k | None => [] end)) (dur_kinds n' r)
  | S _, [] => None
  end.
(** Transitions, hsmm.py:198-210, and the initial distribution, :215-229. *)
Definition T_kinds (model_T : bool) (n_S : nat) : list kind :=
  if model_T && (2 <? n_S) then repeat KLat (n_S * (n_S - 2)) else [].
Definition pi_kinds (model_pi : bool) (n_S : nat) : list kind := if model_pi then repeat KPi (n_S - 1) else [].

(** Settings of a family, hsmm.py:1219-1250: fixT stands for fix_T_pi. *)
Record settings := mkSettings {
  c_S : nat; c_M : nat; c_obs : list (list fam); c_dur : list (option nat); c_shared : list nat; c_sharedm : bool;
  c_first : bool; c_fixT : bool }.

Definition kinds (c : settings) : option (list kind) :=
  match obs_kinds (c_S c) 0 (c_M c) (c_obs c), dur_kinds (c_S c * (if c_first c then 1 else 2)) (c_dur c) with
  | Some o, Some d => Some (shared_kinds (c_shared c) (c_sharedm c) (c_M c) ++ o ++ d ++ T_kinds (negb (c_fixT c)) (c_S c)
                            ++ pi_kinds (negb (c_fixT c)) (c_S c))
  | _, _ => None
  end.

Section Split.
Variables val row : Type.
(** Lrhoi: number of rows and columns, and Lrhoi.T @ y. *)
Definition ar_model : Type := nat * (list val -> list val).

(** Lrhoi.T @ y, hsmm.py:124, 156, 174: ValueError if sizes differ. *)
Definition whiten (ar : option ar_model) (y : list val) : option (list val) :=
  match ar with None => Some y | Some (n, f) => if length y =? n then Some (f y) else None end.

(** X[[split[0]], :] for every piece, hsmm.py:220: IndexError if a piece is empty. *)
Fixpoint firsts {A} (pieces : list (list A)) : option (list (list A)) :=
  match pieces with
  | [] => Some []
  | [] :: _ => None
  | (x :: _) :: r => option_map (cons [x]) (firsts r)
  end.

(** X_split of one formula, hsmm.py:116-120, 148-152, 187-190, 217-220. *)
Definition x_split (k : kind) (sid tid : list nat) (X : option (list row)) : option (option (list (list row))) :=
  match X with
  | None => Some None
  | Some X =>
      match k with
      | KShared _ | KObs => Some (Some (np_split (tl sid) X))
      | KLat => Some (Some (np_split (tl tid) X))
      | KPi => option_map Some (firsts (np_split (tl tid) X))
      end
  end.

(** y_split of one formula, hsmm.py:122-125, 154-157, 192, 222-225. *)
Definition y_split (k : kind) (ar : option ar_model) (sid tid : list nat) (y0 y : option (list val)) : option (option (list (list val))) :=
  match k with
  | KShared false => Some None
  | KShared true => match y0 with Some y => option_map (fun w => Some (np_split (tl sid) w)) (whiten ar y) | None => None end
  | KObs => match y with Some y => option_map (fun w => Some (np_split (tl sid) w)) (whiten ar y) | None => Some None end
  | KLat => match y with Some y => Some (Some (np_split (tl tid) y)) | None => Some None end
  | KPi => match y with Some y => option_map Some (firsts (np_split (tl tid) y)) | None => Some None end
  end.

(** The formulas in turn, idx going up by one: [ys], [Xs] are what is left from idx on, [y0] is ys[0]. *)
Fixpoint split_all (ks : list kind) (ar : option ar_model) (sid tid : list nat) (y0 : option (list val))
    (ys : list (option (list val))) (Xs : list (option (list row)))
    : option (list (option (list (list val))) * list (option (list (list row)))) :=
  match ks with
  | [] => Some ([], [])
  | k :: ks' =>
      match ys, Xs with
      | y :: ys', X :: Xs' =>
          match y_split k ar sid tid y0 y, x_split k sid tid X, split_all ks' ar sid tid y0 ys' Xs' with
          | Some sy, Some sx, Some (rys, rxs) => Some (sy :: rys, sx :: rxs)
          | _, _, _ => None
          end
      | _, _ => None
      end
  end.
(** _split_matrices, hsmm.py:25-231. *)
Definition split_matrices (c : settings) (ar : option ar_model) (sid tid : list nat)
    (ys : list (option (list val))) (Xs : list (option (list row))) :=
  match kinds c with Some ks => split_all ks ar sid tid (hd None ys) ys Xs | None => None end.

(** [split[series] if split is not None else None for split in splits], hsmm.py:2187-2194. *)
Fixpoint of_series {A} (s : nat) (splits : list (option (list A))) : option (list (option A)) :=
  match splits with
  | [] => Some []
  | None :: r => option_map (cons None) (of_series s r)
  | Some l :: r => match nth_error l s, of_series s r with Some x, Some xs => Some (Some x :: xs) | _, _ => None end
  end.

(** yfix, hsmm.py:359: None stands for the observations of the first formula.  None if ys[0] is None. *)
Definition yfix (ys : list (option (list val))) : option (list (list val)) :=
  match ys with Some y0 :: _ => Some (map (fun y => match y with Some y => y | None => y0 end) ys) | _ => None end.

(** Where the observations of states and signals are read, hsmm.py:451-617: state, signal, index into ys.  MultiGauss
    families read ys[idx : idx + n_par] (:461), others ys[idx] before their parameters (:525, 567). *)
Fixpoint fam_plan (j m idx : nat) (fams : list fam) : list (nat * nat * nat) * nat :=
  match fams with
  | [] => ([], idx)
  | FUni n :: r | FMulti n :: r => let (p, e) := fam_plan j (S m) (idx + n) r in ((j, m, idx) :: p, e)
  | FNone :: r =>
      if Nat.odd j then let (p, e) := fam_plan j (S m) (idx + 1) r in ((j, m, idx) :: p, e)
      else fam_plan j (S m) idx r
  end.
Definition state_plan (M j idx : nat) (fams : list fam) : option (list (nat * nat * nat) * nat) :=
  match fams with
  | FMulti n :: _ => Some (map (fun p => (j, p, idx + p)) (seq 0 n), idx + n)
  | _ => option_map (fam_plan j 0 idx) (take_fams M fams)
  end.
Fixpoint obs_plan (n j M idx : nat) (obs_fams : list (list fam)) : option (list (nat * nat * nat)) :=
  match n, obs_fams with
  | O, _ => Some []
  | S n', fams :: r =>
      match state_plan M j idx fams with
      | Some (p, e) => option_map (app p) (obs_plan n' (S j) M e r)
      | None => None
      end
  | S _, [] => None
  end.
(** idx after the shared formulas, hsmm.py:433-445. *)
Definition plan (c : settings) : option (list (nat * nat * nat)) :=
  obs_plan (c_S c) 0 (c_M c) (length (c_shared c) * (if c_sharedm c then 1 else c_M c)) (c_obs c).

(** y_mat[:, m] for bump models, filled in state 0 from ys[m], hsmm.py:621-625; all states use it (:600, :627). *)
Definition y_mat_hmp (ys : list (list val)) (m : nat) : option (list val) := nth_error ys m.

(** get_ys, models.py:356-391, for formulas without a function of the variable: None if the variable is that of the first
    formula.  Variables are numbers, [data] their values. *)
Definition get_ys (data : nat -> list val) (variables : list nat) : list (option (list val)) :=
  match variables with
  | [] => []
  | v0 :: r => Some (data v0) :: map (fun v => if v =? v0 then None else Some (data v)) r
  end.

(** ** Decoding within residuals *)
Variable trans : Type.                       (* transition matrix and initial distribution *)
Inductive fixed := Estimated | One (t : trans) | PerSeries (ts : list trans).
(** Lines 2077-2084: None is an IndexError; Some None: estimated. *)
Definition series_trans (f : fixed) (s : nat) : option (option trans) :=
  match f with Estimated => Some None | One t => Some (Some t) | PerSeries ts => option_map Some (nth_error ts s) end.

Definition inputs : Type := option trans * list (option (list val)) * list (option (list row)).
Definition series_inputs (f : fixed) splits (s : nat) : option inputs :=
  match series_trans f s, of_series s (fst splits), of_series s (snd splits) with
  | Some t, Some ys, Some Xs => Some (t, ys, Xs)
  | _, _, _ => None
  end.
(** Lines 2137-2139: the autoregressive model is used only if the number of observations is the one it was made for. *)
Definition ar_if_fits (ar : option ar_model) (ys : list (option (list val))) : option ar_model :=
  match ar, ys with
  | Some (n, f), Some y :: _ => if length y =? n then Some (n, f) else None
  | _, _ => None
  end.
(** What series_viterbi is given for a series in decode_viterbi, hsmm.py:2117-2196; the same in sample_posterior_states,
    :2365-2442. *)
Definition decode_inputs (c : settings) (ar : option ar_model) (f : fixed) (sid tid : list nat) ys Xs (s : nat) : option inputs :=
  match split_matrices c (ar_if_fits ar ys) sid tid ys Xs with Some sp => series_inputs f sp s | None => None end.
(** The same when called within get_resid, hsmm.py:2654-2665 and 2683-2694, for resid_type "viterbi_dur" and
    "posterior_dur". *)
Definition resid_decode_inputs (c : settings) (ar : option ar_model) (f : fixed) (sid tid : list nat) ys Xs (s : nat) : option inputs :=
  match split_matrices c ar sid tid ys Xs with
  | None => None
  | Some sp =>
      match series_inputs f sp s with
      | Some (_, ys', Xs') => decode_inputs c ar f [0] [0] ys' Xs' 0
      | None => None
      end
  end.
(** compute_od_probs, hsmm.py:1371, 1388-1403: the autoregressive model is always used, transitions are not. *)
Definition od_splits (c : settings) (ar : option ar_model) (sid tid : list nat) ys Xs :=
  split_matrices (mkSettings (c_S c) (c_M c) (c_obs c) (c_dur c) (c_shared c) (c_sharedm c) (c_first c) true) ar sid tid ys Xs.
End Split.
Arguments Estimated {trans}.
Arguments One {trans}.
Arguments PerSeries {trans}.

(** ** Shared terms *)
Section Shared.
Variable E : Type.
Variable add : E -> E -> E.
Variable eta : nat -> E.                     (* Xs[idx] @ split_coef[idx] *)

Fixpoint extend (i : nat) (x : list E) (l : list (list E)) : option (list (list E)) :=
  match i, l with
  | O, a :: r => Some ((a ++ x) :: r)
  | S i', a :: r => option_map (cons a) (extend i' x r)
  | _, [] => None
  end.
(** shared_eta, hsmm.py:433-445 and 904-916: a list is appended for every parameter, and filled at index par. *)
Fixpoint shared_etas (shared_pars : list nat) (midx idx : nat) (acc : list (list E)) : option (list (list E)) :=
  match shared_pars with
  | [] => Some acc
  | par :: r =>
      match extend par (map eta (seq idx midx)) (acc ++ [[]]) with
      | Some acc' => shared_etas r midx (idx + midx) acc'
      | None => None
      end
  end.
Definition mem (p : nat) (l : list nat) : bool := existsb (Nat.eqb p) l.
(** shared_eta[p][i], IndexError if there is none. *)
Definition with_shared (shared_pars : list nat) (se : list (list E)) (p i : nat) (own : E) : option E :=
  if mem p shared_pars then
    match nth_error se p with Some l => option_map (add own) (nth_error l i) | None => None end
  else Some own.

Fixpoint sequence {A} (l : list (option A)) : option (list A) :=
  match l with
  | [] => Some []
  | Some a :: r => option_map (cons a) (sequence r)
  | None :: _ => None
  end.

(** Predictors of the families of a state, hsmm.py:519-541 (families other than None); shared_eta[par][m] if shared_m is
    False (:535-538). *)
Fixpoint uni_etas (sp : list nat) (shared_m : bool) se (m idx : nat) (fams : list nat) : option (list (list E)) :=
  match fams with
  | [] => Some []
  | n :: r =>
      match sequence (map (fun p => with_shared sp se p (if shared_m then 0 else m) (eta (idx + p))) (seq 0 n)),
            uni_etas sp shared_m se (S m) (idx + n) r with
      | Some a, Some b => Some (a :: b)
      | _, _ => None
      end
  end.
Fixpoint state_etas (sp : list nat) (shared_m : bool) se (idx : nat) (states : list (list nat)) : option (list (list (list E))) :=
  match states with
  | [] => Some []
  | fams :: r =>
      match uni_etas sp shared_m se 0 idx fams, state_etas sp shared_m se (idx + list_sum fams) r with
      | Some a, Some b => Some (a :: b)
      | _, _ => None
      end
  end.
(** Predictors of all states, signals and parameters in _compute_series_probs, hsmm.py:430-545; [states]: n_par of the
    families, all states having M families that are neither None nor MultiGauss. *)
Definition lik_etas (sp : list nat) (shared_m : bool) (M : nat) (states : list (list nat)) : option (list (list (list E))) :=
  let midx := if shared_m then 1 else M in
  match shared_etas sp midx 0 [] with
  | Some se => state_etas sp shared_m se (length sp * midx) states
  | None => None
  end.

(** _sample_series_emissions, hsmm.py:904-1003: predictors and seed of every draw. *)
Fixpoint sim_uni (sp : list nat) (shared_m : bool) se (m idx : nat) (seed : option nat) (fams : list nat)
    : option (list (option nat * list E) * nat * option nat) :=
  match fams with
  | [] => Some ([], idx, seed)
  | n :: r =>
      match sequence (map (fun p => with_shared sp se p (if shared_m then 0 else m) (eta (idx + p))) (seq 0 n)),
            sim_uni sp shared_m se (S m) (idx + n) (option_map S seed) r with
      | Some a, Some (b, idx', seed') => Some ((seed, a) :: b, idx', seed')
      | _, _ => None
      end
  end.
Fixpoint sim_states (sp : list nat) (shared_m : bool) se (idx : nat) (seed : option nat) (states : list (list nat))
    : option (list (list (option nat * list E))) :=
  match states with
  | [] => Some []
  | fams :: r =>
      match sim_uni sp shared_m se 0 idx seed fams with
      | Some (a, idx', seed') => option_map (cons a) (sim_states sp shared_m se idx' seed' r)
      | None => None
      end
  end.
Definition sim_etas (sp : list nat) (shared_m : bool) (M : nat) (seed : option nat) (states : list (list nat)) :=
  let midx := if shared_m then 1 else M in
  match shared_etas sp midx 0 [] with
  | Some se => sim_states sp shared_m se (length sp * midx) seed states
  | None => None
  end.
End Shared.
