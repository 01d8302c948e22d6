(** Hidden semi-Markov models: forward pass (cpp/hsmm/llk.cpp), Viterbi decoding and backward sampling
    (cpp/hsmm/decode.cpp).

    Simplifications used throughout.  The arrays are functions: bs(t,j) is [b t 0 j] and bs(t,k,j) is [b t k j];
    ds(d,j) and ds(d,j,t) are [dur d j 0] and [dur d j t]; T(i,j) and T(i,j,t) are [tr i j 0] and [tr i j t].
    size_t subtraction is truncated at zero, i.e. D >= 2 and n_T >= 1 is understood. *)

From Coq Require Import List Bool Arith Reals.
From Verif Require Import Ext.
Import ListNotations.
Local Open Scope nat_scope.

(** The arguments of llk, viterbi and sample_backwards, llk.cpp:14-21, decode.cpp:20-27, 248-256; hmp_code
    only matters for being zero or not. *)
Record tables (K : Type) := Tables {
  hmp : bool; event_width : nat; n_T : nat; D : nat; n_S : nat;
  starts_with_first : bool; ends_with_last : bool; ends_in_last : bool; tvdtpi : bool;
  b : nat -> nat -> nat -> K; dur : nat -> nat -> nat -> K; tr : nat -> nat -> nat -> K; pi : nat -> K }.
Arguments Tables {K}.
Arguments hmp {K}. Arguments event_width {K}. Arguments n_T {K}. Arguments D {K}. Arguments n_S {K}.
Arguments starts_with_first {K}. Arguments ends_with_last {K}. Arguments ends_in_last {K}. Arguments tvdtpi {K}.
Arguments b {K}. Arguments dur {K}. Arguments tr {K}. Arguments pi {K}.

(** (tvdtpi) ? ds(d,j,t) : ds(d,j) and (tvdtpi) ? T(i,j,t) : T(i,j), e.g. llk.cpp:64, 113. *)
Definition ds {K} (m : tables K) (d j t : nat) : K := dur m d j (if tvdtpi m then t else 0).
Definition T {K} (m : tables K) (i j t : nat) : K := tr m i j (if tvdtpi m then t else 0).
(** (starts_with_first) ? j : j + n_S, e.g. llk.cpp:126. *)
Definition later {K} (m : tables K) (j : nat) : nat := if starts_with_first m then j else j + n_S m.
(** b2: the first observation of a flat has its own column, llk.cpp:119-125, decode.cpp:120-127, 348-355. *)
Definition b_first {K} (m : tables K) (t j : nat) : K :=
  if hmp m then (if Nat.even j then b m t 1 j else b m t 0 j) else b m t 0 j.
(** The observation of a state that continues with d time points left, llk.cpp:79-103, decode.cpp:77-100,
    311-337; [None] is the branch that gives probability zero. *)
Definition b_cont {K} (m : tables K) (t d j : nat) : option K :=
  if hmp m then
    if Nat.odd j then (if d <=? event_width m - 1 then Some (b m t (event_width m - 1 - d) j) else None)
    else Some (b m t 0 j)
  else Some (b m t 0 j).
(** (t + d) < n_T || ends_with_last == false, llk.cpp:75. *)
Definition in_range {K} (m : tables K) (t d : nat) : bool := (t + d <? n_T m) || negb (ends_with_last m).

(** Which cells the probability of the current observation sums over, llk.cpp:139-174, decode.cpp:370-411. *)
Definition counts {K} (m : tables K) (t d j : nat) : bool :=
  if (t <? n_T m - 1) || negb (ends_with_last m) then
    if (t <? n_T m - 1) || negb (ends_in_last m) then true else j =? n_S m - 1
  else if d =? 0 then (if negb (ends_in_last m) then true else j =? n_S m - 1)
  else false.

Local Open Scope R_scope.

Definition nsum (n : nat) (f : nat -> R) : R := fold_right Rplus 0 (map f (seq 0 n)).
(** The two loops over d and j. *)
Definition dj_sum (m : tables R) (f : nat -> nat -> R) : R :=
  nsum (D m - 1) (fun d => nsum (n_S m) (fun j => f d j)).

(** A new value of lam(t,d,j) for t > 0 before scaling, llk.cpp:75-131, decode.cpp:309-366; [prev] is
    lam(t-1,.,.). *)
Definition raw_cell (m : tables R) (t : nat) (prev : nat -> nat -> R) (d j : nat) : R :=
  if in_range m t d then
    (if (d + 1 <=? D m - 2)%nat
     then match b_cont m t d j with Some x => prev (d + 1)%nat j * x | None => 0 end
     else 0)
    + nsum (n_S m) (fun i => if (i =? j)%nat then 0 else prev 0%nat i * T m i j (t - 1))
      * (b_first m t j * ds m d (later m j) t)
  else 0.
Definition first_cell (m : tables R) (d j : nat) : R := pi m j * b m 0 0 j * ds m d j 0.
Definition sum_counted (m : tables R) (t : nat) (lam : nat -> nat -> R) : R :=
  dj_sum m (fun d j => if counts m t d j then lam d j else 0).

(** ** llk, llk.cpp:14-182 *)

(** hmp_code != 0 && j % 2 == 1 && d >= event_width, llk.cpp:57; the cell keeps its zero. *)
Definition skipped (m : tables R) (d j : nat) : bool := hmp m && Nat.odd j && (event_width m <=? d)%nat.
(** lam(t,.,.) and Lam(t).  0 / Lam(t-1) is also written for cells that are out of range. *)
Fixpoint llk_lam (m : tables R) (t : nat) : (nat -> nat -> R) * R :=
  match t with
  | O => let lam d j := if skipped m d j then 0 else first_cell m d j in (lam, sum_counted m 0 lam)
  | S t' =>
      let '(prev, L) := llk_lam m t' in
      let lam d j := if skipped m d j then 0 else raw_cell m t prev d j / L in
      (lam, sum_counted m t lam)
  end.
Definition Lam (m : tables R) (t : nat) : R := snd (llk_lam m t).
(** The sum of logarithms.  If Lam(t) is 0 before the last time point, lam(t+1,0,.) is 0/0 and so is
    everything that is computed from it. *)
Definition llk (m : tables R) : ext :=
  let n := (n_T m - 1)%nat in
  if forallb (fun t => if Req_EM_T (Lam m t) 0 then false else true) (seq 0 n)
  then if Req_EM_T (Lam m n) 0 then MInf else Fin (nsum (n_T m) (fun t => ln (Lam m t)))
  else NaN.

(** Sum of floats (no value is +inf here). *)
Definition esum2 (x y : ext) : ext :=
  match x, y with
  | Fin a, Fin c => Fin (a + c)
  | MInf, Fin _ | Fin _, MInf | MInf, MInf => MInf
  | _, _ => NaN
  end.
(** HSMMFamily.llk, hsmm.py:3024-3080: the series are independent; llc is the AR correction. *)
Definition joint_llk (ms : list (tables R)) (llc : R) : ext :=
  match fold_left (fun acc m => esum2 acc (llk m)) ms (Fin 0) with
  | Fin x => Fin (x - llc)
  | _ => MInf
  end.

(** ** sample_backwards, decode.cpp:243-562 *)

(** lam(t,.,.) before and after the scaling pass, and Lam(t), decode.cpp:291-425. *)
Fixpoint sb_lam (m : tables R) (t : nat) : (nat -> nat -> R) * (nat -> nat -> R) * R :=
  match t with
  | O => let raw := first_cell m in
         let L := sum_counted m 0 raw in (raw, fun d j => raw d j / L, L)
  | S t' =>
      let '(_, prev, _) := sb_lam m t' in
      let raw := raw_cell m t prev in
      let L := sum_counted m t raw in (raw, fun d j => raw d j / L, L)
  end.
Definition sb_raw m t := fst (fst (sb_lam m t)).
Definition sb_scaled m t := snd (fst (sb_lam m t)).
Definition sb_L m t := snd (sb_lam m t).

(** std::discrete_distribution: a weight divided by the sum of the weights. *)
Definition draw (n : nat) (w : nat -> R) (i : nat) : R := w i / nsum n w.

(** state_probsT and dur_probs, decode.cpp:370-411, 440-467. *)
Definition state_probsT (m : tables R) (j : nat) : R :=
  let t := (n_T m - 1)%nat in
  nsum (D m - 1) (fun d => if counts m t d j then sb_raw m t d j else 0) / sb_L m t.
Definition dur_probs (m : tables R) (j d : nat) : R :=
  let t := (n_T m - 1)%nat in
  (if counts m t d j then sb_raw m t d j else 0) / sb_L m t / state_probsT m j.

(** state_probs at time t given that state tmp_j with tmp_ed time points left was drawn for t,
    decode.cpp:509-535. *)
Definition state_probs (m : tables R) (t tmp_j tmp_ed i : nat) : R :=
  let prev := sb_scaled m (t - 1) in
  if (i =? tmp_j)%nat then (if (tmp_ed + 1 <=? D m - 2)%nat then prev (tmp_ed + 1)%nat i else 0)
  else prev 0%nat i * T m i tmp_j (t - 1) * ds m tmp_ed (later m tmp_j) (t - 1).

(** Probability of drawing the states [st] for times t-1, ..., 0, decode.cpp:499-555. *)
Fixpoint sb_back (m : tables R) (st : nat -> nat) (t ed : nat) : R :=
  match t with
  | O => 1
  | S t' => draw (n_S m) (state_probs m t (st t) ed) (st t')
            * sb_back m st t' (if (st t' =? st t)%nat then S ed else 0)
  end.
(** Probability that one sample consists of the states [st] and the excess duration [ed], decode.cpp:482-555. *)
Definition sample_prob (m : tables R) (st : nat -> nat) (ed : nat) : R :=
  let t := (n_T m - 1)%nat in
  draw (n_S m) (state_probsT m) (st t) * draw (D m - 1) (dur_probs m (st t)) ed * sb_back m st t ed.

(** ** viterbi, decode.cpp:14-241: logarithms, [None] is -INFINITY *)
Definition lnum := option R.
Definition ladd (x y : lnum) : lnum := match x, y with Some a, Some c => Some (a + c) | _, _ => None end.
Definition lgt (x y : lnum) : bool :=
  match x, y with Some a, Some c => rltb c a | Some _, None => true | None, _ => false end.

(** if (tmp_d2 > tmp_d) { tmp_d = tmp_d2; tmp_j = ... }; [None] in the second place is -1. *)
Definition keep_max {A : Type} (best : lnum * option A) (x : lnum) (a : A) : lnum * option A :=
  if lgt x (fst best) then (x, Some a) else best.

(** delta(t,d,j) and psi(t,d,j), decode.cpp:57-155. *)
Definition vit_cell (m : tables lnum) (t : nat) (prev : nat -> nat -> lnum) (d j : nat) : lnum * option nat :=
  if in_range m t d then
    let start := (None, None) in
    let cont := if (d + 1 <=? D m - 2)%nat
                then keep_max start (match b_cont m t d j with Some x => ladd (prev (d + 1)%nat j) x | None => None end) j
                else start in
    fold_left (fun best i =>
        if (i =? j)%nat then best
        else keep_max best (ladd (ladd (ladd (prev 0%nat i) (T m i j (t - 1))) (b_first m t j)) (ds m d (later m j) t)) i)
      (seq 0 (n_S m)) cont
  else (None, None).
Fixpoint vit (m : tables lnum) (t : nat) : nat -> nat -> lnum * option nat :=
  match t with
  | O => fun d j => (ladd (ladd (pi m j) (b m 0 0 j)) (ds m d j 0), None)
  | S t' => let prev := vit m t' in vit_cell m t (fun d j => fst (prev d j))
  end.
Definition delta m t d j := fst (vit m t d j).
Definition psi m t d j := snd (vit m t d j).

(** Final state tmp_j and max_ed, decode.cpp:157-209. *)
Definition vit_last (m : tables lnum) : option nat * nat :=
  let t := (n_T m - 1)%nat in
  let cells := if ends_with_last m then (if ends_in_last m then [] else map (fun j => (j, 0%nat)) (seq 0 (n_S m)))
               else if ends_in_last m then map (fun d => ((n_S m - 1)%nat, d)) (seq 0 (D m - 1))
               else flat_map (fun j => map (fun d => (j, d)) (seq 0 (D m - 1))) (seq 0 (n_S m)) in
  if ends_with_last m && ends_in_last m then (Some (n_S m - 1)%nat, 0%nat)
  else match fold_left (fun best c => keep_max best (delta m t (snd c) (fst c)) c) cells (None, None) with
       | (_, Some (j, d)) => (Some j, d)
       | (_, None) => (None, 0%nat)
       end.
(** Backward pass, decode.cpp:211-238: states t-1, ..., 0 after state tmp_j with tmp_ed left at time t.
    [None]: psi is read at state -1, outside of the array. *)
Fixpoint vit_back (m : tables lnum) (t tmp_ed : nat) (tmp_j : option nat) : option (list (option nat)) :=
  match t with
  | O => Some []
  | S t' =>
      match tmp_j with
      | None => None
      | Some j =>
          let j2 := psi m t tmp_ed j in
          let ed := match j2 with Some i => if (i =? j)%nat then S tmp_ed else 0%nat | None => 0%nat end in
          option_map (cons j2) (vit_back m t' ed j2)
      end
  end.
(** max_ed and states. *)
Definition viterbi (m : tables lnum) : option (nat * list (option nat)) :=
  let '(j, ed) := vit_last m in
  option_map (fun l => (ed, rev (j :: l))) (vit_back m (n_T m - 1) ed j).

(** ** Transition and initial probabilities *)

(** Row j of the transition matrix from the n_S - 2 means [mu] of its MULNOMLSS family; the first state other
    than j is the reference, hsmm.py:717-766.  With time-varying models this is done for each time point. *)
Definition T_entry (n_S : nat) (mu : nat -> nat -> R) (j i : nat) : R :=
  if (2 <? n_S)%nat then
    let mu_firstT := nsum (n_S - 2) (mu j) + 1 in
    if (i =? j)%nat then 0
    else match (if (i <? j)%nat then i else i - 1)%nat with O => 1 / mu_firstT | S p => mu j p / mu_firstT end
  else if (i =? j)%nat then 0 else 1.
(** Shape of the array, hsmm.py:719-722, 763-764: np.stack along axis 2. *)
Definition T_shape (n_S n_T : nat) (tvdtpi : bool) : list nat :=
  let first := if tvdtpi then [n_S; n_S; n_T] else [n_S; n_S] in
  if (2 <? n_S)%nat then first else if tvdtpi then firstn 2 first ++ [n_T] ++ skipn 2 first else first.
(** hsmm.py:772-792. *)
Definition pi_entry (n_S : nat) (mu : nat -> R) (j : nat) : R :=
  let mu_firstPI := nsum (n_S - 1) mu + 1 in
  match j with O => 1 / mu_firstPI | S p => mu p / mu_firstPI end.

(** compute_Tpi, hsmm.py:1499-1631.  A fixed T or pi is one array or a list of arrays. *)
Inductive given (A : Type) := One (a : A) | Several (l : list A).
Arguments One {A}. Arguments Several {A}.
Section Tpi.
Variables A B : Type.
Variable fix_T_pi : bool.
Variable computed : nat -> A * B.
(** hsmm.py:1499-1538; [None] is an IndexError. *)
Definition series_Tpi (T : given A) (p : given B) (series : nat) : option (given A * given B) :=
  if fix_T_pi then
    match T, p with
    | Several Ts, Several ps =>
        match nth_error Ts series, nth_error ps series with
        | Some x, Some y => Some (One x, One y)
        | _, _ => None
        end
    | _, _ => Some (T, p)
    end
  else Some (One (fst (computed series)), One (snd (computed series))).
(** hsmm.py:1587-1603: the loop variables T and pi are the variables that series_Tpi refers to. *)
Fixpoint serial_from (T : given A) (p : given B) (series n : nat) : option (list (given A * given B)) :=
  match n with
  | O => Some []
  | S n' => match series_Tpi T p series with
            | Some (T', p') => option_map (cons (T', p')) (serial_from T' p' (S series) n')
            | None => None
            end
  end.
Definition serial_Tpi T p n_series := serial_from T p 0 n_series.
(** hsmm.py:1605-1629. *)
Definition parallel_Tpi T p n_series : option (list (given A * given B)) :=
  fold_right (fun k acc => match series_Tpi T p k, acc with Some x, Some l => Some (x :: l) | _, _ => None end)
             (Some []) (seq 0 n_series).
End Tpi.
