(** What simulated series are compared with. *)

From Coq Require Import List Bool Arith ZArith Reals.
From Verif Require Import HsmmModel HsmmSpec SimModel.
Import ListNotations.

(** The probability of an event. *)
Fixpoint prob {A} (x : rnd A) (e : A -> bool) : R :=
  match x with
  | Ret a => if e a then 1%R else 0%R
  | Choice n p k => lsum (seq 0 n) (fun i => p i * prob (k i) e)%R
  end.

(** Something that holds whatever is drawn. *)
Fixpoint always {A} (x : rnd A) (P : A -> Prop) : Prop :=
  match x with
  | Ret a => P a
  | Choice n p k => forall i, (i < n)%nat -> p i <> 0%R -> always (k i) P
  end.

(** The probability of a division into segments before anything is observed. *)
Fixpoint prior_from (m : tables R) (t : nat) (from : option nat) (s : list segment) : R :=
  match s with
  | [] => 1%R
  | g :: r => (enter R Rmult m t from g * prior_from m (t + S (snd g)) (Some (fst g)) r)%R
  end.
Definition same_states (l r : list nat) : bool := if list_eq_dec Nat.eq_dec l r then true else false.
(** The probability of a sequence of states; [L] lists all divisions of the series. *)
Definition law (m : tables R) (L : list (list segment)) (l : list nat) : R :=
  lsum L (fun s => if same_states (firstn (n_T m) (path s)) l then prior_from m 0 None s else 0%R).

(** The model in which every state lasts one time point more. *)
Definition longer (m : tables R) : tables R :=
  Tables (hmp m) (event_width m) (n_T m) (S (D m)) (n_S m) (starts_with_first m) (ends_with_last m) (ends_in_last m) (tvdtpi m)
         (b m) (fun d j t => match d with O => 0%R | S e => dur m e j t end) (tr m) (pi m).
(** The model in which transitions follow the table of the next time point. *)
Definition ahead (m : tables R) : tables R :=
  Tables (hmp m) (event_width m) (n_T m) (D m) (n_S m) (starts_with_first m) (ends_with_last m) (ends_in_last m) (tvdtpi m)
         (b m) (dur m) (fun i j t => tr m i j (if tvdtpi m then S t else t)) (pi m).

(** Several events at once. *)
Definition all_of {A} (es : list (A -> bool)) (l : list A) : bool :=
  (length es =? length l) && forallb (fun '(e, a) => e a) (combine es l).

(** State [s] begins at time [t]. *)
Definition begins (l : list nat) (t s : nat) : Prop :=
  nth_error l t = Some s /\ forall t', t = S t' -> nth_error l t' <> Some s.
(** In a sequence of states with bumps [x]: a bump lasts as many time points as the template has, and its
    values are those of the template times the magnitude. *)
Local Open Scope nat_scope.
Definition proper_bumps (template : list R) (mu : nat -> nat -> R) (l : list nat) (x : list R) : Prop :=
  forall t s, begins l t s -> Nat.odd s = true ->
  (forall k, k < length template -> t + k < length l ->
     nth_error l (t + k) = Some s /\ nth_error x (t + k) = Some (Rmult (nth k template 0%R) (mu (t + k) s))) /\
  (nth_error l (t + length template) <> Some s).
