(** Simulation of series from a hidden semi-Markov model.
    Source: /repo/src/mssm/src/python/hsmm.py (HSMMFamily.predict).

    Durations, transitions and initial probabilities are those of [tables] (HsmmModel), as computed by
    _compute_series_probs.  Probabilities are real numbers.  Models without autoregressive residuals (rho is None). *)

From Coq Require Import List Bool Arith ZArith Reals.
From Verif Require Import HsmmModel.
Import ListNotations.

(** Random computations: np_gen.choice over 0, ..., n - 1 with probabilities [p], hsmm.py:1779, :1782, :1797,
    :1802. *)
Inductive rnd (A : Type) : Type :=
| Ret (a : A)
| Choice (n : nat) (p : nat -> R) (k : nat -> rnd A).
Arguments Ret {A}.
Arguments Choice {A}.

Fixpoint bind {A B} (x : rnd A) (f : A -> rnd B) : rnd B :=
  match x with Ret a => f a | Choice n p k => Choice n p (fun i => bind (k i) f) end.

Local Open Scope nat_scope.

(** d_vals, hsmm.py:1766: the durations 1, ..., D - 1. *)
Definition d_val (i : nat) : Z := Z.of_nat (i + 1).

(** The loop over time points, hsmm.py:1789-1846, from time [t] on with [n] time points left: the state and the value
    of dur with which the observation of every time point is made (:1818-1842). *)
Fixpoint loop (m : tables R) (n t state : nat) (dur : Z) : rnd (list (nat * Z)) :=
  match n with
  | O => Ret []
  | S n' =>
      let emit s d := bind (loop m n' (t + 1) s (d - 1)%Z) (fun r => Ret ((s, d) :: r)) in
      if (dur <? 0)%Z then
        if hmp m && (state =? n_S m - 1) then emit state (dur + 1)%Z
        else Choice (n_S m) (fun s => T m state s t) (fun s =>
               Choice (D m - 1) (fun i => ds m i (later m s) t) (fun i => emit s (d_val i)))
      else emit state dur
  end.

(** One sample, hsmm.py:1779-1846. *)
Definition simulate (m : tables R) : rnd (list (nat * Z)) :=
  Choice (n_S m) (pi m) (fun s => Choice (D m - 1) (fun i => ds m i s 0) (fun i => loop m (n_T m) 0 s (d_val i))).

(** state_samples, hsmm.py:1819. *)
Definition states (tr : list (nat * Z)) : list nat := map fst tr.

(** n_samples samples with one generator, hsmm.py:1773. *)
Fixpoint simulate_n (m : tables R) (n_samples : nat) : rnd (list (list (nat * Z))) :=
  match n_samples with
  | O => Ret []
  | S n => bind (simulate m) (fun s => bind (simulate_n m n) (fun r => Ret (s :: r)))
  end.

(** event_template[d]: negative indices count from the end. *)
Definition py_index (template : list R) (d : Z) : R :=
  nth (Z.to_nat (if (d <? 0)%Z then d + Z.of_nat (length template) else d)) template 0%R.

(** Ebump, hsmm.py:1822-1842: what is added to the noise of a time point; [mu] is mus[:, m, :]. *)
Definition bump (m : tables R) (template : list R) (mu : nat -> nat -> R) (t : nat) (x : nat * Z) : R :=
  let '(state, dur) := x in
  if hmp m && Nat.odd state then (py_index template (Z.of_nat (event_width m) - 1 - dur) * mu t state)%R else 0%R.
Definition bumps m template mu (tr : list (nat * Z)) : list R :=
  map (fun '(t, x) => bump m template mu t x) (combine (seq 0 (length tr)) tr).

(** Pseudo random numbers: a generator is a stream of numbers in [0,1); Generator.choice takes the first position at
    which the cumulated probabilities exceed the next number. *)
Fixpoint pick (n : nat) (p : nat -> R) (u : R) : nat :=
  match n with
  | O => 0
  | S n' => if Rlt_dec u (p 0) then 0 else S (pick n' (fun i => p (S i)) (u - p 0%nat)%R)
  end.
Fixpoint run {A} (x : rnd A) (u : nat -> R) (i : nat) : A :=
  match x with Ret a => a | Choice n p k => run (k (Nat.min (pick n p (u i)) (n - 1))) u (i + 1) end.

(** predict, hsmm.py:1936-1985, with n_cores = 1 (a loop over series) or with several processes (starmap): in both
    cases predict_series creates its generator as np.random.default_rng(seed) (:1704, :1765). *)
Definition predict_series (gen : Z -> nat -> R) (seed : Z) (n_samples : nat) (m : tables R) : list (list nat) :=
  map states (run (simulate_n m n_samples) (gen seed) 0).
Fixpoint predict_loop gen seed n_samples (ms : list (tables R)) (predictions : list (list (list nat))) : list (list (list nat)) :=
  match ms with
  | [] => predictions
  | m :: r => predict_loop gen seed n_samples r (predictions ++ [predict_series gen seed n_samples m])
  end.
Definition predict (n_cores : nat) gen seed n_samples (ms : list (tables R)) : list (list (list nat)) :=
  if n_cores =? 1 then predict_loop gen seed n_samples ms [] else map (predict_series gen seed n_samples) ms.
