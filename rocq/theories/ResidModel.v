(** Residuals of hidden semi-Markov models: forward and predictive residuals (cpp/hsmm/resid.cpp) and residuals of
    durations (_compute_dur_res_series and get_resid, hsmm.py).

    The tables and loops are those of HsmmModel; the residuals of one signal are modelled, the loops over signals do
    the same for each.  Division by Lam(t-1) = 0 gives NaN in the code; the theorems exclude it. *)

From Coq Require Import List Bool Arith Reals.
From Verif Require Import HsmmModel.
Import ListNotations.
Local Open Scope R_scope.

(** lam(t,.,.) and Lam(t), resid.cpp:60-255 and 327-573: as in llk.cpp but without skipping long bumps; cells out of
    range keep their zero. *)
Fixpoint fr_lam (m : tables R) (t : nat) : (nat -> nat -> R) * R :=
  match t with
  | O => let lam := first_cell m in (lam, sum_counted m 0 lam)
  | S t' =>
      let '(prev, L) := fr_lam m t' in
      let lam d j := if in_range m t d then raw_cell m t prev d j / L else 0 in
      (lam, sum_counted m t lam)
  end.

(** tp: some other state ended at the time point before, resid.cpp:142-153, 434-445. *)
Definition entered (m : tables R) (t : nat) (prev : nat -> nat -> R) (j : nat) : R :=
  nsum (n_S m) (fun i => if (i =? j)%nat then 0 else prev 0%nat i * T m i j (t - 1)).

(** ** forward_resid, resid.cpp:12-262 *)

(** clam(0,m,d,j), resid.cpp:68-85; cbs(t,j,m) is [c t 0 j], cbs(t,m,k,j) is [c t k j]. *)
Definition clam_first (m : tables R) (c : nat -> nat -> nat -> R) (d j : nat) : R :=
  if hmp m then pi m j * c 0%nat 0%nat j * ds m d j 0 else pi m j * c 0%nat 0%nat j * ds m d j 0.
(** c2, resid.cpp:171-176. *)
Definition c_first (m : tables R) (c : nat -> nat -> nat -> R) (t j : nat) : R :=
  if hmp m then (if Nat.even j then c t 1%nat j else c t 0%nat j) else c t 0%nat j.
(** clam(t,m,d,j) for t > 0, resid.cpp:89-205. *)
Definition clam (m : tables R) (c : nat -> nat -> nat -> R) (t : nat) (prev : nat -> nat -> R) (L : R) (d j : nat) : R :=
  if in_range m t d then
    ((if (d + 1 <=? D m - 2)%nat then
        if hmp m then
          if Nat.odd j then
            (if (d <=? event_width m - 1)%nat then prev (d + 1)%nat j * c t (event_width m - 1 - d)%nat j else 0)
          else prev (d + 1)%nat j * c t 0%nat j
        else prev (d + 1)%nat j * c t 0%nat j
      else 0)
     + entered m t prev j * c_first m c t j * ds m d (later m j) t) / L
  else 0.
(** resid(t,m), resid.cpp:210-253. *)
Definition forward_resid (m : tables R) (c : nat -> nat -> nat -> R) (t : nat) : R :=
  match t with
  | O => sum_counted m 0 (clam_first m c)
  | S t' => let '(prev, L) := fr_lam m t' in sum_counted m t (clam m c t prev L)
  end.

(** ** predictive_resid, resid.cpp:264-614 *)

(** The arguments that only matter here: number of signals, the signal the residuals are computed for, y(t,m),
    mus(t,m,j), weights, rho (None is 999), and what is found in memory outside the array mus. *)
Record signals := Signals {
  n_M : nat; channel : nat; y : nat -> R; mus : nat -> nat -> nat -> R; weights : nat -> R; ar : option R;
  outside : nat -> R }.

(** d0 and d1, resid.cpp:321-325. *)
Definition ar0 (g : signals) : R := match ar g with Some rho => 1 / sqrt (1 - rho ^ 2) | None => 0 end.
Definition ar1 (g : signals) : R := match ar g with Some rho => - rho / sqrt (1 - rho ^ 2) | None => 0 end.
(** ebump at the start of a bump, resid.cpp:346-351, 465-470. *)
Definition ebump_first (g : signals) (t j : nat) : R :=
  let e := weights g 0%nat * mus g t (channel g) j in match ar g with Some _ => e * ar0 g | None => e end.
(** ebump within a bump, resid.cpp:391-407. *)
Definition ebump (m : tables R) (g : signals) (t d j : nat) : R :=
  let k := (event_width m - 1 - d)%nat in
  let e := weights g k * mus g t (channel g) j in
  match ar g with
  | Some _ => let e := e * ar0 g in
              if (0 <? k)%nat then e + ar1 g * weights g (k - 1)%nat * mus g (t - 1)%nat (channel g) j else e
  | None => e
  end.
(** mus(t-1,m,j-1): for j = 0 the index is out of bounds, resid.cpp:481. *)
Definition mus_before (g : signals) (t j : nat) : R :=
  match j with O => outside g t | S j' => mus g (t - 1)%nat (channel g) j' end.
(** mus(t,j): two indices of an array with three, stored by columns, so the element t + j * n_T, resid.cpp:501. *)
Definition mus2 (g : signals) (t j : nat) : R := mus g t (j mod n_M g)%nat (j / n_M g)%nat.

(** elam(0,m,d,j), resid.cpp:335-371. *)
Definition elam_first (m : tables R) (g : signals) (d j : nat) : R :=
  if hmp m then (if Nat.odd j then pi m j * ebump_first g 0 j * ds m d j 0 else 0)
  else pi m j * mus g 0%nat (channel g) j * ds m d j 0.
(** elam(t,m,d,j) for t > 0, resid.cpp:373-515. *)
Definition elam (m : tables R) (g : signals) (t : nat) (prev : nat -> nat -> R) (L : R) (d j : nat) : R :=
  if in_range m t d then
    ((if (d + 1 <=? D m - 2)%nat then
        if hmp m then
          if Nat.odd j then (if (d <=? event_width m - 1)%nat then prev (d + 1)%nat j * ebump m g t d j else 0) else 0
        else prev (d + 1)%nat j * mus g t (channel g) j
      else 0)
     + (if hmp m then
          if Nat.odd j then entered m t prev j * ebump_first g t j * ds m d (later m j) t
          else match ar g with
               | Some _ => entered m t prev j * (ar1 g * weights g (event_width m - 1)%nat * mus_before g t j) * ds m d (later m j) t
               | None => 0
               end
        else entered m t prev j * mus2 g t j * ds m d (later m j) t)) / L
  else 0.
(** e(t,m), resid.cpp:520-567. *)
Definition expected (m : tables R) (g : signals) (t : nat) : R :=
  match t with
  | O => sum_counted m 0 (elam_first m g)
  | S t' => let '(prev, L) := fr_lam m t' in sum_counted m t (elam m g t prev L)
  end.
(** resid before standardising, resid.cpp:578-589. *)
Fixpoint cumulated (m : tables R) (g : signals) (n : nat) : R :=
  match n with
  | O => y g 0%nat - expected m g 0
  | S n' => cumulated m g n' + (y g n - expected m g n)
  end.
(** resid_sd after time point n, resid.cpp:595-608. *)
Fixpoint resid_sd (m : tables R) (g : signals) (n : nat) : R :=
  match n with
  | O => cumulated m g 0 ^ 2
  | S n' => resid_sd m g n' + (cumulated m g n - cumulated m g n') ^ 2
  end.
(** The result, resid.cpp:595-611: the loop that divides starts at 1. *)
Definition predictive_resid (m : tables R) (g : signals) (n : nat) : R :=
  match n with O => cumulated m g 0 | S _ => cumulated m g n / sqrt (resid_sd m g n) end.
