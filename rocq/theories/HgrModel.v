(** Gradient of the log-likelihood of hidden semi-Markov models: llkFTPgrad and llkgrad, cpp/hsmm/llk.cpp:184-1482, and what
    HSMMFamily.gradient passes to them, hsmm.py:3082-4250.

    Simplifications.  The arrays are functions as in HsmmModel.  The loops over coefficients do not interact, so that one coefficient
    is followed at a time; [jx] is j_idx_grad of that coefficient.  np.nan and inf entries are not replaced. *)

From Coq Require Import List Bool Arith Reals.
From Verif Require Import Ext HsmmModel GlsModel.
Import ListNotations.
Local Open Scope R_scope.

(** lam(t,.,.) of these functions is that of llk (llk.cpp:274-287, 362-425, 961-963, 1032-1056): cells that are out of range keep their zero. *)
Definition lam (m : tables R) (t : nat) : nat -> nat -> R := fst (llk_lam m t).
(** b1, llk.cpp:366-385: 0.0 beyond the end of a bump. *)
Definition b1 (m : tables R) (t d j : nat) : R := match b_cont m t d j with Some x => x | None => 0 end.
(** tp and tpg: the loop over i without j, e.g. llk.cpp:395-404, 507-519. *)
Definition inflow (m : tables R) (t : nat) (prev : nat -> nat -> R) (j : nat) : R :=
  nsum (n_S m) (fun i => if (i =? j)%nat then 0 else prev 0%nat i * T m i j (t - 1)).
(** psi(t2,d+1,j,tci) * b1 or zero, e.g. llk.cpp:575-589. *)
Definition carry (m : tables R) (t : nat) (psi : nat -> nat -> R) (d j : nat) : R :=
  if (d + 1 <=? D m - 2)%nat then psi (d + 1)%nat j * b1 m t d j else 0.

(** What is written to psi(t1,d,j,tci): at t = 0, and later (before the division by Lam(t-1)) from lam(t-1,.,.) and psi(t2,.,.,tci). *)
Record kernel := Kernel { first : nat -> nat -> R; cell : nat -> (nat -> nat -> R) -> (nat -> nat -> R) -> nat -> nat -> R }.

(** The two halves of psi after time t: psi(t1,...) and psi(t2,...).  Cells that are skipped (llk.cpp:270-274) or out of range
    (llk.cpp:363, 1032) keep what was written two time points before, zero at first. *)
Fixpoint psis (m : tables R) (k : kernel) (t : nat) : (nat -> nat -> R) * (nat -> nat -> R) :=
  match t with
  | O => (fun d j => if skipped m d j then 0 else first k d j, fun _ _ => 0)
  | S t' =>
      let '(cur, old) := psis m k t' in
      (fun d j => if skipped m d j || negb (in_range m t d) then old d j
                  else cell k t (lam m t') cur d j / Lam m t', cur)
  end.
(** grad(tci), llk.cpp:850-889, 1443-1482. *)
Definition grad (m : tables R) (k : kernel) : R :=
  let t := (n_T m - 1)%nat in
  let psi := fst (psis m k t) in
  (if ends_with_last m
   then if ends_in_last m then psi 0%nat (n_S m - 1)%nat else nsum (n_S m) (fun j => psi 0%nat j)
   else nsum (D m - 1) (fun d => if ends_in_last m then psi d (n_S m - 1)%nat else nsum (n_S m) (fun j => psi d j)))
  / Lam m t.

(** A coefficient in the model of the observations of state jx; bg t is b_grad(t,ci): llk.cpp:293-336, 429-653 without hmp, 970-994,
    1060-1161. *)
Definition obs_kernel (m : tables R) (bg : nat -> R) (jx : nat) : kernel := Kernel
  (fun d j => if (jx =? j)%nat then pi m j * (b m 0 0 j * bg 0%nat) * ds m d j 0 else 0)
  (fun t la psi d j =>
     let dd := ds m d (later m j) t in
     if (jx =? j)%nat then
       (if (d + 1 <=? D m - 2)%nat then psi (d + 1)%nat j * b m t 0 j + bg t * b m t 0 j * la (d + 1)%nat j else 0)
       + inflow m t psi j * b m t 0 j * dd + inflow m t la j * bg t * b m t 0 j * dd
     else
       (if (d + 1 <=? D m - 2)%nat then psi (d + 1)%nat j * b m t 0 j else 0) + inflow m t psi j * b m t 0 j * dd).

(** A coefficient in the model of the durations in column jx; dg d t is d_grad(d,ci,t): llk.cpp:338-361, 655-805, 996-1009, 1163-1249.
    b2 of the hmp models is b_first. *)
Definition dur_kernel (m : tables R) (dg : nat -> nat -> R) (jx : nat) : kernel := Kernel
  (fun d j => if (jx =? j)%nat then pi m j * b m 0 0 j * dg d 0%nat else 0)
  (fun t la psi d j =>
     let same := carry m t psi d j + inflow m t psi j * b_first m t j * ds m d (later m j) t in
     if (jx =? later m j)%nat then same + inflow m t la j * b_first m t j * dg d (if tvdtpi m then t else 0%nat) else same).

(** tidx: position of j among the states other than jx, llk.cpp:1327-1342. *)
Definition tidx (n jx j : nat) : nat :=
  (fix loop (l : list nat) : nat :=
     match l with
     | [] => 0
     | ti :: r => if ti =? jx then loop r else if ti =? j then 0 else S (loop r)
     end)%nat (seq 0 n).
(** A coefficient in the model of transitions from state jx; tg k t is T_grad(k,ci,t): llk.cpp:1012-1020, 1251-1357. *)
Definition tr_kernel (m : tables R) (tg : nat -> nat -> R) (jx : nat) : kernel := Kernel
  (fun d j => 0)
  (fun t la psi d j =>
     let cont := if (d + 1 <=? D m - 2)%nat then psi (d + 1)%nat j * b m t 0 j else 0 in
     let dd := ds m d (later m j) t in
     if (jx =? j)%nat then cont + inflow m t psi j * b m t 0 j * dd
     else
       cont + nsum (n_S m) (fun i =>
                if (i =? j)%nat then 0
                else psi 0%nat i * T m i j (t - 1)
                     + (if (jx =? i)%nat
                        then la 0%nat i * T m i j (t - 1) * tg (tidx (n_S m) i j) (if tvdtpi m then t - 1 else 0)%nat
                        else 0)) * b m t 0 j * dd).

(** A coefficient in the model of the initial probabilities; pg j is pi_grad(j,ci): llk.cpp:1022-1030, 1360-1397.  Line 1395 is
    ds(d, column) also if durations vary over time, which reads time point 0. *)
Definition pi_kernel (m : tables R) (pg : nat -> R) : kernel := Kernel
  (fun d j => pi m j * pg j * b m 0 0 j * ds m d j 0)
  (fun t la psi d j =>
     (if (d + 1 <=? D m - 2)%nat then psi (d + 1)%nat j * b m t 0 j else 0)
     + inflow m t psi j * b m t 0 j * dur m d (later m j) 0).

(** Coefficients of transition and initial probabilities of hmp models: hsmm.py:3957-4088 calls llkFTPgrad for every hmp model, which has
    no loop over them, so that psi keeps its zeros (divided by Lam). *)
Definition unused_kernel : kernel := Kernel (fun _ _ => 0) (fun _ _ _ _ _ => 0).

(** ** hmp models *)

(** event_template, scale, rho (None: no AR model), whether hmp_fam is Exponential, y_mat. *)
Record hmp_pars := HmpPars { M : nat; w : nat -> R; scale : R; rho : option R; exponential : bool; y : nat -> nat -> R }.
(** hsmm.py:3154-3157, llk.cpp:249-258. *)
Definition d0 (r : R) : R := 1 / sqrt (1 - r * r).
Definition d1 (r : R) : R := - r / sqrt (1 - r * r).
(** ld_wrapper, hsmm.py:3985-3996: scipy's logarithmic densities of exponential and normal distribution. *)
Definition ld (h : hmp_pars) (yv pred : R) : R :=
  if exponential h then - ((yv - pred) ^ 2 / scale h) - ln (scale h)
  else - ((yv - pred) / sqrt (scale h)) ^ 2 / 2 - ln (sqrt (2 * PI)) - ln (sqrt (scale h)).
(** mus[:-1] with a zero in front. *)
Definition lagged (mu : nat -> R) (t : nat) : R := match t with O => 0 | S t' => mu t' end.
(** Ebump of bump states, hsmm.py:4011-4025. *)
Definition ebump (h : hmp_pars) (mu : nat -> R) (t k : nat) : R :=
  match rho h with
  | None => w h k * mu t
  | Some r => match k with
              | O => d0 r * (w h k * mu t)
              | S k' => d0 r * (w h k * mu t) + d1 r * (w h k' * lagged mu t)
              end
  end.
(** bs of hmp models, hsmm.py:4001-4057; [mu t s j] is mus[t, s, j].  Column 1 of a flat is its first observation; later columns of flats are zero. *)
Definition hmp_b (h : hmp_pars) (event_width : nat) (mu : nat -> nat -> nat -> R) (t k j : nat) : R :=
  if Nat.odd j then exp (nsum (M h) (fun s => ld h (y h t s) (ebump h (fun t => mu t s j) t k)))
  else match k with
       | O => exp (nsum (M h) (fun s => ld h (y h t s) 0))
       | S O => match rho h with
                | Some r => if (0 <? j)%nat
                            then exp (nsum (M h) (fun s => ld h (y h t s) (d1 r * (w h (event_width - 1) * lagged (fun t => mu t s (j - 1)%nat) t))))
                            else exp (nsum (M h) (fun s => ld h (y h t s) 0))
                | None => exp (nsum (M h) (fun s => ld h (y h t s) 0))
                end
       | _ => 0
       end.

(** (factor * (y - ebump)) / scale * dbump, e.g. llk.cpp:320-322. *)
Definition score (h : hmp_pars) (yv e db : R) : R := (if exponential h then 2 else 1) * (yv - e) / scale h * db.
(** Ebump and its derivative for the first observation of a bump, llk.cpp:311-318, 533-540; [u] is mu or b_grad at time t. *)
Definition bump0 (h : hmp_pars) (u : R) : R := match rho h with None => w h 0 * u | Some r => w h 0 * u * d0 r end.
(** The same for observation k of a bump at time t > 0, llk.cpp:451-478. *)
Definition bumpk (h : hmp_pars) (u : nat -> R) (t k : nat) : R :=
  match rho h with
  | None => w h k * u t
  | Some r => w h k * u t * d0 r + (if (0 <? k)%nat then d1 r * w h (k - 1) * u (t - 1)%nat else 0)
  end.
(** A coefficient in the model of signal s in bump state jx; [mu t] is mu(t,s,jx), [bg t] is b_grad(t,ci): llk.cpp:293-336, 429-653. *)
Definition hmp_kernel (m : tables R) (h : hmp_pars) (s : nat) (mu bg : nat -> R) (jx : nat) : kernel := Kernel
  (fun d j => if (jx =? j)%nat
              then pi m j * (b m 0 0 j * score h (y h 0 s) (bump0 h (mu 0%nat)) (bump0 h (bg 0%nat))) * ds m d j 0
              else 0)
  (fun t la psi d j =>
     let dd := ds m d (later m j) t in
     let tp := inflow m t la j in
     let tpg := inflow m t psi j in
     if (jx =? j)%nat then
       (if (d + 1 <=? D m - 2)%nat then
          let k := (event_width m - 1 - d)%nat in
          let b_grad_c := if (d <=? event_width m - 1)%nat
                          then b1 m t d j * score h (y h t s) (bumpk h mu t k) (bumpk h bg t k) else 0 in
          psi (d + 1)%nat j * b1 m t d j + b_grad_c * la (d + 1)%nat j
        else 0)
       + tpg * b m t 0 j * dd
       + tp * (b m t 0 j * score h (y h t s) (bump0 h (mu t)) (bump0 h (bg t))) * dd
     else
       carry m t psi d j
       + (match rho h with
          | Some r => if Nat.even j && (S jx =? j)%nat
                      then tp * (b m t 1 j * score h (y h t s) (d1 r * w h (event_width m - 1) * mu (t - 1)%nat)
                                                 (d1 r * w h (event_width m - 1) * bg (t - 1)%nat)) * dd
                      else 0
          | None => 0
          end)
       + tpg * b_first m t j * dd).

(** ** What gradient passes *)

(** Normalised durations, hsmm.py:3700-3716, [l] being the logarithmic density jdFam.lp at duration d + 1. *)
Definition normalised (D : nat) (l : nat -> R) (d : nat) : R := exp (l d) / nsum (D - 1) (fun e => exp (l e)).
(** d_grad, hsmm.py:3634-3671: [g] is d1eta * X. *)
Definition d_grad (D : nat) (l g : nat -> R) (d : nat) : R :=
  let norm := nsum (D - 1) (fun e => exp (l e)) in
  (exp (l d) * g d * norm - exp (l d) * nsum (D - 1) (fun e => exp (l e) * g e)) / norm ^ 2.

(** T_grad for parameter par of the transitions from a state: jtFam.dpars for category k times X, hsmm.py:3753-3830, and the same for pi_grad,
    hsmm.py:3884-3922. *)
Definition cat_grad (mus : list R) (par : nat) (x : R) (k : nat) : R :=
  match mulnom_d1 k mus par with Some v => v * x | None => 0 end.

(** The gradient of all series, hsmm.py:4209-4250: the sum. *)
Definition series_sum (l : list R) : R := fold_left Rplus l 0.
(** Coefficients shared between states (and signals) have one column for each of them; their entries are summed, hsmm.py:4091-4112. *)
Definition shared_sum (l : list R) : R := fold_left Rplus l 0.
