(** The proportional hazards family (exp_fam.py:3954-4579, cpp/hazard.cpp).  Event times are
    integers, as documented; arrays indexed by subject or coefficient are functions; overflow is
    not modelled, so the replacements of inf and nan in __prepare_predictions (exp_fam.py:4286,
    4310-4311) never act.  A division by zero or a logarithm of zero in the C++ loops gives nan;
    those results are None. *)

From Coq Require Import Reals List Bool Arith ZArith.
From Verif Require Import GlsModel MvnModel.
Import ListNotations.
Local Open Scope R_scope.

(** __ris[j] = idx[r == j], exp_fam.py:4019-4023 *)
Definition ris (n : nat) (r : nat -> nat) (j : nat) : list nat :=
  filter (fun i => (r i =? j)%nat) (seq 0 n).

(** Sum of f over an index vector. *)
Definition isum (l : list nat) (f : nat -> R) : R := total (map f l).

Definition nonzero (g : R) : bool := if Req_EM_T g 0 then false else true.

Section Haz.
(** n subjects, p columns, model matrix, delta, index of the event time of each subject, event
    times (in decreasing order). *)
Variables (n p : nat) (X : nat -> nat -> R) (delta : nat -> R) (r : nat -> nat) (ut : list Z).

(** eta = X @ coef *)
Definition haz_eta (coef : nat -> R) (i : nat) : R := nsum p (fun c => X i c * coef c).

(** llk2, hazard.cpp:31-56 *)
Definition llk2_step (gamma : nat -> R) (st : R * option R) (j : nat) : R * option R :=
  let '(gamma_p, allk) := st in
  let rij := ris n r j in
  let dj := isum rij delta in
  let gamma_p := gamma_p + isum rij gamma in
  (gamma_p, match allk with
            | Some a => if nonzero gamma_p then Some (a - dj * ln gamma_p) else None
            | None => None end).
Definition llk2 (gamma : nat -> R) : option R :=
  snd (fold_left (llk2_step gamma) (seq 0 (length ut)) (0, Some 0)).

(** llk, exp_fam.py:4054-4071 *)
Definition haz_llk (coef : nat -> R) : option R :=
  let eta := haz_eta coef in
  match llk2 (fun i => exp (eta i)) with
  | Some a => Some (nsum n (fun i => delta i * eta i) + a)
  | None => None
  end.

(** grad2, hazard.cpp:79-109 *)
Definition grad2_step (gamma : nat -> R) (st : R * (nat -> R) * option (nat -> R)) (j : nat)
  : R * (nat -> R) * option (nat -> R) :=
  let '(gamma_p, bp, grad) := st in
  let rij := ris n r j in
  let dj := isum rij delta in
  let gamma_p := gamma_p + isum rij gamma in
  let bp := fun c => bp c + isum rij (fun i => gamma i * X i c) in
  (gamma_p, bp, match grad with
                | Some g => if nonzero gamma_p then Some (fun c => g c - dj * (bp c / gamma_p)) else None
                | None => None end).
Definition grad2 (gamma : nat -> R) : option (nat -> R) :=
  snd (fold_left (grad2_step gamma) (seq 0 (length ut)) (0, fun _ => 0, Some (fun _ => 0))).

(** gradient, exp_fam.py:4101-4117 *)
Definition haz_gradient (coef : nat -> R) : option (list R) :=
  match grad2 (fun i => exp (haz_eta coef i)) with
  | Some g => Some (map (fun c => nsum n (fun i => delta i * X i c) + g c) (seq 0 p))
  | None => None
  end.

(** hessian, hazard.cpp:132-171 and exp_fam.py:4150-4166; entry (a, b) is at position b of row a. *)
Definition hess_step (gamma : nat -> R)
  (st : R * (nat -> R) * (nat -> nat -> R) * option (nat -> nat -> R)) (j : nat)
  : R * (nat -> R) * (nat -> nat -> R) * option (nat -> nat -> R) :=
  let '(gamma_p, bp, Ap, hess) := st in
  let rij := ris n r j in
  let dj := isum rij delta in
  let gamma_p := gamma_p + isum rij gamma in
  let bp := fun c => bp c + isum rij (fun i => gamma i * X i c) in
  let Ap := fun a b => Ap a b + isum rij (fun i => gamma i * X i a * X i b) in
  (gamma_p, bp, Ap,
   match hess with
   | Some h => if nonzero gamma_p
               then Some (fun a b => h a b + (dj * bp a * bp b / gamma_p ^ 2 - dj * Ap a b / gamma_p))
               else None
   | None => None end).
Definition haz_hessian (coef : nat -> R) : option (list (list R)) :=
  match snd (fold_left (hess_step (fun i => exp (haz_eta coef i))) (seq 0 (length ut))
               (0, fun _ => 0, fun _ _ => 0, Some (fun _ _ => 0))) with
  | Some h => Some (map (fun a => map (h a) (seq 0 p)) (seq 0 p))
  | None => None
  end.

(** ** Predictions *)

(** The first loop of __prepare_predictions, exp_fam.py:4290-4319; one entry (dj, gamma_p, b_p)
    per event time. *)
Definition prep_step (gamma : nat -> R) (st : R * (nat -> R) * list (R * R * (nat -> R))) (j : nat)
  : R * (nat -> R) * list (R * R * (nat -> R)) :=
  let '(gamma_p, b_p, out) := st in
  let ri := ris n r j in
  let dj := isum ri delta in
  let gamma_p := gamma_p + isum ri gamma in
  let b_p := fun c => b_p c + isum ri (fun i => gamma i * X i c) in
  (gamma_p, b_p, out ++ [(dj, gamma_p, b_p)]).
Definition prep_loop (gamma : nat -> R) : list (R * R * (nat -> R)) :=
  snd (fold_left (prep_step gamma) (seq 0 (length ut)) (0, fun _ => 0, [])).

(** The second loop, exp_fam.py:4322-4338: entries (h, q, a) from the last to the first. *)
Fixpoint prep_back (l : list (R * R * (nat -> R))) : list (R * R * (nat -> R)) :=
  match l with
  | [] => []
  | (dj, g, b) :: rest =>
      match prep_back rest with
      | [] => [(dj / g, dj / g ^ 2, fun c => b c * dj / g ^ 2)]
      | ((h, q, a) :: _) as done => (h + dj / g, q + dj / g ^ 2, fun c => a c + b c * dj / g ^ 2) :: done
      end
  end.

(** __prepare_predictions, exp_fam.py:4258-4342.  None: no event times (IndexError) or a division
    by zero. *)
Definition prepare (coef : nat -> R) : option (list (R * R * (nat -> R))) :=
  let l := prep_loop (fun i => exp (haz_eta coef i)) in
  match l with
  | [] => None
  | _ => if forallb (fun e => nonzero (snd (fst e))) l then Some (prep_back l) else None
  end.

(** The attributes __hs, __qs and __avs of a family object: None before the first prediction. *)
Definition cache := option (list (R * R * (nat -> R))).

(** get_baseline_hazard, exp_fam.py:4399-4402; the second result is the object afterwards. *)
Definition haz_table (obj : cache) (coef : nat -> R) : cache :=
  match obj with None => prepare coef | Some t => Some t end.
Definition get_baseline_hazard (obj : cache) (coef : nat -> R) : option (list R) * cache :=
  let tab := haz_table obj coef in
  (match tab with Some l => Some (map (fun e => fst (fst e)) l) | None => None end, tab).

(** Python's min of a list. *)
Definition zmin (l : list Z) : option Z :=
  match l with [] => None | x :: rest => Some (fold_left Z.min rest x) end.

(** Index of the first entry equal to t (np.arange(len(ut))[ut == t][0]). *)
Fixpoint zindex (t : Z) (l : list Z) : option nat :=
  match l with
  | [] => None
  | u :: rest => if (u =? t)%Z then Some 0%nat else option_map S (zindex t rest)
  end.

(** The time whose entry is used: lines 4529-4530.  None: min of an empty array (ValueError). *)
Definition surv_time (t : Z) : option Z :=
  if existsb (fun u => (u =? t)%Z) ut then Some t else zmin (filter (fun u => (t <? u)%Z) ut).

(** get_survival, exp_fam.py:4516-4558, for one row x; V None for compute_var=False.  The times
    are distinct, so the mask ti selects one entry. *)
Definition get_survival (obj : cache) (coef : nat -> R) (t : Z) (x : nat -> R)
  (V : option (nat -> nat -> R)) : option (R * option R) * cache :=
  let tab := haz_table obj coef in
  (match tab, surv_time t with
   | Some l, Some t' =>
       match zindex t' ut with
       | Some tiv =>
           match nth_error l tiv with
           | Some (h, q, a) =>
               let eta := nsum p (fun c => x c * coef c) in
               let S0 := exp (- h * exp eta) in
               Some (S0, match V with
                         | None => None
                         | Some W =>
                             let v := fun c => - h * x c + a c in
                             Some (exp eta * S0 *
                                   sqrt (q + nsum p (fun b => nsum p (fun c => v c * W c b) * v b)))
                         end)
           | None => None
           end
       | None => None
       end
   | _, _ => None
   end, tab).

(** get_resid with resid_type="Martingale" and reorder=None, exp_fam.py:4212-4231, on an object
    whose table is obj; entry None: an exception.  The first call fills the table for the others. *)
Definition get_resid (obj : cache) (coef : nat -> R) : list (option R) :=
  snd (fold_left (fun st i =>
         let '(o, res) := st in
         match nth_error ut (r i) with
         | None => (o, res ++ [None])
         | Some ti =>
             let '(S0, o') := get_survival o coef ti (X i) None in
             (o', res ++ [match S0 with Some (s, _) => Some (delta i + ln s) | None => None end])
         end) (seq 0 n) (obj, [])).
End Haz.
