(** B-splines by the recursion of Cox and de Boor, polynomials, and what an impulse response smooth adds to a
    series. *)

From Coq Require Import List Bool Arith Reals.
From Verif Require Import SplModel.
Import ListNotations.
Local Open Scope R_scope.

Fixpoint sumn (n : nat) (f : nat -> R) : R := match n with O => 0 | S n => sumn n f + f n end.

(** The i-th B-spline of degree p on the knots t 0, t 1, ... *)
Fixpoint b_spline (t : nat -> R) (p i : nat) (x : R) : R :=
  match p with
  | O => if Rlt_dec (t i) x then (if Rle_dec x (t (S i)) then 1 else 0) else 0
  | S q => (x - t i) / (t (i + p)%nat - t i) * b_spline t q i x
           + (t (i + p + 1)%nat - x) / (t (i + p + 1)%nat - t (i + 1)%nat) * b_spline t q (S i) x
  end.
Definition even_knots (t0 dx : R) (k : nat) : R := t0 + INR k * dx.

(** Limits of the basis: given ones, else those of the data. *)
Definition lower_limit (cov : list R) (kw : kwargs) (xl : R) : Prop :=
  match min_c kw with Some v => xl = v | None => In xl cov /\ Forall (fun x => xl <= x) cov end.
Definition upper_limit (cov : list R) (kw : kwargs) (xr : R) : Prop :=
  match max_c kw with Some v => xr = v | None => In xr cov /\ Forall (fun x => x <= xr) cov end.

(** Order-m differences of the first n entries of a sequence vanish. *)
Fixpoint difference (m : nat) (c : nat -> R) (i : nat) : R :=
  match m with O => c i | S m => difference m c (S i) - difference m c i end.
Definition no_differences (m n : nat) (c : nat -> R) : Prop := forall i, (i + m < n)%nat -> difference m c i = 0.
Definition polynomial_on (m : nat) (f : R -> R) (xl xr : R) : Prop :=
  exists a : nat -> R, forall x, xl <= x <= xr -> f x = sumn m (fun k => a k * x ^ k).

(** Entry of a matrix given by triplets, and the predictor of a row: triplets at the same place add up. *)
Definition entry (tri : list (nat * nat * R)) (r c : nat) : R :=
  sum_list (map (fun t => if (fst (fst t) =? r)%nat && (snd (fst t) =? c)%nat then snd t else 0) tri).

(** The basis functions of a term at one row of predictors: products of the marginal B-splines, the last variable
    running fastest; knots go from the smallest to the largest delay. *)
Fixpoint products (ls : list (list R)) : list R :=
  match ls with [] => [1] | l :: r => flat_map (fun v => map (fun w => v * w) (products r)) l end.
Definition delay_basis (nk : nat) (kw : kwargs) (lo hi x : R) : list R :=
  map (fun i => b_spline (even_knots lo ((hi - lo) / INR (nk + degree kw))) (degree kw) i x) (seq 0 nk).
(** Limits of variable [vi] of a term: those of its dictionary, else those of the data; all bases of a term are
    convolved. *)
Definition limits (t : irf_term) (var_mins var_maxs : nat -> option R) (lims : nat -> R * R) : Prop :=
  variables t <> [] /\ length (nks t) = length (variables t) /\ length (basis_kwargs t) = length (variables t) /\
  forall vi kw, nth_error (basis_kwargs t) vi = Some kw ->
    convolve kw = true /\ fst (lims vi) < snd (lims vi) /\
    match min_c kw, max_c kw with
    | Some lo, Some hi => lims vi = (lo, hi)
    | _, _ => var_mins (nth vi (variables t) 0%nat) = Some (fst (lims vi)) /\ var_maxs (nth vi (variables t) 0%nat) = Some (snd (lims vi))
    end.
Definition no_kw : kwargs := Kw None None true 0.
(** Value of column [c] of the term at one row of predictors. *)
Definition response (t : irf_term) (lims : nat -> R * R) (prow : list R) : list R :=
  products (map (fun vi => delay_basis (nth vi (nks t) 0%nat) (nth vi (basis_kwargs t) no_kw) (fst (lims vi)) (snd (lims vi))
                                       (nth (nth vi (variables t) 0%nat) prow 0))
                (seq 0 (length (variables t)))).
Definition irf_value (t : irf_term) (lims : nat -> R * R) (prow : list R) (c : nat) : R :=
  let l := response t lims prow in
  match by_col t with
  | None => nth c l 0
  | Some b => if Req_EM_T (INR (c / length l)) (nth b prow 0) then nth (c mod length l) l 0 else 0
  end.
(** Columns of a term. *)
Definition width (levels : nat -> nat) (t : irf_term) : nat :=
  (fold_right Nat.mul 1 (nks t) * match by_col t with None => 1 | Some b => levels b end)%nat.

(** Rows of the data before series [s]. *)
Definition offset (cov : list (list (list R))) (s : nat) : nat := fold_right Nat.add 0%nat (map (@length _) (firstn s cov)).
(** Predictor of a row of a matrix given by triplets. *)
Definition predictor (tri : list (nat * nat * R)) (beta : nat -> R) (r : nat) : R :=
  sum_list (map (fun t => if (fst (fst t) =? r)%nat then snd t * beta (snd (fst t)) else 0) tri).
(** What a term with coefficients [beta] adds to sample [r] of series [s]: nothing before the event, afterwards
    the response evaluated as many samples after the start of the series as have passed since the event. *)
Definition event_response (t : irf_term) (lims : nat -> R * R) (n : nat) (beta : nat -> R) (cov : list (list (list R))) (s r : nat) : R :=
  let onset := nth s (event_onset t) 0%nat in
  if (r <? onset)%nat then 0 else sumn n (fun c => beta c * irf_value t lims (nth (r - onset) (nth s cov []) []) c).
(** Sum of the responses of several terms (term k with its limits, its columns start at [ci]); terms that are not
    used add nothing. *)
Fixpoint superposition (levels : nat -> nat) (lims : nat -> nat -> R * R) (beta : nat -> R) (cov : list (list (list R))) (s r k ci : nat)
    (ts : list (irf_term * bool)) : R :=
  match ts with
  | [] => 0
  | (t, use) :: ts =>
      (if use then event_response t (lims k) (width levels t) (fun c => beta (ci + c)%nat) cov s r else 0)
      + superposition levels lims beta cov s r (S k) (ci + width levels t) ts
  end.

(** What a term needs to be built: an onset for each series, more basis functions than the degree, both limits or none
    in a dictionary, and a by factor that does not change within a series. *)
Definition buildable (t : irf_term) (cov : list (list (list R))) : Prop :=
  (length cov <= length (event_onset t))%nat /\
  (forall vi kw, nth_error (basis_kwargs t) vi = Some kw -> (degree kw < nth vi (nks t) 0)%nat /\ (min_c kw = None <-> max_c kw = None)) /\
  (forall b s row row', by_col t = Some b -> In s cov -> In row s -> In row' s -> nth b row 0 = nth b row' 0).
