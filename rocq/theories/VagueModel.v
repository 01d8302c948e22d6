(** The vague prior of sample_mssm(make_proper = True): /repo/src/mssm/src/python/mcmc.py:857-939.

    A penalty is represented by its quadratic form, a function of the coefficients of its term.  Coefficients are
    real numbers, indexed over all formulas; the extra parameters (scale, theta or extra_coef) come last. *)

From Coq Require Import List Arith Bool Reals.
Import ListNotations.
Local Open Scope R_scope.

Definition coefs := nat -> R.
(** coef' S coef. *)
Definition form := coefs -> R.

(** The kinds of terms of a formula, formula.py:405-421. *)
Inductive kind := Linear | Smooth | Irf | Random.

(** A term: its number of coefficients (coef_idx_per_term), whether it is an fs term, has_null_penalty (terms.py:435),
    its penalties other than null-space penalties with their smoothing parameters, the null-space penalties that
    build_penalties creates for it (formula.py:2228-2500, those of all levels of [by] together; none unless
    is_penalized), and their smoothing parameter. *)
Record term := Term { tkind : kind; width : nat; is_fs : bool; has_null : bool; pens : form; nulls : form; nlam : R }.
Definition formula := list term.

(** The part of the coefficients that belongs to a term that begins at [o]. *)
Definition part (b : coefs) (o : nat) : coefs := fun k => b (o + k)%nat.

Definition is_linear (t : term) := match tkind t with Linear => true | _ => false end.
Definition is_smooth (t : term) := match tkind t with Smooth => true | _ => false end.
Definition n_coef (f : formula) : nat := list_sum (map width f).

(** Terms with their formula, their index in it, and their first coefficient. *)
Fixpoint located (fi ti o : nat) (f : formula) : list (nat * nat * nat * term) :=
  match f with [] => [] | t :: f => (fi, ti, o, t) :: located fi (S ti) (o + width t) f end.
Fixpoint located_all (fi o : nat) (fs : list formula) : list (nat * nat * nat * term) :=
  match fs with [] => [] | f :: fs => located fi 0 o f ++ located_all (S fi) (o + n_coef f) fs end.

Definition sum {T} (l : list T) (g : T -> R) : R := fold_right (fun x a => g x + a) 0 l.

(** S_emb, mcmc.py:855: all penalties of the model; null-space penalties only where has_null_penalty. *)
Definition S_emb (fs : list formula) : form := fun b =>
  sum (located_all 0 0 fs) (fun x => match x with (_, _, o, t) =>
    pens t (part b o) + (if has_null t then nlam t * nulls t (part b o) else 0) end).

(** fcols and S_f_emb, mcmc.py:859-873. *)
Definition fcols (fs : list formula) : list nat :=
  flat_map (fun x => match x with (_, _, o, t) => if is_linear t then seq o (width t) else [] end) (located_all 0 0 fs).
(** fcols2 and S_f_val2, mcmc.py:876-896; [values] has one entry for every extra parameter. *)
Definition extra (fs : list formula) (values : list R) : form := fun b =>
  let start := list_sum (map n_coef fs) in
  sum (combine (seq start (length values)) values) (fun iv => snd iv * b (fst iv) ^ 2).

(** A smooth term that is given a null-space penalty, mcmc.py:909-918. *)
Definition updated (t : term) : bool := is_smooth t && negb (is_fs t || has_null t).
(** NP_fidx and NP_tidx. *)
Definition NP_fidx (fs : list formula) : list nat :=
  flat_map (fun x => match x with (fi, _, _, t) => if updated t then [fi] else [] end) (located_all 0 0 fs).
Definition NP_tidx (fs : list formula) : list nat :=
  flat_map (fun x => match x with (_, ti, _, t) => if updated t then [ti] else [] end) (located_all 0 0 fs).
(** build_penalties(NP_form), mcmc.py:921-927: the null-space penalties (PenType.NULL) of terms that have one now. *)
Definition NP_pen (fs : list formula) : list (nat * nat * nat * term) :=
  filter (fun x => match x with (_, _, _, t) => has_null t || updated t end) (located_all 0 0 fs).
(** The selection of mcmc.py:929-936. *)
Definition selected (fs : list formula) : list (nat * nat * nat * term) :=
  filter (fun x => match x with (fi, ti, _, _) => existsb (Nat.eqb fi) (NP_fidx fs) && existsb (Nat.eqb ti) (NP_tidx fs) end) (NP_pen fs).

(** S_f_emb, mcmc.py:870-936. *)
Definition S_f_emb (lambda_0 : R) (values : list R) (fs : list formula) : form := fun b =>
  sum (fcols fs) (fun i => lambda_0 * b i ^ 2) + extra fs values b
  + sum (selected fs) (fun x => match x with (_, _, o, t) => lambda_0 * nulls t (part b o) end).

(** S_emb after mcmc.py:939: the penalty of the sampled density for fixed smoothing parameters. *)
Definition prior (lambda_0 : R) (values : list R) (fs : list formula) : form := fun b =>
  S_emb fs b + S_f_emb lambda_0 values fs b.
