(** What the vague prior should be, term by term. *)

From Coq Require Import List Arith Bool Reals.
From Verif Require Import VagueModel.
Import ListNotations.
Local Open Scope R_scope.

(** lambda_0 / 2 times the sum of squares is the exponent of independent N(0, 1 / lambda_0) priors. *)
Fixpoint squares (n : nat) (b : coefs) : R := match n with O => 0 | S n => squares n b + b n ^ 2 end.

(** The prior a term has anyway. *)
Definition own (t : term) (b : coefs) : R := pens t b + (if has_null t then nlam t * nulls t b else 0).
(** The vague prior documented for a term: on the coefficients of linear terms, and on the null space of smooth terms
    that have no null-space penalty (those of fs terms are penalised already). *)
Definition vague (lambda_0 : R) (t : term) (b : coefs) : R :=
  match tkind t with
  | Linear => lambda_0 * squares (width t) b
  | Smooth => if is_fs t then 0 else if has_null t then 0 else lambda_0 * nulls t b
  | Irf | Random => 0
  end.

(** The sum over all terms, each with its own coefficients; then the extra parameters. *)
Fixpoint over_terms (g : term -> coefs -> R) (f : formula) (b : coefs) : R :=
  match f with [] => 0 | t :: f => g t b + over_terms g f (fun k => b (width t + k)%nat) end.
Fixpoint over_values (values : list R) (b : coefs) : R :=
  match values with [] => 0 | v :: values => v * b 0%nat ^ 2 + over_values values (fun k => b (S k)) end.
Definition documented (lambda_0 : R) (values : list R) (fs : list formula) (b : coefs) : R :=
  over_terms (fun t b => own t b + vague lambda_0 t b) (concat fs) b
  + over_values values (fun k => b (list_sum (map width (concat fs)) + k)%nat).

(** A quadratic form is a proper prior for the first [n] coefficients. *)
Definition proper (n : nat) (q : form) : Prop := forall b, (exists k, (k < n)%nat /\ b k <> 0) -> 0 < q b.

(** A term whose coefficients have a proper prior once its null space is penalised. *)
Definition regular (t : term) : Prop :=
  (forall b, 0 <= pens t b) /\ (forall b, 0 <= nulls t b) /\ (has_null t = true -> 0 < nlam t) /\
  match tkind t with
  | Linear => True
  | Smooth => if is_fs t && negb (has_null t) then proper (width t) (pens t) else proper (width t) (fun b => pens t b + nulls t b)
  | Random => proper (width t) (pens t)
  | Irf => False
  end.
