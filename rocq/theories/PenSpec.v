(** Specifications for the penalty code, written from the user's point of view.  They use
    the record of a penalty ([lterm]) but none of the functions of the model. *)

From Coq Require Import List Arith Bool Sorted.
From Verif Require Import PenModel.
Import ListNotations.

Set Implicit Arguments.

(** Decidable equality of ids. *)
Definition optnat_eq_dec : forall x y : option nat, {x = y} + {x <> y}.
Proof. decide equality; apply Nat.eq_dec. Defined.

Section Spec.
Variable K : Type.
Variables (k0 k1 : K) (kadd kmul : K -> K -> K).

(** Sum of [f x] over the elements of a list. *)
Fixpoint lsum (A : Type) (f : A -> K) (l : list A) : K :=
  match l with [] => k0 | x :: l' => kadd (f x) (lsum f l') end.

(** Sum of f 0, ..., f (n-1). *)
Definition nsum (n : nat) (f : nat -> K) : K := lsum f (seq 0 n).

(** Entry (i,j) of the total penalty, the sum over all penalties of lambda times the
    penalty matrix in the coordinates of the whole model. *)
Definition total (ps : list (lterm K)) (i j : nat) : K :=
  lsum (fun p => kmul (t_lam p) (t_Semb p i j)) ps.

(** How many penalties of the list carry id [k]. *)
Definition id_count (k : nat) (ps : list (lterm K)) : nat :=
  count_occ optnat_eq_dec (map (@t_id K) ps) (Some k).

(** Penalties with the same id hold the same lambda. *)
Definition same_lam (ps : list (lterm K)) : Prop :=
  forall p q, In p ps -> In q ps -> t_id p <> None -> t_id p = t_id q -> t_lam p = t_lam q.

(** No id is carried by exactly one penalty. *)
Definition no_single_id (ps : list (lterm K)) : Prop := forall k, id_count k ps <> 1.

(** A penalty as the formula code builds it: not merged, one term, one parameter. *)
Definition plain (p : lterm K) : Prop :=
  t_parts p = None /\ (exists a, t_term p = [a]) /\ (exists b, t_dist p = [b]).

(** The penalty is not frozen and has no cluster information. *)
Definition default_flags (p : lterm K) : Prop := t_frozen p = false /\ t_clust p = None.

(** Order by first coefficient. *)
Definition start_le (p q : lterm K) : Prop := t_start p <= t_start q.

(** The quadratic form of a matrix on the first n coefficients. *)
Definition quad (n : nat) (A : nat -> nat -> K) (b : nat -> K) : K :=
  nsum n (fun i => nsum n (fun j => kmul (kmul (b i) (A i j)) (b j))).

End Spec.

Section Spec2.
Variable K : Type.
Variables (k0 k1 : K) (kadd kmul : K -> K -> K).

(** [rep] copies of the [dim] x [dim] matrix [B] on the diagonal, beginning at row and
    column [start]; zero everywhere else. *)
Definition blockdiag (start dim rep : nat) (B : nat -> nat -> K) (i j : nat) : K :=
  if (start <=? i) && (start <=? j) && (i <? start + rep * dim) && (j <? start + rep * dim)
     && ((i - start) / dim =? (j - start) / dim)
  then B ((i - start) mod dim) ((j - start) mod dim)
  else k0.

(** The coefficients from position [s] on. *)
Definition from (s : nat) (b : nat -> K) : nat -> K := fun i => b (s + i).

(** A matrix over the [n] coefficients of one formula placed at offset [off]. *)
Definition placed (off n : nat) (A : nat -> nat -> K) (i j : nat) : K :=
  if (off <=? i) && (i <? off + n) && (off <=? j) && (j <? off + n)
  then A (i - off) (j - off) else k0.

(** Position in the coefficient vector of a tensor term with marginal sizes [ks] of the
    coefficient with marginal indices [is]: the last marginal varies fastest. *)
Fixpoint flat (acc : nat) (ks is : list nat) : nat :=
  match ks, is with
  | k :: ks', i :: is' => flat (acc * k + i) ks' is'
  | _, _ => acc
  end.

(** Product of a list of numbers. *)
Definition lprod (l : list nat) : nat := fold_right Nat.mul 1 l.

End Spec2.

(** m-th order differences of a sequence. *)
Section Diff.
Variable K : Type.
Variable ksub : K -> K -> K.
Fixpoint deltas (m : nat) (b : nat -> K) : nat -> K :=
  match m with 0 => b | S p => deltas p (fun i => ksub (b (S i)) (b i)) end.
End Diff.

(** Specifications that mention which penalties act on the same coefficients. *)
Section Spec3.
Variable K : Type.
Variables (k0 k1 : K) (kadd kmul ksub : K -> K -> K).

(** The penalties of a list that begin at coefficient [s]. *)
Definition at_start (s : nat) (ps : list (lterm K)) : list (lterm K) :=
  filter (fun q => t_start q =? s) ps.

(** Penalty [p] is the only one of the list acting on its coefficients. *)
Definition alone (ps : list (lterm K)) (p : lterm K) : Prop :=
  length (at_start (t_start p) ps) = 1.

(** One past the last coefficient of a penalty. *)
Definition pen_end (p : lterm K) : nat := t_start p + t_dim p * t_rep p.

(** Penalties beginning at the same coefficient have the same shape; others do not overlap. *)
Definition laid_out (ps : list (lterm K)) : Prop :=
  forall p q, In p ps -> In q ps ->
    (t_start p = t_start q -> t_dim p = t_dim q /\ t_rep p = t_rep q) /\
    (t_start p < t_start q -> pen_end p <= t_start q).

(** No unpenalised coefficients between penalised ones: a penalty that is not the last
    ends where another one begins. *)
Definition gapless (ps : list (lterm K)) : Prop :=
  forall p q, In p ps -> In q ps -> t_start p < t_start q ->
    exists r, In r ps /\ t_start r = pen_end p.

(** The lambda-weighted sum of the penalty blocks beginning at [s]. *)
Definition block_sum (s : nat) (ps : list (lterm K)) (i j : nat) : K :=
  lsum k0 kadd (fun p => kmul (t_S p i j) (t_lam p)) (at_start s ps).

(** The penalties of the list with id [k]. *)
Definition with_id (k : nat) (ps : list (lterm K)) : list (lterm K) :=
  filter (fun p => if optnat_eq_dec (t_id p) (Some k) then true else false) ps.

End Spec3.

(** Coefficient [i] is penalised by some penalty of the list. *)
Definition covered (K : Type) (ps : list (lterm K)) (i : nat) : bool :=
  existsb (fun p => (t_start p <=? i) && (i <? pen_end p)) ps.

(** Number of penalised coefficients among the first [n]. *)
Definition n_covered (K : Type) (n : nat) (ps : list (lterm K)) : nat :=
  length (filter (covered ps) (seq 0 n)).

(** The hypotheses on the list of penalties of a model: one lambda per id, no id used only
    once, no merged penalties, no penalty with an id is frozen, sorted by start. *)
Definition good (K : Type) (ps : list (lterm K)) : Prop :=
  same_lam ps /\ no_single_id ps /\ (forall p, In p ps -> plain p) /\
  (forall p, In p ps -> t_id p <> None -> default_flags p) /\ Sorted (@start_le K) ps.

Section Spec4.
Variable K : Type.
Variables (k1 : K) (kmul : K -> K -> K).

(** Product of the marginal bases at one row. *)
Fixpoint basis_prod (r : nat) (ms : list ((nat -> nat -> K) * nat)) (is : list nat) : K :=
  match ms, is with
  | (B, _) :: ms', i :: is' => kmul (B r i) (basis_prod r ms' is')
  | _, _ => k1
  end.

End Spec4.
