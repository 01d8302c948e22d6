(** Floating point outcomes without rounding: a number, plus or minus infinity, or NaN.
    Comparisons follow IEEE 754: every comparison with NaN is false. *)

From Coq Require Import Reals Bool.
Local Open Scope R_scope.

Inductive ext := Fin (r : R) | PInf | MInf | NaN.

Definition rltb (a b : R) : bool := if Rlt_dec a b then true else false.
Definition rleb (a b : R) : bool := if Rle_dec a b then true else false.

(** a < b *)
Definition eltb (a b : ext) : bool :=
  match a, b with
  | NaN, _ | _, NaN => false
  | Fin x, Fin y => rltb x y
  | MInf, MInf => false
  | MInf, _ => true
  | _, MInf => false
  | PInf, _ => false
  | Fin _, PInf => true
  end.

(** a <= b *)
Definition eleb (a b : ext) : bool :=
  match a, b with
  | NaN, _ | _, NaN => false
  | Fin x, Fin y => rleb x y
  | MInf, _ => true
  | _, PInf => true
  | _, _ => false
  end.

Definition isinf (a : ext) : bool := match a with PInf | MInf => true | _ => false end.
Definition isnan (a : ext) : bool := match a with NaN => true | _ => false end.

(** Addition of a finite number. *)
Definition eadd (a : ext) (r : R) : ext := match a with Fin x => Fin (x + r) | _ => a end.

Lemma rltb_true a b : rltb a b = true <-> a < b.
Proof. unfold rltb. destruct (Rlt_dec a b); split; intros; auto; discriminate. Qed.
Lemma rltb_false a b : rltb a b = false <-> b <= a.
Proof.
  unfold rltb. destruct (Rlt_dec a b); split; intros; try discriminate; auto.
  - exfalso. apply (Rlt_not_le b a); assumption.
  - now apply Rnot_lt_le.
Qed.
Lemma rleb_true a b : rleb a b = true <-> a <= b.
Proof. unfold rleb. destruct (Rle_dec a b); split; intros; auto; discriminate. Qed.
Lemma rleb_false a b : rleb a b = false <-> b < a.
Proof.
  unfold rleb. destruct (Rle_dec a b); split; intros; try discriminate; auto.
  - exfalso. apply (Rlt_not_le a b); assumption.
  - now apply Rnot_le_lt.
Qed.
