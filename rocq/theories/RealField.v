(** The real numbers of the standard library as a field of the mathematical components library. *)

From Coq Require Import Reals ClassicalEpsilon.
From mathcomp Require Import all_ssreflect all_algebra.
Set Implicit Arguments. Unset Strict Implicit. Unset Printing Implicit Defensive.

Lemma eqrP : Equality.axiom (fun x y : R => if Req_EM_T x y then true else false).
Proof. by move=> x y; case: Req_EM_T => h; constructor. Qed.
Canonical R_eqMixin := EqMixin eqrP.
Canonical R_eqType := Eval hnf in EqType R R_eqMixin.

Lemma R_choice : Choice.mixin_of R.
Proof.
exists (fun P n => if excluded_middle_informative (exists x, P x) is left h
                   then Some (proj1_sig (constructive_indefinite_description _ h)) else None).
- move=> P n x; case: excluded_middle_informative => // h [] <-.
  by case: constructive_indefinite_description.
- move=> P h; exists 0%N; case: excluded_middle_informative => //.
- move=> P Q e n; have -> : P = Q by apply: FunctionalExtensionality.functional_extensionality => x; apply: e.
  by [].
Qed.
Canonical R_choiceType := Eval hnf in ChoiceType R R_choice.

Lemma RaddA : associative Rplus. Proof. by move=> *; rewrite Rplus_assoc. Qed.
Lemma RaddC : commutative Rplus. Proof. by move=> *; rewrite Rplus_comm. Qed.
Lemma Radd0 : left_id R0 Rplus. Proof. by move=> *; rewrite Rplus_0_l. Qed.
Lemma RaddN : left_inverse R0 Ropp Rplus. Proof. by move=> *; rewrite Rplus_opp_l. Qed.
Definition R_zmodMixin := ZmodMixin RaddA RaddC Radd0 RaddN.
Canonical R_zmodType := Eval hnf in ZmodType R R_zmodMixin.

Lemma RmulA : associative Rmult. Proof. by move=> *; rewrite Rmult_assoc. Qed.
Lemma RmulC : commutative Rmult. Proof. by move=> *; rewrite Rmult_comm. Qed.
Lemma Rmul1 : left_id R1 Rmult. Proof. by move=> *; rewrite Rmult_1_l. Qed.
Lemma RmulDl : left_distributive Rmult Rplus. Proof. by move=> *; rewrite Rmult_plus_distr_r. Qed.
Lemma R1_neq_0 : R1 != R0 :> R. Proof. by apply/eqP; apply: R1_neq_R0. Qed.
Definition R_ringMixin := ComRingMixin RmulA RmulC Rmul1 RmulDl R1_neq_0.
Canonical R_ringType := Eval hnf in RingType R R_ringMixin.
Canonical R_comRingType := Eval hnf in ComRingType R RmulC.

(** The inverse of mathcomp's fields is the identity on zero. *)
Definition Rinvx (r : R) : R := match Req_EM_T r R0 with left _ => r | right _ => Rinv r end.
Lemma Rinvx_inv (r : R) : r <> R0 -> Rinvx r = Rinv r.
Proof. by rewrite /Rinvx; case: Req_EM_T. Qed.
Lemma Rinvx_0 : Rinvx R0 = R0.
Proof. by rewrite /Rinvx; case: Req_EM_T. Qed.
Definition Runit : pred R := fun r => r != R0.
Lemma Rmul_inv : {in Runit, left_inverse (GRing.one R_comRingType) Rinvx (@GRing.mul R_comRingType)}.
Proof.
move=> x; rewrite unfold_in => /eqP h; rewrite Rinvx_inv //.
exact: Rinv_l.
Qed.
Lemma Rmul_unit (x y : R_comRingType) : GRing.mul y x = GRing.one _ -> Runit x.
Proof.
move=> e; apply/eqP=> z; move: e; rewrite z.
change (Rmult y R0 = R1 -> False); rewrite Rmult_0_r => h; exact: R1_neq_R0 (esym h).
Qed.
Lemma Rinv_out : {in predC Runit, Rinvx =1 id}.
Proof.
move=> x h; case: (Req_EM_T x R0) => [-> |e]; first exact: Rinvx_0.
by case/negP: h; apply/eqP.
Qed.
Definition R_unitMixin := ComUnitRingMixin Rmul_inv Rmul_unit Rinv_out.
Canonical R_unitRingType := Eval hnf in UnitRingType R R_unitMixin.
Canonical R_comUnitRingType := Eval hnf in [comUnitRingType of R].
Lemma R_field : GRing.Field.mixin_of R_unitRingType.
Proof. by move=> x h. Qed.
Lemma R_idom : GRing.IntegralDomain.axiom R_comUnitRingType.
Proof. exact: FieldIdomainMixin R_field. Qed.
Canonical R_idomainType := Eval hnf in IdomainType R R_idom.
Canonical R_fieldType := Eval hnf in FieldType R R_field.
