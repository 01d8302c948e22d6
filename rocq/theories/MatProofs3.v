From mathcomp Require Import all_ssreflect all_algebra.
From Coq Require Import Ring.
From Verif Require Import MatModel MatSpec MatProofs MatProofs2.
Set Implicit Arguments.
Unset Strict Implicit.
Unset Printing Implicit Defensive.
Import Order.TTheory GRing.Theory Num.Theory.
Local Open Scope ring_scope.

(** The ring tactic over a field, for identities between entries. *)
Section Ids.
Variable F : fieldType.
Definition ad (a b : F) : F := a + b.
Definition mu (a b : F) : F := a * b.
Definition op (a : F) : F := - a.
Definition z0 : F := 0.
Definition o1 : F := 1.
Lemma rt : @ring_theory F z0 o1 ad mu (fun a b => ad a (op b)) op eq.
Proof.
split; [exact: add0r|exact: addrC|exact: addrA|exact: mul1r|exact: mulrC|exact: mulrA
       |exact: mulrDl|by []|exact: subrr].
Qed.
Add Ring Fr : rt.
Ltac conv t := lazymatch t with
 | @GRing.add _ ?a ?b => let x := conv a in let y := conv b in constr:(ad x y)
 | @GRing.mul _ ?a ?b => let x := conv a in let y := conv b in constr:(mu x y)
 | @GRing.opp _ ?a => let x := conv a in constr:(op x)
 | @GRing.zero _ => constr:(z0)
 | @GRing.one _ => constr:(o1)
 | _ => constr:(t : F) end.
Ltac mring := lazymatch goal with |- @eq _ ?a ?b =>
  let x := conv a in let y := conv b in change (@eq (GRing.Field.sort F) x y); ring end.

Lemma seven_terms (a b c d e f g : F) :
  a - b - c + d = - (e + f - g - a) - (g + (c - e) + (b - f) - d).
Proof. mring. Qed.
End Ids.

(** ** Woodbury identity in the form of Henderson and Searle *)
Section Woodbury.
Variable F : fieldType.
Variables n a : nat.
Variables (A V : 'M[F]_n) (U : 'M[F]_(n, a)) (C : 'M[F]_a) (W : 'M[F]_(a, n)).
Hypothesis AV : A *m V = 1%:M.

Lemma woodbury X : (1%:M + C *m W *m V *m U) *m X = 1%:M ->
  (A + U *m C *m W) *m (V - V *m U *m X *m (C *m (W *m V))) = 1%:M.
Proof.
move=> KX.
have e : C *m W *m V *m U *m X = 1%:M - X.
  by rewrite -KX mulmxDl mul1mx addrC addKr.
rewrite mulmxBr mulmxDl AV mulmxDl.
have -> : A *m (V *m U *m X *m (C *m (W *m V))) = U *m X *m (C *m (W *m V)).
  by rewrite !mulmxA AV mul1mx.
have -> : U *m C *m W *m (V *m U *m X *m (C *m (W *m V))) =
          U *m (1%:M - X) *m (C *m (W *m V)) by rewrite -e !mulmxA.
rewrite mulmxBr mulmxBl mulmx1 [X in _ - X]addrCA subrr addr0.
by rewrite !mulmxA addrK.
Qed.

Lemma capacitance_unit : A + U *m C *m W \in unitmx -> 1%:M + C *m W *m V *m U \in unitmx.
Proof.
move=> u; set B := invmx (A + U *m C *m W).
have e : U *m C *m W *m B = 1%:M - A *m B.
  by rewrite -(mulmxV u) -/B mulmxDl addrC addKr.
have VA := mulmx1C AV.
suff K : (1%:M + C *m W *m V *m U) *m (1%:M - C *m W *m B *m U) = 1%:M.
  by case: (mulmx1_unit K).
rewrite mulmxBr mulmx1 mulmxDl mul1mx.
have -> : C *m W *m V *m U *m (C *m W *m B *m U) = C *m W *m V *m (U *m C *m W *m B) *m U.
  by rewrite !mulmxA.
rewrite e mulmxBr mulmx1 mulmxBl.
have -> : C *m W *m V *m (A *m B) = C *m W *m B.
  by rewrite !mulmxA -(mulmxA (C *m W) V A) VA mulmx1.
by rewrite [X in _ - X]addrCA subrr addr0 addrK.
Qed.
End Woodbury.

Lemma inv_okE (F : fieldType) m (inv : 'M[F]_m -> 'M[F]_m) A :
  inv_ok inv -> A \in unitmx -> inv A = invmx A.
Proof. by move=> ok u; rewrite -[inv A]mul1mx -(mulVmx u) -mulmxA ok // mulmx1. Qed.

(** ** Symmetric rank one matrices *)
Section SR1.
Variable F : fieldType.
Variables n m : nat.
Variables s y : 'I_m.+1 -> 'rV[F]_n.
Variable rho : 'I_m.+1 -> F.
Hypothesis rhoE : forall k, rho k = 1 / dot (s k) (y k).
Variable inv : 'M[F]_m.+1 -> 'M[F]_m.+1.
Hypothesis invok : inv_ok inv.
Local Notation S := (Smat s).
Local Notation Y := (Ymat y).
Local Notation D := (DK s y).
Local Notation Rm := (Rmat s y rho).

Lemma behead_enum : behead (enum 'I_m.+1) = [seq inord k | k <- iota 1 m].
Proof.
have -> : enum 'I_m.+1 = [seq inord k | k <- iota 0 m.+1].
  rewrite -(val_enum_ord m.+1) -map_comp -[LHS]map_id; apply: eq_map => i /=.
  by rewrite inord_val.
by rewrite /= .
Qed.

Lemma border_spec j : (j <= m)%N ->
  let f := foldl (border s y rho) (fun _ _ => dot (s ord0) (y ord0)) [seq inord k | k <- iota 1 j] in
  forall a b, (a <= j)%N -> (b <= j)%N ->
  f a b = if (a <= b)%N then dot (s (inord a)) (y (inord b)) else 0.
Proof.
elim: j => [|j IH] jm f a b.
  rewrite !leqn0 => /eqP-> /eqP->; rewrite /f /=.
  by have -> : inord 0 = ord0 :> 'I_m.+1 by apply/val_inj; rewrite /= inordK.
move=> aj bj; rewrite /f -[in iota _ _](addn1 j) iotaD map_cat foldl_cat /= add1n.
have ij : nat_of_ord (inord j.+1 : 'I_m.+1) = j.+1 by rewrite inordK.
rewrite /border ij; have IH' := IH (ltnW jm).
case: (ltnP a j.+1) => ha; case: (ltnP b j.+1) => hb /=.
- exact: IH'.
- have -> : b = j.+1 by apply/eqP; rewrite eqn_leq bj hb.
  by rewrite eqxx (ltnW ha).
- have -> : a = j.+1 by apply/eqP; rewrite eqn_leq aj ha.
  by rewrite eqxx leqNgt hb.
- have -> : b = j.+1 by apply/eqP; rewrite eqn_leq bj hb.
  have -> : a = j.+1 by apply/eqP; rewrite eqn_leq aj ha.
  by rewrite eqxx leqnn rhoE !div1r invrK.
Qed.

Lemma RmatE (i j : 'I_m.+1) : Rm i j = if (i <= j)%N then dot (s i) (y j) else 0.
Proof.
rewrite mxE behead_enum border_spec ?leqnn ?inord_val //; by rewrite -ltnS.
Qed.

Lemma SY i j : (S^T *m Y) i j = dot (s i) (y j).
Proof. by rewrite mxE; apply: eq_bigr => k _; rewrite !mxE. Qed.

Lemma dotC (a b : 'rV[F]_n) : dot a b = dot b a.
Proof. by apply: eq_bigr => k _; rewrite mulrC. Qed.

Lemma SmatE : S *m delta_mx ord_max 0 = (s ord_max)^T :> 'cV_n.
Proof. by rewrite -colE; apply/colP => i; rewrite !mxE. Qed.

Lemma YmatE : Y *m delta_mx ord_max 0 = (y ord_max)^T :> 'cV_n.
Proof. by rewrite -colE; apply/colP => i; rewrite !mxE. Qed.

Lemma le_max (i : 'I_m.+1) : (i <= @ord_max m)%N. Proof. by rewrite -ltnS. Qed.

Lemma lt_max (i : 'I_m.+1) : (@ord_max m <= i)%N = (i == ord_max).
Proof.
by apply/idP/eqP => [h|->//]; apply/val_inj/eqP; rewrite /= eqn_leq h andbT; exact: le_max.
Qed.

(** Last column of the middle matrix of the Hessian. *)
Lemma H_last (H0 : 'M[F]_n) : H0^T = H0 ->
  let L := S^T *m Y - Rm in
  (D + L + L^T - S^T *m H0 *m S) *m delta_mx ord_max 0 = (Y - H0 *m S)^T *m (s ord_max)^T.
Proof.
move=> Hs L; rewrite mulmxBl -[S^T *m H0 *m S *m _]mulmxA SmatE.
have -> : (Y - H0 *m S)^T = Y^T - S^T *m H0 by rewrite raddfB /= trmx_mul Hs.
rewrite [RHS]mulmxBl; congr (_ - _).
rewrite {}/L; move: Rm RmatE => r RE; apply/colP => i; rewrite -colE !mxE.
have -> : \sum_j S^T i j * Y j ord_max = dot (s i) (y ord_max) by rewrite -SY mxE.
have -> : \sum_j S^T ord_max j * Y j i = dot (s ord_max) (y i) by rewrite -SY mxE.
rewrite !RE le_max lt_max subrr addr0.
have -> : \sum_j Y^T i j * (s ord_max)^T j 0 = dot (s ord_max) (y i).
  by rewrite dotC; apply: eq_bigr => k _; rewrite !mxE.
by case: eqP => [->|_]; rewrite ?mul1r ?subrr ?addr0 // add0r subr0.
Qed.

(** Last column of the middle matrix of the inverse. *)
Lemma V_last (V0 : 'M[F]_n) : V0^T = V0 ->
  (Rm + Rm^T - D - Y^T *m V0 *m Y) *m delta_mx ord_max 0 = (S - V0 *m Y)^T *m (y ord_max)^T.
Proof.
move=> Vs; rewrite mulmxBl -[Y^T *m V0 *m Y *m _]mulmxA YmatE.
have -> : (S - V0 *m Y)^T = S^T - Y^T *m V0 by rewrite raddfB /= trmx_mul Vs.
rewrite [RHS]mulmxBl; congr (_ - _).
move: Rm RmatE => r RE; apply/colP => i; rewrite -colE !mxE !RE le_max lt_max.
have -> : \sum_j S^T i j * (y ord_max)^T j 0 = dot (s i) (y ord_max).
  by apply: eq_bigr => k _; rewrite !mxE.
by case: eqP => [->|_]; rewrite ?mul1r ?addr0 ?subr0 // addrK.
Qed.

Lemma middle_H (H0 : 'M[F]_n) :
  (let L := S^T *m Y - Rm in D + L + L^T - S^T *m H0 *m S) = sr1_H_middle s y H0.
Proof.
rewrite /=; set L := S^T *m Y - Rm.
have LE i j : L i j = if (j < i)%N then dot (s i) (y j) else 0.
  rewrite /L mxE SY; have -> : (- Rm) i j = - (Rm i j) by rewrite mxE.
  by rewrite RmatE; case: ltnP => _; rewrite ?subrr ?subr0.
clearbody L; apply/matrixP => i j; rewrite mxE [in RHS]mxE; congr (_ + _); last first.
  rewrite [in LHS]mxE; congr (- _).
  have -> : (s i *m H0 *m (s j)^T) = row i (S^T) *m H0 *m col j S.
    by congr (_ *m _ *m _); apply/matrixP => a b; rewrite !mxE ?ord1.
  by rewrite -row_mul !mxE; apply: eq_bigr => k _; rewrite !mxE.
rewrite !mxE !LE; case: (ltngtP i j) => [ij|ji|/val_inj ->].
- have -> : i == j = false by apply/eqP => e; rewrite e ltnn in ij.
  by rewrite !add0r.
- have -> : i == j = false by apply/eqP => e; rewrite e ltnn in ji.
  by rewrite add0r addr0.
- by rewrite eqxx mul1r !addr0.
Qed.

Lemma middle_V (V0 : 'M[F]_n) :
  Rm + Rm^T - D - Y^T *m V0 *m Y = sr1_V_middle s y V0.
Proof.
move: Rm RmatE => r RE; apply/matrixP => i j; rewrite mxE [in RHS]mxE; congr (_ + _); last first.
  rewrite [in LHS]mxE; congr (- _).
  have -> : (y i *m V0 *m (y j)^T) = row i (Y^T) *m V0 *m col j Y.
    by congr (_ *m _ *m _); apply/matrixP => a b; rewrite !mxE ?ord1.
  by rewrite -row_mul !mxE; apply: eq_bigr => k _; rewrite !mxE.
rewrite !mxE !RE; case: (ltngtP i j) => [ij|ji|/val_inj ->].
- have -> : i == j = false by apply/eqP => e; rewrite e ltnn in ij.
  by rewrite addr0 subr0.
- have -> : i == j = false by apply/eqP => e; rewrite e ltnn in ji.
  by rewrite add0r subr0.
- by rewrite eqxx mul1r addrK.
Qed.

Section Secant.
Variables H0 V0 : 'M[F]_n.
Hypothesis Hs : H0^T = H0.
Hypothesis Vs : V0^T = V0.
Let L := S^T *m Y - Rm.
Let M := D + L + L^T - S^T *m H0 *m S.
Let N := Rm + Rm^T - D - Y^T *m V0 *m Y.

Lemma HSR1_secant : M \in unitmx -> computeHSR1 s y rho inv H0 *m (s ord_max)^T = (y ord_max)^T.
Proof.
move=> u; rewrite /computeHSR1 /HSR1_terms -/L -/M mulmxDl -!mulmxA -(H_last Hs) -/L -/M.
rewrite (mulmxA (inv M)) (inv_okE invok u) mulVmx // mul1mx mulmxBl YmatE.
by rewrite -(mulmxA H0) SmatE addrC subrK.
Qed.

Lemma VSR1_secant : N \in unitmx -> computeVSR1 s y rho inv V0 *m (y ord_max)^T = (s ord_max)^T.
Proof.
move=> u; rewrite /computeVSR1 /VSR1_terms -/N mulmxDl -!mulmxA -(V_last Vs) -/N.
rewrite (mulmxA (inv N)) (inv_okE invok u) mulVmx // mul1mx mulmxBl SmatE.
by rewrite -(mulmxA V0) YmatE addrC subrK.
Qed.

Lemma D_sym : D^T = D.
Proof. by apply/matrixP => i j; rewrite !mxE eq_sym; case: eqP => // ->. Qed.

Lemma M_sym : M^T = M.
Proof.
rewrite /M raddfB /= !raddfD /= D_sym trmxK !trmx_mul !trmxK Hs !mulmxA; congr (_ - _).
by rewrite addrAC.
Qed.

Lemma N_sym : N^T = N.
Proof.
rewrite /N !raddfB /= raddfD /= D_sym trmxK !trmx_mul !trmxK Vs !mulmxA.
by rewrite [Rm^T + _]addrC.
Qed.

Lemma HSR1_sym : M \in unitmx -> (computeHSR1 s y rho inv H0)^T = computeHSR1 s y rho inv H0.
Proof.
move=> u; rewrite /computeHSR1 /HSR1_terms -/L -/M (inv_okE invok u).
by rewrite raddfD /= Hs !trmx_mul trmxK trmx_inv M_sym !mulmxA.
Qed.

Lemma VSR1_sym : N \in unitmx -> (computeVSR1 s y rho inv V0)^T = computeVSR1 s y rho inv V0.
Proof.
move=> u; rewrite /computeVSR1 /VSR1_terms -/N (inv_okE invok u).
by rewrite raddfD /= Vs !trmx_mul trmxK trmx_inv N_sym !mulmxA.
Qed.

Lemma SR1_inverse : H0 *m V0 = 1%:M -> M \in unitmx -> N \in unitmx ->
  computeHSR1 s y rho inv H0 *m computeVSR1 s y rho inv V0 = 1%:M.
Proof.
move=> HV uM uN; have VH := mulmx1C HV.
rewrite /computeHSR1 /HSR1_terms -/L -/M (inv_okE invok uM).
rewrite /computeVSR1 /VSR1_terms -/N (inv_okE invok uN).
set U := Y - H0 *m S.
have TE : S - V0 *m Y = - (V0 *m U).
  by rewrite /U mulmxBr mulmxA VH mul1mx opprB.
have TT : (S - V0 *m Y)^T = - (U^T *m V0) by rewrite TE raddfN /= trmx_mul Vs.
have NE : U^T *m V0 *m U = - N - M.
  have UT : U^T = Y^T - S^T *m H0 by rewrite /U raddfB /= trmx_mul Hs.
  have -> : U^T *m V0 = Y^T *m V0 - S^T by rewrite UT mulmxBl -mulmxA HV mulmx1.
  have -> : (Y^T *m V0 - S^T) *m U = Y^T *m V0 *m Y - Y^T *m S - S^T *m Y + S^T *m H0 *m S.
    rewrite /U mulmxBl !mulmxBr -!mulmxA (mulmxA V0) VH mul1mx opprB.
    by rewrite (addrC (S^T *m (H0 *m S))) addrA.
  have LT : L^T = Y^T *m S - Rm^T by rewrite /L raddfB /= trmx_mul trmxK.
  rewrite /N /M LT /L; move: (Y^T *m V0 *m Y) (Y^T *m S) (S^T *m Y) (S^T *m H0 *m S) Rm (Rm^T) D.
  move=> a b c d e f g; apply/matrixP => i j; rewrite !mxE.
  move: (a i j) (b i j) (c i j) (d i j) (e i j) (f i j) (g i j) => {}a {}b {}c {}d {}e {}f {}g.
  exact: seven_terms.
have VE : (S - V0 *m Y) *m invmx N *m (S - V0 *m Y)^T = V0 *m U *m invmx N *m (U^T *m V0).
  by rewrite TT TE mulNmx mulNmx mulmxN opprK.
rewrite VE; clearbody U; rewrite mulmxDl !mulmxDr HV.
have -> : H0 *m (V0 *m U *m invmx N *m (U^T *m V0)) = U *m invmx N *m (U^T *m V0).
  by rewrite !mulmxA HV mul1mx.
have -> : U *m invmx M *m U^T *m (V0 *m U *m invmx N *m (U^T *m V0)) =
          U *m (invmx M *m (U^T *m V0 *m U) *m invmx N) *m (U^T *m V0) by rewrite !mulmxA.
have -> : invmx M *m (U^T *m V0 *m U) *m invmx N = - invmx M - invmx N.
  by rewrite NE mulmxBr mulmxN mulVmx // mulmxBl mulNmx mul1mx -mulmxA mulmxV // mulmx1.
rewrite mulmxBr mulmxN mulmxBl mulNmx !mulmxA.
move: (U *m invmx N *m U^T *m V0) (U *m invmx M *m U^T *m V0) => a b.
by rewrite -addrA [b + _]addrA subrr add0r subrr addr0.
Qed.
End Secant.
End SR1.
