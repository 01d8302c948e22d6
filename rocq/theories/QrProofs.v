(** Proofs for QrProps. *)
From mathcomp Require Import all_ssreflect all_algebra.
From Verif Require Import MatModel MatSpec MatProofs QrModel QrSpec.
Set Implicit Arguments.
Unset Strict Implicit.
Unset Printing Implicit Defensive.
Import Order.TTheory GRing.Theory Num.Theory.
Local Open Scope ring_scope.

Section Objective.
Variable R : rcfType.

Definition dotp m (u v : 'cV[R]_m) : R := (u^T *m v) 0 0.

Lemma dotC m (u v : 'cV[R]_m) : dotp u v = dotp v u.
Proof. by rewrite /dotp !mxE; apply: eq_bigr => i _; rewrite !mxE mulrC. Qed.
Lemma dotDl m (u v w : 'cV[R]_m) : dotp (u + v) w = dotp u w + dotp v w.
Proof. by rewrite /dotp linearD mulmxDl mxE. Qed.
Lemma dotNl m (u w : 'cV[R]_m) : dotp (- u) w = - dotp u w.
Proof. by rewrite /dotp linearN mulNmx mxE. Qed.
Lemma dotDr m (u v w : 'cV[R]_m) : dotp w (u + v) = dotp w u + dotp w v.
Proof. by rewrite dotC dotDl !(dotC w). Qed.
Lemma dotNr m (u w : 'cV[R]_m) : dotp w (- u) = - dotp w u.
Proof. by rewrite dotC dotNl (dotC w). Qed.
Lemma dotM m k (A : 'M[R]_(m, k)) u v : dotp (A *m u) v = dotp u (A^T *m v).
Proof. by rewrite /dotp trmx_mul mulmxA. Qed.

Lemma dot_ge0 m (v : 'cV[R]_m) : 0 <= dotp v v.
Proof. by rewrite /dotp mxE sumr_ge0 // => i _; rewrite mxE -expr2 sqr_ge0. Qed.

Lemma dot_le0 m (v : 'cV[R]_m) : dotp v v <= 0 -> v = 0.
Proof.
move=> h; have : dotp v v == 0 by rewrite eq_le h dot_ge0.
rewrite /dotp mxE psumr_eq0 => [|i _]; last by rewrite mxE -expr2 sqr_ge0.
move=> /allP a; apply/colP => i; rewrite [RHS]mxE.
by have := a i (mem_index_enum i); rewrite /= mxE -expr2 sqrf_eq0 => /eqP.
Qed.

Variables n p : nat.
Variables (y : 'cV[R]_n) (X : 'M[R]_(n, p)) (S : 'M[R]_p).
Local Notation H := (X^T *m X + S).

Lemma penalised_ssE b : penalised_ss y X S b
  = dotp (y - X *m b) (y - X *m b) + dotp b (S *m b).
Proof.
rewrite /penalised_ss; congr (_ + _).
  by rewrite /dotp mxE; apply: eq_bigr => i _; rewrite !mxE expr2.
rewrite /dotp mxE; apply: eq_bigr => i _ /=.
by rewrite !mxE big_distrr; apply: eq_bigr => j _ /=; rewrite mulrA.
Qed.

Lemma crossE i j : penalised_cross X S i j = H i j.
Proof. by rewrite /penalised_cross !mxE; congr (_ + _); apply: eq_bigr => k _; rewrite mxE. Qed.

Lemma gap c b : S^T = S -> H *m c = X^T *m y ->
  penalised_ss y X S b = penalised_ss y X S c + dotp (b - c) (H *m (b - c)).
Proof.
move=> Ssym Hc; rewrite !penalised_ssE.
have -> : b = c + (b - c) by rewrite addrC subrK.
set e := b - c; clearbody e; rewrite [c + e]addrC addrK.
rewrite mulmxDr opprD addrCA; set r := y - X *m c.
have z : dotp (X *m e) r = dotp e (S *m c).
  by rewrite dotM /r mulmxBr -Hc mulmxDl mulmxA addrAC subrr add0r.
have z2 : dotp c (S *m e) = dotp e (S *m c).
  by rewrite (dotC c) dotM Ssym.
clearbody r.
rewrite mulmxDl -mulmxA !mulmxDr !(dotDl, dotDr, dotNl, dotNr) (dotC r) z z2 opprK -dotM.
set a := dotp r r; set w := dotp (X *m e) (X *m e); set q := dotp e (S *m c).
set s := dotp c (S *m c); set t := dotp e (S *m e).
by rewrite addrACA [w - q + _]addrACA [- q + a + _]addrACA addNr addr0 add0r addrC.
Qed.

Lemma best_of c b : S^T = S -> H *m c = X^T *m y -> (forall e, 0 <= dotp e (H *m e)) ->
  penalised_ss y X S c <= penalised_ss y X S b.
Proof. by move=> s h pos; rewrite (gap b s h) ler_addl. Qed.

Lemma gap_zero c b : S^T = S -> H *m c = X^T *m y ->
  (forall b', penalised_ss y X S b <= penalised_ss y X S b') -> dotp (b - c) (H *m (b - c)) <= 0.
Proof. by move=> s h /(_ c); rewrite (gap b s h) ger_addl. Qed.
End Objective.

(** ** The pivoted decomposition *)
Section Pivots.
Variable R : rcfType.
Variables r d : nat.
Local Notation p := (r + d)%N.
Variables Pr1 Pr2 : 'I_p -> 'I_p.
Hypotheses (inj1 : injective Pr1) (inj2 : injective Pr2).

Definition sg (i : 'I_p) : 'I_p := Pr1 (Pr2 i).
Lemma sg_inj : injective sg. Proof. by move=> a b /inj1 /inj2. Qed.
Definition tau : 'I_p -> 'I_p := invF sg_inj.
Lemma sg_tau j : sg (tau j) = j. Proof. exact: f_invF. Qed.
Lemma tau_inj : injective tau. Proof. by move=> a b e; rewrite -(sg_tau a) e sg_tau. Qed.
Lemma tau_sg j : tau (sg j) = j. Proof. exact: invF_f. Qed.

Local Notation Pi := (compute_eigen_perm R sg).
Local Notation P := ((compute_eigen_perm R Pr2)^T *m (compute_eigen_perm R Pr1)^T).

Lemma PE : P = Pi^T.
Proof.
rewrite -trmx_mul; congr (_^T); apply/matrixP => i j.
by rewrite -/(apply_eigen_perm Pr2 _) apply_perm_entry !mxE.
Qed.

Lemma Pij i j : P i j = (i == tau j)%:R.
Proof. by rewrite PE !mxE -{1}(sg_tau j) (inj_eq sg_inj) eq_sym. Qed.

Lemma times_permE (c : 'I_p -> option R) j : times_perm c P j = c (tau j).
Proof.
rewrite /times_perm.
have gen : forall s : seq 'I_p, uniq s ->
  foldr (fun i acc => if P i j == 0 then acc else oadd (omap (fun v => v * P i j) (c i)) acc)
        (Some 0) s = if tau j \in s then c (tau j) else Some 0.
  elim=> [|i s IH] //= /andP[ni us]; rewrite (IH us) Pij inE [tau j == i]eq_sym.
  case: (i =P tau j) => [e|ne] /=; last by rewrite eqxx.
  rewrite oner_eq0 -e (negbTE ni).
  by case: (c i) => [v|] //=; rewrite mulr1 addr0.
by rewrite gen ?enum_uniq // mem_enum.
Qed.

Variable c : 'cV[R]_r.
Local Notation c' := (times_perm (pad (d := d) c) P).
Local Notation keep := [seq i <- enum 'I_p | c' i != None].
Local Notation drop := [seq i <- enum 'I_p | c' i == None].

Lemma dropped j : (c' j == None) = (r <= tau j)%N.
Proof.
rewrite times_permE /pad; case: splitP => k ->; first by rewrite leqNgt ltn_ord.
by rewrite leq_addr.
Qed.

Lemma in_keep j : (j \in keep) = (tau j < r)%N.
Proof. by rewrite mem_filter mem_enum andbT dropped -ltnNge. Qed.
Lemma in_drop j : (j \in drop) = (r <= tau j)%N.
Proof. by rewrite mem_filter mem_enum andbT dropped. Qed.

Lemma size_low : size [seq i <- enum 'I_p | (val i < r)%N] = r.
Proof.
rewrite -(size_map val) -(filter_map val (fun x => (x < r)%N)) val_enum_ord iotaD filter_cat.
rewrite (_ : [seq x <- iota 0 r | (x < r)%N] = iota 0 r); last first.
  by apply/all_filterP/allP => x; rewrite mem_iota.
rewrite (_ : [seq x <- iota (0 + r) d | (x < r)%N] = [::]); first by rewrite cats0 size_iota.
apply/eqP; rewrite -(negbK (_ == _)) -has_filter; apply/negP => /hasP[x].
by rewrite mem_iota add0n => /andP[h _]; rewrite ltnNge h.
Qed.

Lemma size_keep : size keep = r.
Proof.
rewrite -[RHS]size_low -(size_map tau); apply/perm_size/uniq_perm.
- by rewrite (map_inj_uniq tau_inj) filter_uniq // enum_uniq.
- by rewrite filter_uniq // enum_uniq.
move=> i; rewrite mem_filter mem_enum andbT -{1}(tau_sg i) (mem_map tau_inj).
by rewrite in_keep tau_sg.
Qed.

Lemma size_drop : size drop = d.
Proof.
have := count_predC (fun i => c' i == None) (enum 'I_p).
rewrite size_enum_ord -!size_filter.
have := size_keep; rewrite (eq_filter (a2 := predC (fun i => c' i == None))) // => -> /eqP.
by rewrite addnC eqn_add2l => /eqP.
Qed.

Lemma rows_storedE : rows_stored P keep = [seq val (tau j) | j <- keep].
Proof.
rewrite /rows_stored; elim: keep => //= j s ->.
rewrite (_ : [seq i <- enum 'I_p | P i j != 0] = [:: tau j]) //.
rewrite (eq_filter (a2 := pred1 (tau j))) ?filter_pred1_uniq ?enum_uniq ?mem_enum //.
by move=> i /=; rewrite Pij; case: (i =P tau j) => _ /=; rewrite ?oner_eq0 ?eqxx.
Qed.

(** The a-th kept coefficient. *)
Definition kap (a : 'I_r) : 'I_p := nth (lshift d a) keep a.
Lemma kap_in a : kap a \in keep. Proof. by apply: mem_nth; rewrite size_keep. Qed.
Lemma kap_inj : injective kap.
Proof.
move=> a b; rewrite /kap (set_nth_default (lshift d b)) ?size_keep // => /eqP.
rewrite nth_uniq ?size_keep ?(filter_uniq _ (enum_uniq _)) // => /eqP e.
exact: val_inj.
Qed.

Definition T : 'M[R]_(p, r) := \matrix_(i, a) (i == sg (lshift d a))%:R.
Local Notation P' := (eigen_perm_of R r (rows_stored P keep)).
Local Notation Kp := (\matrix_(i, a) (i == kap a)%:R : 'M[R]_(p, r)).

Lemma P'E a b : P' a b = (lshift d a == tau (kap b))%:R.
Proof.
by rewrite mxE rows_storedE (nth_map (lshift d b)) ?size_keep.
Qed.

Lemma P'_tr : P'^T *m P' = 1%:M.
Proof.
apply/matrixP => a b; rewrite !mxE.
have lt : (tau (kap a) < r)%N by rewrite -in_keep kap_in.
have ea : lshift d (Ordinal lt) = tau (kap a) by apply: val_inj.
rewrite (bigD1 (Ordinal lt)) //= big1 => [|i ne]; last first.
  rewrite mxE P'E -ea (inj_eq (@lshift_inj _ _)) (negbTE ne) mul0r //.
rewrite mxE !P'E ea eqxx mul1r addr0.
by rewrite (inj_eq tau_inj) (inj_eq kap_inj).
Qed.
Lemma P'_mul : P' *m P'^T = 1%:M. Proof. exact: (mulmx1C P'_tr). Qed.

Lemma KE : Kp = T *m P'.
Proof.
apply/matrixP => i b; rewrite !mxE.
have lt : (tau (kap b) < r)%N by rewrite -in_keep kap_in.
have eb : lshift d (Ordinal lt) = tau (kap b) by apply: val_inj.
rewrite (bigD1 (Ordinal lt)) //= big1 => [|k ne]; last first.
  by rewrite P'E -eb (inj_eq (@lshift_inj _ _)) (negbTE ne) mulr0.
by rewrite P'E mxE eb eqxx mulr1 addr0 sg_tau.
Qed.

Lemma T_tr : T^T *m T = 1%:M.
Proof.
apply/matrixP => a b; rewrite !mxE (bigD1 (sg (lshift d a))) //= big1 => [|i ne].
  by rewrite !mxE eqxx mul1r addr0 (inj_eq sg_inj) (inj_eq (@lshift_inj _ _)).
by rewrite !mxE (negbTE ne) mul0r.
Qed.

Lemma TT i j : (T *m T^T) i j = ((i == j) && (j \in keep))%:R.
Proof.
rewrite !mxE in_keep.
case: (ltnP (tau j) r) => [lt|ge].
  have ej : sg (lshift d (Ordinal lt)) = j.
    by rewrite -[RHS]sg_tau; congr sg; apply: val_inj.
  rewrite (bigD1 (Ordinal lt)) //= big1 => [|k ne].
    by rewrite !mxE ej eqxx mulr1 addr0 andbT.
  by rewrite !mxE -[in j == _]ej (inj_eq sg_inj) (inj_eq (@lshift_inj _ _)) [Ordinal lt == k]eq_sym (negbTE ne) mulr0.
rewrite andbF big1 // => k _; rewrite !mxE [j == _](_ : _ = false) ?mulr0 //.
by apply/eqP => e; move: ge; rewrite e tau_sg leqNgt /= ltn_ord.
Qed.

Lemma embedE (L : 'M[R]_r) : embed keep L = Kp *m L *m Kp^T.
Proof.
apply/matrixP => i j; rewrite !mxE exchange_big; apply: eq_bigr => b _ /=.
rewrite !mxE big_distrl; apply: eq_bigr => a _ /=.
rewrite !mxE size_keep !ltn_ord !andbT.
rewrite (set_nth_default (lshift d a)) ?size_keep // (set_nth_default (lshift d b) j) ?size_keep //.
rewrite -/(kap a) -/(kap b) [kap a == i]eq_sym [kap b == j]eq_sym.
by case: eqP => _; case: eqP => _; rewrite /= ?mul1r ?mulr1 ?mul0r ?mulr0.
Qed.

Lemma coefE : (\col_i odflt 0 (c' i)) = T *m c.
Proof.
apply/colP => j; rewrite !mxE times_permE /pad.
case: splitP => k e.
  have ej : sg (lshift d k) = j by rewrite -[RHS]sg_tau; congr sg; apply: val_inj.
  rewrite (bigD1 k) //= big1 => [|a ne]; first by rewrite !mxE ej eqxx mul1r addr0.
  by rewrite !mxE -ej (inj_eq sg_inj) (inj_eq (@lshift_inj _ _)) eq_sym (negbTE ne) mul0r.
rewrite big1 // => a _; rewrite !mxE [j == _](_ : _ = false) ?mul0r //.
apply/eqP => ej; move: e; rewrite ej tau_sg /= => e.
by have := ltn_ord a; rewrite e ltnNge leq_addr.
Qed.
End Pivots.
