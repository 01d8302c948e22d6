From mathcomp Require Import all_ssreflect all_algebra.
From Verif Require Import MatModel MatSpec.
Set Implicit Arguments.
Unset Strict Implicit.
Unset Printing Implicit Defensive.
Import GRing.Theory Num.Theory.
Local Open Scope ring_scope.

(** ** Translation of sparse matrices *)
Section Translate.
Variable T : Type.
Variables (elements : seq T) (idx iptr : seq nat).

Lemma slice_cat (A : Type) (l : seq A) a b :
  (a <= b)%N -> (b <= size l)%N -> take a l ++ slice a b l = take b l.
Proof.
move=> ab bl; rewrite /slice.
have -> : take b l = take (a + (b - a)) l by rewrite subnKC.
by rewrite takeD.
Qed.

Lemma size_slice (A : Type) (l : seq A) a b :
  (a <= b)%N -> (b <= size l)%N -> size (slice a b l) = (b - a)%N.
Proof.
move=> ab bl; rewrite /slice size_take size_drop.
case: ltnP => // h; apply/eqP; rewrite eqn_leq h /=; exact: leq_sub2r.
Qed.

(** The column list for the first n columns. *)
Definition col_ids n := flatten [seq nseq (nth 0 iptr c.+1 - nth 0 iptr c) c | c <- iota 0 n]%N.

Lemma iptr_le n : csc_ok n elements idx iptr -> forall a b, (a <= b <= n)%N ->
  (nth 0 iptr a <= nth 0 iptr b)%N.
Proof.
case=> _ mono _ _ a; elim=> [|b IH]; first by rewrite leqn0 => /andP[/eqP->].
case/andP; rewrite leq_eqVlt => /orP[/eqP-> //|]; rewrite ltnS => ab bn.
apply: leq_trans (mono b bn); apply: IH; rewrite ab; exact: ltnW.
Qed.

Lemma translate_prefix n : csc_ok n elements idx iptr -> forall k, (k <= n)%N ->
  foldl (translate_column elements idx iptr) ([::], [::], [::]) (iota 0 k) =
  (take (nth 0%N iptr k) elements, take (nth 0%N iptr k) idx, col_ids k).
Proof.
move=> ok; have le := iptr_le ok; case: (ok) => i0 mono iN sz.
elim=> [|k IH] kn; first by rewrite i0 !take0.
rewrite -addn1 iotaD foldl_cat IH; last exact: ltnW.
rewrite /= add0n addn1 /col_ids.
have kk : (nth 0 iptr k <= nth 0 iptr k.+1)%N by exact: mono.
have ks : (nth 0 iptr k.+1 <= size elements)%N by rewrite -iN; apply: le; rewrite kn leqnn.
rewrite !slice_cat ?sz // size_slice ?sz //.
by rewrite -addn1 iotaD map_cat flatten_cat /= cats0 add0n addn1.
Qed.

Lemma translate_all n : csc_ok n elements idx iptr ->
  translate_sparse n elements idx iptr = (elements, idx, col_ids n).
Proof.
move=> ok; rewrite /translate_sparse (translate_prefix ok) //.
by case: ok => _ _ -> sz; rewrite -{2}sz !take_size.
Qed.

Lemma size_col_ids n : csc_ok n elements idx iptr -> forall k, (k <= n)%N ->
  size (col_ids k) = nth 0%N iptr k.
Proof.
move=> ok; case: (ok) => i0 mono _ _; elim=> [|k IH] kn; first by rewrite i0.
rewrite /col_ids -addn1 iotaD map_cat flatten_cat size_cat /= cats0 size_nseq add0n addn1.
rewrite IH ?subnKC //; [exact: mono|exact: ltnW].
Qed.

(** Position p belongs to column c exactly when indptr says so. *)
Lemma nth_col_ids n : csc_ok n elements idx iptr -> forall k, (k <= n)%N ->
  forall p c, (p < nth 0 iptr k)%N ->
  (nth 0%N (col_ids k) p == c) = (nth 0 iptr c <= p < nth 0 iptr c.+1)%N && (c < k)%N.
Proof.
move=> ok; have le := iptr_le ok; case: (ok) => i0 mono _ _.
elim=> [|k IH] kn p c; first by rewrite i0.
move=> pk; rewrite /col_ids -addn1 iotaD map_cat flatten_cat /= cats0 add0n addn1 nth_cat.
rewrite -/(col_ids k) (size_col_ids ok) ?(ltnW kn) //.
case: ltnP => h.
- rewrite IH ?(ltnW kn) //; case: (ltngtP c k) => [ck|kc|->].
  + by rewrite ltnS (ltnW ck).
  + by rewrite ltnS (leqNgt c k) kc !andbF.
  + by rewrite ltnS leqnn (leqNgt (nth 0 iptr k)%N) h !andbF.
- rewrite nth_nseq ltn_sub2r ?(leq_ltn_trans h) //; case: (ltngtP c k) => [ck|kc|->].
  + apply/esym/negbTE; rewrite !negb_and -!leqNgt.
    suff -> : (nth 0 iptr c.+1 <= p)%N by rewrite orbT.
    by apply: leq_trans h; apply: le; rewrite ck ltnW.
  + by rewrite ltnS (leqNgt c k) kc andbF.
  + by rewrite h pk ltnS leqnn.
Qed.
End Translate.

Lemma triplet_correct (F : fieldType) (elements : seq F) idx iptr n r c :
  csc_ok n elements idx iptr -> (c < n)%N ->
  triplet_entry (translate_sparse n elements idx iptr) r c = csc_entry elements idx iptr r c.
Proof.
move=> ok cn; rewrite (translate_all ok) /triplet_entry /csc_entry.
have le := iptr_le ok; case: (ok) => i0 mono iN _.
have c1 : (nth 0 iptr c.+1 <= size elements)%N by rewrite -iN; apply: le; rewrite cn leqnn.
have cc : (nth 0 iptr c <= nth 0 iptr c.+1)%N by exact: mono.
rewrite (big_cat_nat _ _ _ (leq0n (nth 0 iptr c.+1)%N)) //=.
rewrite (big_cat_nat _ _ _ (leq0n (nth 0 iptr c)%N)) //=.
rewrite big_nat_cond big_pred0 ?add0r; last first.
  move=> k; apply/negbTE; apply/negP => /andP[/andP[_ kc] /andP[_]].
  have kn : (k < nth 0 iptr n)%N by rewrite iN; exact: (leq_trans kc (leq_trans cc c1)).
  by rewrite (nth_col_ids ok (leqnn n) c kn) leqNgt kc.
rewrite [X in _ + X]big_nat_cond [X in _ + X]big_pred0 ?addr0; last first.
  move=> k; apply/negbTE; apply/negP => /andP[/andP[kc ks] /andP[_]].
  have kn : (k < nth 0 iptr n)%N by rewrite iN.
  by rewrite (nth_col_ids ok (leqnn n) c kn) [(k < nth 0 iptr c.+1)%N]ltnNge kc andbF.
rewrite big_nat_cond [RHS]big_nat_cond; apply: eq_bigl => k.
case: (boolP (nth 0 iptr c <= k < nth 0 iptr c.+1)%N) => //= /andP[ck kc].
have kn : (k < nth 0 iptr n)%N by rewrite iN; exact: (leq_trans kc c1).
by rewrite (nth_col_ids ok (leqnn n) c kn) ck kc cn !andbT.
Qed.

(** ** Permutations *)
Section Perm.
Variable F : fieldType.
Variable n : nat.
Variable Pr : 'I_n -> 'I_n.
Hypothesis inj : injective Pr.
Local Notation P := (compute_eigen_perm F Pr).

Lemma apply_perm_entry m (A : 'M[F]_(m, n)) i c : apply_eigen_perm Pr A i c = A i (Pr c).
Proof.
rewrite !mxE (bigD1 (Pr c)) //= mxE eqxx mulr1 big1 ?addr0 // => k /negbTE ne.
by rewrite mxE ne mulr0.
Qed.

Lemma perm_tr_mul : P^T *m P = 1%:M.
Proof.
apply/matrixP => i j; rewrite [P^T *m P]/(_ *m _) -/(apply_eigen_perm Pr P^T) apply_perm_entry.
by rewrite !mxE (inj_eq inj) eq_sym.
Qed.

Lemma perm_mul_tr : P *m P^T = 1%:M.
Proof. by apply: mulmx1C; exact: perm_tr_mul. Qed.

Lemma perm_row m (A : 'M[F]_(n, m)) i j : (P *m A) (Pr i) j = A i j.
Proof.
rewrite !mxE (bigD1 i) //= mxE eqxx mul1r big1 ?addr0 // => k ne.
by rewrite mxE (inj_eq inj) eq_sym (negbTE ne) mul0r.
Qed.

Lemma perm_tr_row m (A : 'M[F]_(n, m)) i j : (P^T *m A) i j = A (Pr i) j.
Proof. by rewrite -(perm_row (P^T *m A) i j) mulmxA perm_mul_tr mul1mx. Qed.
End Perm.

(** ** The factorisation *)
Lemma lower_trig (F : fieldType) n (L : 'M[F]_n) : lower L -> is_trig_mx L.
Proof. by move=> low; apply/is_trig_mxP. Qed.

Lemma lower_unit (F : fieldType) n (L : 'M[F]_n) :
  lower L -> (forall i, L i i != 0) -> L \in unitmx.
Proof.
move=> low pos; rewrite unitmxE (det_trig (lower_trig low)) unitfE.
by apply/prodf_neq0.
Qed.

Lemma factor_eq (R : rcfType) n (A : 'M[R]_n) f : is_factor A f ->
  let P := compute_eigen_perm R (fac_P f) in A = P^T *m fac_L f *m (fac_L f)^T *m P.
Proof.
case=> inj _ _ e P; apply/matrixP => i j.
rewrite -/(apply_eigen_perm (fac_P f) _) apply_perm_entry -mulmxA perm_tr_row // e !mxE.
by apply: eq_bigr => k _; rewrite !mxE.
Qed.

Lemma factor_unit (R : rcfType) n (A : 'M[R]_n) f : is_factor A f -> fac_L f \in unitmx.
Proof. by case=> _ low pos _; apply: lower_unit => // i; apply: lt0r_neq0. Qed.

(** LV^T LV inverts A. *)
Lemma unpivot_inverse (R : rcfType) n (A : 'M[R]_n) f LI : is_factor A f ->
  fac_L f *m LI = 1%:M ->
  let LV := apply_eigen_perm (fac_P f) LI in LV^T *m LV *m A = 1%:M.
Proof.
move=> fA e LV; rewrite (factor_eq fA) /LV /apply_eigen_perm.
case: fA => inj _ _ _.
have e' := mulmx1C e.
rewrite trmx_mul !mulmxA.
have p1 := perm_mul_tr R inj; have p2 := perm_tr_mul R inj.
set P := compute_eigen_perm R (fac_P f) in p1 p2 *.
rewrite -[_ *m P *m P^T]mulmxA p1 mulmx1 -[_ *m LI *m _]mulmxA e' mulmx1.
by rewrite -[_ *m LI^T *m _]mulmxA -trmx_mul e trmx1 mulmx1 p2.
Qed.
