(** Lemmas for the similarity transform: matrices as functions and selections of coordinates. *)

From Coq Require Import Reals Lra.
From mathcomp Require Import all_ssreflect all_algebra.
From Verif Require Import RealField RealMat RealEigen ReparModel ReparSpec.
Import GRing.Theory.
Set Implicit Arguments.
Unset Strict Implicit.
Unset Printing Implicit Defensive.
Local Open Scope ring_scope.

Definition mx p q (f : mat) : 'M[R]_(p, q) := \matrix_(i < p, j < q) f i j.

Lemma mx_mul p m q A B : mx p q (mul m A B) = mx p m A *m mx m q B.
Proof. by apply/matrixP => i j; rewrite !mxE; apply: eq_bigr => a _; rewrite !mxE. Qed.
Lemma mx_tr p q A : mx p q (tr A) = (mx q p A)^T.
Proof. by apply/matrixP => i j; rewrite !mxE. Qed.
Lemma mx_add p q A B : mx p q (add A B) = mx p q A + mx p q B.
Proof. by apply/matrixP => i j; rewrite !mxE. Qed.
Lemma mx_scale p q a A : mx p q (scale a A) = a *: mx p q A.
Proof. by apply/matrixP => i j; rewrite !mxE. Qed.
Lemma mx_eye p : mx p p eye = 1%:M.
Proof. by apply/matrixP => i j; rewrite !mxE. Qed.
Lemma mx_zeros p q : mx p q zeros = 0.
Proof. by apply/matrixP => i j; rewrite !mxE. Qed.
Lemma mx_sum p q (s : seq nat) (l : nat -> R) (f : nat -> mat) :
  mx p q (fun i j => \sum_(k <- s) l k * f k i j) = \sum_(k <- s) l k *: mx p q (f k).
Proof. by apply/matrixP => i j; rewrite !mxE summxE; apply: eq_bigr => k _; rewrite !mxE. Qed.
Lemma mx_ext p q (f g : mat) : (forall i j, (i < p)%N -> (j < q)%N -> f i j = g i j) <-> mx p q f = mx p q g.
Proof.
split=> [h|h i j ip jq]; first by apply/matrixP => i j; rewrite !mxE h.
by have := congr1 (fun M : 'M_(p, q) => M (Ordinal ip) (Ordinal jq)) h; rewrite !mxE.
Qed.
Lemma mx_diag p d : mx p p (diag d) = diag_mx (\row_(i < p) d i).
Proof.
apply/matrixP => i j; rewrite !mxE /diag -(inj_eq val_inj) /=.
by case: eqP => [->|]; rewrite ?mulr1n ?mulr0n.
Qed.

(** Selection of the [q] coordinates from [k] on. *)
Definition sel p q k : 'M[R]_(p, q) := mx p q (fun i j => (i == k + j)%N%:R).

Lemma selT p q k m (f : mat) : (k + q <= p)%N -> (sel p q k)^T *m mx p m f = mx q m (fun i j => f (k + i)%N j).
Proof.
move=> h; apply/matrixP => i j; rewrite !mxE.
have hi : (k + i < p)%N by apply: leq_trans h; rewrite ltn_add2l.
rewrite (bigD1 (Ordinal hi)) //= !mxE eqxx mul1r big1 ?addr0 // => a na.
by rewrite !mxE; case: eqP => [e|]; rewrite ?mul0r //; case/eqP: na; apply: val_inj.
Qed.
Lemma mx_selR p q k m (f : mat) : (k + q <= p)%N -> mx m p f *m sel p q k = mx m q (fun i j => f i (k + j)%N).
Proof.
by move=> h; apply: trmx_inj; rewrite trmx_mul -[(mx m p f)^T]mx_tr selT // -mx_tr; apply/matrixP => i j; rewrite !mxE.
Qed.
Lemma sel_orth p q k : (k + q <= p)%N -> (sel p q k)^T *m sel p q k = 1%:M.
Proof. by move=> h; rewrite [X in _ *m X]/sel selT //; apply/matrixP => i j; rewrite !mxE eqn_add2l. Qed.
Lemma sel_perp p q k m l : (l + m <= k)%N -> (k + q <= p)%N -> (sel p m l)^T *m sel p q k = 0.
Proof.
move=> h hp; rewrite [X in _ *m X]/sel selT; last by apply: leq_trans (leq_trans h _) hp; rewrite leq_addr.
apply/matrixP => i j; rewrite !mxE; case: eqP => // e.
have : (l + i < k + j)%N by apply: leq_trans (leq_trans h _); rewrite ?ltn_add2l ?leq_addr.
by rewrite e ltnn.
Qed.
Lemma sel_perp' p q k m l : (l + m <= k)%N -> (k + q <= p)%N -> (sel p q k)^T *m sel p m l = 0.
Proof. by move=> h hp; apply: trmx_inj; rewrite trmx_mul trmxK sel_perp // trmx0. Qed.
Lemma sel_split p q k : (k + q = p)%N -> sel p k 0 *m (sel p k 0)^T + sel p q k *m (sel p q k)^T = 1%:M.
Proof.
move=> e; apply/matrixP => i j; rewrite !mxE.
have [ik|ik] := ltnP i k.
  rewrite [X in _ + X]big1 => [|a _]; last first.
    rewrite !mxE; case: eqP => [h|]; rewrite ?mul0r //.
    by move: ik; rewrite h ltnNge leq_addr.
  rewrite addr0 (bigD1 (Ordinal ik)) //= !mxE add0n eqxx mul1r eq_sym big1 ?addr0 => [|a na].
    by rewrite -(inj_eq val_inj) /= eq_sym.
  rewrite !mxE add0n; case: eqP => [h|]; rewrite ?mul0r //.
  by case/eqP: na; apply: val_inj.
rewrite big1 => [|a _]; last first.
  rewrite !mxE add0n; case: eqP => [h|]; rewrite ?mul0r //.
  by move: ik; rewrite h leqNgt ltn_ord.
have iq : (i - k < q)%N by rewrite -(ltn_add2l k) subnKC // e.
rewrite add0r (bigD1 (Ordinal iq)) //= !mxE subnKC // eqxx mul1r big1 ?addr0 => [|a na].
  by rewrite -(inj_eq val_inj) /= eq_sym.
rewrite !mxE; case: eqP => [h|]; rewrite ?mul0r //.
by case/eqP: na; apply: val_inj; rewrite /= h addKn.
Qed.
Lemma sel_sel p q k m l : (k + q <= p)%N -> (l + m <= q)%N -> sel p q k *m sel q m l = sel p m (k + l).
Proof. by move=> h h'; rewrite [X in X *m _]/sel mx_selR //; apply/matrixP => i j; rewrite !mxE addnA. Qed.

Lemma mx_block p q k (A B C D : mat) : (k + q = p)%N ->
  mx p p (block k k A B C D) =
  sel p k 0 *m mx k k A *m (sel p k 0)^T + sel p k 0 *m mx k q B *m (sel p q k)^T
  + sel p q k *m mx q k C *m (sel p k 0)^T + sel p q k *m mx q q D *m (sel p q k)^T.
Proof.
move=> e; have hk : (0 + k <= p)%N by rewrite add0n -e leq_addr.
have hq : (k + q <= p)%N by rewrite e.
rewrite -[LHS]mul1mx -[LHS]mulmx1 -(sel_split e) mulmxDr !mulmxDl.
rewrite -!mulmxA ![_ *m (mx p p _ *m _)]mulmxA !selT //.
rewrite ![mx _ p _ *m (_ *m _)]mulmxA !mx_selR //.
rewrite !mulmxA addrACA -!addrA; congr (_ + _); last first.
  congr (_ + (_ + _)).
  - by congr (_ *m _ *m _); apply/matrixP => i j; rewrite !mxE /block !add0n ltn_ord ltnNge leq_addr /= addKn.
  - by congr (_ *m _ *m _); apply/matrixP => i j; rewrite !mxE /block !add0n ltnNge leq_addr /= addKn ltn_ord.
  by congr (_ *m _ *m _); apply/matrixP => i j; rewrite !mxE /block !ltnNge !leq_addr /= !addKn.
by congr (_ *m _ *m _); apply/matrixP => i j; rewrite !mxE /block !add0n !ltn_ord.
Qed.

(** ** Quadratic forms *)
Lemma quad_congr p q (A : 'M[R]_p) (W : 'M[R]_(p, q)) x : quad (W^T *m A *m W) x = quad A (W *m x).
Proof. by rewrite /quad trmx_mul !mulmxA. Qed.
Lemma psd_congr p q (A : 'M[R]_p) (W : 'M[R]_(p, q)) : psd A -> psd (W^T *m A *m W).
Proof. by move=> [s h]; split=> [|x]; [rewrite !trmx_mul trmxK s mulmxA|rewrite quad_congr]. Qed.
Lemma psd_scale p (A : 'M[R]_p) a : Rlt 0 a -> psd A -> psd (a *: A).
Proof.
move=> a0 [s h]; split=> [|x]; first by rewrite linearZ /= s.
by rewrite quadZ; apply: Rmult_le_pos => //; apply: Rlt_le.
Qed.
Lemma psd_sum p (s : seq nat) (a : nat -> R) (A : nat -> 'M[R]_p) :
  (forall k, k \in s -> Rlt 0 (a k)) -> (forall k, k \in s -> psd (A k)) -> psd (\sum_(k <- s) a k *: A k).
Proof.
elim: s => [|k s ih] ha hA.
  rewrite big_nil; split=> [|x]; first by rewrite trmx0.
  by rewrite /quad mulmx0 mul0mx mxE; apply: Rle_refl.
have [s0 h0] := psd_scale (ha k (mem_head _ _)) (hA k (mem_head _ _)).
have [] := ih (fun j js => ha j (@mem_behead _ (k :: s) j js)) (fun j js => hA j (@mem_behead _ (k :: s) j js)).
move=> s1 h1; rewrite big_cons; split=> [|x]; first by rewrite linearD /= s0 s1.
by rewrite quadD; have := h0 x; have := h1 x; toR; lra.
Qed.
Lemma psd_sum0 p (s : seq nat) (a : nat -> R) (A : nat -> 'M[R]_p) x :
  (forall k, k \in s -> Rlt 0 (a k)) -> (forall k, k \in s -> psd (A k)) ->
  quad (\sum_(k <- s) a k *: A k) x = 0 -> forall k, k \in s -> A k *m x = 0.
Proof.
elim: s => [|k s ih] ha hA //.
have ha' := fun j (js : j \in s) => ha j (@mem_behead _ (k :: s) j js).
have hA' := fun j (js : j \in s) => hA j (@mem_behead _ (k :: s) j js).
have [_ h1] := psd_sum ha' hA'; have pk := hA k (mem_head _ _); have [_ h0] := pk.
have ak := ha k (mem_head _ _).
rewrite big_cons quadD quadZ => e.
have g0 : Rle 0 (a k * quad (A k) x) by apply: Rmult_le_pos; [apply: Rlt_le|].
have e1 : quad (\sum_(j <- s) a j *: A j) x = 0 by have := h1 x; move: e g0; toR; lra.
have e0 : a k * quad (A k) x = 0 by move: e; rewrite e1 addr0.
have q0 : quad (A k) x = 0.
  move/eqP: e0; rewrite mulf_eq0 => /orP[/eqP z|/eqP //].
  by move: ak; rewrite z => /Rlt_irrefl.
move=> j; rewrite in_cons => /orP[/eqP -> | js]; [exact: psd_kernel|exact: ih].
Qed.

(** ** Counting the positive eigenvalues *)
Lemma count_prefix (P : pred nat) q : (forall i j, (i <= j)%N -> (j < q)%N -> P j -> P i) ->
  (count P (iota 0 q) <= q)%N /\ forall i, (i < q)%N -> P i = (i < count P (iota 0 q))%N.
Proof.
move=> h; split; first by rewrite -[X in (_ <= X)%N](size_iota 0 q) count_size.
elim: q h => [|q ih] h i // iq; rewrite -(addn1 q) iotaD add0n count_cat /= addn0.
have h' : forall a b, (a <= b)%N -> (b < q)%N -> P b -> P a by move=> a b ab bq; apply: h => //; exact: ltnW.
case pq : (P q).
  have al : all P (iota 0 q).
    by apply/allP => j; rewrite mem_iota add0n => /andP[_ jq]; apply: (h j q) => //; exact: ltnW.
  move: al; rewrite all_count size_iota => /eqP ->; rewrite addn1 iq.
  by apply: (h i q).
rewrite addn0; move: iq; rewrite ltnS leq_eqVlt => /orP[/eqP ->|iq]; last exact: ih.
rewrite pq; apply/esym/negbTE; rewrite -leqNgt -{2}(size_iota 0 q); exact: count_size.
Qed.

Section Eig.
Variable eigh : nat -> mat -> (nat -> R) * mat.
Hypothesis ex : exact_eigh eigh.
Variables (q : nat) (A : mat).
Hypothesis pA : psd (mx q q A).
Let D := (eigh q A).1.
Let U := mx q q (eigh q A).2.
Let r := positive 0 q D.

Lemma eig_sym : symmetric q A.
Proof. by have [s _] := pA; apply/mx_ext; rewrite -{1}s; apply/matrixP => i j; rewrite !mxE. Qed.

Lemma eig_orth : U^T *m U = 1%:M.
Proof.
have [o _ _] := ex eig_sym; apply/matrixP => i j; rewrite !mxE -(inj_eq val_inj) /=.
have e := o i j (ltn_ord i) (ltn_ord j).
 transitivity (\sum_(a < q) (eigh q A).2 a i * (eigh q A).2 a j).
  by apply: eq_bigr => a _; rewrite !mxE.
by rewrite e; case: eqP.
Qed.
Lemma eig_orth' : U *m U^T = 1%:M.
Proof. by apply: mulmx1C; exact: eig_orth. Qed.

Lemma eig_diag : U^T *m mx q q A *m U = mx q q (diag D).
Proof.
have [_ e _] := ex eig_sym.
have -> : mx q q A = U *m mx q q (diag D) *m U^T.
  apply/matrixP => i j; rewrite mxE e //; rewrite !mxE; apply: eq_bigr => k _.
  rewrite !mxE; congr (_ * _); rewrite (bigD1 k) //= !mxE /diag eqxx big1 ?addr0 // => a na.
  by rewrite !mxE (inj_eq val_inj) (negbTE na) mulr0.
by rewrite !mulmxA eig_orth mul1mx -mulmxA eig_orth mulmx1.
Qed.

Lemma eig_ge0 i : (i < q)%N -> Rle 0 (D i).
Proof.
move=> iq; have [_ h] := psd_congr U pA; have := h (delta_mx (Ordinal iq) 0).
by rewrite quad_delta eig_diag mxE /diag eqxx.
Qed.

Lemma positive_spec : (r <= q)%N /\ forall i, (i < q)%N -> (if (i < r)%N then Rlt 0 (D i) else D i = 0).
Proof.
have [_ _ dec] := ex eig_sym.
have [|le h] := @count_prefix (fun i => if Rlt_dec (D 0%N * 0) (D i) then true else false) q.
  move=> i j ij jq; case: Rlt_dec => // hj _; case: Rlt_dec => // ni; case: ni.
  by apply: Rlt_le_trans hj _; exact: dec.
split=> // i iq; rewrite /r /positive -h //; rewrite mulr0; case: Rlt_dec => // n.
by apply: Rle_antisym; [exact: Rnot_lt_le|exact: eig_ge0].
Qed.
End Eig.
