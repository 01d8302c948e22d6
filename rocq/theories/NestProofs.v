(** Lemmas about the identification of dependent columns. *)
From mathcomp Require Import all_ssreflect all_algebra.
From Verif Require Import NestModel NestSpec.
Set Implicit Arguments.
Unset Strict Implicit.
Unset Printing Implicit Defensive.
Import GRing.Theory Num.Theory.
Local Open Scope ring_scope.

Section Columns.
Variables (F : realFieldType) (n : nat).
Implicit Types (X : seq 'cV[F]_n).

Lemma kept_perm (nid : seq nat) (m r : nat) :
  perm_eq nid (iota 0 m) -> perm_eq [seq i <- iota 0 m | i \notin drop r nid] (take r nid).
Proof.
move=> P; have U : uniq nid by rewrite (perm_uniq P) iota_uniq.
apply: uniq_perm; first by rewrite filter_uniq // iota_uniq.
  by rewrite take_uniq.
move=> i; rewrite mem_filter -(perm_mem P).
move: U; rewrite -{1 3}(cat_take_drop r nid) cat_uniq mem_cat => /and3P[_ /hasPn H _].
case T : (i \in take r nid) => /=.
  by rewrite andbT; apply/negP => D; move: (H _ D); rewrite /= T.
by rewrite andNb.
Qed.

Lemma without_perm X (nid : seq nat) (r : nat) :
  perm_eq nid (iota 0 (size X)) -> perm_eq (without X (drop r nid)) (at_positions X (take r nid)).
Proof. by move=> P; apply: perm_map; apply: kept_perm. Qed.

Lemma span_perm X Y : perm_eq X Y -> <<X>>%VS = <<Y>>%VS.
Proof. by move=> P; apply: eq_span; apply: perm_mem. Qed.

Definition down (k : nat) (Q : 'M[F]_n) (x : 'cV[F]_n) : 'cV[F]_n := lower k (Q^T *m x).
Lemma down_linear k Q : linear (down k Q).
Proof.
move=> a x y; apply/colP => i; rewrite /down /lower mulmxDr -scalemxAr !mxE.
by case: ifP; rewrite ?mulr0 ?addr0.
Qed.
Canonical down_lin k Q := Linear (down_linear k Q).

Lemma nth_down k Q X i : nth 0 [seq down k Q x | x <- X] i = down k Q (nth 0 X i).
Proof.
case: (ltnP i (size X)) => H; first by rewrite (nth_map 0).
by rewrite !nth_default ?size_map // linear0.
Qed.
Lemma at_down k Q X idx :
  at_positions [seq down k Q x | x <- X] idx = [seq down k Q x | x <- at_positions X idx].
Proof. by rewrite /at_positions -map_comp; apply: eq_map => i; rewrite nth_down. Qed.

Lemma down_zero X Q x : qr_ok X Q -> x \in X -> down (size X) Q x = 0.
Proof.
case=> _ H Hx; apply/colP => i; rewrite /down /lower !mxE; case: ltnP => // Hi.
by have := H _ Hx _ Hi; rewrite !mxE.
Qed.

Lemma span_down k Q X : (linfun (down k Q) @: <<X>> = <<[seq down k Q x | x <- X]>>)%VS.
Proof. by rewrite limg_span; congr (<<_>>%VS); apply: eq_map => x; rewrite lfunE. Qed.

(** Columns that stay independent below the rows of X1 are independent of X1. *)
Lemma independent X1 Q K :
  qr_ok X1 Q -> free X1 -> free [seq down (size X1) Q x | x <- K] -> free (X1 ++ K).
Proof.
move=> HQ F1 F2; rewrite /free eqn_leq dim_span size_cat /=.
rewrite -(limg_ker_dim (linfun (down (size X1) Q)) <<X1 ++ K>>).
apply: leq_add.
  rewrite -[X in (X <= _)%N](eqP F1); apply: dimvS; rewrite subv_cap span_cat addvSl /=.
  apply/span_subvP => x Hx; rewrite memv_ker lfunE; apply/eqP.
  exact: (down_zero HQ Hx).
rewrite -(size_map (down (size X1) Q) K) -(eqP F2); apply: dimvS.
rewrite span_down map_cat span_cat; exact: addvSr.
Qed.

Lemma ker_dim X Q : qr_ok X Q -> (\dim (lker (linfun (down (size X) Q))) <= size X)%N.
Proof.
case=> HQ _.
have HQ' : Q *m Q^T = 1%:M by apply: mulmx1C.
pose I := [seq i <- enum 'I_n | (val i < size X)%N].
pose B : seq 'cV[F]_n := [seq Q *m delta_mx i 0 | i <- I].
have SB : (size B <= size X)%N.
  rewrite size_map -(size_map val) -[X in (_ <= X)%N](size_iota 0); apply: uniq_leq_size.
    by rewrite (map_inj_uniq val_inj) filter_uniq // enum_uniq.
  move=> j /mapP[i]; rewrite mem_filter => /andP[Hi _] ->; by rewrite mem_iota.
apply: leq_trans SB; apply: leq_trans (dim_span B); apply: dimvS.
apply/subvP => x; rewrite memv_ker lfunE /= => /eqP Z.
have -> : x = \sum_i (Q^T *m x) i 0 *: (Q *m delta_mx i 0).
  rewrite -{1}[x]mul1mx -HQ' -mulmxA {1}[Q^T *m x]matrix_sum_delta mulmx_sumr; apply: eq_bigr => i _.
  by rewrite big_ord1 -scalemxAr.
apply: memv_suml => i _.
case: (ltnP i (size X)) => Hi.
  apply: memvZ; apply: memv_span; apply/mapP; exists i => //.
  by rewrite mem_filter Hi mem_enum.
have : down (size X) Q x i 0 = 0 by rewrite Z mxE.
rewrite /down /lower mxE ltnNge Hi /= => ->; by rewrite scale0r mem0v.
Qed.

(** Columns that span everything below the rows of X1 span everything together with X1. *)
Lemma complete X1 Q X2 K :
  qr_ok X1 Q -> free X1 -> {subset K <= X2} -> free [seq down (size X1) Q x | x <- K] ->
  <<[seq down (size X1) Q x | x <- K]>>%VS = <<[seq down (size X1) Q x | x <- X2]>>%VS ->
  <<X1 ++ K>>%VS = <<X1 ++ X2>>%VS.
Proof.
move=> HQ F1 S F2 E; apply/eqP; rewrite eqEdim; apply/andP; split.
  apply: sub_span => x; rewrite !mem_cat => /orP[-> // | /S ->]; by rewrite orbT.
have F3 := independent HQ F1 F2.
rewrite (eqP F3) size_cat -(limg_ker_dim (linfun (down (size X1) Q)) <<X1 ++ X2>>).
apply: leq_add.
  apply: leq_trans (ker_dim HQ); apply: dimvS; exact: capvSr.
rewrite -(size_map (down (size X1) Q) K) -(eqP F2); apply: dimvS.
rewrite E span_down map_cat span_cat; rewrite subv_add subvv andbT.
apply/span_subvP => y /mapP[x Hx ->]; rewrite (down_zero HQ Hx); exact: mem0v.
Qed.

Lemma lower_rank_le (R2 : nat -> nat -> F) r0 th r : (lower_rank R2 r0 th r <= r)%N.
Proof. by elim: r => //= r IH; case: ifP => // _; apply: leq_trans IH _. Qed.

Lemma free_take r' r (X : seq 'cV[F]_n) nid :
  (r' <= r)%N -> free (at_positions X (take r nid)) -> free (at_positions X (take r' nid)).
Proof.
move=> L; rewrite -(take_take L nid) /at_positions [map _ (take r' _)]map_take.
rewrite -{1}(cat_take_drop r' (map _ (take r nid))) cat_free => /and3P[] //.
Qed.

Lemma block_last (R2 : nat -> nat -> F) r : block_mean R2 r.+1 r = `|R2 r r|.
Proof. by rewrite /block_mean subSnn /= !big_seq1 leqnn exp1n divr1. Qed.
End Columns.
