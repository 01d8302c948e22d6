(** Proofs for IdentModel. *)
From mathcomp Require Import all_ssreflect all_algebra.
From Verif Require Import IdentModel IdentSpec.
Set Implicit Arguments. Unset Strict Implicit. Unset Printing Implicit Defensive.
Import Order.TTheory GRing.Theory Num.Theory.
Local Open Scope ring_scope.

Section Order.
Variable n : nat.
Implicit Types K D : seq 'I_n.

Lemma leT_total : total (fun i j : 'I_n => (i <= j)%N).
Proof. by move=> i j; exact: leq_total. Qed.

Lemma sorted_idx_mem K : sorted_idx K =i K.
Proof. by move=> i; rewrite /sorted_idx mem_sort. Qed.

Lemma sorted_idx_lt K : uniq K -> sorted (fun i j : 'I_n => (i < j)%N) (sorted_idx K).
Proof.
move=> U.
have U2: uniq (sorted_idx K) by rewrite /sorted_idx sort_uniq.
have S2: sorted (fun i j : 'I_n => (i <= j)%N) (sorted_idx K) by apply: sort_sorted; exact: leT_total.
move: (sorted_idx K) U2 S2 => l U2 S2.
have: sorted ltn (map val l).
  rewrite ltn_sorted_uniq_leq map_inj_uniq ?U2 //=; last exact: val_inj.
  by rewrite sorted_map.
by rewrite sorted_map.
Qed.

Lemma others_mem D i : (i \in others D) = (i \notin D).
Proof. by rewrite mem_filter mem_enum andbT. Qed.
Lemma others_uniq D : uniq (others D).
Proof. by rewrite filter_uniq ?enum_uniq. Qed.

Lemma sorted_idx_id K : sorted (fun i j : 'I_n => (i <= j)%N) K -> sorted_idx K = K.
Proof.
move=> S; rewrite /sorted_idx; apply: sorted_sort => // i j k; exact: leq_trans.
Qed.
Lemma enum_sorted_idx : sorted (fun i j : 'I_n => (i <= j)%N) (enum 'I_n).
Proof.
have: sorted leq (map val (enum 'I_n)) by rewrite val_enum_ord; exact: iota_sorted.
by rewrite sorted_map.
Qed.
Lemma others_sorted_idx D : sorted_idx (others D) = others D.
Proof.
apply: sorted_idx_id; apply: sorted_filter; last exact: enum_sorted_idx.
by move=> i j k; exact: leq_trans.
Qed.

Lemma splits_sorted K D : uniq K -> uniq D -> (forall i, (i \in K) = (i \notin D)) -> splits (sorted_idx K) (sorted_idx D).
Proof.
move=> uK uD H; split; first exact: sorted_idx_lt. split; first exact: sorted_idx_lt.
by move=> i; rewrite !sorted_idx_mem H; case: (i \in D).
Qed.
End Order.

Section Rank.
Variable F : realFieldType.
Variable n : nat.
Implicit Types A : 'M[F]_n.
Implicit Types K D : seq 'I_n.

Definition rows A K : 'M[F]_(size K, n) := \matrix_(i, j) A (tnth (in_tuple K) i) j.

Lemma row_rows A K i : row i (rows A K) = row (tnth (in_tuple K) i) A.
Proof. by apply/rowP=> j; rewrite !mxE. Qed.

Lemma rows_sub A K K' : {subset K <= K'} -> (rows A K <= rows A K')%MS.
Proof.
move=> S; apply/row_subP=> i; rewrite row_rows.
have M: tnth (in_tuple K) i \in K' by apply: S; exact: mem_tnth.
have L: (index (tnth (in_tuple K) i) K' < size K')%N by rewrite index_mem.
have ->: row (tnth (in_tuple K) i) A = row (Ordinal L) (rows A K').
  rewrite row_rows; congr (row _ A).
  by rewrite [in RHS](tnth_nth (tnth (in_tuple K) i)) /= nth_index.
exact: row_sub.
Qed.

Lemma rows_rank A K K' : K =i K' -> \rank (rows A K) = \rank (rows A K').
Proof.
by move=> E; apply/eqmx_rank/andP; split; apply: rows_sub => i; rewrite E.
Qed.

Lemma rows_le A K : (rows A K <= A)%MS.
Proof. by apply/row_subP=> i; rewrite row_rows row_sub. Qed.

Lemma cols_tr A K : A^T = A -> (cols A K)^T = rows A K.
Proof. by move=> S; apply/matrixP=> i j; rewrite !mxE -[A in LHS]S mxE. Qed.

(** A symmetric matrix whose rows [K] span all rows. *)
Lemma spanning A K : \rank (rows A K) = \rank A -> exists B : 'M[F]_(n, size K), A = B *m rows A K.
Proof.
move=> R; have: (A <= rows A K)%MS.
  by rewrite -(geq_leqif (mxrank_leqif_sup (rows_le A K))) R.
by move/submxP=> [B E]; exists B.
Qed.

(** The vector that is [u] on [K] and zero elsewhere. *)
Definition spread K (u : 'cV[F]_(size K)) : 'cV[F]_n :=
  \col_i \sum_(j < size K | tnth (in_tuple K) j == i) u j 0.

Lemma spread_zero K u i : i \notin K -> spread (K:=K) u i 0 = 0.
Proof.
move=> N; rewrite mxE big_pred0 // => j; apply/negbTE/eqP=> E.
by move: N; rewrite -E mem_tnth.
Qed.

Lemma cols_spread A K u : A *m spread (K:=K) u = cols A K *m u.
Proof.
apply/matrixP=> i k; rewrite !mxE ord1.
under eq_bigr do rewrite mxE mulr_sumr.
rewrite (exchange_big_dep xpredT) //=; apply: eq_bigr=> j _.
by rewrite (big_pred1 (tnth (in_tuple K) j)) ?mxE // => l; rewrite eq_sym.
Qed.

Lemma spread_of K (v : 'cV[F]_n) : uniq K -> (forall i, i \notin K -> v i 0 = 0) ->
  v = spread (K:=K) (\col_j v (tnth (in_tuple K) j) 0).
Proof.
move=> U Z; apply/matrixP=> i k; rewrite ord1 mxE.
case: (boolP (i \in K)) => M; last first.
  rewrite Z // big_pred0 // => j; apply/negbTE/eqP=> E; by move: M; rewrite -E mem_tnth.
have L: (index i K < size K)%N by rewrite index_mem.
rewrite (big_pred1 (Ordinal L)) ?mxE.
  by rewrite (tnth_nth i) /= nth_index.
move=> j; rewrite (tnth_nth i) /=; apply/eqP/eqP=> [E|->].
  by apply: val_inj => /=; rewrite -E index_uniq.
by rewrite /= nth_index.
Qed.

Lemma symmetric_sub_unit A K : A^T = A -> uniq K -> \rank (rows A K) = \rank A -> size K = \rank A -> sub A K \in unitmx.
Proof.
move=> S U R Z; case: (spanning R) => B E.
have C: cols A K = B *m sub A K.
  apply/matrixP=> i j; rewrite mxE [in LHS]E !mxE; apply: eq_bigr=> l _; by rewrite !mxE.
have R1: \rank (cols A K) = size K by rewrite -mxrank_tr (cols_tr _ S) R.
rewrite -row_free_unit /row_free eqn_leq rank_leq_row /=.
rewrite -[X in (X <= _)%N]R1 C; exact: mxrankM_maxr.
Qed.

Lemma regular_of_unit A K D : uniq K -> (forall i, (i \in K) = (i \notin D)) -> sub A K \in unitmx -> regular_system A D.
Proof.
move=> U H I v Z O.
have E: v = spread (K:=K) (\col_j v (tnth (in_tuple K) j) 0).
  by apply: spread_of => // i N; apply: Z; move: N; rewrite H negbK.
set u := \col_j _ in E.
have: sub A K *m u = 0.
  apply/matrixP=> i k; rewrite ord1 [in RHS]mxE.
  have N: tnth (in_tuple K) i \notin D by rewrite -H mem_tnth.
  rewrite -(O _ N) [in RHS]E cols_spread !mxE; apply: eq_bigr=> j _; by rewrite !mxE.
move/(congr1 (mulmx (invmx (sub A K)))); rewrite mulmxA mulVmx // mul1mx mulmx0 => Z2.
rewrite E Z2; apply/matrixP=> i k; rewrite !mxE big1 // => j _; by rewrite mxE.
Qed.

Lemma nothing_lost_of A K D : A^T = A -> (forall i, (i \in K) = (i \notin D)) -> \rank (rows A K) = \rank A -> nothing_lost A D.
Proof.
move=> S H R v; case: (spanning R) => B E.
exists (spread (K:=K) (B^T *m v)); split.
  by move=> i M; apply: spread_zero; rewrite H M.
rewrite cols_spread mulmxA; congr (_ *m _).
by rewrite -[RHS]S [in RHS]E trmx_mul -(cols_tr _ S) trmxK.
Qed.

(** Scaling rows and columns. *)
Definition dscale (d : 'I_n -> F) A : 'M[F]_n := \matrix_(i, j) (d i * A i j * d j).

Lemma dscale_mul d A v : dscale d A *m v = \col_i (d i * (A *m (\col_j (d j * v j 0))) i 0).
Proof.
apply/matrixP=> i k; rewrite ord1 !mxE mulr_sumr; apply: eq_bigr=> j _.
by rewrite !mxE !mulrA.
Qed.

Lemma dscale_tr d A : A^T = A -> (dscale d A)^T = dscale d A.
Proof. by move=> S; apply/matrixP=> i j; rewrite !mxE -[A in LHS]S mxE mulrC mulrA [d i * _]mulrC [LHS]mulrC !mulrA. Qed.

Lemma dscale_regular d A D : (forall i, d i != 0) -> regular_system (dscale d A) D -> regular_system A D.
Proof.
move=> N R v Z O.
have E: \col_i ((d i)^-1 * v i 0) = 0 :> 'cV[F]_n.
  apply: R.
    by move=> i M; rewrite mxE Z // mulr0.
  move=> i M; rewrite dscale_mul mxE.
  have ->: \col_j (d j * (\col_i0 ((d i0)^-1 * v i0 0) : 'cV[F]_n) j 0) = v.
    by apply/matrixP=> j k; rewrite ord1 !mxE mulrA divff // mul1r.
  by rewrite O // mulr0.
apply/matrixP=> i k; rewrite ord1 [in RHS]mxE.
have: (\col_i ((d i)^-1 * v i 0) : 'cV[F]_n) i 0 = 0 by rewrite E mxE.
by rewrite mxE => /eqP; rewrite mulf_eq0 invr_eq0 (negbTE (N i)) /= => /eqP.
Qed.

Lemma dscale_nothing d A D : (forall i, d i != 0) -> nothing_lost (dscale d A) D -> nothing_lost A D.
Proof.
move=> N L v.
case: (L (\col_i ((d i)^-1 * v i 0))) => w [Z E].
exists (\col_i (d i * w i 0)); split.
  by move=> i M; rewrite mxE Z // mulr0.
apply/matrixP=> i k; rewrite ord1.
move/matrixP/(_ i 0): E; rewrite !dscale_mul [LHS]mxE [RHS]mxE.
have ->: \col_j (d j * (\col_i0 ((d i0)^-1 * v i0 0) : 'cV[F]_n) j 0) = v.
  by apply/matrixP=> j l; rewrite ord1 !mxE mulrA divff // mul1r.
by move/(mulfI (N i)).
Qed.

Lemma dscale_rank d A : (forall i, d i != 0) -> \rank (dscale d A) = \rank A.
Proof.
move=> N.
have E: dscale d A = diag_mx (\row_i d i) *m A *m diag_mx (\row_i d i).
  apply/matrixP=> i j; rewrite mul_mx_diag mxE mul_diag_mx !mxE //.
have U: diag_mx (\row_i d i) \in unitmx.
  rewrite unitmxE det_diag unitfE; by apply/prodf_neq0=> i _; rewrite mxE N.
rewrite E mxrankMfree ?row_free_unit //.
by rewrite -mxrank_tr trmx_mul mxrankMfree ?mxrank_tr // row_free_unit unitmx_tr.
Qed.
End Rank.

Section Loop.
Variable F : realFieldType.
Variable n : nat.
Variable fine : forall k, 'M[F]_k -> bool.
Variable svds : forall k, 'M[F]_k -> option (seq F).
Variable splu : forall k, 'M[F]_k -> option ('M[F]_k * seq nat).
Hypothesis SV : svds_like svds.
Hypothesis LU : splu_like splu.

Lemma argmax_ge (f : 'I_n -> F) r i0 j : j \in i0 :: r -> f j <= f (argmax f i0 r).
Proof.
rewrite /argmax; elim: r i0 => [|k r IH] i0; first by rewrite inE => /eqP ->.
have IHk : forall i1, f i1 <= f (foldl (fun b i => if f b < f i then i else b) i1 r).
  by move=> i1; elim: r i1 {IH} => [|a r IH] i1 //=; case: ifP => L; [apply: (le_trans (ltW L)) |]; exact: IH.
rewrite !inE /=; case: ifP => L.
  case/or3P => [/eqP ->|/eqP ->|M].
  - by apply: (le_trans (ltW L)); exact: IHk.
  - exact: IHk.
  - by apply: IH; rewrite inE M orbT.
case/or3P => [/eqP ->|/eqP ->|M].
- exact: IHk.
- have G: f k <= f i0 by rewrite leNgt L.
  by apply: (le_trans G); exact: IHk.
- by apply: IH; rewrite inE M orbT.
Qed.

Lemma null_vector_ok lu k (M : 'M[F]_k) wk : null_vector svds splu lu M = Some (Some wk) ->
  (2 <= k)%N /\ size wk = k /\ has (fun x => x != 0) wk.
Proof.
rewrite /null_vector; case: lu; last first.
  case=> E; have := SV M; case: ltnP => L; first by rewrite E.
  by rewrite E => -[? ?]; split.
case E: (splu M) => [[U pc]|] // [].
have P := (LU M).2 _ _ E.
have := SV U; case: ltnP => L; first by move=> ->.
case: (svds U) => [v|] //= [Z /hasP [x X Nx]] [<-]; split=> //.
rewrite size_map size_iota; split=> //.
apply/hasP; exists x => //; apply/mapP.
have I: (index x v < k)%N by rewrite -Z index_mem.
have I2: index x v \in pc by rewrite (perm_mem P) mem_iota.
exists (index (index x v) pc).
  by rewrite mem_iota /= add0n; move: (perm_size P); rewrite size_iota => <-; rewrite index_mem.
by rewrite nth_index // nth_index.
Qed.

Lemma dropped_new (K : seq 'I_n) (wk : seq F) i0 r : enum 'I_n = i0 :: r -> uniq K -> size wk = size K -> has (fun x => x != 0) wk ->
  argmax (fun i => `|embed K wk i|) i0 r \in K.
Proof.
move=> E U Z /hasP [x X Nx].
apply/negPn/negP => N.
have G: forall j, `|embed K wk j| <= 0.
  move=> j; have := @argmax_ge (fun i => `|embed K wk i|) r i0 j.
  rewrite -E mem_enum => /(_ isT); by rewrite {2}/embed (negbTE N) normr0.
have I: (index x wk < size K)%N by rewrite -Z index_mem.
have i0' : 'I_n := i0.
have := G (nth i0 K (index x wk)).
rewrite /embed mem_nth // index_uniq // nth_index // normr_le0 => /eqP X0.
by move: Nx; rewrite X0 eqxx.
Qed.

(** What the loop returns. *)
Definition loop_result lu (A : 'M[F]_n) (res : result n) : Prop :=
  match res with
  | Ret K dropped => exists D, sorted_idx K = K /\ dropped = sorted_idx D /\ uniq K /\ uniq D /\
      (forall i, (i \in K) = (i \notin D)) /\
      (fine (sub A K) \/ null_vector svds splu lu (sub A K) = Some None)
  | Raised => lu
  | Spins => False
  end.

Lemma drop_loop_ok lu A fuel K D : (size K < fuel)%N -> uniq K -> uniq D -> (forall i, (i \in K) = (i \notin D)) -> sorted_idx K = K ->
  loop_result lu A (drop_loop fine svds splu lu A fuel K D).
Proof.
elim: fuel K D => [|fuel IH] K D // L uK uD H sK /=.
case E: (null_vector svds splu lu (sub A K)) => [[wk|]|] /=; first last.
- by move: E; rewrite /null_vector; case: (lu).
- by rewrite sK; exists D; do !split=> //; right.
case: (null_vector_ok E) => Z2 [Zw N].
case En: (enum 'I_n) => [|i0 r].
  have: size K = 0%N.
    case: K {L uK H E Z2 Zw sK} => // a l; have := mem_enum 'I_n a; by rewrite En.
  by move=> Z; rewrite Z in Z2.
have M := dropped_new En uK Zw N.
set c := argmax _ _ _ in M *.
have uD': uniq (rcons D c) by rewrite rcons_uniq uD -H M.
have H': forall i, (i \in others (rcons D c)) = (i \notin rcons D c) by move=> i; rewrite others_mem.
case: ifP => Fi.
  rewrite others_sorted_idx; exists (rcons D c); do !split=> //; [exact: others_sorted_idx | exact: others_uniq |].
  by left.
apply: IH => //; [ | exact: others_uniq | exact: others_sorted_idx].
have S: {subset others (rcons D c) <= rem c K}.
  move=> i; rewrite others_mem mem_rcons inE negb_or => /andP [ic iD].
  by rewrite (mem_rem_uniq _ uK) inE ic /= H.
have := uniq_leq_size (others_uniq _) S; rewrite size_rem // => L2.
apply: (leq_ltn_trans L2); rewrite -ltnS prednK //.
by apply: (leq_trans _ Z2).
Qed.
End Loop.
