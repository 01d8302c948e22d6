(** Lemmas for BlockModel. *)
From mathcomp Require Import all_ssreflect all_algebra.
From Verif Require Import BlockModel BlockSpec.
Set Implicit Arguments.
Unset Strict Implicit.
Unset Printing Implicit Defensive.
Import GRing.Theory Num.Theory Order.TTheory.
Local Open Scope ring_scope.

Section Proofs.
Variable F : realFieldType.
Variable solve : forall n, 'M[F]_n -> 'cV[F]_n -> 'cV[F]_n.
Hypothesis Hsolve : solve_ok solve.

Definition q n (V : 'M[F]_n) (d : 'cV[F]_n) : F := (d^T *m V *m d) 0 0.

Lemma factored_inv n (H L P : 'M[F]_n) : factored H L P ->
  H \in unitmx /\ invmx H = (invmx L *m P)^T *m (invmx L *m P).
Proof.
move=> [PP UL E]; have PP' : P^T *m P = 1%:M by exact: mulmx1C.
have EH : invmx L *m P *m H = L^T *m P.
  rewrite -[LHS]mulmx1 -PP'.
  have -> : invmx L *m P *m H *m (P^T *m P) = invmx L *m (P *m H *m P^T) *m P by rewrite !mulmxA.
  by rewrite -E !mulmxA mulVmx // mul1mx.
have X : (invmx L *m P)^T *m (invmx L *m P) *m H = 1%:M.
  rewrite -mulmxA EH trmx_mul trmx_inv.
  have -> : P^T *m invmx L^T *m (L^T *m P) = P^T *m (invmx L^T *m L^T) *m P by rewrite !mulmxA.
  by rewrite mulVmx ?unitmx_tr // mulmx1.
have U : H \in unitmx by have /mulmx1_unit [] := X.
split=> //; move: X; set A := _ *m (_ *m P); move=> X.
by rewrite -[RHS]mulmx1 -(mulmxV U) [RHS]mulmxA X mul1mx.
Qed.

Lemma solveE n (L : 'M[F]_n) b : L \in unitmx -> solve L b = invmx L *m b.
Proof. by move=> U; rewrite -{2}(Hsolve b U) mulmxA mulVmx // mul1mx. Qed.

Lemma sum_sq n (x : 'cV[F]_n) : \sum_i x i 0 ^+ 2 = (x^T *m x) 0 0.
Proof. by rewrite [RHS]mxE; apply: eq_bigr => i _; rewrite mxE expr2. Qed.

Lemma norm_q n (H L P : 'M[F]_n) d : factored H L P -> \sum_i (solve L (P *m d)) i 0 ^+ 2 = q (invmx H) d.
Proof.
move=> Fa; have [U ->] := factored_inv Fa; case: Fa => _ UL _.
by rewrite solveE // sum_sq /q mulmxA !trmx_mul !mulmxA.
Qed.

Lemma q_ge0 n (H L P : 'M[F]_n) d : factored H L P -> 0 <= q (invmx H) d.
Proof. by move=> Fa; rewrite -(norm_q d Fa) sumr_ge0 // => i _; rewrite sqr_ge0. Qed.

Lemma q_gt0 n (H L P : 'M[F]_n) d : factored H L P -> d != 0 -> 0 < q (invmx H) d.
Proof.
move=> Fa; rewrite lt_neqAle (q_ge0 d Fa) andbT; apply: contra => /eqP /esym.
have [U E] := factored_inv Fa; rewrite -(norm_q d Fa) => /eqP.
rewrite psumr_eq0 => [/allP Z|i _]; last by rewrite sqr_ge0.
case: (Fa) => PP UL _; have X0 : solve L (P *m d) = 0.
  apply/matrixP=> i j; rewrite (ord1 j) [RHS]mxE; apply/eqP; rewrite -sqrf_eq0.
  by apply: Z; rewrite mem_index_enum.
have : L *m solve L (P *m d) = P *m d by exact: Hsolve.
rewrite X0 mulmx0 => /esym PD; apply/eqP.
by rewrite -[LHS]mul1mx -(mulmx1C PP) -mulmxA PD mulmx0.
Qed.

Lemma q0 n (V : 'M[F]_n) : q V 0 = 0.
Proof. by rewrite /q mulmx0 mxE. Qed.

Lemma colNE n (D : 'M[F]_n) (j : 'I_n) : colN D j = col j D.
Proof. by apply/matrixP=> i k; rewrite !mxE valK. Qed.

Lemma trace_cols n (H D : 'M[F]_n) : trace_of H D = \sum_(j <- iota 0 n) q (invmx H) (colN D j).
Proof.
rewrite /trace_of mulmxA mxtrace_mulC mulmxA /mxtrace.
have -> : iota 0 n = index_iota 0 n by rewrite /index_iota subn0.
rewrite big_mkord; apply: eq_bigr => j _.
rewrite colNE /q; have -> : (col j D)^T = row j D^T by rewrite tr_col.
by rewrite -row_mul -!mulmxA -row_mul mulmxA !mxE; apply: eq_bigr => k _; rewrite !mxE.
Qed.

Lemma pow_sum_q n (H L P D : 'M[F]_n) cols : factored H L P ->
  pow_sum solve L P D cols = \sum_(j <- cols) q (invmx H) (colN D j).
Proof. by move=> Fa; apply: eq_bigr => j _; exact: norm_q. Qed.

Lemma sum_sub n (f : nat -> F) (cols : seq nat) : uniq cols -> all (fun j => j < n)%N cols ->
  (forall j, (j < n)%N -> j \notin cols -> f j = 0) -> \sum_(j <- iota 0 n) f j = \sum_(j <- cols) f j.
Proof.
move=> U A Z; rewrite (bigID (mem cols)) /= [X in _ + X]big1_seq ?addr0.
  rewrite -big_filter; apply: perm_big; apply: uniq_perm => //; first by rewrite filter_uniq ?iota_uniq.
  move=> j; rewrite mem_filter mem_iota /= add0n; case: (boolP (j \in cols)) => //= J.
  exact: (allP A).
by move=> j /andP[J]; rewrite mem_iota /= add0n => Hj; exact: Z.
Qed.

Lemma colN_zero n (D : 'M[F]_n) j : (forall i (k : 'I_n), val k = j -> D i k = 0) -> colN D j = 0.
Proof. by move=> Z; apply/matrixP=> i k; rewrite !mxE; case: insubP => // l _ E; exact: Z. Qed.

(** np.array_split *)
Lemma sumn_add (c : nat) (f : nat -> nat) s : sumn [seq (c + f i)%N | i <- s] = (size s * c + sumn [seq f i | i <- s])%N.
Proof. by elim: s => //= x s ->; rewrite mulSn addnACA. Qed.
Lemma count_below r k : (r <= k)%N -> count (fun i => i < r)%N (iota 0 k) = r.
Proof.
move=> /subnKC <-; rewrite iotaD count_cat add0n.
have -> : count (fun i => i < r)%N (iota 0 r) = r.
  by rewrite -[RHS](size_iota 0); apply/eqP; rewrite -all_count; apply/allP => i; rewrite mem_iota.
have -> : count (fun i => i < r)%N (iota r (k - r)) = 0%N; last by rewrite addn0.
by apply/eqP; rewrite -leqn0 leqNgt -has_count; apply/hasPn => i; rewrite mem_iota -leqNgt => /andP[].
Qed.
Lemma sumn_split len k : (0 < k)%N -> sumn [seq (len %/ k + (i < len %% k))%N | i <- iota 0 k] = len.
Proof.
move=> K; rewrite (sumn_add _ (fun i => nat_of_bool (i < len %% k)%N)) size_iota.
have lt : (len %% k <= k)%N by apply: ltnW; apply: ltn_pmod.
by rewrite sumn_count (count_below lt) mulnC -divn_eq.
Qed.
Lemma split_cover len k : (0 < k)%N -> flatten (array_split len k) = iota 0 len.
Proof. by move=> K; rewrite /array_split reshapeKr // size_iota sumn_split. Qed.

Lemma blocks_sum n (L P D : 'M[F]_n) cols k : (0 < k)%N ->
  \sum_(b <- [seq pow_sum solve L P D [seq nth 0%N cols i | i <- is_] | is_ <- array_split (size cols) k]) b
  = pow_sum solve L P D cols.
Proof.
move=> K; rewrite big_map /pow_sum -[in RHS](mkseq_nth 0%N cols) /mkseq -(split_cover _ K) big_map big_flatten /=.
by apply: eq_bigr => b _; rewrite big_map.
Qed.
End Proofs.
