(** Properties of BlockModel. *)
From mathcomp Require Import all_ssreflect all_algebra.
From Verif Require Import BlockModel BlockSpec BlockProofs BlockProofs2.
Set Implicit Arguments.
Unset Strict Implicit.
Unset Printing Implicit Defensive.
Import GRing.Theory Num.Theory Order.TTheory.
Local Open Scope ring_scope.

Section Props.
Variable F : realFieldType.
Variable solve : forall n, 'M[F]_n -> 'cV[F]_n -> 'cV[F]_n.
Hypothesis Hsolve : solve_ok solve.

(** Without clusters and for penalties other than null-space penalties, the value is the trace of V S, for any number
    of processes. *)
Theorem C135_trace n (H L P : 'M[F]_n) (t : lterm F n) n_c :
  factored H L P -> l_clust t = None -> l_null t = false -> own_columns t ->
  compute_B solve L P t n_c = One (trace_of H (l_D t)).
Proof. by move=> Fa N L0 O; apply: general_cols => //; rewrite /single_column L0. Qed.

(** The same for null-space penalties with entries other than a single one. *)
Theorem C135_wide n (H L P : 'M[F]_n) (t : lterm F n) n_c :
  factored H L P -> l_clust t = None -> own_columns t ->
  \sum_(j | 0 < \sum_i l_SJ t i j) \sum_i l_SJ t i j != 1 ->
  compute_B solve L P t n_c = One (trace_of H (l_D t)).
Proof.
move=> Fa N O S1; apply: general_cols => //; rewrite /single_column /col_sums big_map big_enum_cond /= (negPf S1).
exact: andbF.
Qed.

(** Null-space penalties of terms that start early enough, but are not the last columns. *)
Theorem C135_null n (H L P : 'M[F]_n) (t : lterm F n) (ni : 'I_(l_nc t)) n_c :
  factored H L P -> null_of ni -> l_clust t = None ->
  (l_start t + ni < 2 * l_nc t)%N ->
  ((l_start t + ni < l_nc t)%N -> (l_start t + ni + l_rep t * l_nc t < n)%N) ->
  compute_B solve L P t n_c = One (trace_of H (l_D t)).
Proof. by move=> Fa Hn Hc L2 L1; apply: (null_exact Hsolve Fa Hn Hc). Qed.

(** Null-space penalties of terms that start later: the value is always too small. *)
Theorem C135_late n (H L P : 'M[F]_n) (t : lterm F n) (ni : 'I_(l_nc t)) n_c :
  factored H L P -> null_of ni -> l_clust t = None -> (2 * l_nc t <= l_start t + ni)%N ->
  exists2 b, compute_B solve L P t n_c = One b & b < trace_of H (l_D t).
Proof. by move=> Fa Hn Hc L2; apply: (null_short Hsolve Fa Hn Hc). Qed.

(** Null-space penalties of terms with few columns before them and none after them: always an exception. *)
Theorem C135_last n (L P : 'M[F]_n) (t : lterm F n) (ni : 'I_(l_nc t)) n_c :
  null_of ni -> l_clust t = None -> (l_start t + ni < l_nc t)%N -> n = (l_start t + l_rep t * l_nc t)%N ->
  compute_B solve L P t n_c = IndexError.
Proof. by move=> Hn Hc L2 E; apply: (null_fails _ _ _ Hn Hc). Qed.

(** Effective degrees of freedom: lam tr(V S) is subtracted for every penalty. *)
Theorem C135_edf n (H L P : 'M[F]_n) n_c colsX (pens : seq (lterm F n * F)) :
  factored H L P ->
  (forall p, List.In p pens -> [/\ l_clust p.1 = None, l_null p.1 = false & own_columns p.1]) ->
  calculate_edf solve L P n_c colsX pens =
  Some (colsX - \sum_(p <- pens) l_lam p.1 * trace_of H (l_D p.1), [seq l_lam p.1 * trace_of H (l_D p.1) | p <- pens]).
Proof.
move=> Fa; elim: pens colsX => [|[t lg] pens IH] colsX G; first by rewrite big_nil subr0.
have [N L0 O] := G _ (or_introl (erefl _)); rewrite /= (C135_trace n_c Fa N L0 O) /= IH.
  by rewrite big_cons /= opprD addrA.
by move=> p Hp; apply: G; right.
Qed.

(** With clusters: the larger value is the trace if all levels of a cluster contribute like the one that is kept, and
    levels are numbered like series. *)
Theorem C138_exact n (H L P : 'M[F]_n) (t : lterm F n) members cl n_c :
  factored H L P -> own_columns t -> leading t -> l_clust t = Some cl -> representative H t id members cl ->
  exists lw, compute_B solve L P t n_c = Two lw (trace_of H (l_D t)) /\
    ((forall c w, c \in cl -> w \in c.2 -> w <= 1) -> lw <= trace_of H (l_D t)).
Proof.
move=> Fa O Le E R; eexists; split; first by rewrite (cluster_total _ _ Fa Le E) // (representative_total O R).
by rewrite -(representative_total O R); exact: (weights_total Hsolve _ Fa).
Qed.

(** The smaller value weights the trace of the level that is kept with the weights of the series. *)
Theorem C138_weights n (H L P : 'M[F]_n) (t : lterm F n) cl n_c :
  factored H L P -> leading t -> l_clust t = Some cl ->
  exists up, compute_B solve L P t n_c =
    Two (\sum_(c <- cl) (\sum_(w <- c.2) w) * trace_of H (level_root t c.1)) up.
Proof.
move=> Fa Le E; eexists; rewrite (cluster_total _ _ Fa Le E) //; congr Two.
by apply: eq_bigr => c _; rewrite mulr_suml.
Qed.

(** The number of processes does not change the result. *)
Theorem C138_processes n (H L P : 'M[F]_n) (t : lterm F n) n_c n_c' :
  factored H L P -> leading t -> l_clust t <> None -> compute_B solve L P t n_c = compute_B solve L P t n_c'.
Proof.
move=> Fa Le; case E: (l_clust t) => [cl|//] _.
by rewrite (cluster_total Hsolve n_c Fa Le E) (cluster_total Hsolve n_c' Fa Le E).
Qed.

(** Whatever the clusters, the value used stays below the derivative of log|S|, so that the update of lambda stays
    positive; the larger value is used if it does. *)
Theorem C138_below lgdetD lw up : exists v : F,
  [/\ choose lgdetD (Two lw up) = Some v, v < lgdetD, up < lgdetD -> v = up & lw <= up -> lw < lgdetD -> lw <= v <= up].
Proof.
have [v E Lv] := chosen_below lgdetD lw up; exists v; split=> //.
  by move=> U; move: E; rewrite /= U => -[].
move=> LU LL; move: E => /= -[<-].
have P10 k : (0 : F) <= k%:R / 10%:R by rewrite divr_ge0 // ler0n.
have S10 : (7%:R / 10%:R : F) + 3%:R / 10%:R = 1.
  by rewrite -mulrDl -natrD divff // pnatr_eq0.
have Sp (x : F) : x = x * (7%:R / 10%:R) + x * (3%:R / 10%:R) by rewrite -mulrDr S10 mulr1.
case: (up < lgdetD); first by rewrite LU lexx.
case: (_ * (7%:R / _) + _ < lgdetD).
  apply/andP; split.
    by rewrite {1}[lw]Sp ler_add2r ler_wpmul2r.
  by rewrite [X in _ <= X]Sp ler_add2l ler_wpmul2r.
case: (_ / 2%:R < lgdetD); last by rewrite LL lexx LU.
by rewrite ler_pdivl_mulr ?ltr0n // ler_pdivr_mulr ?ltr0n // !mulr_natr !mulr2n ler_add2r ler_add2l LU.
Qed.
End Props.

(** * Witnesses *)
Definition solve_inv (F : realFieldType) n (L : 'M[F]_n) (b : 'cV[F]_n) := invmx L *m b.
Lemma solve_inv_ok (F : realFieldType) : solve_ok (@solve_inv F).
Proof. by move=> n L b U; rewrite /solve_inv mulmxA mulmxV // mul1mx. Qed.
Lemma factored1 (F : realFieldType) n : @factored F n 1%:M 1%:M 1%:M.
Proof. by split; rewrite ?trmx1 ?mulmx1 // unitmx1. Qed.

(** A term with one column per level, after two other columns. *)
Definition t_late : lterm rat_realFieldType 3 := LTerm 2 (1%:M : 'M_1) 1 1 true 1 (\matrix_(i, j) ((i == j) && (j == 2%N :> nat))%:R) None.
Example t_late_null : @null_of _ _ t_late ord0.
Proof.
split=> //=; first by apply/matrixP => i j; rewrite !mxE (ord1 i) (ord1 j).
move=> i j; rewrite mxE; congr ((_ && _)%:R); apply/idP/existsP => [E|[k]]; last by rewrite (ord1 k).
by exists ord0.
Qed.
Theorem C135_null_refuted : exists n (H L P : 'M[rat]_n) (t : lterm rat_realFieldType n) (ni : 'I_(l_nc t)),
  [/\ factored H L P, null_of ni, l_clust t = None &
      forall solve, solve_ok solve -> forall n_c, compute_B solve L P t n_c <> One (trace_of H (l_D t))].
Proof.
exists 3%N, 1%:M, 1%:M, 1%:M, t_late, ord0; split=> //; [exact: factored1|exact: t_late_null|].
move=> sol Hs n_c; have [b -> Lb] := C135_late Hs n_c (factored1 _ _) t_late_null (erefl _) isT.
by move=> [E]; rewrite E ltxx in Lb.
Qed.

(** An intercept and two levels with two columns each; the penalty is on the first of the two. *)
Definition t_last : lterm rat_realFieldType 5 :=
  LTerm 0 (delta_mx 0 0 : 'M_2) 2 2 true 1 (\matrix_(i, j) ((i == j) && ((j == 0%N :> nat) || (j == 2%N :> nat)))%:R) None.
Example t_last_null : @null_of _ _ t_last ord0.
Proof.
split=> //= i j; rewrite mxE; congr ((_ && _)%:R); apply/idP/existsP => [/orP[]/eqP E|[k]].
- by exists (ord0 : 'I_2); rewrite E.
- by exists (lift ord0 ord0 : 'I_2); rewrite E.
by move: k => [[|[|k]] Hk] //= /eqP ->.
Qed.
(** [C135_null] covers it: there is a column after the term. *)
Example C135_null_case : compute_B (@solve_inv rat_realFieldType) 1%:M 1%:M t_last 1 = One (trace_of 1%:M (l_D t_last)).
Proof. exact (C135_null (@solve_inv_ok rat_realFieldType) 1 (factored1 _ _) t_last_null (erefl _) isT (fun _ => isT)). Qed.
Definition t_end : lterm rat_realFieldType 5 :=
  LTerm 1 (delta_mx 0 0 : 'M_2) 2 2 true 1 (\matrix_(i, j) ((i == j) && ((j == 1%N :> nat) || (j == 3%N :> nat)))%:R) None.
Example t_end_null : @null_of _ _ t_end ord0.
Proof.
split=> //= i j; rewrite mxE; congr ((_ && _)%:R); apply/idP/existsP => [/orP[]/eqP E|[k]].
- by exists (ord0 : 'I_2); rewrite E.
- by exists (lift ord0 ord0 : 'I_2); rewrite E.
by move: k => [[|[|k]] Hk] //= /eqP ->.
Qed.
Theorem C135_last_refuted : exists n (H L P : 'M[rat]_n) (t : lterm rat_realFieldType n) (ni : 'I_(l_nc t)),
  [/\ factored H L P, null_of ni, l_clust t = None &
      forall solve n_c, compute_B solve L P t n_c = IndexError].
Proof.
exists 5%N, 1%:M, 1%:M, 1%:M, t_end, ord0; split=> //; [exact: factored1|exact: t_end_null|].
by move=> sol n_c; apply: (C135_last _ _ _ _ t_end_null).
Qed.

(** A penalty that is no null-space penalty. *)
Definition t_plain : lterm rat_realFieldType 3 := LTerm 1 (1%:M : 'M_2) 1 2 false 5%:R (\matrix_(i, j) ((i == j) && (0 < j)%N)%:R) None.
Example t_plain_own : own_columns t_plain.
Proof. by move=> i j; rewrite mxE; move: j => [[|[|[|j]]] Hj] //= _; rewrite andbF. Qed.
Example C135_trace_case : compute_B (@solve_inv rat_realFieldType) 1%:M 1%:M t_plain 8 = One (trace_of 1%:M (l_D t_plain)).
Proof. by apply: (C135_trace (@solve_inv_ok rat_realFieldType) 8 (factored1 _ _) _ _ t_plain_own). Qed.
Example C135_edf_case : calculate_edf (@solve_inv rat_realFieldType) 1%:M 1%:M 1 (3%:R : rat) [:: (t_plain, 1 : rat)] =
  Some ((3%:R : rat) - 5%:R * trace_of 1%:M (l_D t_plain), [:: 5%:R * trace_of 1%:M (l_D t_plain)]).
Proof.
rewrite (C135_edf (@solve_inv_ok rat_realFieldType) 1 _ (factored1 _ _)) ?big_seq1 // => p [<-|//].
by split=> //; exact: t_plain_own.
Qed.

Definition t_wide : lterm rat_realFieldType 3 := LTerm 1 (1%:M : 'M_2) 1 2 true 5%:R (\matrix_(i, j) ((i == j) && (0 < j)%N)%:R) None.
Example C135_wide_case : compute_B (@solve_inv rat_realFieldType) 1%:M 1%:M t_wide 8 = One (trace_of 1%:M (l_D t_wide)).
Proof.
apply: (C135_wide (@solve_inv_ok rat_realFieldType) 8 (factored1 _ _)) => //.
  by move=> i j; rewrite mxE; move: j => [[|[|[|j]]] Hj] //= _; rewrite andbF.
have E (j : 'I_2) : \sum_i (1%:M : 'M[rat]_2) i j = 1.
  by rewrite (bigD1 j) //= big1 ?mxE ?eqxx ?addr0 // => i /negPf N; rewrite mxE N.
rewrite (eq_bigl predT) => [|j]; last by rewrite /= E ltr01.
by rewrite (eq_bigr (fun _ => 1)) => [|j _]; rewrite ?big_const ?card_ord ?E.
Qed.

(** Three levels with one column each; the first level contributes 1/4 to the trace, the others 1. *)
Definition L3 : 'M[rat]_3 := diag_mx (\row_j (if j == 0 then 2%:R else 1)).
Definition H3 : 'M[rat]_3 := diag_mx (\row_j (if j == 0 then 4%:R else 1)).
Definition V3 : 'M[rat]_3 := diag_mx (\row_j (if j == 0 then 4%:R^-1 else 1)).
Lemma L3V : L3 *m diag_mx (\row_j (if j == 0 then 2%:R^-1 else 1)) = 1%:M.
Proof.
rewrite mulmx_diag -[RHS]diag_const_mx; congr diag_mx; apply/matrixP => i j; rewrite !mxE.
by case: (j == 0); rewrite ?mulr1.
Qed.
Lemma fact3 : factored H3 L3 1%:M.
Proof.
split; first by rewrite trmx1 mulmx1.
  by have [] := mulmx1_unit L3V.
rewrite tr_diag_mx mul1mx trmx1 mulmx1 mulmx_diag; congr diag_mx; apply/matrixP => i j; rewrite !mxE.
by case: (j == 0); rewrite ?mulr1.
Qed.
Lemma inv3 : invmx H3 = V3.
Proof.
have E : V3 *m H3 = 1%:M.
  rewrite mulmx_diag -[RHS]diag_const_mx; congr diag_mx; apply/matrixP => i j; rewrite !mxE.
  by case: (j == 0); rewrite ?mulr1.
by have [_ U] := mulmx1_unit E; rewrite -[LHS]mul1mx -E -mulmxA mulmxV // mulmx1.
Qed.
Definition t3 (cl : seq (nat * seq rat)) : lterm rat_realFieldType 3 := LTerm 0 (1%:M : 'M_1) 3 3 false 1 1%:M (Some cl).
Lemma root3 cl (s : 'I_3) : level_root (t3 cl) s = delta_mx s s.
Proof.
apply/matrixP => i j; rewrite !mxE /= !add0n !muln1 ltnS -eqn_leq val_eqE.
have [<-|N] := eqVneq s j; first by rewrite andbT.
by rewrite andbF.
Qed.
Lemma trace3 cl (s : 'I_3) : trace_of H3 (level_root (t3 cl) s) = if s == 0 then 4%:R^-1 else 1.
Proof.
rewrite root3 /trace_of inv3 trmx_delta mul_delta_mx mul_diag_mx /mxtrace (bigD1 s) //= big1 ?addr0.
  by rewrite !mxE eqxx mulr1.
by move=> i N; rewrite !mxE (negPf N) mulr0.
Qed.
Lemma own3 cl : own_columns (t3 cl).
Proof. by move=> i j; rewrite /= add0n muln1 ltn_ord. Qed.
Lemma leading3 cl : leading (t3 cl).
Proof. by split=> // s i j /=; rewrite !add0n !muln1 addn1 => /andP[A]; rewrite ltnS leqNgt A. Qed.
Definition o0 : 'I_3 := @Ordinal 3 0 isT.
Definition o1 : 'I_3 := @Ordinal 3 1 isT.
Definition o2 : 'I_3 := @Ordinal 3 2 isT.
Lemma total3 cl : trace_of H3 (l_D (t3 cl)) = 4%:R^-1 + 2%:R.
Proof.
rewrite (level_sum _ (@own3 cl)) /= !big_cons big_nil addr0.
by rewrite (@trace3 cl o0) (@trace3 cl o1) (@trace3 cl o2).
Qed.

(** Levels 1 and 2 form a cluster, in which all levels contribute the same. *)
Definition good3 : seq (nat * seq rat) := [:: (0%N, [:: 1]); (1%N, [:: 1; 2%:R^-1])].
Example representative3 : representative H3 (t3 good3) id [:: [:: 0%N]; [:: 1%N; 2%N]] good3.
Proof.
split=> // -[|[|k]] //= _; split=> // s; rewrite !inE; first by move/eqP ->.
by case/orP=> /eqP -> //; rewrite (@trace3 _ o1) (@trace3 _ o2).
Qed.
Example C138_exact_case : exists lw,
  compute_B (@solve_inv rat_realFieldType) L3 1%:M (t3 good3) 1 = Two lw (4%:R^-1 + 2%:R).
Proof.
have [lw [E _]] := C138_exact (@solve_inv_ok rat_realFieldType) 1 fact3 (@own3 _) (@leading3 _) (erefl _) representative3.
by exists lw; rewrite E total3.
Qed.

(** Series 0, 1, 2 are levels 1, 2, 0: the cluster of series 0 and 1 is counted as two times level 0. *)
Definition shifted (s : nat) : nat := nth 0%N [:: 1%N; 2%N; 0%N] s.
Definition bad3 : seq (nat * seq rat) := [:: (0%N, [:: 1; 1]); (2%N, [:: 1])].
Theorem C138_levels_refuted : exists n (H L P : 'M[rat]_n) (t : lterm rat_realFieldType n) lv members cl,
  [/\ factored H L P, own_columns t, leading t & l_clust t = Some cl] /\
  perm_eq [seq lv s | s <- iota 0 (l_rep t)] (iota 0 (l_rep t)) /\
  representative H t lv members cl /\
  forall solve, solve_ok solve -> forall n_c lw, compute_B solve L P t n_c <> Two lw (trace_of H (l_D t)).
Proof.
exists 3%N, H3, L3, 1%:M, (t3 bad3), shifted, [:: [:: 0%N; 1%N]; [:: 2%N]], bad3.
split; first by split; [exact: fact3|exact: own3|exact: leading3|].
split=> //; split.
  split=> // -[|[|k]] //= _; split=> // s; rewrite !inE; last by move/eqP ->.
  by case/orP=> /eqP -> //; rewrite (@trace3 _ o1) (@trace3 _ o2).
move=> sol Hs n_c lw; rewrite (cluster_total Hs n_c fact3 (leading3 bad3) (erefl _)) => -[_].
rewrite (total3 bad3) {1}/bad3 (big_cons _ _ (0%N, [:: 1; 1])) (big_cons _ _ (2%N, [:: 1])) big_nil addr0.
by rewrite /= (@trace3 _ o0) (@trace3 _ o2).
Qed.

Print Assumptions C135_trace.
Print Assumptions C135_wide.
Print Assumptions C135_null.
Print Assumptions C135_late.
Print Assumptions C135_last.
Print Assumptions C135_edf.
Print Assumptions C138_exact.
Print Assumptions C138_weights.
Print Assumptions C138_processes.
Print Assumptions C138_below.
Print Assumptions C135_null_refuted.
Print Assumptions C135_last_refuted.
Print Assumptions C138_levels_refuted.
