(** Lemmas for BlockModel: columns that are visited, levels and clusters. *)
From mathcomp Require Import all_ssreflect all_algebra.
From Verif Require Import BlockModel BlockSpec BlockProofs.
Set Implicit Arguments.
Unset Strict Implicit.
Unset Printing Implicit Defensive.
Import GRing.Theory Num.Theory Order.TTheory.
Local Open Scope ring_scope.

Section Proofs.
Variable F : realFieldType.
Variable solve : forall n, 'M[F]_n -> 'cV[F]_n -> 'cV[F]_n.
Hypothesis Hsolve : solve_ok solve.

Lemma compute_cols n (L P : 'M[F]_n) (t : lterm F n) n_c : l_clust t = None ->
  compute_B solve L P t n_c =
  if all (fun j => j < n)%N (D_idx t) then One (pow_sum solve L P (l_D t) (D_idx t)) else IndexError.
Proof.
move=> N; rewrite /compute_B N; case: ifP => // A.
case: ifP => // /andP[D1 N1]; rewrite blocks_sum // leq_min.
by rewrite (ltn_trans _ D1) // (ltn_trans _ N1).
Qed.

Lemma general_cols n (H L P : 'M[F]_n) (t : lterm F n) n_c :
  factored H L P -> l_clust t = None -> single_column t = false -> own_columns t ->
  compute_B solve L P t n_c = One (trace_of H (l_D t)).
Proof.
move=> Fa N S O; rewrite compute_cols // /D_idx S.
have A : all (fun j => j < n)%N [seq j <- iota (l_start t) (l_rep t * l_nc t) | (j < n)%N] by apply: filter_all.
rewrite A (pow_sum_q Hsolve _ _ Fa) trace_cols; congr One; symmetry.
apply: sum_sub => //; first by rewrite filter_uniq // iota_uniq.
move=> j Hj; rewrite mem_filter Hj /= mem_iota => NJ.
rewrite colN_zero ?q0 // => i k E; apply: O.
by rewrite E.
Qed.

(** np.argmax of a unit vector *)
Lemma argmax_cons x (l : seq F) : l != [::] -> argmax (x :: l) = if x < nth 0 l (argmax l) then (argmax l).+1 else 0%N.
Proof. by case: l. Qed.

Lemma argmax_zeros (l : seq F) : (forall m, nth 0 l m = 0) -> argmax l = 0%N.
Proof.
case: l => [//|x l] Z; case: (eqVneq l [::]) => [-> //|N0]; rewrite argmax_cons //.
have -> : x = 0 by exact: (Z 0%N).
by have -> : nth 0 l (argmax l) = 0 by [exact: (Z (argmax l).+1)]; rewrite ltxx.
Qed.

Lemma argmax_unit (a b k : nat) : (b <= a < b + k)%N -> argmax [seq (i == a)%:R : F | i <- iota b k] = (a - b)%N.
Proof.
elim: k b => [|k IH] b /andP[Lb Hb]; first by move: Hb; rewrite addn0 ltnNge Lb.
have [E|NE] := eqVneq b a.
  subst b; rewrite subnn; case: k IH Hb => [//|k] _ _.
  have -> : [seq (i == a)%:R : F | i <- iota a k.+2] = (a == a)%:R :: [seq (i == a)%:R : F | i <- iota a.+1 k.+1] by [].
  rewrite argmax_cons //.
  have -> : argmax [seq (i == a)%:R : F | i <- iota a.+1 k.+1] = 0%N.
    apply: argmax_zeros => m; case: (ltnP m k.+1) => Hm; last by rewrite nth_default // size_map size_iota.
    by rewrite (nth_map 0%N) ?size_iota // nth_iota // gtn_eqF // addSn ltnS leq_addr.
  by rewrite eqxx /= (gtn_eqF (ltnSn a)) ltr10.
have Lt : (b < a)%N by rewrite ltn_neqAle NE Lb.
case: k IH Hb => [|k] IH Hb; first by move: Hb; rewrite addn1 ltnS leqNgt Lt.
have -> : [seq (i == a)%:R : F | i <- iota b k.+2] = (b == a)%:R :: [seq (i == a)%:R : F | i <- iota b.+1 k.+1] by [].
have IHb := IH b.+1; rewrite argmax_cons //.
rewrite IHb ?Lt ?addSnnS //.
rewrite (nth_map 0%N) ?size_iota; last by rewrite ltn_subLR // addSnnS.
rewrite nth_iota; last by rewrite ltn_subLR // addSnnS.
by rewrite subnKC // eqxx (negPf NE) ltr01 subnS prednK // subn_gt0.
Qed.

Lemma mem_arange a b s j : (0 < s)%N -> reflect (exists2 k, j = (a + k * s)%N & (j < b)%N) (j \in arange a b s).
Proof.
move=> S0; have K k : (k < (b - a + s.-1) %/ s)%N = (a + k * s < b)%N.
  rewrite leq_divRL // mulSn addnC -[X in (_ + X <= _)%N](prednK S0) addnS -addSn leq_add2r ltn_subRL //.
apply: (iffP mapP) => [[k]|[k E Lb]].
  by rewrite mem_iota add0n /= => Hk ->; exists k => //; rewrite -K.
by exists k => //; rewrite mem_iota add0n /= K -E.
Qed.
Lemma arange_uniq a b s : (0 < s)%N -> uniq (arange a b s).
Proof.
move=> S0; rewrite map_inj_uniq ?iota_uniq // => x y /addnI /eqP.
by rewrite eqn_pmul2r // => /eqP.
Qed.

Section Null.
Variables (n : nat) (H L P : 'M[F]_n) (t : lterm F n) (ni : 'I_(l_nc t)).
Hypothesis Fa : factored H L P.
Hypothesis Hn : null_of ni.
Hypothesis Hc : l_clust t = None.

Lemma null_sums : col_sums t = [seq (i == ni :> nat)%:R | i <- iota 0 (l_nc t)].
Proof.
case: Hn => _ E _ _ _; rewrite /col_sums -val_enum_ord -[in RHS]map_comp.
apply: eq_map => j /=.
rewrite E (bigD1 ni) //= big1 ?addr0 ?mxE ?eqxx //= => i /negPf NI; by rewrite mxE NI.
Qed.
Lemma null_single : single_column t.
Proof.
case: (Hn) => N _ _ _ _; rewrite /single_column N null_sums /= big_map.
have -> : iota 0 (l_nc t) = index_iota 0 (l_nc t) by rewrite /index_iota subn0.
rewrite big_mkord (bigD1 ni) /=; last by rewrite eqxx ltr01.
rewrite eqxx big1 ?addr0 // => i /andP[_ NI].
by move: NI; rewrite -val_eqE /= => /negPf ->.
Qed.
Lemma null_idx : D_idx t = arange (l_start t + ni) (l_nc t * (l_rep t).+1) (l_nc t).
Proof. by rewrite /D_idx null_single null_sums argmax_unit ?subn0 //= add0n. Qed.
Lemma nc_gt0 : (0 < l_nc t)%N.
Proof. by apply: leq_ltn_trans (ltn_ord ni). Qed.

Lemma null_col_zero j : (forall k, (k < l_rep t)%N -> j != l_start t + k * l_nc t + ni)%N -> colN (l_D t) j = 0.
Proof.
case: Hn => _ _ _ _ E Z; apply: colN_zero => i k Ek; rewrite E.
case: existsP => [[r /eqP]|]; last by rewrite andbF.
by rewrite Ek => Er; have := Z r (ltn_ord r); rewrite Er eqxx.
Qed.
Lemma null_col_unit k : (k < l_rep t)%N -> colN (l_D t) (l_start t + k * l_nc t + ni) != 0.
Proof.
move=> Hk; case: (Hn) => _ _ Le _ E.
have Lt : (l_start t + k * l_nc t + ni < n)%N.
  apply: leq_trans Le; rewrite -addnA ltn_add2l.
  apply: leq_trans (leq_mul Hk (leqnn _)); by rewrite mulSn addnC ltn_add2r.
rewrite (colNE _ (Ordinal Lt)); apply/eqP => /matrixP /(_ (Ordinal Lt) 0); rewrite !mxE E eqxx /=.
have -> : [exists k0 : 'I_(l_rep t), (l_start t + k * l_nc t + ni == l_start t + k0 * l_nc t + ni)%N] = true.
  by apply/existsP; exists (Ordinal Hk).
by move/eqP; rewrite oner_eq0.
Qed.

Lemma null_exact n_c : (l_start t + ni < 2 * l_nc t)%N ->
  ((l_start t + ni < l_nc t)%N -> (l_start t + ni + l_rep t * l_nc t < n)%N) ->
  compute_B solve L P t n_c = One (trace_of H (l_D t)).
Proof.
move=> L2 L1; rewrite compute_cols // null_idx.
case: (Hn) => _ _ Le R0 _; have N0 := nc_gt0.
have A : all (fun j => j < n)%N (arange (l_start t + ni) (l_nc t * (l_rep t).+1) (l_nc t)).
  apply/allP => j /(mem_arange _ _ _ N0) [k -> Lk].
  have [Hk|Hk] := ltnP k (l_rep t).
    rewrite addnAC; apply: leq_trans Le; rewrite -addnA ltn_add2l.
    by apply: leq_trans (leq_mul Hk (leqnn _)); rewrite mulSn addnC ltn_add2r.
  have K1 : (l_start t + ni < l_nc t)%N.
    rewrite -(ltn_add2r (l_rep t * l_nc t)) -mulSn [X in (_ < X)%N]mulnC.
    apply: leq_ltn_trans Lk.
    by rewrite leq_add2l leq_mul2r Hk orbT.
  apply: leq_ltn_trans (L1 K1); rewrite leq_add2l leq_mul2r.
  have : (k * l_nc t < l_nc t * (l_rep t).+1)%N by apply: leq_ltn_trans Lk; rewrite leq_addl.
  by rewrite mulnC ltn_pmul2l // ltnS => ->; rewrite orbT.
rewrite A (pow_sum_q Hsolve _ _ Fa) trace_cols; congr One; symmetry.
apply: sum_sub => //; first exact: arange_uniq.
move=> j Hj NJ; rewrite null_col_zero ?q0 // => k Hk; apply: contra NJ => /eqP ->.
apply/mem_arange => //; exists k; first by rewrite addnAC.
rewrite addnAC; have : (l_start t + ni + k * l_nc t < 2 * l_nc t + k * l_nc t)%N by rewrite ltn_add2r.
move/leq_trans; apply; rewrite -mulnDl mulnC leq_mul2l add2n ltnS Hk; exact: orbT.
Qed.

Lemma null_short n_c : (2 * l_nc t <= l_start t + ni)%N ->
  exists2 b, compute_B solve L P t n_c = One b & b < trace_of H (l_D t).
Proof.
move=> L2; have N0 := nc_gt0; case: (Hn) => _ _ Le R0 _.
have U := arange_uniq (l_start t + ni) (l_nc t * (l_rep t).+1) N0.
have last_lt : (l_start t + (l_rep t).-1 * l_nc t + ni < n)%N.
  apply: leq_trans Le; rewrite -addnA ltn_add2l -{2}(prednK R0) mulSn addnC ltn_add2r //.
have last_ge : (l_nc t * (l_rep t).+1 <= l_start t + (l_rep t).-1 * l_nc t + ni)%N.
  rewrite addnAC -{1}(prednK R0) mulnC !mulSn addnA addnn -mul2n leq_add2r //.
have A : all (fun j => j < n)%N (arange (l_start t + ni) (l_nc t * (l_rep t).+1) (l_nc t)).
  apply/allP => j /(mem_arange _ _ _ N0) [k _ Lk].
  exact: ltn_trans (leq_trans Lk last_ge) last_lt.
rewrite compute_cols // null_idx A (pow_sum_q Hsolve _ _ Fa) trace_cols.
eexists; first by [].
set c := arange _ _ _ in A U *; set j1 := (_ + _ + ni)%N in last_lt last_ge.
have J1 : j1 \notin c by apply/negP => /(mem_arange _ _ _ N0) [k _]; rewrite ltnNge last_ge.
rewrite [X in _ < X](bigID (mem c)) /=.
have -> : \sum_(j <- iota 0 n | j \in c) q (invmx H) (colN (l_D t) j) = \sum_(j <- c) q (invmx H) (colN (l_D t) j).
  rewrite -big_filter; apply: perm_big; apply: uniq_perm => //; first by rewrite filter_uniq ?iota_uniq.
  move=> j; rewrite mem_filter mem_iota /= add0n; case: (boolP (j \in c)) => //= J.
  exact: (allP A).
rewrite ltr_addl.
have M : j1 \in iota 0 n by rewrite mem_iota add0n.
rewrite big_mkcond (bigD1_seq j1) ?iota_uniq //= J1; apply: ltr_spaddl.
  by apply: (q_gt0 Hsolve Fa); apply: null_col_unit; rewrite prednK.
by apply: sumr_ge0 => j _; case: ifP => // _; exact: (q_ge0 Hsolve _ Fa).
Qed.

Lemma null_fails n_c : (l_start t + ni < l_nc t)%N -> n = (l_start t + l_rep t * l_nc t)%N ->
  compute_B solve L P t n_c = IndexError.
Proof.
move=> L1 E; have N0 := nc_gt0; rewrite compute_cols // null_idx.
case: allP => // A; have : (l_start t + ni + l_rep t * l_nc t < n)%N.
  apply: A; apply/mem_arange => //; exists (l_rep t) => //.
  by rewrite [X in (_ < X)%N]mulnC mulSn ltn_add2r.
by rewrite [X in (_ < X)%N]E addnAC ltnNge leq_addr.
Qed.
End Null.

(** Levels. *)
Lemma level_col n (t : lterm F n) s j : colN (level_root t s) j =
  if (l_start t + s * l_nc t <= j < l_start t + s.+1 * l_nc t)%N then colN (l_D t) j else 0.
Proof.
case: ifP => Hj.
  by apply/matrixP => i k; rewrite !mxE; case: insubP => // l _ El; rewrite mxE El Hj.
by apply: colN_zero => i k E; rewrite mxE E Hj.
Qed.

Lemma target_level n (H L P : 'M[F]_n) (t : lterm F n) s : factored H L P -> leading t ->
  pow_sum solve L P (l_D t) (target t s) = trace_of H (level_root t s).
Proof.
move=> Fa [R0 Rn Z]; rewrite (pow_sum_q Hsolve _ _ Fa) trace_cols; symmetry.
have M j : (j \in target t s) = (j < n)%N && (l_start t + s * l_nc t <= j < l_start t + s * l_nc t + l_rank t %/ l_rep t)%N.
  by rewrite mem_filter mem_iota.
rewrite (@sum_sub _ n _ (target t s)).
- apply: eq_big_seq => j; rewrite M level_col => /and3P[_ L1 L2]; rewrite L1 /=.
  by rewrite (leq_trans L2) // -addnA leq_add2l mulSn [X in (_ <= X)%N]addnC leq_add2l.
- by rewrite filter_uniq ?iota_uniq.
- exact: filter_all.
move=> j Hj; rewrite M Hj /= level_col => NJ; case: ifP => [/andP[L1 L2]|]; last by rewrite q0.
rewrite L1 /= -leqNgt in NJ.
by rewrite colN_zero ?q0 // => i k E; apply: (Z s); rewrite E NJ.
Qed.

Lemma level_sum n (H : 'M[F]_n) (t : lterm F n) : own_columns t ->
  trace_of H (l_D t) = \sum_(s <- iota 0 (l_rep t)) trace_of H (level_root t s).
Proof.
move=> O; rewrite trace_cols.
under [in RHS]eq_bigr do rewrite trace_cols.
rewrite exchange_big /=; apply: eq_big_seq => j; rewrite mem_iota add0n /= => Hj.
have [Own|NO] := boolP (l_start t <= j < l_start t + l_rep t * l_nc t)%N; last first.
  rewrite colN_zero ?q0 => [|i k E]; last by apply: O; rewrite E.
  rewrite big1_seq // => s /andP[_]; rewrite mem_iota add0n level_col => Hs; case: ifP => [/andP[L1 L2]|]; last by rewrite q0.
  case/negP: NO; rewrite (leq_trans (leq_addr _ _) L1) /= (leq_trans L2) // leq_add2l leq_mul2r.
  by move: Hs => /= ->; rewrite orbT.
case/andP: Own => O1 O2; set d := (j - l_start t)%N.
have Ej : j = (l_start t + d)%N by rewrite subnKC.
have N0 : (0 < l_nc t)%N by move: O2; rewrite Ej ltn_add2l; case: (l_nc t) => //; rewrite muln0.
have Hs : (d %/ l_nc t < l_rep t)%N by rewrite ltn_divLR //; move: O2; rewrite Ej ltn_add2l.
rewrite (bigD1_seq (d %/ l_nc t)%N) ?iota_uniq ?mem_iota //= level_col.
have In s : (l_start t + s * l_nc t <= j < l_start t + s.+1 * l_nc t)%N = (s == d %/ l_nc t)%N.
  rewrite Ej leq_add2l ltn_add2l -leq_divRL // -ltn_divLR // ltnS eqn_leq andbC andbC //.
rewrite In eqxx big1 ?addr0 // => s; rewrite level_col In => /negPf ->; exact: q0.
Qed.

Lemma cluster_total n (H L P : 'M[F]_n) (t : lterm F n) cl n_c :
  factored H L P -> leading t -> l_clust t = Some cl ->
  compute_B solve L P t n_c =
  Two (\sum_(c <- cl) \sum_(w <- c.2) w * trace_of H (level_root t c.1))
      (\sum_(c <- cl) (size c.2)%:R * trace_of H (level_root t c.1)).
Proof.
move=> Fa Le E; rewrite /compute_B E.
have C c : cluster_sums solve L P t c = (\sum_(w <- c.2) w * trace_of H (level_root t c.1), (size c.2)%:R * trace_of H (level_root t c.1)).
  by rewrite /cluster_sums (target_level _ Fa Le).
case: ifP => _; last first.
  by rewrite !big_map; congr Two; apply: eq_bigr => c _; rewrite C.
set f := (X in foldl X).
have fE acc c : f acc c = (acc.1 + \sum_(w <- c.2) w * trace_of H (level_root t c.1), acc.2 + (size c.2)%:R * trace_of H (level_root t c.1)).
  by rewrite /f C.
move: f fE => f fE; have G : forall a b, foldl f (a, b) cl
  = (a + \sum_(c <- cl) \sum_(w <- c.2) w * trace_of H (level_root t c.1),
     b + \sum_(c <- cl) (size c.2)%:R * trace_of H (level_root t c.1)).
  elim: cl {E} => [|c cl IH] a b; first by rewrite !big_nil !addr0.
  by rewrite /= fE IH !big_cons !addrA.
by rewrite G !add0r.
Qed.

Lemma level_ge0 n (H L P : 'M[F]_n) (t : lterm F n) s : factored H L P -> 0 <= trace_of H (level_root t s).
Proof. by move=> Fa; rewrite trace_cols sumr_ge0 // => j _; exact: (q_ge0 Hsolve _ Fa). Qed.

Lemma representative_total n (H : 'M[F]_n) (t : lterm F n) members cl : own_columns t ->
  representative H t id members cl ->
  \sum_(c <- cl) (size c.2)%:R * trace_of H (level_root t c.1) = trace_of H (l_D t).
Proof.
move=> O [Pm Sz R]; rewrite (level_sum _ O) -(perm_big _ Pm) /= big_flatten /=.
rewrite (big_nth (0%N, [::])) (big_nth [::]) Sz !big_nat; apply: eq_bigr => k /andP[_ Hk].
have [E T] := R k Hk; rewrite E; set x := trace_of _ _.
rewrite (eq_big_seq (fun _ => x)); last by move=> s /T.
by rewrite big_const_seq count_predT iter_addr addr0 mulr_natl.
Qed.

Lemma weights_total n (H L P : 'M[F]_n) (t : lterm F n) (cl : seq (nat * seq F)) : factored H L P ->
  (forall c w, c \in cl -> w \in c.2 -> w <= 1) ->
  \sum_(c <- cl) \sum_(w <- c.2) w * trace_of H (level_root t c.1)
  <= \sum_(c <- cl) (size c.2)%:R * trace_of H (level_root t c.1).
Proof.
move=> Fa W; rewrite big_seq [X in _ <= X]big_seq; apply: ler_sum => c Hc.
rewrite -mulr_suml ler_wpmul2r ?(level_ge0 _ _ Fa) //.
rewrite -[X in _ <= X]mulr1n -[X in X%:R]count_predT -sum1_count natr_sum mulr1n.
by rewrite big_seq [X in _ <= X]big_seq; apply: ler_sum => w; exact: W Hc.
Qed.

Lemma chosen_below lgdetD lw up : exists2 v : F, choose lgdetD (Two lw up) = Some v & v < lgdetD.
Proof.
eexists; first by [].
case E1: (up < lgdetD); first by [].
case E2: (_ * (7%:R / _) + _ < lgdetD); first by [].
case E3: (_ / 2%:R < lgdetD); first by [].
case E4: (lw < lgdetD); first by [].
by rewrite ltr_subl_addr ltr_addl divr_gt0 ?ltr01 // exprn_gt0 // ltr0n.
Qed.
End Proofs.
