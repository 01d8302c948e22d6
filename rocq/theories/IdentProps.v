(** Theorems for IdentModel. *)
From mathcomp Require Import all_ssreflect all_algebra.
From Verif Require Import IdentModel IdentSpec IdentProofs.
Set Implicit Arguments. Unset Strict Implicit. Unset Printing Implicit Defensive.
Import Order.TTheory GRing.Theory Num.Theory.
Local Open Scope ring_scope.

Section Helpers.
Variable F : realFieldType.
Variable n : nat.
Variable norm : 'M[F]_n -> F.
Variable isqrt : F -> F.
Variable eps2 : F.
Hypothesis E2 : 0 < eps2.
Hypothesis IS : forall x, 0 < x -> isqrt x != 0.

Lemma scale_nz (A : 'M[F]_n) i : scale_of isqrt eps2 A i != 0.
Proof.
rewrite /scale_of; apply: IS; case: ifP => [_|N]; first exact: ltr01.
by apply: (lt_le_trans E2); rewrite leNgt N.
Qed.

Lemma scaled_dscale (A : 'M[F]_n) : scaled isqrt eps2 A = dscale (scale_of isqrt eps2 A) A.
Proof. by []. Qed.

Lemma neg_hessian_sym (H S : 'M[F]_n) : H^T = H -> S^T = S -> (neg_hessian norm H S)^T = neg_hessian norm H S.
Proof. by move=> sH sS; rewrite /neg_hessian linearD linearN linearZ /= sH sS. Qed.
End Helpers.

(** C157: with pivoted QR what is kept can be identified, and nothing is lost by dropping the rest. *)
Theorem C157_qr (F : realFieldType) n (norm : 'M[F]_n -> F) (isqrt : F -> F) (eps2 : F) dqrr (H S : 'M[F]_n) :
  0 < eps2 -> (forall x, 0 < x -> isqrt x != 0) -> H^T = H -> S^T = S ->
  let P := neg_hessian norm H S in
  rank_revealing (scaled isqrt eps2 P) (dqrr (scaled isqrt eps2 P)) ->
  exists keep dropped, identify_qr dqrr (scaled isqrt eps2 P) = Ret keep dropped /\
    splits keep dropped /\ size keep = \rank P /\ regular_system P dropped /\ nothing_lost P dropped.
Proof.
move=> E2 IS sH sS P; rewrite /rank_revealing /identify_qr.
set A := scaled _ _ P.
have sP: P^T = P by exact: neg_hessian_sym.
have AD: A = dscale (scale_of isqrt eps2 P) P by [].
have N := scale_nz E2 IS P.
have sA: A^T = A by rewrite AD dscale_tr.
have rA: \rank A = \rank P by rewrite AD dscale_rank.
case: (dqrr A) => Pr r [Pe [Er R]].
have uPr: uniq Pr by rewrite (perm_uniq Pe) enum_uniq.
have sPr: size Pr = n by rewrite (perm_size Pe) size_enum_ord.
have [K [D [Ek [uK [uD [HK EKt]]]]]]: exists K D : seq 'I_n,
   (if (r < n)%N then Ret (sorted_idx (others (drop r Pr))) (sorted_idx (drop r Pr))
    else Ret (sorted_idx (enum 'I_n)) [::]) = Ret (sorted_idx K) (sorted_idx D) /\ uniq K /\ uniq D /\
   (forall i, (i \in K) = (i \notin D)) /\ (K =i take r Pr).
  case: ifP => L.
    exists (others (drop r Pr)), (drop r Pr); do !split=> //; first exact: others_uniq.
    - exact: drop_uniq.
    - by move=> i; rewrite others_mem.
    move=> i; rewrite others_mem.
    have := mem_enum 'I_n i; rewrite -(perm_mem Pe) -{1}(cat_take_drop r Pr) mem_cat => Mi.
    have := uPr; rewrite -{1}(cat_take_drop r Pr) cat_uniq => /and3P [_ /hasPn Nh _].
    case: (boolP (i \in drop r Pr)) => M /=; first by apply/esym/negbTE; exact: Nh.
    by move: Mi; rewrite (negbTE M) orbF inE => ->.
  exists (enum 'I_n), [::]; do !split=> //; first exact: enum_uniq.
  - by move=> i; rewrite mem_enum.
  move=> i; rewrite take_oversize ?(perm_mem Pe) // sPr leqNgt L //.
have rK: \rank (rows A (sorted_idx K)) = \rank A.
  rewrite -Er -[RHS]R -[in RHS]mxrank_tr (cols_tr _ sA); apply: rows_rank => i.
  by rewrite sorted_idx_mem EKt.
have Hs: forall i, (i \in sorted_idx K) = (i \notin sorted_idx D).
  by move=> i; rewrite !sorted_idx_mem HK.
have us: uniq (sorted_idx K) by rewrite /sorted_idx sort_uniq.
have zK: size (sorted_idx K) = \rank A.
  have ->: size (sorted_idx K) = size (take r Pr).
    apply/perm_size/uniq_perm => //; first exact: take_uniq.
    by move=> i; rewrite sorted_idx_mem EKt.
  rewrite size_take sPr -Er; case: ltngtP => //= L.
  by move: (rank_leq_row A); rewrite -Er leqNgt L.
exists (sorted_idx K), (sorted_idx D); split; first exact: Ek.
split; first exact: splits_sorted.
split; first by rewrite zK.
have U := symmetric_sub_unit sA us rK zK.
split.
  by apply: (dscale_regular N); rewrite -AD; exact: (regular_of_unit us Hs U).
by apply: (dscale_nothing N); rewrite -AD; exact: (nothing_lost_of sA Hs rK).
Qed.

(** Two equal columns. *)
Definition qr2 (A : 'M[rat]_2) : seq 'I_2 * nat := (enum 'I_2, 1%N).
Example C157_rank_example : rank_revealing (const_mx 1 : 'M[rat]_2) (qr2 (const_mx 1)).
Proof.
have E: (const_mx 1 : 'M[rat]_2) = (const_mx 1 : 'M[rat]_(2,1)) *m (const_mx 1 : 'M[rat]_(1,2)).
  by apply/matrixP=> i j; rewrite !mxE big_ord1 !mxE mulr1.
have R: \rank (const_mx 1 : 'M[rat]_2) = 1%N.
  apply/eqP; rewrite eqn_leq; apply/andP; split.
    by rewrite E; apply: (leq_trans (mxrankM_maxl _ _)); exact: rank_leq_col.
  rewrite lt0n mxrank_eq0; apply/eqP=> Z.
  by have := congr1 (fun M : 'M[rat]_2 => M 0 0) Z; rewrite !mxE.
split; first exact: perm_refl. split; first by rewrite R.
apply/eqP; rewrite eqn_leq; apply/andP; split.
  apply: (leq_trans (rank_leq_col _)); by rewrite size_take size_enum_ord.
rewrite lt0n mxrank_eq0; apply/eqP=> Z.
have Z1: (0 < size (take 1 (enum 'I_2)))%N by rewrite size_take size_enum_ord.
by move/matrixP/(_ 0 (Ordinal Z1)): Z; rewrite !mxE.
Qed.

Example C157_example :
  let P := neg_hessian (fun _ => 1) (- const_mx 1 : 'M[rat]_2) 0 in
  exists keep dropped, identify_qr qr2 (scaled (fun _ => 1) 1 P) = Ret keep dropped /\
    splits keep dropped /\ size keep = 1%N /\ regular_system P dropped.
Proof.
move=> P.
have EP: P = const_mx 1 by apply/matrixP=> i j; rewrite !mxE invr1 mul1r opprK addr0.
have ES: scaled (fun _ => 1) 1 P = const_mx 1 by rewrite EP; apply/matrixP=> i j; rewrite !mxE /scale_of !mul1r.
have R := C157_rank_example.
have [|||||k [d [E1 [S1 [Z1 [R1 _]]]]]] := @C157_qr _ 2 (fun _ => 1) (fun _ => 1) 1 qr2 (- const_mx 1 : 'M[rat]_2) 0.
- exact: ltr01.
- by move=> x _; rewrite oner_neq0.
- by apply/matrixP=> i j; rewrite !mxE.
- by rewrite trmx0.
- by rewrite -/P ES.
exists k, d; split=> //; split=> //; split=> //.
by rewrite Z1 -/P EP; case: R => _ [<- _].
Qed.

Section LoopResult.
Variable F : realFieldType.
Variable n : nat.
Variable norm : 'M[F]_n -> F.
Variable isqrt : F -> F.
Variable eps2 : F.
Variable fine : forall k, 'M[F]_k -> bool.
Variable svds : forall k, 'M[F]_k -> option (seq F).
Variable splu : forall k, 'M[F]_k -> option ('M[F]_k * seq nat).

Lemma loop_identified lu (P : 'M[F]_n) fuel :
  0 < eps2 -> (forall x, 0 < x -> isqrt x != 0) -> svds_like svds -> splu_like splu ->
  (forall k (M : 'M[F]_k), fine M -> M \in unitmx) -> (n < fuel)%N ->
  let A := scaled isqrt eps2 P in
  match identify_loop fine svds splu lu A fuel with
  | Ret keep dropped => splits keep dropped /\
      (regular_system P dropped \/ null_vector svds splu lu (sub A keep) = Some None)
  | Raised => lu
  | Spins => False
  end.
Proof.
move=> E2 IS SV LU FI Lf A; rewrite /identify_loop.
have N := scale_nz E2 IS P.
case: ifP => Fi.
  split.
    apply: (@splits_sorted _ (enum 'I_n) [::]) => //; first exact: enum_uniq.
    by move=> i; rewrite mem_enum.
  left; apply: (dscale_regular N) => v _ O.
  have Z: A *m v = 0 by apply/matrixP=> i k; rewrite ord1 O // mxE.
  by rewrite -[v]mul1mx -(mulVmx (FI _ _ Fi)) -mulmxA Z mulmx0.
have := @drop_loop_ok F n fine svds splu SV LU lu A fuel (enum 'I_n) [::].
rewrite size_enum_ord => /(_ Lf (enum_uniq _) isT).
have Hm: forall i : 'I_n, (i \in enum 'I_n) = (i \notin [::]) by move=> i; rewrite mem_enum.
move/(_ Hm (sorted_idx_id (enum_sorted_idx n))).
case: (drop_loop _ _ _ _ _ _ _) => // K Ds /= [D [sK [-> [uK [uD [HK Or]]]]]].
have HK2: forall i, (i \in K) = (i \notin sorted_idx D) by move=> i; rewrite sorted_idx_mem.
split; first by rewrite -[in X in splits X _]sK; exact: splits_sorted.
case: Or => [Fk|]; last by right.
by left; apply: (dscale_regular N); exact: (regular_of_unit uK HK2 (FI _ _ Fk)).
Qed.
End LoopResult.

(** C158: without LU the loop ends and returns a partition; what is kept can be identified unless the search for the
    smallest singular vector failed. *)
Theorem C158_direct (F : realFieldType) n (norm : 'M[F]_n -> F) (isqrt : F -> F) (eps2 : F)
    (fine : forall k, 'M[F]_k -> bool) (svds : forall k, 'M[F]_k -> option (seq F)) splu (H S : 'M[F]_n) fuel :
  0 < eps2 -> (forall x, 0 < x -> isqrt x != 0) -> svds_like svds -> splu_like splu ->
  (forall k (M : 'M[F]_k), fine k M -> M \in unitmx) -> (n < fuel)%N ->
  let P := neg_hessian norm H S in let A := scaled isqrt eps2 P in
  exists keep dropped, identify_loop fine svds splu false A fuel = Ret keep dropped /\
    splits keep dropped /\ (regular_system P dropped \/ svds _ (sub A keep) = None).
Proof.
move=> E2 IS SV LU FI Lf P A.
have := @loop_identified F n isqrt eps2 fine svds splu false P fuel E2 IS SV LU FI Lf.
rewrite /= -/A; case: (identify_loop _ _ _ _ _ _) => [k d [S1 O1]|//|//]; exists k, d; split=> //; split=> //.
by case: O1 => [|[->]]; [left | right].
Qed.

(** With LU the same holds if no exception is raised. *)
Theorem C158_lu (F : realFieldType) n (norm : 'M[F]_n -> F) (isqrt : F -> F) (eps2 : F)
    (fine : forall k, 'M[F]_k -> bool) (svds : forall k, 'M[F]_k -> option (seq F)) splu (H S : 'M[F]_n) fuel :
  0 < eps2 -> (forall x, 0 < x -> isqrt x != 0) -> svds_like svds -> splu_like splu ->
  (forall k (M : 'M[F]_k), fine k M -> M \in unitmx) -> (n < fuel)%N ->
  let P := neg_hessian norm H S in let A := scaled isqrt eps2 P in
  identify_loop fine svds splu true A fuel = Raised \/
  exists keep dropped, identify_loop fine svds splu true A fuel = Ret keep dropped /\
    splits keep dropped /\
    (regular_system P dropped \/ exists U pc, splu _ (sub A keep) = Some (U, pc) /\ svds _ U = None).
Proof.
move=> E2 IS SV LU FI Lf P A.
have := @loop_identified F n isqrt eps2 fine svds splu true P fuel E2 IS SV LU FI Lf.
rewrite /= -/A; case: (identify_loop _ _ _ _ _ _) => [k d [S1 O1]|_|//]; last by left.
right; exists k, d; split=> //; split=> //.
case: O1 => [|]; first by left.
rewrite /null_vector; case E: (splu _ _) => [[U pc]|] // [] Es; right; exists U, pc; split=> //.
by move: Es; case: (svds _ U).
Qed.

(** Oracles that meet the contracts: kernels of nothing in particular. *)
Definition svds1 k (M : 'M[rat]_k) : option (seq rat) := if (k < 2)%N then None else Some (nseq k 1).
Definition splu1 k (M : 'M[rat]_k) : option ('M[rat]_k * seq nat) := if M \in unitmx then Some (M, iota 0 k) else None.
Definition fine1 k (M : 'M[rat]_k) : bool := M \in unitmx.
Example C158_svds_example : svds_like svds1.
Proof.
move=> k M; rewrite /svds1; case: ltnP => L //; rewrite size_nseq; split=> //.
by case: k {M} L.
Qed.
Example C158_splu_example : splu_like splu1.
Proof.
move=> k M; rewrite /splu1; case: (M \in unitmx); split=> //.
by move=> U pc [_ <-].
Qed.
Lemma const2_singular : (const_mx 1 : 'M[rat]_2) \notin unitmx.
Proof.
case: C157_rank_example => _ [R _]; rewrite -row_free_unit /row_free -R //.
Qed.
Lemma enum2 : enum 'I_2 = [:: ord0; lift ord0 ord0].
Proof. by apply: (inj_map val_inj); rewrite val_enum_ord. Qed.
Lemma drop_step (F : realFieldType) n fine svds splu lu (A : 'M[F]_n) fuel K D :
  drop_loop fine svds splu lu A fuel.+1 K D =
  match null_vector svds splu lu (sub A K) with
  | None => Raised
  | Some None => Ret (sorted_idx K) (sorted_idx D)
  | Some (Some wk) =>
      match enum 'I_n with
      | [::] => Raised
      | i0 :: r =>
          let D' := rcons D (argmax (fun i => `|embed K wk i|) i0 r) in
          let K' := others D' in
          if fine _ (sub A K') then Ret (sorted_idx K') (sorted_idx D') else drop_loop fine svds splu lu A fuel K' D'
      end
  end.
Proof. by []. Qed.
Example C158_example : identify_loop fine1 svds1 splu1 false (const_mx 1 : 'M[rat]_2) 3 = Ret [:: lift ord0 ord0] [:: ord0].
Proof.
rewrite /identify_loop {1}/fine1 (negbTE const2_singular) drop_step.
have ->: null_vector svds1 splu1 false (sub (const_mx 1 : 'M[rat]_2) (enum 'I_2)) = Some (Some [:: 1; 1]).
  by rewrite /null_vector /svds1 size_enum_ord.
rewrite enum2.
have ->: argmax (fun i => `|embed [:: ord0; lift ord0 ord0] [:: 1 : rat; 1] i|) (ord0 : 'I_2) [:: lift ord0 ord0] = ord0 by [].
cbv zeta.
have ->: others (rcons [::] ord0) = [:: lift ord0 ord0 : 'I_2] by rewrite /others enum2.
have ->: fine1 (sub (const_mx 1 : 'M[rat]_2) [:: lift ord0 ord0]).
  rewrite /fine1; have ->: sub (const_mx 1 : 'M[rat]_2) [:: lift ord0 ord0] = 1%:M.
    by apply/matrixP=> i j; rewrite !mxE !ord1.
  by rewrite unitmx1.
by [].
Qed.

(** An exactly singular system makes the LU variant raise, and a single coefficient is never dropped. *)
Theorem C158_lu_refuted : exists (H S : 'M[rat]_2), H^T = H /\ S^T = S /\
  forall norm (isqrt : rat -> rat) eps2 (fine : forall k, 'M[rat]_k -> bool) (svds : forall k, 'M[rat]_k -> option (seq rat)) splu dqrr fuel,
  0 < norm H -> 0 < eps2 -> (forall x : rat, 0 < x -> isqrt x != 0) ->
  svds_like svds -> splu_like splu -> (forall k (M : 'M[rat]_k), fine k M -> M \in unitmx) -> (2 < fuel)%N ->
  let A := scaled isqrt eps2 (neg_hessian norm H S) in
  rank_revealing A (dqrr A) ->
  identify_loop fine svds splu true A fuel = Raised /\
  exists keep dropped, identify_qr dqrr A = Ret keep dropped /\ size keep = 1%N /\
    splits keep dropped /\ regular_system (neg_hessian norm H S) dropped.
Proof.
exists (- const_mx 1), 0; split; first by apply/matrixP=> i j; rewrite !mxE.
split; first by rewrite trmx0.
move=> norm isqrt eps2 fine svds splu dqrr fuel N0 E2 IS SV LU FI Lf A R.
have sH: (- const_mx 1 : 'M[rat]_2)^T = - const_mx 1 by apply/matrixP=> i j; rewrite !mxE.
have s0: (0 : 'M[rat]_2)^T = 0 by rewrite trmx0.
have [k [d [E1 [S1 [Z1 [R1 _]]]]]] := C157_qr E2 IS sH s0 R.
have EP: neg_hessian norm (- const_mx 1) 0 = (norm (- const_mx 1))^-1 *: (const_mx 1 : 'M[rat]_2).
  by rewrite /neg_hessian scalerN opprK addr0.
have RP: \rank (neg_hessian norm (- const_mx 1) 0) = 1%N.
  rewrite EP mxrank_scale_nz; last by rewrite invr_eq0 gt_eqF.
  by case: C157_rank_example => _ [<- _].
have RA: \rank A = 1%N by rewrite /A scaled_dscale dscale_rank //; exact: scale_nz.
have NU: A \notin unitmx by rewrite -row_free_unit /row_free RA.
split; last by exists k, d; rewrite Z1 RP.
rewrite /identify_loop; case: ifP => [/FI U|_]; first by rewrite U in NU.
case: fuel Lf => [|fuel] // Lf /=.
rewrite /null_vector.
have ->: splu _ (sub A (enum 'I_2)) = None => //.
apply: (LU _ _).1; apply: contra NU => U.
have RG: regular_system A [::].
  apply: (regular_of_unit (enum_uniq _) _ U) => i; by rewrite mem_enum.
have sA: A^T = A by rewrite /A scaled_dscale dscale_tr //; exact: neg_hessian_sym.
rewrite -row_free_unit -kermx_eq0; apply/eqP/row_matrixP=> i; rewrite row0.
apply: trmx_inj; rewrite trmx0; apply: RG => // j _.
by rewrite -{1}sA -trmx_mul -row_mul mulmx_ker row0 trmx0 mxE.
Qed.

Theorem C158_single_refuted : exists (H : 'M[rat]_1), H^T = H /\
  forall norm (isqrt : rat -> rat) eps2 (fine : forall k, 'M[rat]_k -> bool) (svds : forall k, 'M[rat]_k -> option (seq rat)) splu dqrr fuel,
  0 < norm H -> 0 < eps2 -> (forall x : rat, 0 < x -> isqrt x != 0) ->
  svds_like svds -> splu_like splu -> (forall k (M : 'M[rat]_k), fine k M -> M \in unitmx) -> (1 < fuel)%N ->
  let P := neg_hessian norm H ((norm H)^-1%:M) in
  let A := scaled isqrt eps2 P in
  rank_revealing A (dqrr A) ->
  identify_loop fine svds splu false A fuel = Ret [:: ord0] [::] /\ ~ regular_system P [::] /\
  exists keep dropped, identify_qr dqrr A = Ret keep dropped /\ size keep = 0%N /\
    splits keep dropped /\ regular_system P dropped.
Proof.
exists 1%:M; split; first by rewrite trmx1.
move=> norm isqrt eps2 fine svds splu dqrr fuel N0 E2 IS SV LU FI Lf P A R.
have EP: P = 0 by apply/matrixP=> i j; rewrite !mxE !ord1 /= !mulr1n mulr1 addNr.
have EA: A = 0 by rewrite /A EP; apply/matrixP=> i j; rewrite !mxE mulr0 mul0r.
have [k [d [E1 [S1 [Z1 [R1 _]]]]]] := C157_qr E2 IS (trmx1 _ _) (tr_scalar_mx _ _) R.
split.
  rewrite /identify_loop; case: ifP => [/FI|_]; first by rewrite EA -row_free_unit /row_free mxrank0.
  case: fuel Lf => [|fuel] // Lf; rewrite drop_step /null_vector.
  have := SV _ (sub A (enum 'I_1)); have ->: (size (enum 'I_1) < 2)%N by rewrite size_enum_ord.
  move=> ->.
  rewrite (sorted_idx_id (enum_sorted_idx 1)); congr Ret.
  by apply: (inj_map val_inj); rewrite val_enum_ord.
split.
  move=> /(_ (const_mx 1)) Rg.
  have Z: (const_mx 1 : 'cV[rat]_1) = 0.
    by apply: Rg => // i _; rewrite EP mul0mx mxE.
  by have := congr1 (fun M : 'cV[rat]_1 => M 0 0) Z; rewrite !mxE.
by exists k, d; rewrite Z1 -/P EP mxrank0; split=> //; split=> //; split=> //; rewrite -EP.
Qed.

Print Assumptions C157_qr.
Print Assumptions C158_direct.
Print Assumptions C158_lu.
Print Assumptions C158_lu_refuted.
Print Assumptions C158_single_refuted.
