(** Properties of nested smooth terms (C140, C141). *)
From Coq Require Import String.
From mathcomp Require Import all_ssreflect all_algebra.
From Verif Require Import NestModel NestSpec NestProofs NestProofs2 NestProofs3 NestProofs4 NestProofs5.
Set Implicit Arguments.
Unset Strict Implicit.
Unset Printing Implicit Defensive.
Import GRing.Theory Num.Theory.
Local Open Scope ring_scope.

(** ** C140: dependent columns *)

(** The result is a permutation of the columns of X2 and a number of them; when X1 has independent columns, those kept
    are independent of X1 whatever the tolerance. *)
Theorem C140_independent (F : realFieldType) (n : nat) qr1 qr2 (tol : F) (X1 X2 : seq 'cV[F]_n) :
  let Y := [seq \col_i (if (i < size X1)%N then 0 else ((qr1 X1).1^T *m x) i 0) | x <- X2] in
  qr_ok X1 (qr1 X1).1 -> pivot_ok Y (qr2 Y).1.1 (qr2 Y).1.2 -> free X1 ->
  let '(nid, rank) := id_dependencies qr1 qr2 tol X1 X2 in
  [/\ perm_eq nid (iota 0 (size X2)), (rank <= size X2)%N & free (X1 ++ without X2 (drop rank nid))].
Proof.
move=> Y HQ HP F1; rewrite /id_dependencies.
case E1 : (qr1 X1) => [Q R00]; rewrite E1 /= in Y HQ HP.
have EY : [seq lower (size X1) b | b <- [seq Q^T *m x | x <- X2]] = [seq down (size X1) Q x | x <- X2].
  by rewrite -map_comp.
have EY' : Y = [seq down (size X1) Q x | x <- X2] by apply: eq_map => x; apply/colP => i; rewrite !mxE.
rewrite EY -EY'; move: HP; case: (qr2 Y) => [[piv r] R2] /= [P Hr Fr _].
rewrite EY' size_map in P Hr.
have L := lower_rank_le R2 r (`|R00| * tol) r.
split=> //; first exact: leq_trans L Hr.
have C : perm_eq (X1 ++ without X2 (drop (lower_rank R2 r (`|R00| * tol) r) piv))
                 (X1 ++ at_positions X2 (take (lower_rank R2 r (`|R00| * tol) r) piv)).
  by rewrite perm_cat2l; exact: without_perm.
rewrite (perm_free C); apply: (independent HQ F1).
rewrite -at_down -EY'; exact: free_take L Fr.
Qed.

(** Nothing is lost either when the last diagonal element is not below the threshold. *)
Theorem C140_span (F : realFieldType) (n : nat) qr1 qr2 (tol : F) (X1 X2 : seq 'cV[F]_n) :
  let Y := [seq \col_i (if (i < size X1)%N then 0 else ((qr1 X1).1^T *m x) i 0) | x <- X2] in
  let r := (qr2 Y).1.2 in
  qr_ok X1 (qr1 X1).1 -> pivot_ok Y (qr2 Y).1.1 r -> free X1 ->
  ((0 < r)%N -> `|(qr1 X1).2| * tol <= `|(qr2 Y).2 r.-1 r.-1|) ->
  let '(nid, rank) := id_dependencies qr1 qr2 tol X1 X2 in
  rank = r /\ <<X1 ++ without X2 (drop rank nid)>>%VS = <<X1 ++ X2>>%VS.
Proof.
move=> Y r0; rewrite /r0 {r0} => HQ HP F1 HT; rewrite /id_dependencies.
case E1 : (qr1 X1) => [Q R00]; rewrite E1 /= in Y HQ HP HT *.
have EY : [seq lower (size X1) b | b <- [seq Q^T *m x | x <- X2]] = [seq down (size X1) Q x | x <- X2].
  by rewrite -map_comp.
have EY' : Y = [seq down (size X1) Q x | x <- X2] by apply: eq_map => x; apply/colP => i; rewrite !mxE.
rewrite EY -EY' {EY}; move: HP HT; case: (qr2 Y) => [[piv r] R2] /= [P Hr Fr S] HT.
have -> : lower_rank R2 r (`|R00| * tol) r = r.
  by case: (r) HT => //= r' HT; rewrite block_last HT.
rewrite EY' size_map in P Hr.
split=> //.
have C : perm_eq (X1 ++ without X2 (drop r piv)) (X1 ++ at_positions X2 (take r piv)).
  by rewrite perm_cat2l; exact: without_perm.
rewrite (span_perm C); apply: (complete HQ F1).
- move=> x /mapP[i Hi ->]; apply: mem_nth.
  have := mem_take Hi; by rewrite (perm_mem P) mem_iota.
- by rewrite -at_down -EY'.
- by rewrite -at_down -EY'.
Qed.

(** When X1 has dependent columns, a column of X2 that is no combination of X1 can be dropped. *)
Theorem C140_deficient_refuted : exists (X1 X2 : seq 'cV[rat]_3) qr1 qr2 (tol : rat),
  let Y := [seq \col_i (if (i < size X1)%N then 0 else ((qr1 X1).1^T *m x) i 0) | x <- X2] in
  [/\ qr_ok X1 (qr1 X1).1, pivot_ok Y (qr2 Y).1.1 (qr2 Y).1.2, 0 < tol,
      nth 0 X2 0 \notin <<X1>>%VS &
      let '(nid, rank) := id_dependencies qr1 qr2 tol X1 X2 in without X2 (drop rank nid) = [::] /\ size X2 = 1%N].
Proof.
exists [:: v3 1 0 0; v3 1 0 0], [:: v3 0 1 0], (fun=> (1%:M, 1)), (fun=> ([:: 0%N], 0%N, fun _ _ => 0)), 1.
split=> //=.
- split; first by rewrite trmx1 mulmx1.
  move=> x; rewrite !inE orbb => /eqP -> i Hi; rewrite trmx1 mul1mx mxE.
  by case: i Hi => -[|[|[|i]]].
- split=> //=; first by rewrite nil_free.
  rewrite span_nil span_seq1; apply/esym/eqP; rewrite -subv0 -memvE memv0; apply/eqP/colP => i.
  by rewrite trmx1 mul1mx !mxE; case: i => -[|[|[|i]]].
- apply/negP => /span2[k [l]]; rewrite !v3Z v3D => /v3P[_ + _]; by rewrite !mulr0.
Qed.

(** Whether a column that is independent of X1 is kept depends on the units in which it is measured. *)
Theorem C140_units_refuted : exists (X1 : seq 'cV[rat]_3) (x : 'cV[rat]_3) (u : rat) qr1 qr2 (tol : rat),
  let Y X := [seq \col_i (if (i < size X1)%N then 0 else ((qr1 X1).1^T *m z) i 0) | z <- X] in
  [/\ free (X1 ++ [:: x]) /\ 0 < u, qr_ok X1 (qr1 X1).1,
      forall w, w != 0 -> pivot_ok (Y [:: w *: x]) (qr2 (Y [:: w *: x])).1.1 (qr2 (Y [:: w *: x])).1.2 /\
                `|(qr2 (Y [:: w *: x])).2 0%N 0%N| = `|w|,
      let '(nid, rank) := id_dependencies qr1 qr2 tol X1 [:: x] in without [:: x] (drop rank nid) = [:: x] &
      let '(nid, rank) := id_dependencies qr1 qr2 tol X1 [:: u *: x] in without [:: u *: x] (drop rank nid) = [::]].
Proof.
pose q2 (Z : seq 'cV[rat]_3) := ([:: 0%N], 1%N, fun _ _ : nat => nth 0 Z 0 1 0).
exists [:: v3 1 0 0], (v3 0 1 0), (1 / 100)%Q, (fun=> (1%:M, 1)), q2, (1 / 10)%Q.
have YE w : [seq \col_i (if (i < size [:: v3 1 0 0])%N then 0 else ((1%:M : 'M[rat]_3)^T *m z) i 0) | z <- [:: w *: v3 0 1 0]]
          = [:: w *: v3 0 1 0].
  by rewrite /= trmx1 mul1mx; congr cons; apply/colP => -[[|[|[|i]]] Hi]; rewrite !mxE //= mulr0.
have E w : [seq lower (size [:: v3 1 0 0]) b | b <- [seq (1%:M : 'M[rat]_3)^T *m z | z <- [:: w *: v3 0 1 0]]] = [:: w *: v3 0 1 0].
  by rewrite -map_comp -[RHS]YE.
have N w : w *: v3 0 1 0 = 0 -> w = 0.
  by move/colP/(_ 1); rewrite !mxE mulr1.
split.
- split=> //; rewrite /= free_cons seq1_free; apply/andP; split.
    apply/negP => /span1[k]; rewrite v3Z => /v3P[+ _ _]; by rewrite mulr0.
  by apply/eqP => H; have := N 1; rewrite scale1r => /(_ H).
- split; first by rewrite trmx1 mulmx1.
  by move=> x; rewrite inE => /eqP -> -[[|[|[|i]]] Hi] // _; rewrite trmx1 mul1mx mxE.
- move=> w Hw /=; rewrite -[ [:: \col_i _] ]/([seq \col_i (if (i < size [:: v3 1 0 0])%N then 0 else ((1%:M : 'M[rat]_3)^T *m z) i 0) | z <- [:: w *: v3 0 1 0]]) YE.
  split; last by rewrite trmx1 mul1mx !mxE /= mulr1.
  split=> //=; rewrite seq1_free; apply/eqP => /N Z; by rewrite Z eqxx in Hw.
- have E1 := E 1; rewrite scale1r in E1.
  rewrite /id_dependencies E1 /q2 /= block_last !mxE.
  by rewrite /without.
- rewrite /id_dependencies E /q2 /= block_last !mxE.
  by rewrite /without.
Qed.

(** Three columns, of which the first is one of X1. *)
Example C140_case :
  let X1 := [:: v3 1 0 0] in let X2 := [:: v3 1 0 0; v3 0 1 0] in
  let qr1 := fun _ : seq 'cV[rat]_3 => (1%:M : 'M[rat]_3, 1 : rat) in
  let qr2 := fun _ : seq 'cV[rat]_3 => ([:: 1%N; 0%N], 1%N, fun _ _ : nat => 1 : rat) in
  let Y := [seq \col_i (if (i < size X1)%N then 0 else ((qr1 X1).1^T *m x) i 0) | x <- X2] in
  [/\ qr_ok X1 (qr1 X1).1, pivot_ok Y (qr2 Y).1.1 (qr2 Y).1.2, free X1 &
      id_dependencies qr1 qr2 (1 / 10)%Q X1 X2 = ([:: 1%N; 0%N], 1%N)].
Proof.
move=> X1 X2 qr1 qr2 Y.
have EY : Y = [:: 0; v3 0 1 0].
  rewrite /Y /= trmx1 !mul1mx; congr [:: _; _]; apply/colP => -[[|[|[|i]]] Hi]; by rewrite !mxE.
have N : v3 0 1 0 != 0 by apply/eqP => /colP/(_ 1); rewrite !mxE.
split.
- split; first by rewrite trmx1 mulmx1.
  by move=> x; rewrite inE => /eqP -> -[[|[|[|i]]] Hi] // _; rewrite trmx1 mul1mx mxE.
- rewrite EY; split=> //=; first by rewrite seq1_free.
  apply/eqP; rewrite eqEsubv; apply/andP; split; apply/span_subvP => x; rewrite !inE.
    by move=> Hx; apply: memv_span; rewrite !inE Hx orbT.
  by case/orP => [/eqP ->|Hx]; [exact: mem0v|apply: memv_span; rewrite !inE].
- rewrite seq1_free; by apply/eqP => /colP/(_ 0); rewrite !mxE.
- by rewrite /id_dependencies /= block_last.
Qed.

(** ** C141: nested terms *)

(** Every term of two or more variables keeps, at every level of its factor, columns that are independent of the columns
    (and the intercept) of the terms before it with which it has a variable in common, and that span the same; if there
    are no such terms it keeps everything. *)
Theorem C141_kept (F : realFieldType) (n : nat) dep ic (ts : seq (term F n)) dropped t0 i k (L : seq nat) :
  dep_ok dep -> fix_nested dep ic ts = Done dropped ->
  (i < size ts)%N -> (1 < size (t_vars (nth t0 ts i)))%N -> (k < levels (nth t0 ts i))%N ->
  uniq L -> (forall j, j \in L <-> [/\ (j < size ts)%N, before ts t0 j i & common (nth t0 ts i) k (nth t0 ts j)]) ->
  let kept j := remaining (nth t0 ts j) k (nth [::] dropped j) in
  let X1 := (if ic then [:: const_mx 1] else [::]) ++ flatten [seq kept j | j <- L] in
  (L = [::] -> kept i = original (nth t0 ts i) k) /\
  (L <> [::] -> free X1 ->
     free (X1 ++ kept i) /\ <<X1 ++ kept i>>%VS = <<X1 ++ original (nth t0 ts i) k>>%VS).
Proof.
move=> D E Hi Hs Hk U HL.
pose d0 := @Term F n [::] None None None [::].
have T j : (j < size ts)%N -> nth t0 ts j = nth d0 ts j by move=> H; exact: set_nth_default.
have S j l : (j < size ts)%N -> (l < size ts)%N -> before ts t0 j l = before ts d0 j l by move=> H1 H2; rewrite /before !T.
rewrite (T i Hi) in Hs Hk HL *.
have HR : related ts i k L.
  split=> // j; split.
    by move=> Hj; have [H1 H2 H3] := proj1 (HL j) Hj; rewrite T // in H3; rewrite S // in H2.
  by move=> [H1 H2 H3]; apply: (proj2 (HL j)); split; rewrite ?S ?T.
have [K1 [K2 _]] := fix_nested_keeps D E Hi Hs Hk HR.
have EK : [seq remaining (nth t0 ts j) k (nth [::] dropped j) | j <- L] = [seq kept_at ts dropped k j | j <- L].
  by apply/eq_in_map => j Hj; have [H1 _ _] := proj1 (HL j) Hj; rewrite T.
have EX : (if ic then [:: const_mx 1] else [::]) ++ flatten [seq kept_at ts dropped k j | j <- L] = before_at ic ts dropped k L.
  by rewrite /before_at /withone; case: (ic).
by rewrite /= EK EX T.
Qed.

(** Terms of one variable keep everything. *)
Theorem C141_single (F : realFieldType) (n : nat) dep ic (ts : seq (term F n)) dropped t0 i :
  dep_ok dep -> fix_nested dep ic ts = Done dropped -> (i < size ts)%N -> (size (t_vars (nth t0 ts i)) <= 1)%N ->
  nth [::] dropped i = [::].
Proof.
move=> D E Hi Hs; apply: (fix_nested_single D E).
by rewrite (set_nth_default t0).
Qed.

(** It runs to the end when there is a smooth term that is no fs term and terms with a variable in common have enough
    levels, for instance when they have the same factor or none. *)
Theorem C141_runs (F : realFieldType) (n : nat) dep ic (ts : seq (term F n)) t0 :
  dep_ok dep -> (0 < size ts)%N ->
  (forall i j k, (i < size ts)%N -> (j < size ts)%N -> (k < levels (nth t0 ts i))%N -> before ts t0 j i ->
     common (nth t0 ts i) k (nth t0 ts j) -> (k < levels (nth t0 ts j))%N) ->
  exists dropped, fix_nested dep ic ts = Done dropped.
Proof.
move=> D Hs H; apply: fix_nested_runs => //.
move=> i j k Hi Hj Hk Hb Hc; have := H i j k Hi Hj; rewrite /before !(set_nth_default (@Term F n [::] None None None [::]) t0) //.
by apply.
Qed.

(** f(x) and f(x, z) with a factor: the columns of f(x) are combinations of those of f(x, z), but nothing is dropped,
    however dependencies are identified. *)
Definition tx : term rat_realFieldType 3 := Term [:: "x"%string] None None None [:: v3 1 2 4].
Definition txz_by : term rat_realFieldType 3 :=
  Term [:: "x"; "z"]%string (Some ([:: "a"; "b"]%string, fun i : 'I_3 => nth 0%N [:: 0; 0; 1]%N i)) None None [:: v3 1 2 4].
Theorem C141_by_refuted dep : exists ts : seq (term rat_realFieldType 3),
  let t0 := nth tx ts 0 in let t1 := nth tx ts 1 in
  [/\ fix_nested dep true ts = Done [:: [::]; [::]],
      common t1 0 t0 \/ (exists v, List.In v (t_vars t0) /\ List.In v (t_vars t1)),
      free (original t0 0), free (original t1 0 ++ original t1 1) &
      ~~ free (original t0 0 ++ original t1 0 ++ original t1 1)].
Proof.
exists [:: tx; txz_by] => /=; split.
- by [].
- by right; exists "x"%string; split; left.
- change (is_true (free (original tx 0))); have -> : original tx 0 = [:: v3 1 2 4] by congr cons; apply/colP => i; rewrite mxE.
  rewrite seq1_free; by apply/eqP => /colP/(_ 0); rewrite !mxE.
- change (is_true (free (original txz_by 0 ++ original txz_by 1))).
  have -> : original txz_by 0 ++ original txz_by 1 = [:: v3 1 2 0; v3 0 0 4].
    by congr [:: _; _]; apply/colP => -[[|[|[|i]]] Hi]; rewrite !mxE.
  rewrite free_cons seq1_free; apply/andP; split.
    apply/negP => /span1[k]; rewrite v3Z => /v3P[+ _ _]; by rewrite mulr0.
  by apply/eqP => /colP/(_ (inord 2)); rewrite !mxE inordK.
- change (is_true (~~ free (original tx 0 ++ original txz_by 0 ++ original txz_by 1))).
  have -> : original tx 0 ++ original txz_by 0 ++ original txz_by 1 = [:: v3 1 2 4; v3 1 2 0; v3 0 0 4].
    by congr [:: _; _; _]; apply/colP => -[[|[|[|i]]] Hi]; rewrite !mxE.
  rewrite free_cons negb_and negbK; apply/orP; left.
  have -> : v3 1 2 4 = v3 1 2 0 + v3 0 0 4 by rewrite v3D.
  by apply: memvD; apply: memv_span; rewrite !inE eqxx ?orbT.
Qed.

(** Two factors that have a level of the same name at different positions: an IndexError. *)
Theorem C141_levels_refuted dep : exists ts : seq (term rat_realFieldType 3),
  (forall t, List.In t ts -> exists lvls code, t_by t = Some (lvls, code) /\
     forall k, (k < size lvls)%N <-> exists i, code i = k) /\
  fix_nested dep true ts = IndexError _.
Proof.
exists [:: Term [:: "x"]%string (Some ([:: "no"; "yes"]%string, fun i : 'I_3 => nth 0%N [:: 0; 1; 1]%N i)) None None [:: v3 1 2 4];
           Term [:: "x"; "z"]%string (Some ([:: "maybe"; "sure"; "yes"]%string, fun i : 'I_3 => nth 0%N [:: 0; 1; 2]%N i)) None None
             [:: v3 1 2 4]].
split; last by vm_compute.
move=> t [<-|[<-|[]]] /=; eexists _, _; (split; first reflexivity); move=> k.
- split; last by case=> -[[|[|[|i]]] Hi] <-.
  by case: k => [|[|k]] // _; [exists 0|exists 1].
- split; last by case=> -[[|[|[|i]]] Hi] <-.
  by case: k => [|[|[|k]]] // _; [exists 0|exists 1|exists (inord 2); rewrite /= inordK].
Qed.

(** A formula whose smooth terms are all fs terms: a ValueError, although nothing can be nested; without the check the
    formula is accepted. *)
Theorem C141_fs_refuted dep : exists smooths : seq (bool * term rat_realFieldType 3),
  [/\ smooths <> [::], fix_formula dep true true smooths = ValueError _ &
      fix_formula dep true false smooths = Done [::]].
Proof. by exists [:: (true, tx)]. Qed.

(** f(x) and f(x, z). *)
Definition txz : term rat_realFieldType 3 := Term [:: "x"; "z"]%string None None None [:: v3 1 2 4; v3 0 1 0].
Example C141_case :
  dep_ok (@greedy rat_realFieldType 3) /\
  [/\ fix_nested (@greedy _ _) true [:: tx; txz] = Done [:: [::]; [:: 0%N]],
      forall j, j \in [:: 0%N] <-> [/\ (j < 2)%N, before [:: tx; txz] tx j 1 & common txz 0 (nth tx [:: tx; txz] j)],
      free ([:: const_mx 1] ++ flatten [seq remaining (nth tx [:: tx; txz] j) 0 (nth [::] [:: [::]; [:: 0%N]] j) | j <- [:: 0%N]]) &
      remaining txz 0 [:: 0%N] = [:: v3 0 1 0]].
Proof.
have O : const_mx 1 = v3 1 1 1 by apply/colP => -[[|[|[|i]]] Hi]; rewrite !mxE.
have F2 : free [:: v3 1 1 1; v3 1 2 4].
  rewrite free_cons seq1_free; apply/andP; split.
    apply/negP => /span1[k]; rewrite v3Z mulr1 => /v3P[<-]; by rewrite mul1r.
  by apply/eqP => /colP/(_ 0); rewrite !mxE.
split; first exact: greedy_ok.
split.
- rewrite -[LHS]/(match fix_sizes (@greedy _ _) true [:: tx; txz] 1 2 ([:: columns tx; columns txz], [:: [::]; [::]]) with
                   Done (_, dr) => Done dr | IndexError => IndexError _ | ValueError => ValueError _ end).
  have -> : fix_sizes (@greedy _ _) true [:: tx; txz] 1 2 ([:: columns tx; columns txz], [:: [::]; [::]])
          = Done ([:: [:: [:: v3 1 2 4]]; [:: [:: v3 0 1 0]]], [:: [::]; [:: 0%N]]); last by [].
  rewrite /fix_sizes /fix_terms /fix_levels /fix_level /= O /greedy /=.
  rewrite (@memv_span _ _ [:: v3 1 1 1; v3 1 2 4] (v3 1 2 4)); last by rewrite !inE eqxx orbT.
  have -> : (v3 0 1 0 \in <<[:: v3 1 1 1; v3 1 2 4]>>)%VS = false; last by [].
  apply/negP => /span2[k [l]]; rewrite !v3Z v3D !mulr1 => /v3P[E1 E2 E3].
  have E : l * 1 = l * 4%:R by rewrite mulr1; apply: (@addrI _ k); rewrite -E1.
  case: (eqVneq l 0) => [L0|N]; last by have := mulfI N E.
  by move: E1 E2; rewrite L0 mul0r !addr0 => <-.
- move=> j; rewrite inE; split.
    by move=> /eqP ->; split=> //; exists "x"%string, "x"%string, 0%N; split=> //; left.
  by case; case: j => [|[|j]] //.
- have -> : [:: const_mx 1] ++ flatten [seq remaining (nth tx [:: tx; txz] j) 0 (nth [::] [:: [::]; [:: 0%N]] j) | j <- [:: 0%N]] = [:: v3 1 1 1; v3 1 2 4]; last by [].
  by rewrite /= O /remaining /=; congr [:: _; _]; apply/colP => i; rewrite mxE.
- by rewrite /remaining /=; congr cons; apply/colP => i; rewrite mxE.
Qed.

Print Assumptions C140_independent.
Print Assumptions C140_span.
Print Assumptions C140_deficient_refuted.
Print Assumptions C140_units_refuted.
Print Assumptions C141_kept.
Print Assumptions C141_single.
Print Assumptions C141_runs.
Print Assumptions C141_by_refuted.
Print Assumptions C141_levels_refuted.
Print Assumptions C141_fs_refuted.
