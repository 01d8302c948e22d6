(** Lemmas about complete runs. *)
From Coq Require Import String.
From mathcomp Require Import all_ssreflect all_algebra.
From Verif Require Import NestModel NestSpec NestProofs NestProofs2 NestProofs3.
Set Implicit Arguments.
Unset Strict Implicit.
Unset Printing Implicit Defensive.
Import GRing.Theory Num.Theory.
Local Open Scope ring_scope.

Section Runs.
Variables (F : realFieldType) (n : nat).
Variable dep : seq 'cV[F]_n -> seq 'cV[F]_n -> seq nat * nat.
Variable ic : bool.
Variable ts : seq (term F n).
Hypothesis dep_good : dep_ok dep.
Local Notation t0 := (Term [::] None None None [::]).
Local Notation trm ti := (nth t0 ts ti).
Local Notation state := (state F n).

Lemma fix_levels_runs osize e oti ks s :
  enough ts -> inv ts s -> (oti < size ts)%N -> (0 < osize)%N -> size (t_vars (trm oti)) = osize ->
  (forall tj, tj \in e -> [/\ (tj < oti)%N & size (t_vars (trm tj)) = osize]) ->
  uniq ks -> (forall k, k \in ks -> (k < n_by (trm oti))%N /\ fresh ts s oti k) ->
  exists s', fix_levels dep ic ts osize e oti ks s = Done s'.
Proof.
move=> En + Hi Ho Hs He; elim: ks s => [|k ks IH] s I U Hks; first by exists s.
move: U => /= /andP[N U]; have [Hk Hf] := Hks k (mem_head _ _).
have OB := @others_before F n ts osize e oti k _ Hi Ho Hs He Hk.
have Hn : oti \notin others ts t0 osize e oti k.
  by apply/negP => /OB[_ + _]; rewrite /before ltnn eqxx ltnn.
have [s1 E1] : exists s1, fix_level dep ic ts osize e oti k s = Done s1.
  case: s I {IH Hks Hf} => Xs d I; rewrite /fix_level.
  have [|X1 ->] := @gather_some F n Xs k (others ts t0 osize e oti k).
    move=> ti /OB[Ht Hb Hc]; have := inv_n I Ht; rewrite /= => ->; exact: En Hb Hc.
  case: (others ts t0 osize e oti k) => [|l0 L]; first by eexists.
  case: (dep _ _) => nid rank; case: ifP => _; by eexists.
rewrite E1; have [I1 A1 B1 _] := fix_level_post dep_good I Hi Hk Hf Hn E1.
apply: IH => // k' H; have [|H1 H2] := Hks k'; first by rewrite in_cons H orbT.
split=> //; apply: (B1 k' H1 _).2 => //; apply: contraNneq N => <-; exact: H.
Qed.

Lemma fix_terms_runs osize e otis s :
  enough ts -> inv ts s -> sorted ltn (e ++ otis) -> (0 < osize)%N ->
  (forall oti, oti \in e ++ otis -> (oti < size ts)%N /\ size (t_vars (trm oti)) = osize) ->
  (forall oti, oti \in otis -> gone s oti = [::]) ->
  exists s', fix_terms dep ic ts osize e otis s = Done s'.
Proof.
move=> En; elim: otis e s => [|oti otis IH] e s I So Ho H Hg; first by exists s.
have Hm : oti \in e ++ oti :: otis by rewrite mem_cat mem_head orbT.
have [Hi Hs] := H oti Hm.
have U : uniq (e ++ oti :: otis) by apply: sorted_uniq So; [exact: ltn_trans|exact: ltnn].
have Hlt tj : tj \in e -> (tj < oti)%N.
  move=> Hj; move: So; rewrite sorted_pairwise; last exact: ltn_trans.
  by rewrite pairwise_cat => /and3P[/allrelP A _ _]; apply: A => //; exact: mem_head.
have He tj : tj \in e -> [/\ (tj < oti)%N & size (t_vars (trm tj)) = osize].
  by move=> Hj; split; [exact: Hlt|apply: (H tj _).2; rewrite mem_cat Hj].
have Hks k : k \in iota 0 (n_by (trm oti)) -> (k < n_by (trm oti))%N /\ fresh ts s oti k.
  rewrite mem_iota => Hk; split=> // i _; by rewrite Hg ?mem_head.
have [s1 E1] := fix_levels_runs En I Hi Ho Hs He (iota_uniq _ _) Hks.
rewrite /= E1.
have Ue : oti \notin e by apply/negP => /Hlt; rewrite ltnn.
have Uo : oti \notin otis by move: U; rewrite cat_uniq => /and3P[_ _ /=/andP[]].
have Hn k : oti \notin others ts t0 osize e oti k.
  rewrite /others mem_cat !mem_filter (negbTE Ue) andbF orbF Hs negb_and.
  by case: osize Ho {He H IH Hs E1} => // o _ /=; rewrite ltnn.
have [I1 A1 _ _] := fix_levels_post dep_good I Hi (iota_uniq _ _) Hks Hn E1.
apply: IH => //; rewrite ?cat_rcons // => o Ho'.
rewrite (A1 o _).2; first by apply: Hg; rewrite in_cons Ho' orbT.
by apply: contraNneq Uo => <-.
Qed.

Lemma fix_sizes_runs m osize s :
  enough ts -> inv ts s -> (0 < osize)%N -> (forall ti, (osize <= size (t_vars (trm ti)))%N -> gone s ti = [::]) ->
  exists s', fix_sizes dep ic ts m osize s = Done s'.
Proof.
move=> En; elim: m osize s => [|m IH] osize s I Ho H /=; first by exists s.
have Hot o : o \in of_size ts osize -> [/\ (o < size ts)%N, size (t_vars (trm o)) = osize & gone s o = [::]].
  by rewrite mem_of_size => /andP[/eqP Hs ?]; split=> //; apply: H; rewrite Hs.
have [s1 E1] : exists s1, fix_terms dep ic ts osize [::] (of_size ts osize) s = Done s1.
  apply: fix_terms_runs => //.
  - by rewrite cat0s sorted_filter ?iota_ltn_sorted //; exact: ltn_trans.
  - by move=> o /Hot[].
  - by move=> o /Hot[].
rewrite E1; have [I1 A1 _] := fix_terms_post dep_good I (of_size_uniq ts osize : uniq ([::] ++ of_size ts osize)) Ho Hot E1.
apply: IH => // ti Hs; rewrite (A1 ti _).2; first by apply: H; exact: ltnW.
by rewrite mem_of_size negb_and gtn_eqF.
Qed.

Lemma fix_nested_runs : enough ts -> (0 < size ts)%N -> exists d, fix_nested dep ic ts = Done d.
Proof.
move=> En; rewrite /fix_nested; case E : ts => [|t l] // _; rewrite -E.
case: ifP => _; first by eexists.
case: ifP => _; first by eexists.
have Hg0 ti : (2 <= size (t_vars (trm ti)))%N -> gone ([seq columns t | t <- ts], nseq (size ts) [::]) ti = [::].
  by move=> _; rewrite /gone /= nth_nseq; case: ifP.
have [[Xs d] ->] := fix_sizes_runs (max_var ts).-1 En (inv_start ts) (isT : (0 < 2)%N) Hg0.
by exists d.
Qed.

(** The terms that come before a term and have a variable in common with it at a level. *)
Definition related (oti k : nat) (L : seq nat) : Prop :=
  uniq L /\ forall j, j \in L <-> [/\ (j < size ts)%N, before ts t0 j oti & common (trm oti) k (trm j)].

Lemma related_perm oti k L :
  (oti < size ts)%N -> (1 < size (t_vars (trm oti)))%N -> (k < n_by (trm oti))%N -> related oti k L ->
  perm_eq L (others ts t0 (size (t_vars (trm oti))) [seq i <- iota 0 oti | size (t_vars (trm i)) == size (t_vars (trm oti))] oti k).
Proof.
move=> Hi Hs Hk [U HL]; apply: uniq_perm => //.
  rewrite /others cat_uniq !filter_uniq ?filter_uniq ?iota_uniq // andbT /=.
  apply/hasPn => j Hj /=; apply/negP => Hj1; move: Hj Hj1; rewrite !mem_filter => /andP[_ /andP[/eqP -> _]] /andP[/andP[+ _] _].
  by case: (size (t_vars (trm oti))) Hs => // o _ /=; rewrite ltnn.
move=> j; apply/idP/idP => [/HL[Hj Hb Hc]|Hj].
  rewrite /others mem_cat !mem_filter !mem_iota /= Hj andbT.
  have -> : shares (otis_var (trm oti) k) (trm j) by apply/sharesP.
  rewrite andbT add0n; move: Hb; rewrite /before => /orP[H|/andP[-> ->]]; last by rewrite orbT.
  by case: (size (t_vars (trm oti))) H => // o; rewrite ltnS => ->.
apply/HL; apply: (others_before Hi _ (erefl _) _ Hk Hj); first exact: ltnW.
by move=> tj; rewrite mem_filter mem_iota add0n => /andP[/eqP -> ].
Qed.

Lemma remaining_all (t : term F n) k : remaining t k [::] = original t k.
Proof.
rewrite /remaining filter_predT; apply: (@eq_from_nth _ 0); rewrite size_map size_iota ?size_original // => i H.
by rewrite (nth_map 0%N) ?size_iota // nth_iota.
Qed.

Definition kept_at (d : seq (seq nat)) (k i : nat) : seq 'cV[F]_n := remaining (trm i) k (nth [::] d i).
Definition before_at (d : seq (seq nat)) (k : nat) (L : seq nat) : seq 'cV[F]_n :=
  withone ic (flatten [seq kept_at d k i | i <- L]).

(** What a run leaves. *)
Lemma fix_nested_keeps d oti k L :
  fix_nested dep ic ts = Done d -> (oti < size ts)%N -> (1 < size (t_vars (trm oti)))%N -> (k < n_by (trm oti))%N ->
  related oti k L ->
  (L = [::] -> kept_at d k oti = original (trm oti) k) /\
  (L <> [::] -> free (before_at d k L) ->
     free (before_at d k L ++ kept_at d k oti) /\
     <<before_at d k L ++ kept_at d k oti>>%VS = <<before_at d k L ++ original (trm oti) k>>%VS) /\
  (forall j, j \in L -> (k < n_by (trm j))%N \/ d = nseq (size ts) [::]).
Proof.
move=> + Hi Hs Hk HR.
have Z j : nth [::] (nseq (size ts) ([::] : seq nat)) j = [::] by rewrite nth_nseq; case: ifP.
rewrite /fix_nested; case E : ts => [|t l]; first by rewrite E in Hi.
rewrite -E; case: eqP => [M1|_].
  by have := max_var_ge t0 Hi; rewrite M1 => H; move: (leq_trans Hs H).
case: ifP => [D|_].
  move=> [<-].
  have L0 : L = [::].
    case: L HR => [|j L] // [_ /(_ j)[+ _]]; rewrite mem_head => /(_ isT)[Hj Hb [v [v' [k' [Hv Hv' Hk' Ev]]]]].
    have N : oti <> j by move=> Eo; move: Hb; rewrite /before Eo ltnn eqxx ltnn.
    case: (@distinct_apart F n ts t0 oti j (name_at (trm oti) k v) D Hi Hj N).
      by apply/in_term_var; exists v, k.
    by apply/in_term_var; exists v', k'.
  split; first by move=> _; rewrite /kept_at Z; exact: remaining_all.
  by split=> [//|j]; right.
case E2 : (fix_sizes _ _ _ _ _ _) => [[Xs d']||] // [<-]; pose kept := kept_at d' k; pose X1 := before_at d' k L.
have Hg0 ti : (2 <= size (t_vars (trm ti)))%N -> gone ([seq columns t | t <- ts], nseq (size ts) [::]) ti = [::].
  by move=> _; exact: Z.
have [I _ G] := fix_sizes_post dep_good (inv_start ts) (isT : (0 < 2)%N) Hg0 E2.
have [a [b Eo]] : exists a b, of_size ts (size (t_vars (trm oti))) = a ++ oti :: b.
  have : oti \in of_size ts (size (t_vars (trm oti))) by rewrite mem_of_size eqxx.
  by case/splitPr => a b; exists a, b.
have [Ea _] := filter_split Eo; rewrite subn0 in Ea.
have Hm := max_var_ge t0 Hi.
have [|Y1 GY [G1 G2]] := G _ a oti b k _ Eo Hk.
  rewrite Hs add2n ltnS prednK //; exact: leq_trans (ltnW Hs) Hm.
have P := related_perm Hi Hs Hk HR; rewrite -Ea in P.
have [EY HY] := gatherE GY.
have Hnb j : j \in L -> (k < n_by (trm j))%N.
  move=> Hj; have [Hjs _ _] := proj1 (HR.2 j) Hj.
  by rewrite -(inv_n I Hjs); apply: HY; rewrite -(perm_mem P).
have EX : perm_eq (withone ic Y1) X1.
  have Pf : perm_eq Y1 (flatten [seq kept i | i <- L]).
    have -> : [seq kept i | i <- L] = [seq nth [::] (nth [::] Xs ti) k | ti <- L].
      apply/eq_in_map => j Hj; have [Hjs _ _] := proj1 (HR.2 j) Hj.
      by have := inv_v I Hjs (Hnb j Hj); rewrite /cell /gone /= => ->.
    by rewrite EY; apply: perm_flatten; apply: perm_map; rewrite perm_sym.
  rewrite /X1 /before_at /withone; case: (ic) => //; by rewrite perm_cons.
have Ek : cell (Xs, d') oti k = kept oti by exact: (inv_v I).
rewrite Ek in G1 G2.
split; first by move=> L0; apply: G1; apply/nilP; rewrite /nilp -(perm_size P) L0.
split; last by move=> j Hj; left; exact: Hnb.
move=> L0 Fr; have [| |F1 F2] := G2.
- by move=> O0; apply: L0; apply/nilP; rewrite /nilp (perm_size P) O0.
- by rewrite (perm_free EX).
- have C Y : perm_eq (withone ic Y1 ++ Y) (X1 ++ Y) by rewrite perm_cat2r.
  by rewrite -(perm_free (C _)) -(span_perm (C (kept oti))) -(span_perm (C (original _ _))).
Qed.

Lemma fix_nested_single d oti :
  fix_nested dep ic ts = Done d -> (size (t_vars (trm oti)) <= 1)%N -> nth [::] d oti = [::].
Proof.
have Z j : nth [::] (nseq (size ts) ([::] : seq nat)) j = [::] by rewrite nth_nseq; case: ifP.
move=> + Hs; rewrite /fix_nested; case E : ts => [|t l] //; rewrite -E.
case: ifP => _; first by move=> [<-]; exact: Z.
case: ifP => _; first by move=> [<-]; exact: Z.
case E2 : (fix_sizes _ _ _ _ _ _) => [[Xs d']||] // [<-].
have Hg0 ti : (2 <= size (t_vars (trm ti)))%N -> gone ([seq columns t | t <- ts], nseq (size ts) [::]) ti = [::].
  by move=> _; exact: Z.
have [_ A _] := fix_sizes_post dep_good (inv_start ts) (isT : (0 < 2)%N) Hg0 E2.
have [_] := A oti Hs; rewrite /gone /= => ->; exact: Z.
Qed.
End Runs.
