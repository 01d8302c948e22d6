(** Lemmas about the loops over sizes, terms and levels. *)
From Coq Require Import String.
From mathcomp Require Import all_ssreflect all_algebra.
From Verif Require Import NestModel NestSpec NestProofs NestProofs2.
Set Implicit Arguments.
Unset Strict Implicit.
Unset Printing Implicit Defensive.
Import GRing.Theory Num.Theory.
Local Open Scope ring_scope.

Lemma filter_split (p : pred nat) b m (e r : seq nat) (x : nat) :
  [seq i <- iota b m | p i] = e ++ x :: r -> e = [seq i <- iota b (x - b) | p i] /\ (b <= x < b + m)%N.
Proof.
elim: m b e => [|m IH] b e /=; first by case: e.
case: ifP => Hb.
  case: e => [|a e] /= [].
    by move=> <- _; rewrite subnn leqnn addnS ltnS leq_addr.
  move=> <- /IH[-> /andP[H1 H2]]; rewrite (ltnW H1) addnS -addSn H2; split=> //.
  have -> : (x - b = (x - b.+1).+1)%N by rewrite subnSK.
  by rewrite /= Hb.
move=> /IH[-> /andP[H1 H2]]; rewrite (ltnW H1) addnS -addSn H2; split=> //.
have -> : (x - b = (x - b.+1).+1)%N by rewrite subnSK.
by rewrite /= Hb.
Qed.

Lemma pos_div (m k i : nat) : (i < m)%N -> ((k * m + i) %/ m = k)%N.
Proof. by move=> H; rewrite divnMDl ?(leq_ltn_trans _ H) // divn_small // addn0. Qed.

Section Loops.
Variables (F : realFieldType) (n : nat).
Variable dep : seq 'cV[F]_n -> seq 'cV[F]_n -> seq nat * nat.
Variable ic : bool.
Variable ts : seq (term F n).
Hypothesis dep_good : dep_ok dep.
Local Notation t0 := (Term [::] None None None [::]).
Local Notation trm ti := (nth t0 ts ti).
Local Notation mm ti := (size (t_mat (trm ti))).

Local Notation state := (state F n).
Definition cell (s : state) (ti k : nat) : seq 'cV[F]_n := nth [::] (nth [::] s.1 ti) k.
Definition gone (s : state) (ti : nat) : seq nat := nth [::] s.2 ti.
Definition fresh (s : state) (ti k : nat) : Prop := forall i, (i < mm ti)%N -> (k * mm ti + i)%N \notin gone s ti.

Record inv (s : state) : Prop := Inv {
  inv_X : size s.1 = size ts;
  inv_d : size s.2 = size ts;
  inv_n : forall ti, (ti < size ts)%N -> size (nth [::] s.1 ti) = n_by (trm ti);
  inv_v : forall ti k, (ti < size ts)%N -> (k < n_by (trm ti))%N -> cell s ti k = remaining (trm ti) k (gone s ti)
}.

Definition withone (X : seq 'cV[F]_n) : seq 'cV[F]_n := if ic then const_mx 1 :: X else X.

(** What holds for a term and a level that were compared to the terms L. *)
Definition good (s : state) (L : seq nat) (oti k : nat) : Prop :=
  exists2 X1, gather s.1 k L = Some X1 &
    (L = [::] -> cell s oti k = original (trm oti) k) /\
    (L <> [::] -> free (withone X1) ->
       free (withone X1 ++ cell s oti k) /\ <<withone X1 ++ cell s oti k>>%VS = <<withone X1 ++ original (trm oti) k>>%VS).

Lemma gather_ext Xs Xs' k L :
  (forall ti, ti \in L -> nth [::] Xs' ti = nth [::] Xs ti) -> gather Xs' k L = gather Xs k L :> option (seq 'cV[F]_n).
Proof.
elim: L => [|ti L IH] //= H; rewrite H ?mem_head // IH // => tj Hj; apply: H; by rewrite in_cons Hj orbT.
Qed.

Lemma good_ext s s' L oti k :
  (forall ti, ti \in L -> nth [::] s'.1 ti = nth [::] s.1 ti) -> cell s' oti k = cell s oti k -> good s L oti k -> good s' L oti k.
Proof. by move=> H E [X1 G1 G2]; exists X1; rewrite ?E // (gather_ext k H). Qed.

Lemma fresh_full s ti k : inv s -> (ti < size ts)%N -> (k < n_by (trm ti))%N -> fresh s ti k -> cell s ti k = original (trm ti) k.
Proof.
move=> I Hi Hk Hf; rewrite (inv_v I) // /remaining.
have -> : [seq i <- iota 0 (mm ti) | (k * mm ti + i)%N \notin gone s ti] = iota 0 (mm ti).
  by apply/all_filterP/allP => i; rewrite mem_iota => /= H; apply: Hf.
apply: (@eq_from_nth _ 0); rewrite size_map size_iota ?size_original // => i H.
by rewrite (nth_map 0%N) ?size_iota // nth_iota.
Qed.

Lemma fix_level_post osize e oti k s s' :
  inv s -> (oti < size ts)%N -> (k < n_by (trm oti))%N -> fresh s oti k -> oti \notin others ts t0 osize e oti k ->
  fix_level dep ic ts osize e oti k s = Done s' ->
  [/\ inv s',
      forall ti, ti != oti -> nth [::] s'.1 ti = nth [::] s.1 ti /\ gone s' ti = gone s ti,
      forall k', (k' < n_by (trm oti))%N -> k' != k ->
        cell s' oti k' = cell s oti k' /\ (fresh s oti k' -> fresh s' oti k') &
      good s' (others ts t0 osize e oti k) oti k].
Proof.
move=> I Hi Hk Hf Hn.
have FE := fresh_full I Hi Hk Hf.
case: s I Hf FE => Xs d I Hf FE; rewrite /fix_level.
move: (others ts t0 osize e oti k) Hn => L Hn.
case G : (gather Xs k L) => [X1|] //.
case EL : L => [|l0 L'].
  move=> [<-]; split=> //; exists X1; first by rewrite -EL.
  by split.
rewrite -EL -[if ic then _ else _]/(withone X1).
have FE' : nth [::] (nth [::] Xs oti) k = original (trm oti) k by [].
rewrite FE'.
have [Hp [Hr Hs]] := dep_good (withone X1) (original (trm oti) k).
case ED : (dep (withone X1) (original (trm oti) k)) => [nid rank]; rewrite ED /= in Hp Hr Hs.
have Sn : size nid = mm oti by rewrite (perm_size Hp) size_iota size_original.
case: ltnP => Hlt; last first.
  move=> [<-]; split=> //; exists X1 => //; split; first by rewrite EL.
  move=> _ Fr; have [S1 S2] := Hs Fr.
  have Er : rank = size nid by apply/eqP; rewrite eqn_leq Sn -(size_original (trm oti) k) Hr.
  move: S1 S2; rewrite Er drop_size.
  have -> : without (original (trm oti) k) [::] = original (trm oti) k; last by rewrite FE.
  rewrite /without filter_predT; apply: (@eq_from_nth _ 0); rewrite size_map size_iota // => i H.
  by rewrite (nth_map 0%N) ?size_iota // nth_iota.
move=> [<-].
set K := delete _ _; set D := map _ _.
have SX : size Xs = size ts by have := inv_X I.
have Sd : size d = size ts by have := inv_d I.
have R1 ti : ti != oti -> nth [::] (set_nth [::] Xs oti (set_nth [::] (nth [::] Xs oti) k K)) ti = nth [::] Xs ti.
  by move=> N; rewrite nth_set_nth /= (negbTE N).
have R2 ti : ti != oti -> nth [::] (set_nth [::] d oti (nth [::] d oti ++ D)) ti = nth [::] d ti.
  by move=> N; rewrite nth_set_nth /= (negbTE N).
have R3 : nth [::] (set_nth [::] d oti (nth [::] d oti ++ D)) oti = nth [::] d oti ++ D.
  by rewrite nth_set_nth /= eqxx.
have R4 k' : k' != k -> nth [::] (nth [::] (set_nth [::] Xs oti (set_nth [::] (nth [::] Xs oti) k K)) oti) k' = nth [::] (nth [::] Xs oti) k'.
  by move=> N; rewrite nth_set_nth /= eqxx nth_set_nth /= (negbTE N).
have R5 : nth [::] (nth [::] (set_nth [::] Xs oti (set_nth [::] (nth [::] Xs oti) k K)) oti) k = K.
  by rewrite nth_set_nth /= eqxx nth_set_nth /= eqxx.
have D1 k' i : (i < mm oti)%N -> ((k' * mm oti + i)%N \in D) = (k' == k) && (i \in seq.drop rank nid).
  move=> Hii; apply/mapP/andP.
    case=> j; rewrite mem_sort => Hj; rewrite Sn [(j + _)%N]addnC => E.
    have Hjm : (j < mm oti)%N.
      have : j \in nid by apply: mem_drop Hj.
      by rewrite (perm_mem Hp) mem_iota size_original.
    have Ek : k' = k by rewrite -(pos_div k' Hii) E pos_div.
    move: E; rewrite Ek => /addnI ->; by rewrite eqxx.
  by case=> /eqP -> Hj; exists i; rewrite ?mem_sort // Sn [(i + _)%N]addnC.
have V : K = remaining (trm oti) k (nth [::] d oti ++ D).
  rewrite /K /delete /remaining size_original; congr map; apply: eq_in_filter => i; rewrite mem_iota => /= Hii.
  have := Hf i Hii; rewrite /gone /= mem_cat => /negbTE ->; by rewrite D1 // eqxx.
split.
- split.
  + by rewrite /= size_set_nth SX; apply/maxn_idPr.
  + by rewrite /= size_set_nth Sd; apply/maxn_idPr.
  + move=> ti Ht /=; rewrite nth_set_nth /=; case: eqP => [->|_]; last exact: (inv_n I).
    rewrite size_set_nth (inv_n I Hi); exact/maxn_idPr.
  + move=> ti k' Ht Hk'; rewrite /cell /gone /=.
    case: (altP (ti =P oti)) => [E|N]; last by rewrite R1 // R2 //; exact: (inv_v I).
    rewrite {ti}E in Ht Hk' *; rewrite R3; case: (altP (k' =P k)) => [->|N]; first by rewrite R5.
    rewrite R4 //; have := inv_v I Hi Hk'; rewrite /cell /gone /= => ->.
    rewrite /remaining; congr map; apply: eq_in_filter => i; rewrite mem_iota => /= Hii.
    by rewrite mem_cat D1 // (negbTE N) orbF.
- by move=> ti N; rewrite /gone /= R1 // R2.
- move=> k' Hk' N; rewrite /cell /= R4 //; split=> // Hf' i Hii; rewrite /gone /= R3 mem_cat D1 // (negbTE N) orbF.
  exact: Hf'.
- exists X1.
    rewrite -G; apply: gather_ext => ti Ht /=; apply: R1; apply: contraNneq Hn => <-; exact: Ht.
  split; first by rewrite EL.
  by move=> _ Fr; rewrite /cell /= R5; exact: Hs.
Qed.

Lemma fix_levels_post osize e oti ks s s' :
  inv s -> (oti < size ts)%N -> uniq ks -> (forall k, k \in ks -> (k < n_by (trm oti))%N /\ fresh s oti k) ->
  (forall k, oti \notin others ts t0 osize e oti k) ->
  fix_levels dep ic ts osize e oti ks s = Done s' ->
  [/\ inv s',
      forall ti, ti != oti -> nth [::] s'.1 ti = nth [::] s.1 ti /\ gone s' ti = gone s ti,
      forall k', (k' < n_by (trm oti))%N -> k' \notin ks -> cell s' oti k' = cell s oti k' &
      forall k, k \in ks -> good s' (others ts t0 osize e oti k) oti k].
Proof.
elim: ks s => [|k ks IH] s I Hi; first by move=> _ _ _ [<-]; split.
move=> /= /andP[N U] Hks Hn.
case E : (fix_level dep ic ts osize e oti k s) => [s1||] // E2.
have [Hk Hf] := Hks k (mem_head _ _).
have [I1 A1 B1 G1] := fix_level_post I Hi Hk Hf (Hn k) E.
have Hks1 k' : k' \in ks -> (k' < n_by (trm oti))%N /\ fresh s1 oti k'.
  move=> H; have [|H1 H2] := Hks k'; first by rewrite in_cons H orbT.
  split=> //; apply: (B1 k' H1 _).2 => //; apply: contraNneq N => <-; exact: H.
have [I2 A2 B2 G2] := IH s1 I1 Hi U Hks1 Hn E2.
split=> //.
- by move=> ti Nt; have [-> ->] := A2 ti Nt; apply: A1.
- move=> k' Hk'; rewrite in_cons negb_or => /andP[N1 N2].
  by rewrite B2 //; case: (B1 k' Hk' N1).
- move=> k'; rewrite in_cons => /orP[/eqP ->|]; last exact: G2.
  apply: good_ext G1; last exact: B2.
  move=> ti Ht; have [|-> //] := A2 ti; apply: contraNneq (Hn k) => Et; rewrite -{1}Et; exact: Ht.
Qed.

Lemma fix_terms_post osize e otis s s' :
  inv s -> uniq (e ++ otis) -> (0 < osize)%N ->
  (forall oti, oti \in otis -> [/\ (oti < size ts)%N, size (t_vars (trm oti)) = osize & gone s oti = [::]]) ->
  fix_terms dep ic ts osize e otis s = Done s' ->
  [/\ inv s',
      forall ti, ti \notin otis -> nth [::] s'.1 ti = nth [::] s.1 ti /\ gone s' ti = gone s ti &
      forall a oti b k, otis = a ++ oti :: b -> (k < n_by (trm oti))%N -> good s' (others ts t0 osize (e ++ a) oti k) oti k].
Proof.
elim: otis e s => [|oti otis IH] e s I U Ho H.
  by move=> [<-]; split=> // -[].
move=> /=; case E : (fix_levels dep ic ts osize e oti _ s) => [s1||] // E2.
have [Hi Hsz Hg] := H oti (mem_head _ _).
have Ue : oti \notin e.
  by move: U; rewrite uniq_catC /= mem_cat negb_or => /andP[/andP[]].
have Uo : oti \notin otis.
  by move: U; rewrite uniq_catC /= mem_cat negb_or => /andP[/andP[]].
have Hn k : oti \notin others ts t0 osize e oti k.
  rewrite /others mem_cat !mem_filter (negbTE Ue) andbF orbF Hsz negb_and.
  by case: osize Ho {E E2 H Hsz IH} => // o _ /=; rewrite ltnn.
have Hks k : k \in iota 0 (n_by (trm oti)) -> (k < n_by (trm oti))%N /\ fresh s oti k.
  rewrite mem_iota => Hk; split=> // i _; by rewrite Hg.
have [I1 A1 B1 G1] := fix_levels_post I Hi (iota_uniq _ _) Hks Hn E.
have U1 : uniq (rcons e oti ++ otis) by rewrite cat_rcons.
have H1 o : o \in otis -> [/\ (o < size ts)%N, size (t_vars (trm o)) = osize & gone s1 o = [::]].
  move=> Hin; have [|h1 h2 h3] := H o; first by rewrite in_cons Hin orbT.
  split=> //; rewrite (A1 o _).2 //; apply: contraNneq Uo => <-; exact: Hin.
have [I2 A2 G2] := IH _ _ I1 U1 Ho H1 E2.
split=> //.
- move=> ti; rewrite in_cons negb_or => /andP[N1 N2]; have [-> ->] := A2 ti N2; exact: A1.
- move=> [|a0 a] o b k [].
    move=> Eo _ Hk; rewrite -{o}Eo in Hk *; rewrite cats0.
    have G := G1 k; rewrite mem_iota in G.
    apply: good_ext (G Hk); last by rewrite /cell (A2 oti Uo).1.
    move=> ti Ht; apply: (A2 ti _).1.
    have [He|] : ti \in e \/ (size (t_vars (trm ti)) <= osize.-1)%N.
      by move: Ht; rewrite /others mem_cat !mem_filter => /orP[/andP[/andP[]]|/andP[_]]; [right|left].
    + by apply/negP => Hto; move: U; rewrite cat_uniq => /and3P[_ /hasPn/(_ ti) + _]; rewrite /= in_cons Hto orbT He => /(_ isT).
    + move=> Hle; apply/negP => Hto; have [|_ Hs _] := H ti; first by rewrite in_cons Hto orbT.
      by move: Hle; rewrite Hs; case: (osize) Ho => // o _ /=; rewrite ltnn.
  move=> <- Eo Hk; rewrite -cat_rcons; exact: (G2 a o b k).
Qed.

Lemma of_size_uniq j : uniq (of_size ts j).
Proof. by rewrite filter_uniq // iota_uniq. Qed.
Lemma mem_of_size j ti : ti \in of_size ts j = (size (t_vars (trm ti)) == j) && (ti < size ts)%N.
Proof. by rewrite mem_filter mem_iota. Qed.

Lemma fix_sizes_post m osize s s' :
  inv s -> (0 < osize)%N -> (forall ti, (osize <= size (t_vars (trm ti)))%N -> gone s ti = [::]) ->
  fix_sizes dep ic ts m osize s = Done s' ->
  [/\ inv s',
      forall ti, (size (t_vars (trm ti)) < osize)%N -> nth [::] s'.1 ti = nth [::] s.1 ti /\ gone s' ti = gone s ti &
      forall j a oti b k, (osize <= j < osize + m)%N -> of_size ts j = a ++ oti :: b -> (k < n_by (trm oti))%N ->
        good s' (others ts t0 j a oti k) oti k].
Proof.
elim: m osize s => [|m IH] osize s I Ho H.
  move=> [<-]; split=> // j a oti b k; by rewrite addn0 ltnNge => /andP[->].
move=> /=; case E : (fix_terms dep ic ts osize [::] _ s) => [s1||] // E2.
have Hot o : o \in of_size ts osize -> [/\ (o < size ts)%N, size (t_vars (trm o)) = osize & gone s o = [::]].
  by rewrite mem_of_size => /andP[/eqP Hs ?]; split=> //; apply: H; rewrite Hs.
have U : uniq ([::] ++ of_size ts osize) by exact: of_size_uniq.
have [I1 A1 G1] := fix_terms_post I U Ho Hot E.
have H1 ti : (osize.+1 <= size (t_vars (trm ti)))%N -> gone s1 ti = [::].
  move=> Hs; rewrite (A1 ti _).2; first by apply: H; exact: ltnW.
  by rewrite mem_of_size negb_and gtn_eqF.
have [I2 A2 G2] := IH osize.+1 s1 I1 (ltn0Sn _) H1 E2.
split=> //.
- move=> ti Hs; have [-> ->] := A2 ti (ltnW Hs); apply: A1; by rewrite mem_of_size negb_and ltn_eqF.
- move=> j a oti b k /andP[Hj1 Hj2] Eo Hk.
  case: (ltnP osize j) => Hj; first by apply: (G2 j a oti b k) => //; rewrite Hj addSn -addnS.
  have Ej : j = osize by apply/eqP; rewrite eqn_leq Hj.
  rewrite {j}Ej in Eo Hj1 Hj2 Hj *.
  have Gd := G1 a oti b k Eo Hk.
  have St : size (t_vars (trm oti)) = osize.
    have : oti \in of_size ts osize by rewrite Eo mem_cat mem_head orbT.
    by rewrite mem_of_size => /andP[/eqP].
  apply: good_ext Gd; last by rewrite /cell (A2 oti _).1 // St.
  move=> ti Ht; apply: (A2 ti _).1; rewrite ltnS.
  move: Ht; rewrite /others mem_cat !mem_filter => /orP[/andP[/andP[Hs _] _]|/andP[_ Ha]].
    by apply: leq_trans Hs _; exact: leq_pred.
  have : ti \in of_size ts osize by rewrite Eo mem_cat Ha.
  by rewrite mem_of_size => /andP[/eqP ->].
Qed.

Lemma inv_start : inv ([seq columns t | t <- ts], nseq (size ts) [::]).
Proof.
split=> /=; rewrite ?size_map ?size_nseq //.
  by move=> ti H; rewrite (nth_map t0) // size_columns.
move=> ti k H Hk; rewrite /cell /gone /= (nth_map t0) // nth_nseq H columnsE // /remaining filter_predT.
apply: (@eq_from_nth _ 0); rewrite size_original ?size_map ?size_iota // => i Hi.
by rewrite (nth_map 0%N) ?size_iota // nth_iota.
Qed.

Lemma gatherE Xs k L X1 :
  gather Xs k L = Some X1 ->
  X1 = flatten [seq nth [::] (nth [::] Xs ti) k | ti <- L] /\ forall ti, ti \in L -> (k < size (nth [::] Xs ti : seq (seq 'cV[F]_n)))%N.
Proof.
elim: L X1 => [|ti L IH] X1 /=; first by case=> <-.
case: ifP => // Hk; case G : (gather Xs k L) => [Y|] //= [<-]; have [-> H] := IH _ G.
split=> // tj; rewrite in_cons => /orP[/eqP -> //|]; exact: H.
Qed.

(** ** Runs to the end *)
Definition enough : Prop :=
  forall i j k, (i < size ts)%N -> (j < size ts)%N -> (k < n_by (trm i))%N -> before ts t0 j i -> common (trm i) k (trm j) ->
    (k < n_by (trm j))%N.

Lemma gather_some Xs k L :
  (forall ti, ti \in L -> (k < size (nth [::] Xs ti : seq (seq 'cV[F]_n)))%N) -> exists X1, gather Xs k L = Some X1.
Proof.
elim: L => [|ti L IH] H /=; first by exists [::].
rewrite H ?mem_head //; have [|Y ->] := IH; first by move=> tj Hj; apply: H; rewrite in_cons Hj orbT.
by eexists.
Qed.

Lemma others_before osize e oti k ti :
  (oti < size ts)%N -> (0 < osize)%N -> size (t_vars (trm oti)) = osize ->
  (forall tj, tj \in e -> [/\ (tj < oti)%N & size (t_vars (trm tj)) = osize]) -> (k < n_by (trm oti))%N ->
  ti \in others ts t0 osize e oti k -> [/\ (ti < size ts)%N, before ts t0 ti oti & common (trm oti) k (trm ti)].
Proof.
move=> Hi Ho Hs He Hk; rewrite /others mem_cat !mem_filter mem_iota => /orP[/andP[/andP[H1 H2] H3]|/andP[H1 H2]].
  split=> //; last exact/sharesP.
  rewrite /before Hs; apply/orP; left; by case: osize Ho H1 {Hs He}.
have [H3 H4] := He _ H2; split; [exact: ltn_trans H3 Hi| |exact/sharesP].
by rewrite /before Hs H4 eqxx H3 orbT.
Qed.
End Loops.
