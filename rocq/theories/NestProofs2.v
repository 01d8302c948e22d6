(** Lemmas about the names of variables and about terms that share them. *)
From Coq Require Import String.
From mathcomp Require Import all_ssreflect all_algebra.
From Verif Require Import NestModel NestSpec NestProofs.
Set Implicit Arguments.
Unset Strict Implicit.
Unset Printing Implicit Defensive.
Import GRing.Theory Num.Theory.
Local Open Scope ring_scope.

Lemma hasIn (T : Type) (p : pred T) (s : seq T) : reflect (exists2 x, List.In x s & p x) (has p s).
Proof.
elim: s => [|x s IH] /=; first by right; case.
case E : (p x) => /=; first by left; exists x; [left|].
apply: (iffP IH); case=> y; first by move=> H P; exists y; [right|].
by case=> [<-|H] P; [rewrite P in E|exists y].
Qed.
Lemma InMap (T U : Type) (f : T -> U) s y : List.In y (map f s) <-> exists2 x, List.In x s & y = f x.
Proof.
elim: s => [|x s IH] /=; first by split=> // -[].
split.
  case=> [<-|/(proj1 IH)[z Hz ->]]; first by exists x; [left|].
  by exists z; [right|].
case=> z [<-|Hz] E; first by left.
by right; apply: (proj2 IH); exists z.
Qed.
Lemma InFlatten (T : Type) (ss : seq (seq T)) y : List.In y (flatten ss) <-> exists2 s, List.In s ss & List.In y s.
Proof.
elim: ss => [|s ss IH] /=; first by split=> // -[].
rewrite -[s ++ flatten ss]/(List.app s (flatten ss)) List.in_app_iff; split.
  case=> [H|/(proj1 IH)[z Hz ?]]; first by exists s; [left|].
  by exists z; [right|].
case=> z [<-|Hz] H; first by left.
by right; apply: (proj2 IH); exists z.
Qed.
Lemma InMem (T : eqType) (s : seq T) x : List.In x s <-> x \in s.
Proof.
elim: s => [|y s IH] //=; rewrite in_cons; split.
  by case=> [<-|/(proj1 IH) ->]; rewrite ?eqxx ?orbT.
by case/orP => [/eqP ->|/(proj2 IH)]; [left|right].
Qed.

Lemma flatten_uniform (T : Type) (d : T) (ss : seq (seq T)) (w k : nat) :
  (forall s, List.In s ss -> size s = w) -> (k < w)%N ->
  [seq nth d (flatten ss) (k + i * w) | i <- iota 0 (size ss)] = [seq nth d s k | s <- ss].
Proof.
move=> + Hk; elim: ss => [|s ss IH] //= H.
rewrite mul0n addn0 nth_cat (H s) ?Hk; last by left.
congr cons; rewrite -IH; last by move=> u Hu; apply: H; right.
rewrite (iotaDl 1 0) -map_comp; apply: eq_map => i /=.
rewrite nth_cat (H s); last by left.
by rewrite mulSn addnCA ltnNge leq_addr /= addKn.
Qed.

Section Names.
Variables (F : realFieldType) (n : nat).
Implicit Types (t : term F n).

Lemma join_decorate t v :
  match t_by_cont t with Some c => join match t_binary t with Some (b, l, _) => join (join v b) l | None => v end c
  | None => match t_binary t with Some (b, l, _) => join (join v b) l | None => v end end = decorate t v.
Proof.
have A (a b c : string) : ((a ++ b) ++ c = a ++ (b ++ c))%string by elim: a => //= x a ->.
by rewrite /decorate /join; case: (t_by_cont t); case: (t_binary t) => // -[[b l] _]; rewrite ?A.
Qed.

Lemma ext_varsE t v : ext_vars t v = [seq name_at t k v | k <- iota 0 (n_by t)].
Proof.
have G e : match t_by_cont t with
   | Some c => [seq join v c | v <- match t_binary t with Some (b, l, _) => [seq join (join v b) l | v <- e] | None => e end]
   | None => match t_binary t with Some (b, l, _) => [seq join (join v b) l | v <- e] | None => e end end
   = [seq decorate t v | v <- e].
  under [in RHS]eq_map => u do rewrite -join_decorate.
  case: (t_by_cont t) => [c|]; case: (t_binary t) => [[[b l] ?]|]; rewrite -?map_comp //; by rewrite map_id.
rewrite /ext_vars G /name_at /n_by; case: (t_by t) => [[lvls code]|] //.
apply: (@eq_from_nth _ EmptyString); rewrite !size_map ?size_iota // => i Hi.
by rewrite !(nth_map EmptyString) ?size_map // (nth_map 0%N) ?size_iota // nth_iota.
Qed.

Lemma term_varE t : term_var t = flatten [seq [seq name_at t k v | k <- iota 0 (n_by t)] | v <- t_vars t].
Proof. by rewrite /term_var; under eq_map => v do rewrite ext_varsE. Qed.

Lemma otis_varE t k : (k < n_by t)%N -> otis_var t k = [seq name_at t k v | v <- t_vars t].
Proof.
move=> Hk; rewrite /otis_var term_varE; case: ltnP => H1.
  rewrite -(size_map (fun v => [seq name_at t k v | k <- iota 0 (n_by t)]) (t_vars t)) flatten_uniform //.
    rewrite -map_comp; apply: eq_map => v /=; by rewrite (nth_map 0%N) ?size_iota // nth_iota.
  by move=> s /InMap[v _ ->]; rewrite size_map size_iota.
have E : n_by t = 1%N by apply/eqP; rewrite eqn_leq H1; apply: leq_ltn_trans Hk.
have -> : k = 0%N by move: Hk; rewrite E ltnS leqn0 => /eqP.
rewrite E; elim: (t_vars t) => //= v l ->; by [].
Qed.

Lemma in_term_var t x : List.In x (term_var t) <-> exists v k, [/\ List.In v (t_vars t), (k < n_by t)%N & x = name_at t k v].
Proof.
rewrite term_varE InFlatten; split.
  case=> s /InMap[v Hv ->] /InMap[k] /InMem; rewrite mem_iota => Hk ->; by exists v, k.
case=> v [k [Hv Hk ->]]; exists [seq name_at t k v | k <- iota 0 (n_by t)].
  by apply/InMap; exists v.
by apply/InMap; exists k => //; apply/InMem; rewrite mem_iota.
Qed.

Lemma sharesP t k t' : (k < n_by t)%N -> reflect (common t k t') (shares (otis_var t k) t').
Proof.
move=> Hk; rewrite otis_varE // /shares; apply: (iffP (hasIn _ _)).
  case=> x /in_term_var[v' [k' [Hv' Hk' ->]]] /hasIn[y /InMap[v Hv ->]] /String.eqb_spec E.
  by exists v, v', k'.
case=> v [v' [k' [Hv Hv' Hk' E]]]; exists (name_at t' k' v'); first by apply/in_term_var; exists v', k'.
by apply/hasIn; exists (name_at t k v); [apply/InMap; exists v|apply/String.eqb_spec].
Qed.

Lemma distinct_cat s s' : distinct (s ++ s') -> [/\ distinct s, distinct s' & forall x, List.In x s -> ~ List.In x s'].
Proof.
elim: s => [|x s IH] //= /andP[N /IH[D D' H]]; split=> //.
  apply/andP; split=> //; apply: contra N; by rewrite has_cat => ->.
move=> y [<-|Hy]; last exact: H.
move=> Hx; move/negP: N; apply; rewrite has_cat; apply/orP; right; apply/hasIn.
by exists x => //; rewrite String.eqb_refl.
Qed.

Lemma distinct_apart (ts : seq (term F n)) d i j x :
  distinct (flatten [seq term_var t | t <- ts]) -> (i < size ts)%N -> (j < size ts)%N -> i <> j ->
  List.In x (term_var (nth d ts i)) -> ~ List.In x (term_var (nth d ts j)).
Proof.
have A (us : seq (term F n)) k : (k < size us)%N -> List.In x (term_var (nth d us k)) ->
  List.In x (flatten [seq term_var t | t <- us]).
  elim: us k => [|u us IH] [|k] //= Hk H; apply/List.in_app_iff; [by left|right].
  exact: IH H.
elim: ts i j => [|t ts IH] //= i j /distinct_cat[_ D H].
case: i j => [|i] [|j] //=; rewrite ?ltnS => Hi Hj N I1 I2.
- exact: (H x I1 (A _ _ Hj I2)).
- exact: (H x I2 (A _ _ Hi I1)).
- by apply: (IH i j D Hi Hj) I2 => // E; apply: N; rewrite E.
Qed.

Lemma max_var_ge (ts : seq (term F n)) d i : (i < size ts)%N -> (size (t_vars (nth d ts i)) <= max_var ts)%N.
Proof.
rewrite /max_var; elim: ts i => [|t ts IH] [|i] //= H; rewrite leq_max ?leqnn //.
by rewrite IH ?orbT.
Qed.

Lemma columnsE t k : (k < n_by t)%N -> nth [::] (columns t) k = original t k.
Proof.
rewrite /n_by /columns /original /masked; case: (t_by t) => [[lvls code]|] H.
  by rewrite (nth_map 0%N) ?size_iota // nth_iota.
case: k H => // _; case: (t_binary t) => [[[b l] p]|] //=.
rewrite -[LHS]map_id; apply: eq_map => v; by apply/colP => i; rewrite mxE.
Qed.
Lemma size_columns t : size (columns t) = n_by t.
Proof. by rewrite /columns /n_by; case: (t_by t) => [[l c]|]; [rewrite size_map size_iota|case: (t_binary t) => // -[[]]]. Qed.
Lemma size_original t k : size (original t k) = size (t_mat t).
Proof. by rewrite size_map. Qed.
End Names.
