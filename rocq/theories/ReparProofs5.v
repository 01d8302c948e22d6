(** Block-diagonal matrices, and the loop of reparam_model. *)

From Coq Require Import Reals FunctionalExtensionality Lia.
From mathcomp Require Import all_ssreflect all_algebra.
From Verif Require Import RealField RealMat RealEigen ReparModel ReparModel2 ReparSpec ReparSpec2 ReparProofs ReparProofs2 ReparProofs4.
Import GRing.Theory.
Set Implicit Arguments.
Unset Strict Implicit.
Unset Printing Implicit Defensive.
Local Open Scope ring_scope.

Fixpoint bsize (l : seq (nat * mat)) : nat := if l is (k, _) :: l' then (k + bsize l')%N else 0%N.
Fixpoint bdiag (l : seq (nat * mat)) : mat := if l is (k, B) :: l' then block k k B zeros zeros (bdiag l') else zeros.

Lemma bsize_cat l1 l2 : bsize (l1 ++ l2) = (bsize l1 + bsize l2)%N.
Proof. by elim: l1 => [|[k B] l1 ih] //=; rewrite ih addnA. Qed.
Lemma bdiag_out l i j : (bsize l <= i)%N || (bsize l <= j)%N -> bdiag l i j = 0.
Proof.
elim: l i j => [|[k B] l ih] i j //= h; rewrite /block.
have [ik|ik] := ltnP i k; have [jk|jk] := ltnP j k => //.
  by exfalso; case/orP: h; rewrite leqNgt (leq_trans _ (leq_addr _ _)).
by apply: ih; rewrite !leq_subRL.
Qed.
Lemma place_end l k B : place k B (bdiag l) (bsize l) = bdiag (rcons l (k, B)).
Proof.
apply: functional_extensionality => i; apply: functional_extensionality => j.
elim: l i j => [|[k0 B0] l ih] i j; rewrite /place /=.
  rewrite /block /zeros add0r add0n !subn0 /=; by case: (ltnP i k) => a; case: (ltnP j k) => b.
rewrite /block; have [ik|ik] := ltnP i k0; have [jk|jk] := ltnP j k0.
- by rewrite leqNgt (leq_trans ik (leq_addr _ _)) /= addr0.
- by rewrite leqNgt (leq_trans ik (leq_addr _ _)) /= addr0.
- by rewrite [(_ + _ <= j)%N]leqNgt (leq_trans jk (leq_addr _ _)) /= !andbF addr0.
rewrite -ih /place; congr (_ + _).
have e (a : nat) : (k0 <= a)%N -> (a - (k0 + bsize l) = a - k0 - bsize l)%N by rewrite subnDA.
rewrite !e // !leq_subRL // -addnA.
have f (a : nat) : (k0 <= a)%N -> (a < k0 + (bsize l + k))%N = (a - k0 < bsize l + k)%N by move=> h; rewrite ltn_subLR.
by rewrite !f.
Qed.
Lemma place_nseq l n k B : place_reps n k k B (bdiag l) (bsize l) = bdiag (l ++ nseq n (k, B)).
Proof.
elim: n l => [|n ih] l /=; first by rewrite cats0.
rewrite place_end; have -> : (bsize l + k = bsize (rcons l (k, B)))%N by rewrite -cats1 bsize_cat /= addn0.
by rewrite ih -cats1 -catA.
Qed.

(** A block at its place. *)
Lemma bdiag_at l1 k B l2 i j : (j < k)%N ->
  bdiag (l1 ++ (k, B) :: l2) i (bsize l1 + j)%N = (if (bsize l1 <= i)%N && (i < bsize l1 + k)%N then B (i - bsize l1)%N j else 0).
Proof.
move=> jk; elim: l1 i => [|[k0 B0] l ih] i /=.
  by rewrite /block add0n jk subn0 /=; case: ltnP.
rewrite /block -addnA [(k0 + _ < k0)%N]ltnNge leq_addr /= addKn.
have [ik|ik] := ltnP i k0; first by rewrite leqNgt (leq_trans ik (leq_addr _ _)).
by rewrite ih subnDA leq_subRL // ltn_subLR // addnA.
Qed.
Definition trb (x : nat * mat) : nat * mat := (x.1, tr x.2).
Lemma bdiag_tr l : tr (bdiag l) = bdiag [seq trb x | x <- l].
Proof.
apply: functional_extensionality => i; apply: functional_extensionality => j.
elim: l i j => [|[k B] l ih] i j //=; rewrite /tr /block; case: ltnP => a; case: ltnP => b //.
exact: ih.
Qed.
Lemma bsize_tr l : bsize [seq trb x | x <- l] = bsize l.
Proof. by elim: l => [|[k B] l ih] //=; rewrite ih. Qed.
Lemma bdiag_sel p l1 k B l2 : (bsize l1 + k <= p)%N ->
  mx p p (bdiag (l1 ++ (k, B) :: l2)) *m sel p k (bsize l1) = sel p k (bsize l1) *m mx k k B.
Proof.
move=> le; rewrite mx_selR //; apply/matrixP => i j; rewrite !mxE bdiag_at //.
case: andP => [[h1 h2]|h].
  have h3 : (i - bsize l1 < k)%N by rewrite ltn_subLR.
  rewrite (bigD1 (Ordinal h3)) //= !mxE subnKC // eqxx mul1r big1 ?addr0 // => a na.
  rewrite !mxE; case: eqP => [e|]; rewrite ?mul0r //.
  by case/eqP: na; apply: val_inj; rewrite /= e addKn.
rewrite big1 // => a _; rewrite !mxE; case: eqP => [e|]; rewrite ?mul0r //.
by case: h; rewrite e leq_addr ltn_add2l.
Qed.
Lemma bdiag_selT p l1 k B l2 : (bsize l1 + k <= p)%N ->
  (mx p p (bdiag (l1 ++ (k, B) :: l2)))^T *m sel p k (bsize l1) = sel p k (bsize l1) *m (mx k k B)^T.
Proof.
move=> le; rewrite -!mx_tr bdiag_tr map_cat /= -[in LHS](bsize_tr l1) -[in RHS](bsize_tr l1).
by rewrite bdiag_sel // bsize_tr.
Qed.

Definition orthb (x : nat * mat) := (mx x.1 x.1 x.2)^T *m mx x.1 x.1 x.2 = 1%:M.
Lemma bdiag_orth l : (forall x, List.In x l -> orthb x) -> (mx (bsize l) (bsize l) (bdiag l))^T *m mx (bsize l) (bsize l) (bdiag l) = 1%:M.
Proof.
elim: l => [|[k B] l ih] h; first by apply/matrixP => -[].
have ob := h _ (or_introl erefl); have {}ih := ih (fun x hx => h x (or_intror hx)).
rewrite /= (mx_block _ _ _ _ (erefl (k + bsize l)%N)) !mx_zeros !mulmx0 !mul0mx !addr0.
set p := (k + bsize l)%N.
have hP : (0 + k <= p)%N by rewrite leq_addr.
have hE : (k + bsize l <= p)%N by [].
rewrite [(_ + _)^T]linearD /= !trmx_mul !trmxK mulmxDl !mulmxDr -!mulmxA.
rewrite [(sel p k 0)^T *m (sel p k 0 *m _)]mulmxA [(sel p k 0)^T *m (sel p (bsize l) k *m _)]mulmxA.
rewrite [(sel p (bsize l) k)^T *m (sel p k 0 *m _)]mulmxA [(sel p (bsize l) k)^T *m (sel p (bsize l) k *m _)]mulmxA.
rewrite !sel_orth // sel_perp // sel_perp' // !mul0mx !mul1mx !mulmx0 addr0 add0r.
rewrite [(mx k k B)^T *m _]mulmxA [(mx _ _ (bdiag l))^T *m _]mulmxA ob ih !mul1mx.
exact: sel_split.
Qed.

(** ** The loop *)
Section Loop.
Variables (dist_coef up : nat -> nat).
Notation init := (init up).
Notation step := (step up).

(** The blocks of a parameter, given the groups that have been processed. *)
Definition copies (g : group) : seq (nat * mat) := nseq (g_reps g) (g_dim g, g_Q g).
Definition pb (done : seq group) (e : nat) : seq (nat * mat) :=
  (up e, eye) :: flatten [seq copies g | g <- done & g_par g == e].
Definition upto (done : seq group) (d : nat) : seq (nat * mat) := flatten [seq pb done e | e <- iota 0 d].

Record ok (done : seq group) (s : st) : Prop := Ok {
  ok_Qs : Qs s = [seq bdiag (pb done e) | e <- iota 0 (dist_idx s)];
  ok_Qd : Qd s = bdiag (pb done (dist_idx s));
  ok_cd : cd s = bsize (pb done (dist_idx s));
  ok_Qe : Qe s = bdiag (upto done (dist_idx s).+1);
  ok_c : c_idx s = bsize (upto done (dist_idx s).+1) }.

Lemma upto_S done d : upto done d.+1 = upto done d ++ pb done d.
Proof. by rewrite /upto -addn1 iotaD map_cat flatten_cat /= cats0. Qed.
Lemma place_empty k B : place k B zeros 0 = bdiag [:: (k, B)].
Proof. by rewrite -[[:: _]]/(rcons [::] (k, B)) -place_end. Qed.
Lemma init_ok : ok [::] init.
Proof. by split => //=; rewrite ?place_empty ?addn0. Qed.

Lemma pb_none done e : (forall g, List.In g done -> g_par g <> e) -> pb done e = [:: (up e, eye)].
Proof.
move=> h; rewrite /pb; congr (_ :: _); elim: done h => [|g l ih] h //=.
have /eqP/negbTE -> := h g (or_introl erefl).
by apply: ih => x hx; apply: h; right.
Qed.
Lemma next_ok done s : ok done s -> (forall g, List.In g done -> (g_par g <= dist_idx s)%N) -> ok done (next_par up s).
Proof.
move=> o h; have e : pb done (dist_idx s).+1 = [:: (up (dist_idx s).+1, eye)].
  by apply: pb_none => g /h le ee; move: le; rewrite ee ltnn.
split; cbn [Qs Qd cd Qe c_idx dist_idx next_par]; rewrite ?upto_S.
- by rewrite (ok_Qs o) (ok_Qd o) -map_rcons -[(dist_idx s).+1]addn1 iotaD /= cats1.
- by rewrite place_empty e.
- by rewrite e /= addn0.
- by rewrite (ok_Qe o) (ok_c o) place_end -upto_S e cats1.
by rewrite (ok_c o) -upto_S bsize_cat e /= addn0.
Qed.
Lemma nexts_ok k done s : ok done s -> (forall g, List.In g done -> (g_par g <= dist_idx s)%N) ->
  ok done (iter k (next_par up) s) /\ dist_idx (iter k (next_par up) s) = (dist_idx s + k)%N.
Proof.
move=> o h; elim: k => [|k [ih1 ih2]] /=; first by rewrite addn0.
split; last by rewrite ih2 addnS.
by apply: next_ok => // g /h le; rewrite ih2 (leq_trans le) ?leq_addr.
Qed.
Lemma fills k g s l l' : Qd s = bdiag l -> cd s = bsize l -> Qe s = bdiag l' -> c_idx s = bsize l' ->
  let s' := iter k (fill g) s in
  [/\ Qs s' = Qs s, Qd s' = bdiag (l ++ nseq k (g_dim g, g_Q g)), cd s' = bsize (l ++ nseq k (g_dim g, g_Q g)),
      Qe s' = bdiag (l' ++ nseq k (g_dim g, g_Q g)) & c_idx s' = bsize (l' ++ nseq k (g_dim g, g_Q g)) /\ dist_idx s' = dist_idx s].
Proof.
move=> a b c d; elim: k => [|k ih]; first by rewrite /= !cats0.
rewrite /= -/(iter k (fill g) s); move: ih => /= [i1 i2 i3 i4 [i5 i6]].
have e : forall m : seq (nat * mat), m ++ (g_dim g, g_Q g) :: nseq k (g_dim g, g_Q g) = rcons (m ++ nseq k (g_dim g, g_Q g)) (g_dim g, g_Q g).
  move=> m; rewrite -cats1 -catA; congr (_ ++ _).
  by elim: k {i1 i2 i3 i4 i5 i6} => //= k ih; rewrite -ih.
by split; rewrite /= ?e ?i1 ?i2 ?i3 ?i4 ?i5 ?i6 ?place_end // -?cats1 !bsize_cat /= ?addn0.
Qed.
Lemma pb_more done g e : pb (rcons done g) e = pb done e ++ (if g_par g == e then copies g else [::]).
Proof.
rewrite /pb filter_rcons /=; congr (_ :: _); case: eqP => _; last by rewrite cats0.
by rewrite map_rcons -cats1 flatten_cat /= cats0.
Qed.
Lemma upto_more done g d : (d <= g_par g)%N -> upto (rcons done g) d = upto done d.
Proof.
move=> le; rewrite /upto; congr flatten; apply/eq_in_map => e; rewrite mem_iota add0n => /andP [_ h].
rewrite pb_more; have /negbTE -> : g_par g != e by rewrite neq_ltn (leq_trans h le) orbT.
by rewrite cats0.
Qed.
Lemma step_ok done s g : ok done s -> (forall h, List.In h done -> (g_par h <= dist_idx s)%N) ->
  (dist_idx s <= g_par g)%N -> ok (rcons done g) (step s g) /\ dist_idx (step s g) = g_par g.
Proof.
move=> o h le; rewrite /step; have [o' d'] := nexts_ok (g_par g - dist_idx s) o h.
set s' := iter _ _ s in o' d' *; have {}d' : dist_idx s' = g_par g by rewrite d' subnKC.
have [i1 i2 i3 i4 [i5 i6]] := fills (g_reps g) g (ok_Qd o') (ok_cd o') (ok_Qe o') (ok_c o').
split; last by rewrite i6.
split; rewrite ?i6 ?i1 ?i2 ?i3 ?i4 ?i5 d'.
- rewrite (ok_Qs o') d'; apply/eq_in_map => e; rewrite mem_iota add0n => /andP [_ hl].
  by rewrite pb_more; have /negbTE -> : g_par g != e; [rewrite neq_ltn hl orbT|rewrite cats0].
- by rewrite pb_more eqxx.
- by rewrite pb_more eqxx.
- by rewrite upto_S -catA [in RHS]upto_S pb_more eqxx upto_more.
by rewrite upto_S -catA [in RHS]upto_S pb_more eqxx upto_more.
Qed.
Lemma run_ok gs : sorted leq [seq g_par g | g <- gs] ->
  let s := foldl step init gs in [/\ ok gs s, dist_idx s = last 0%N [seq g_par g | g <- gs] &
    forall g, List.In g gs -> (g_par g <= dist_idx s)%N].
Proof.
elim/last_ind: gs => [|gs g ih] srt /=; first by split => //; exact: init_ok.
rewrite map_rcons in srt.
have [s1 s2] : sorted leq [seq g_par h | h <- gs] /\ forall h, List.In h gs -> (g_par h <= g_par g)%N.
  move: srt; rewrite (sorted_pairwise leq_trans) pairwise_rcons -(sorted_pairwise leq_trans) => /andP [a b]; split => // h.
  elim: gs a {ih b} => //= x l ihl /andP [a b] [<-|]; [done|exact: ihl].
have [o d h] := ih s1; rewrite foldl_rcons.
have le : (dist_idx (foldl step init gs) <= g_par g)%N.
  rewrite d; case/lastP: gs {ih srt s1 o d h} s2 => [|l y] s2 //; rewrite map_rcons last_rcons; apply: s2.
  by rewrite -cats1; apply/List.in_app_iff; right; left.
have [o' d'] := step_ok o h le; rewrite map_rcons last_rcons; split => // x; rewrite d'.
by rewrite -cats1 => /List.in_app_iff [/s2|[<-|]].
Qed.
End Loop.
