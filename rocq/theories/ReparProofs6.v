(** The transformed model against the original one. *)

From Coq Require Import Reals FunctionalExtensionality.
From mathcomp Require Import all_ssreflect all_algebra.
From Verif Require Import RealField RealMat RealEigen ReparModel ReparModel2 ReparSpec ReparSpec2 ReparProofs ReparProofs2 ReparProofs4 ReparProofs5.
Import GRing.Theory.
Set Implicit Arguments.
Unset Strict Implicit.
Unset Printing Implicit Defensive.
Local Open Scope ring_scope.

Lemma place_mx n r B S c : (c + r <= n)%N -> mx n n (place r B S c) = mx n n S + sel n r c *m mx r r B *m (sel n r c)^T.
Proof.
move=> le; apply/matrixP => i j; rewrite !mxE /place; congr (_ + _).
have e (x : 'I_n) (k : 'I_r) : sel n r c x k = ((x : nat) == c + k)%N%:R by rewrite mxE.
case: ifP => [/and4P [h1 h2 h3 h4]|h].
  have i3 : (i - c < r)%N by rewrite ltn_subLR.
  have j3 : (j - c < r)%N by rewrite ltn_subLR.
  rewrite (bigD1 (Ordinal j3)) //= !mxE subnKC // eqxx mulr1 (bigD1 (Ordinal i3)) //= !mxE subnKC // eqxx mul1r.
  rewrite [X in _ = _ + X]big1 ?addr0 => [|a na].
    rewrite big1 ?addr0 // => a na; rewrite !mxE; case: eqP => [q|]; rewrite ?mul0r //.
    by case/eqP: na; apply: val_inj; rewrite /= q addKn.
  rewrite !mxE; case: eqP => [q|]; rewrite ?mulr0 //.
  by case/eqP: na; apply: val_inj; rewrite /= q addKn.
rewrite big1 // => b _; rewrite !mxE; case: eqP => [q|]; rewrite ?mulr0 // mulr1 big1 // => a _.
rewrite !mxE; case: eqP => [q'|]; rewrite ?mul0r //.
by move: h; rewrite q q' !leq_addr !ltn_add2l !ltn_ord.
Qed.
Lemma reps_mx n k r sz B S c : (r <= sz)%N -> (c + k * sz <= n)%N ->
  mx n n (place_reps k r sz B S c) = mx n n S + \sum_(c0 < k) sel n r (c + c0 * sz) *m mx r r B *m (sel n r (c + c0 * sz))^T.
Proof.
move=> rs; elim: k S c => [|k ih] S c le /=; first by rewrite big_ord0 addr0.
rewrite mulSn addnA in le; rewrite ih // place_mx; last first.
  by apply: leq_trans le; rewrite -addnA leq_add2l (leq_trans rs) ?leq_addr.
rewrite big_ord_recl /= mul0n addn0 addrA; congr (_ + _); apply: eq_bigr => c0 _.
by rewrite /bump leq0n add1n mulSn addnA.
Qed.
Lemma embedded_mx n g A : (g_start g + g_reps g * g_dim g <= n)%N ->
  mx n n (embedded g A) = \sum_(c < g_reps g)
    sel n (g_dim g) (g_start g + c * g_dim g) *m mx (g_dim g) (g_dim g) A *m (sel n (g_dim g) (g_start g + c * g_dim g))^T.
Proof.
move=> le; apply/matrixP => i j; rewrite summxE mxE /embedded; apply: eq_bigr => c _.
rewrite mxE exchange_big /=; apply: eq_bigr => b _; rewrite !mxE big_distrl /=; apply: eq_bigr => a _; rewrite !mxE.
by case: eqP => _; case: eqP => _; rewrite /= ?mul1r ?mulr1 ?mul0r ?mulr0.
Qed.

Section Main.
Variables (dist_coef up : nat -> nat) (m n : nat) (gs : seq group).
Hypothesis lay : laid_out dist_coef up m n gs.

Lemma m_pos : (0 < m)%N. Proof. by case: lay => [[]]. Qed.
Lemma n_eq : n = offset dist_coef m. Proof. by case: lay => [[]]. Qed.
Lemma srt : sorted leq [seq g_par g | g <- gs]. Proof. by case: lay. Qed.
Lemma offset_S d : offset dist_coef d.+1 = (offset dist_coef d + dist_coef d)%N.
Proof. by rewrite /offset big_ord_recr. Qed.
Lemma offset_le d e : (d <= e)%N -> (offset dist_coef d <= offset dist_coef e)%N.
Proof.
move=> /subnK <-; elim: (e - d)%N => [|k ih] //; rewrite addSn offset_S; exact: leq_trans ih (leq_addr _ _).
Qed.
Lemma bsize_copies g : bsize (copies g) = (g_reps g * g_dim g)%N.
Proof. by rewrite /copies; elim: (g_reps g) => //= k ->; rewrite mulSn. Qed.
Lemma bsize_flat (P : pred group) l : bsize (flatten [seq copies g | g <- l & P g]) = (\sum_(g <- l | P g) g_reps g * g_dim g)%N.
Proof.
elim: l => [|g l ih] /=; first by rewrite big_nil.
by rewrite big_cons; case: (P g) => //=; rewrite bsize_cat ih bsize_copies.
Qed.
Lemma bsize_pb d : (d < m)%N -> bsize (pb up gs d) = dist_coef d.
Proof. by case: lay => _ h _ _ _ /h ->; rewrite /pb /= bsize_flat. Qed.
Lemma bsize_upto d : (d <= m)%N -> bsize (upto up gs d) = offset dist_coef d.
Proof.
elim: d => [|d ih] h; first by rewrite /offset big_ord0.
by rewrite upto_S bsize_cat bsize_pb // ih ?offset_S // ltnW.
Qed.

Definition L : nat := last 0%N [seq g_par g | g <- gs].
Lemma L_lt : (L < m)%N.
Proof.
rewrite /L; case: lay => [[m0 _] _ _ h _]; case/lastP: gs h => [|l g] h //=.
by rewrite map_rcons last_rcons; apply: h; rewrite -cats1; apply/List.in_app_iff; right; left.
Qed.
Lemma L_ge g : List.In g gs -> (g_par g <= L)%N.
Proof. by have [_ d h] := run_ok up srt; rewrite /L -d; exact: h. Qed.

Definition rest : nat := (n - offset dist_coef L.+1)%N.
Definition allb : seq (nat * mat) := upto up gs L.+1 ++ [:: (rest, eye)].
Lemma allb_size : bsize allb = n.
Proof.
rewrite bsize_cat bsize_upto ?L_lt //= addn0 /rest subnKC // n_eq; exact: offset_le L_lt.
Qed.
Lemma bdiag_pad0 l B : bdiag (l ++ [:: (0%N, B)]) = bdiag l.
Proof.
elim: l => [|[k C] l ih] /=; last by rewrite ih.
by apply: functional_extensionality => i; apply: functional_extensionality => j; rewrite /block !ltn0.
Qed.
Lemma Q_emb : (bases up n gs).1 = bdiag allb.
Proof.
have [o d h] := run_ok up srt; rewrite /bases; cbn [fst]; rewrite (ok_Qe o) (ok_c o) d -/L bsize_upto ?L_lt // /allb.
case: eqP => [e|_]; cbn [negb]; first by rewrite /rest e subnn bdiag_pad0.
by rewrite -{1}(bsize_upto L_lt) -(bsize_upto L_lt) place_end cats1 bsize_upto ?L_lt.
Qed.
Lemma Qs_eq : (bases up n gs).2 = [seq bdiag (pb up gs e) | e <- iota 0 L.+1].
Proof.
have [o d h] := run_ok up srt; rewrite /bases (ok_Qs o) (ok_Qd o) d -/L -map_rcons -[in RHS]addn1 iotaD /= add0n cats1.
by [].
Qed.
Lemma Qs_size : size (bases up n gs).2 = L.+1.
Proof. by rewrite Qs_eq size_map size_iota. Qed.
Lemma Qs_nth d : (d <= L)%N -> nth zeros (bases up n gs).2 d = bdiag (pb up gs d).
Proof. by move=> h; rewrite Qs_eq (nth_map 0%N) ?size_iota // nth_iota. Qed.

Hypothesis orth : forall g, List.In g gs -> orthonormal (g_dim g) (g_Q g).
Lemma eye_orth k : orthb (k, eye).
Proof. by rewrite /orthb /= mx_eye trmx1 mulmx1. Qed.
Lemma pb_orth e x : List.In x (pb up gs e) -> orthb x.
Proof.
case=> [<-|]; first exact: eye_orth.
elim: gs orth => [|g l ih] h //=.
case: eqP => _ /=; last by apply: ih => y hy; apply: h; right.
case/List.in_app_iff => [|]; last by apply: ih => y hy; apply: h; right.
rewrite /copies; elim: (g_reps g) => //= k ihk [<-|//].
by rewrite /orthb /=; apply/orthonormal_mx; apply: h; left.
Qed.
Lemma upto_orth d x : List.In x (upto up gs d) -> orthb x.
Proof.
elim: d => [|d ih] //; rewrite upto_S => /List.in_app_iff [] //; exact: pb_orth.
Qed.
Lemma allb_orth x : List.In x allb -> orthb x.
Proof.
move=> h; case: ((List.in_app_iff (upto up gs L.+1) [:: (rest, eye)] x).1 h) => [|[<-|//]]; [exact: upto_orth|exact: eye_orth].
Qed.

Notation Q := (mx n n (bases up n gs).1).
Lemma Q_orth : Q^T *m Q = 1%:M.
Proof. by rewrite Q_emb; have := bdiag_orth allb_orth; rewrite allb_size. Qed.
Lemma Q_orth' : Q *m Q^T = 1%:M. Proof. by apply: mulmx1C; exact: Q_orth. Qed.
Lemma Qd_orth d : (d <= L)%N -> let q := mx (dist_coef d) (dist_coef d) (bdiag (pb up gs d)) in q^T *m q = 1%:M.
Proof.
move=> h; have dm : (d < m)%N by exact: leq_ltn_trans h L_lt.
by have := bdiag_orth (@pb_orth d); rewrite (bsize_pb dm).
Qed.

(** Where a copy of a basis is. *)
Lemma In_split (g : group) : List.In g gs -> exists l1 l2, gs = l1 ++ g :: l2.
Proof. by move=> h; have [l1 [l2 e]] := List.in_split g gs h; exists l1, l2. Qed.
Lemma upto_split d : (d <= L)%N -> exists l, upto up gs L.+1 = upto up gs d ++ pb up gs d ++ l.
Proof.
move=> h; rewrite -(subnKC h) -addnS /upto iotaD map_cat flatten_cat add0n /= .
by exists (flatten [seq pb up gs e | e <- iota d.+1 (L - d)]).
Qed.
Lemma where_copy l1 g l2 c : gs = l1 ++ g :: l2 -> (c < g_reps g)%N ->
  exists b1 b2, allb = b1 ++ (g_dim g, g_Q g) :: b2 /\ bsize b1 = (g_start g + c * g_dim g)%N.
Proof.
move=> e lc; have ing : List.In g gs by rewrite e; apply/List.in_app_iff; right; left.
have [l el] := upto_split (L_ge ing).
have gm : (g_par g < m)%N by apply: leq_ltn_trans (L_ge ing) L_lt.
have ec : copies g = nseq c (g_dim g, g_Q g) ++ (g_dim g, g_Q g) :: nseq (g_reps g - c.+1) (g_dim g, g_Q g).
  by rewrite /copies -{1}(subnKC lc) addSnnS nseqD.
exists (upto up gs (g_par g) ++ (up (g_par g), eye) :: flatten [seq copies h | h <- l1 & g_par h == g_par g] ++ nseq c (g_dim g, g_Q g)).
exists (nseq (g_reps g - c.+1) (g_dim g, g_Q g) ++ flatten [seq copies h | h <- l2 & g_par h == g_par g] ++ l ++ [:: (rest, eye)]).
split.
  rewrite /allb el /pb {2}e filter_cat map_cat flatten_cat /= eqxx /= ec.
  by rewrite -!catA /= -!catA /= -!catA.
rewrite bsize_cat bsize_upto; last by apply: ltnW.
rewrite /= bsize_cat bsize_flat; have [_ _ _ _ st] := lay; rewrite (st _ _ _ e) !addnA; congr (_ + _)%N.
by elim: (c) => //= k ->; rewrite mulSn.
Qed.
Lemma fits g : List.In g gs -> (g_start g + g_reps g * g_dim g <= n)%N.
Proof.
move=> /In_split [l1 [l2 e]]; case er : (g_reps g) => [|k].
  rewrite mul0n addn0; have [_ hd _ hm st] := lay; rewrite (st _ _ _ e) n_eq.
  have gm : (g_par g < m)%N by apply: hm; rewrite e; apply/List.in_app_iff; right; left.
  apply: leq_trans (offset_le gm); rewrite offset_S -addnA leq_add2l hd // leq_add2l.
  by rewrite e big_cat /= leq_addr.
have [b1 [b2 [eb es]]] := where_copy e (c := k) ltac:(by rewrite er).
by rewrite -allb_size eb bsize_cat es /= mulSn [(g_dim g + _ * _)%N]addnC addnA leq_add2l leq_addr.
Qed.
Notation E g c := (sel n (g_dim g) (g_start g + c * g_dim g)).
Lemma at_copy g c : List.In g gs -> (c < g_reps g)%N -> Q^T *m E g c = E g c *m (mx (g_dim g) (g_dim g) (g_Q g))^T.
Proof.
move=> /In_split [l1 [l2 e]] lc; have [b1 [b2 [eb es]]] := where_copy e lc.
by rewrite Q_emb eb -es bdiag_selT // -allb_size eb bsize_cat /= leq_add2l leq_addr.
Qed.
Lemma copy_fits g c : List.In g gs -> (c < g_reps g)%N -> (g_start g + c * g_dim g + g_dim g <= n)%N.
Proof.
move=> h lc; apply: leq_trans (fits h); rewrite -addnA leq_add2l addnC -mulSn leq_mul2r.
by rewrite lc orbT.
Qed.

(** The coefficients of a parameter. *)
Lemma bdiag_group l l2 : bdiag (l ++ l2) = bdiag ((bsize l, bdiag l) :: l2).
Proof.
apply: functional_extensionality => i; apply: functional_extensionality => j.
elim: l i j => [|[k B] l ih] i j /=; first by rewrite /block !ltn0 !subn0.
rewrite /= in ih; rewrite /block; have [ik|ik] := ltnP i k; have [jk|jk] := ltnP j k.
- by rewrite !(leq_trans _ (leq_addr _ _)).
- by rewrite (leq_trans ik (leq_addr _ _)); case: ltnP.
- by rewrite (leq_trans jk (leq_addr _ _)); case: ltnP.
rewrite ih /block !ltn_subLR // !subnDA.
by [].
Qed.
Lemma bdiag_group3 l1 l l2 : bdiag (l1 ++ l ++ l2) = bdiag (l1 ++ (bsize l, bdiag l) :: l2).
Proof. by elim: l1 => [|[k B] l1 ih]; [rewrite !cat0s; exact (bdiag_group l l2)|rewrite /= ih]. Qed.
Lemma offset_fits d : (d < m)%N -> (offset dist_coef d + dist_coef d <= n)%N.
Proof. by move=> h; rewrite -offset_S n_eq offset_le. Qed.
Notation F d := (sel n (dist_coef d) (offset dist_coef d)).
Lemma slice_in d : (d <= L)%N -> Q *m F d = F d *m mx (dist_coef d) (dist_coef d) (bdiag (pb up gs d)).
Proof.
move=> h; have dm : (d < m)%N by exact: leq_ltn_trans h L_lt.
have [l el] := upto_split h.
have e : (bases up n gs).1 = bdiag (upto up gs d ++ (dist_coef d, bdiag (pb up gs d)) :: l ++ [:: (rest, eye)]).
  by rewrite Q_emb /allb el -!catA bdiag_group3 bsize_pb.
by rewrite e -(bsize_upto (ltnW dm)) bdiag_sel // bsize_upto ?(ltnW dm) ?offset_fits.
Qed.
Lemma slice_out d : (L < d)%N -> (d < m)%N -> Q *m F d = F d.
Proof.
move=> h dm; rewrite Q_emb /allb.
have le := offset_le h; have fit := offset_fits dm.
have fit' : (offset dist_coef d - offset dist_coef L.+1 + dist_coef d <= rest)%N.
  by rewrite /rest addnC addnBA // leq_sub2r // addnC.
have fr : (offset dist_coef L.+1 + rest <= n)%N by rewrite /rest subnKC // (leq_trans le) // (leq_trans _ fit) // leq_addr.
have -> : F d = sel n rest (offset dist_coef L.+1) *m sel rest (dist_coef d) (offset dist_coef d - offset dist_coef L.+1).
  by rewrite sel_sel // subnKC.
by rewrite mulmxA -(bsize_upto L_lt) bdiag_sel ?bsize_upto ?L_lt // mx_eye mulmx1.
Qed.

Definition part (b : nat -> R) (d i : nat) : R := b (offset dist_coef d + i)%N.
Lemma vec_mx q x : vec q x = mx q 1 (fun i _ => x i).
Proof. by apply/matrixP => i j; rewrite !mxE. Qed.
Lemma part_vec b d : (d < m)%N -> vec (dist_coef d) (part b d) = (F d)^T *m vec n b.
Proof. by move=> h; rewrite !vec_mx selT ?offset_fits. Qed.
Lemma vecE q (x : nat -> R) (i : 'I_q) : x i = vec q x i 0. Proof. by rewrite mxE. Qed.
Lemma coef_vec cs d : (d <= L)%N -> vec (dist_coef d) (coef_rp dist_coef up n gs cs d) =
  (mx (dist_coef d) (dist_coef d) (bdiag (pb up gs d)))^T *m vec (dist_coef d) (cs d).
Proof.
move=> h; apply/matrixP => i j; rewrite !mxE /coef_rp Qs_size ltnS h Qs_nth //.
by apply: eq_bigr => a _; rewrite !mxE.
Qed.
Lemma undo_vec cs d : (d <= L)%N -> vec (dist_coef d) (undo_coef dist_coef up n gs cs d) =
  mx (dist_coef d) (dist_coef d) (bdiag (pb up gs d)) *m vec (dist_coef d) (cs d).
Proof.
move=> h; apply/matrixP => i j; rewrite !mxE /undo_coef Qs_size ltnS h Qs_nth //.
by apply: eq_bigr => a _; rewrite !mxE.
Qed.
Lemma out_coef cs d i : (L < d)%N -> coef_rp dist_coef up n gs cs d i = cs d i.
Proof. by move=> h; rewrite /coef_rp Qs_size ltnS leqNgt h. Qed.
Lemma out_undo cs d i : (L < d)%N -> undo_coef dist_coef up n gs cs d i = cs d i.
Proof. by move=> h; rewrite /undo_coef Qs_size ltnS leqNgt h. Qed.

Lemma undo_same cs d i : (d < m)%N -> (i < dist_coef d)%N ->
  undo_coef dist_coef up n gs (coef_rp dist_coef up n gs cs) d i = cs d i.
Proof.
move=> dm lt; have [dl|dl] := leqP d L; last by rewrite out_undo // out_coef.
rewrite -[i]/(nat_of_ord (Ordinal lt)) vecE undo_vec // coef_vec // mulmxA mulmx1C ?Qd_orth //.
by rewrite mul1mx -vecE.
Qed.
Lemma pred_same Xs cs d t : (d < m)%N ->
  predictor (dist_coef d) (Xs_rp dist_coef up n gs Xs d) (coef_rp dist_coef up n gs cs d) t = predictor (dist_coef d) (Xs d) (cs d) t.
Proof.
move=> dm.
have e X c : predictor (dist_coef d) X c t = (mx 1 (dist_coef d) (fun _ i => X t i) *m vec (dist_coef d) c) 0 0.
  by rewrite mxE /predictor; apply: eq_bigr => i _; rewrite !mxE.
rewrite !e; have [dl|dl] := leqP d L; last first.
  congr ((_ *m _) _ _); apply/matrixP => i j; rewrite !mxE ?out_coef // /Xs_rp Qs_size ltnS leqNgt dl //.
rewrite coef_vec //.
have -> : mx 1 (dist_coef d) (fun _ i => Xs_rp dist_coef up n gs Xs d t i) =
    mx 1 (dist_coef d) (fun _ i => Xs d t i) *m mx (dist_coef d) (dist_coef d) (bdiag (pb up gs d)).
  apply/matrixP => i j; rewrite !mxE /Xs_rp Qs_size ltnS dl Qs_nth //= /mul.
  by apply: eq_bigr => a _; rewrite !mxE.
by rewrite -mulmxA [mx _ _ (bdiag _) *m _]mulmxA mulmx1C ?Qd_orth // mul1mx.
Qed.
Lemma coords b d i : (d < m)%N -> (i < dist_coef d)%N ->
  coef_rp dist_coef up n gs (part b) d i = \sum_(a < n) (bases up n gs).1 a (offset dist_coef d + i)%N * b a.
Proof.
move=> dm lt.
have -> : \sum_(a < n) (bases up n gs).1 a (offset dist_coef d + i)%N * b a = ((Q *m F d)^T *m vec n b) (Ordinal lt) 0.
  rewrite mx_selR ?offset_fits // mxE; apply: eq_bigr => a _; by rewrite !mxE.
have [dl|dl] := leqP d L; last first.
  by rewrite slice_out // -part_vec // out_coef // [RHS]mxE.
rewrite slice_in // trmx_mul -mulmxA -part_vec //.
by rewrite -coef_vec // [RHS]mxE.
Qed.

(** ** Penalties *)
Lemma basis_of (A B : mat) : in_basis n (bases up n gs).1 A B <-> mx n n B = Q^T *m mx n n A *m Q.
Proof. exact: in_basis_mx. Qed.
Lemma conj_copy g (M : 'M[R]_(g_dim g)) c : List.In g gs -> (c < g_reps g)%N ->
  Q^T *m (E g c *m M *m (E g c)^T) *m Q =
  E g c *m ((mx (g_dim g) (g_dim g) (g_Q g))^T *m M *m mx (g_dim g) (g_dim g) (g_Q g)) *m (E g c)^T.
Proof.
move=> hg lc; have h := at_copy hg lc.
have h' : (E g c)^T *m Q = mx (g_dim g) (g_dim g) (g_Q g) *m (E g c)^T.
  by rewrite -[LHS]trmxK trmx_mul trmxK h trmx_mul trmxK.
by rewrite -!mulmxA h' [Q^T *m (_ *m _)]mulmxA h -!mulmxA.
Qed.
Lemma corner_copies g r (B S : mat) : List.In g gs -> (r <= g_dim g)%N ->
  mx n n (place_reps (g_reps g) r (g_dim g) B S (g_start g)) =
  mx n n S + \sum_(c < g_reps g) E g c *m mx (g_dim g) (g_dim g) (cornered r B) *m (E g c)^T.
Proof.
move=> hg le; rewrite reps_mx ?fits //; congr (_ + _); apply: eq_bigr => c _.
rewrite cornered_mx // -[in LHS](addn0 (g_start g + c * g_dim g)%N) -(sel_sel (q := g_dim g)) ?copy_fits ?add0n //.
by rewrite trmx_mul !mulmxA.
Qed.
Lemma copies_basis g r (A B : mat) : List.In g gs -> (r <= g_dim g)%N -> in_basis (g_dim g) (g_Q g) A (cornered r B) ->
  mx n n (place_reps (g_reps g) r (g_dim g) B zeros (g_start g)) = Q^T *m mx n n (embedded g A) *m Q.
Proof.
move=> hg le /in_basis_mx e; rewrite corner_copies // mx_zeros add0r embedded_mx ?fits //.
rewrite mulmx_sumr mulmx_suml; apply: eq_bigr => c _; by rewrite conj_copy // e.
Qed.

Notation no_pen := (Pen (fun _ _ => 0) (fun _ _ => 0) 0 0).
Notation no_group := (Group 0 0 0 0 0 (fun _ _ => 0) (fun _ _ => 0) [::]).
Notation pn g k := (nth no_pen (g_pens g) k).
Lemma pen_basis g orig k : List.In g gs -> transformed n g orig -> (k < size (g_pens g))%N ->
  in_basis n (bases up n gs).1 (embedded g (orig k)) (S_J_emb_rp g (pn g k)).
Proof.
move=> hg [[le _ hb _ _] _] lk; apply/basis_of; exact: (copies_basis hg le (hb _ lk)).
Qed.
Lemma group_total g orig S : List.In g gs -> transformed n g orig ->
  mx n n (place_reps (g_reps g) (g_r g) (g_dim g) (g_S g) S (g_start g)) =
  mx n n S + Q^T *m mx n n (fun i j => \sum_(k < size (g_pens g)) p_lam (pn g k) * embedded g (orig k) i j) *m Q.
Proof.
move=> hg [[le _ hb ht _] _]; rewrite corner_copies //; congr (_ + _).
have -> : mx n n (fun i j => \sum_(k < size (g_pens g)) p_lam (pn g k) * embedded g (orig k) i j) =
    \sum_(k < size (g_pens g)) p_lam (pn g k) *: mx n n (embedded g (orig k)).
  by apply/matrixP => i j; rewrite summxE mxE; apply: eq_bigr => k _; rewrite !mxE.
have -> : mx (g_dim g) (g_dim g) (cornered (g_r g) (g_S g)) =
    \sum_(k < size (g_pens g)) p_lam (pn g k) *: mx (g_dim g) (g_dim g) (cornered (g_r g) (p_S (pn g k))).
  apply/matrixP => i j; rewrite summxE mxE /cornered; case: andP => [[hi hj]|h].
    by rewrite ht //; apply: eq_bigr => k _; rewrite !mxE hi hj.
  by rewrite big1 // => k _; rewrite !mxE; case: andP => // _; rewrite mulr0.
rewrite mulmx_sumr mulmx_suml.
rewrite (eq_bigr (fun c : 'I_(g_reps g) => \sum_(k < size (g_pens g)) p_lam (pn g k) *:
    (E g c *m mx (g_dim g) (g_dim g) (cornered (g_r g) (p_S (pn g k))) *m (E g c)^T))); last first.
  by move=> c _; rewrite mulmx_sumr mulmx_suml; apply: eq_bigr => k _; rewrite -scalemxAr -scalemxAl.
rewrite exchange_big /=; apply: eq_bigr => k _; rewrite -scaler_sumr -scalemxAr -scalemxAl; congr (_ *: _).
have := copies_basis hg le (hb k (ltn_ord k)); rewrite corner_copies // mx_zeros add0r; exact.
Qed.
Lemma nth_In (T : Type) (x0 : T) l i : (i < size l)%N -> List.In (nth x0 l i) l.
Proof. by elim: l i => [|x l ih] [|i] //= h; [left|right; exact: ih]. Qed.
Lemma prefix_total orig l : (forall g, List.In g l -> List.In g gs) ->
  (forall k, (k < size l)%N -> transformed n (nth no_group l k) (orig k)) ->
  mx n n (S_emb_rp l) = Q^T *m mx n n (total_penalty l orig) *m Q.
Proof.
elim/last_ind: l => [|l g ih] sub tr.
  have -> : mx n n (total_penalty [::] orig) = 0 by apply/matrixP => i j; rewrite !mxE /total_penalty big_ord0.
  by rewrite mulmx0 mul0mx mx_zeros.
have hg : List.In g gs by apply: sub; rewrite -cats1; apply/List.in_app_iff; right; left.
have tg : transformed n g (orig (size l)) by have := tr (size l); rewrite size_rcons nth_rcons ltnn eqxx; apply.
rewrite /S_emb_rp foldl_rcons -/(S_emb_rp l) (group_total _ hg tg) ih.
- rewrite -mulmxDl -mulmxDr; congr (_ *m _ *m _); apply/matrixP => i j; rewrite !mxE /total_penalty size_rcons big_ord_recr /=.
  rewrite nth_rcons ltnn eqxx; congr (_ + _); apply: eq_bigr => k _; by rewrite nth_rcons ltn_ord.
- by move=> x hx; apply: sub; rewrite -cats1; apply/List.in_app_iff; left.
by move=> k lk; have := tr k; rewrite size_rcons nth_rcons lk ltnS (ltnW lk) => /(_ isT).
Qed.
Lemma undo_basis (A B : mat) : in_basis n (bases up n gs).1 A B -> forall i j, (i < n)%N -> (j < n)%N -> undo_S up n gs B i j = A i j.
Proof.
move=> /basis_of e; apply/mx_ext; rewrite /undo_S !mx_mul mx_tr e.
by rewrite !mulmxA Q_orth' mul1mx -mulmxA Q_orth' mulmx1.
Qed.
Lemma roots g orig k : List.In g gs -> transformed n g orig -> (k < size (g_pens g))%N -> forall i j, (i < n)%N -> (j < n)%N ->
  \sum_(c < p_cols (pn g k)) D_J_emb_rp n g (pn g k) i c * D_J_emb_rp n g (pn g k) j c = S_J_emb_rp g (pn g k) i j.
Proof.
move=> hg tg lk; set p := pn g k; set q := p_cols p.
have [[le _ hb _ _] hD] := tg; have {}hD := hD k lk.
have eD : mx n q (p_D p) *m (mx n q (p_D p))^T = mx n n (embedded g (orig k)).
  apply/matrixP => i j; rewrite !mxE -hD //; apply: eq_bigr => c _; by rewrite !mxE.
apply: (proj2 (mx_ext n n (fun i j => \sum_(c < q) D_J_emb_rp n g p i c * D_J_emb_rp n g p j c) _)).
transitivity (mx n q (D_J_emb_rp n g p) *m (mx n q (D_J_emb_rp n g p))^T).
  by apply/matrixP => i j; rewrite !mxE; apply: eq_bigr => c _; rewrite !mxE.
rewrite /D_J_emb_rp mx_mul mx_tr trmx_mul trmxK -mulmxA [mx n q _ *m (_ *m _)]mulmxA eD.
set QJ := mx n n (place_reps _ _ _ _ _ _).
have eQ : QJ = \sum_(c < g_reps g) E g c *m mx (g_dim g) (g_dim g) (g_Q g) *m (E g c)^T.
  by rewrite /QJ reps_mx ?fits // mx_zeros add0r.
have perp (c c' : 'I_(g_reps g)) : (E g c)^T *m E g c' = if c == c' then 1%:M else 0.
  have cf := copy_fits hg; case: eqP => [<-|ne]; first by rewrite sel_orth // cf.
  have {}ne : (c : nat) != c' by apply/eqP => h; apply: ne; exact: val_inj.
  move: ne; rewrite neq_ltn => /orP [h|h].
    by apply: sel_perp; rewrite ?cf // -addnA leq_add2l addnC -mulSn leq_mul2r h orbT.
  by apply: sel_perp'; rewrite ?cf // -addnA leq_add2l addnC -mulSn leq_mul2r h orbT.
have eE (c : 'I_(g_reps g)) : QJ^T *m E g c = E g c *m (mx (g_dim g) (g_dim g) (g_Q g))^T.
  rewrite eQ raddf_sum mulmx_suml (bigD1 c) //= big1 ?addr0 => [|c' nc].
    by rewrite !trmx_mul trmxK -!mulmxA perp eqxx mulmx1.
  by rewrite !trmx_mul trmxK -!mulmxA perp (negbTE nc) !mulmx0.
have eE' (c : 'I_(g_reps g)) : (E g c)^T *m QJ = mx (g_dim g) (g_dim g) (g_Q g) *m (E g c)^T.
  by rewrite -[LHS]trmxK trmx_mul trmxK eE trmx_mul trmxK.
rewrite embedded_mx ?fits // mulmx_suml mulmx_sumr /S_J_emb_rp corner_copies // mx_zeros add0r.
apply: eq_bigr => c _; have /in_basis_mx -> := hb k lk.
by rewrite -!mulmxA eE' [QJ^T *m (_ *m _)]mulmxA eE -!mulmxA.
Qed.
Lemma undo_cov r (LV : mat) : in_basis n (bases up n gs).1
  (fun i j => \sum_(c < r) undo_LV up n gs LV c i * undo_LV up n gs LV c j) (fun i j => \sum_(c < r) LV c i * LV c j).
Proof.
apply/basis_of.
have e (M : mat) : mx n n (fun i j => \sum_(c < r) M c i * M c j) = (mx r n M)^T *m mx r n M.
  by apply/matrixP => i j; rewrite !mxE; apply: eq_bigr => c _; rewrite !mxE.
rewrite !e /undo_LV mx_mul mx_tr trmx_mul trmxK.
by rewrite !mulmxA Q_orth mul1mx -!mulmxA Q_orth mulmx1.
Qed.
Lemma same_penalty orig b b' : (forall k, (k < size gs)%N -> transformed n (nth no_group gs k) (orig k)) ->
  (forall d i, (d < m)%N -> (i < dist_coef d)%N -> b' (offset dist_coef d + i)%N = coef_rp dist_coef up n gs (part b) d i) ->
  form n (S_emb_rp gs) b' = form n (total_penalty gs orig) b.
Proof.
move=> tr hb; rewrite !form_quad (prefix_total _ tr) //.
have -> : vec n b' = Q^T *m vec n b.
  apply/matrixP => i j; rewrite !mxE.
  have [d [r [dm rl e]]] : exists d r, [/\ (d < m)%N, (r < dist_coef d)%N & (i : nat) = (offset dist_coef d + r)%N].
    have := ltn_ord i; rewrite [X in (_ < X)%N]n_eq; elim: m => [|k ihk]; first by rewrite /offset big_ord0.
    rewrite offset_S; have [h _|h lt] := ltnP i (offset dist_coef k).
      by have [d [r [a c e]]] := ihk h; exists d, r; split => //; exact: ltnW.
    by exists k, (i - offset dist_coef k)%N; rewrite ltn_subLR // subnKC.
  rewrite e hb // coords //; apply: eq_bigr => a _; by rewrite !mxE e.
by rewrite quad_congr mulmxA Q_orth' mul1mx.
Qed.
End Main.
