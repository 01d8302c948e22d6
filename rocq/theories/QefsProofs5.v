(** Proofs for QefsModel: the stored factor with known blocks, columns of second derivatives. *)
From mathcomp Require Import all_ssreflect all_algebra.
From Verif Require Import MatModel MatSpec MatProofs MatProofs5 QefsModel QefsSpec QefsProofs QefsProofs2 QefsProofs3 QefsProofs4.
Set Implicit Arguments.
Unset Strict Implicit.
Unset Printing Implicit Defensive.
Import Order.TTheory GRing.Theory Num.Theory.
Local Open Scope ring_scope.

(** ** Columns of second derivatives *)
Section Columns.
Variable K : ringType.
Variable dim : nat.
Variable Hj : nat -> nat -> K.

Lemma entry_cat (a b : seq (K * nat * nat)) r c : entry_of (a ++ b) r c = entry_of a r c + entry_of b r c.
Proof. by rewrite /entry_of big_cat. Qed.

(** Triplets of one column or row whose other index runs over distinct numbers. *)
Lemma entry_down (s : seq nat) f j r c : uniq s ->
  entry_of [seq (f i, i, j) | i <- s] r c = if (c == j) && (r \in s) then f r else 0 :> K.
Proof.
move=> u; rewrite /entry_of big_map /=; case: (eqVneq c j) => _ /=; last first.
  by rewrite big_pred0 // => i; rewrite andbF.
case: ifP => [rs|rs].
  rewrite big_mkcond (bigD1_seq r) //= eqxx big1 ?addr0 // => i ne; by rewrite (negbTE ne).
rewrite big_seq_cond big1 // => i /andP[ie /andP[/eqP e _]]; by rewrite -e ie in rs.
Qed.
Lemma entry_across (s : seq nat) f j r c : uniq s ->
  entry_of [seq (f i, j, i) | i <- s] r c = if (r == j) && (c \in s) then f c else 0 :> K.
Proof.
move=> u; rewrite /entry_of big_map /=; case: (eqVneq r j) => _ /=; last first.
  by rewrite big_pred0.
case: ifP => [cs|cs].
  rewrite big_mkcond (bigD1_seq c) //= eqxx big1 ?addr0 // => i ne; by rewrite (negbTE ne).
rewrite big_seq_cond big1 // => i /andP[ie /eqP e]; by rewrite -e ie in cs.
Qed.

Lemma left_overP ccols r : (r \in left_over dim ccols) = (r < dim)%N && (r \notin ccols).
Proof. by rewrite mem_filter mem_iota add0n andbC. Qed.
Lemma left_over_uniq ccols : uniq (left_over dim ccols).
Proof. by rewrite filter_uniq // iota_uniq. Qed.

Lemma jloop jcols : forall trip ccols r c, (r < dim)%N -> (c < dim)%N -> uniq (ccols ++ jcols) ->
  (forall j, j \in jcols -> (j < dim)%N) ->
  entry_of (foldl (jpass dim Hj) (trip, ccols) jcols).1 r c =
  entry_of trip r c + (if (r \in ccols) || (c \in ccols) then 0 else known Hj jcols r c).
Proof.
elim: jcols => [|j jcols ih] trip ccols r c rd cd u jd.
  by rewrite /=; case: ifP; rewrite addr0.
have jdim : (j < dim)%N by apply: jd; rewrite inE eqxx.
have jn : j \notin ccols.
  by move: u; rewrite cat_uniq => /and3P[_ h _]; apply: contra h => /= ->.
rewrite [foldl _ _ _]/= ih //; last 2 first.
- by rewrite cat_rcons.
- by move=> k kj; apply: jd; rewrite inE kj orbT.
rewrite !entry_cat entry_down ?left_over_uniq // entry_across ?left_over_uniq // !left_overP rd cd /=.
rewrite -addrA; congr (_ + _); rewrite !mem_rcons !inE.
case: (eqVneq c j) => [->|cj] /=; case: (eqVneq r j) => [->|rj] /=; rewrite ?(negbTE jn) ?orbT ?orbF ?andbF ?addr0 ?add0r //=.
- by case: (r \in ccols).
- by case: (c \in ccols).
Qed.

Lemma jhessian_known jcols r c : (r < dim)%N -> (c < dim)%N -> uniq jcols ->
  (forall j, j \in jcols -> (j < dim)%N) -> jhessian dim Hj jcols r c = known Hj jcols r c.
Proof. by move=> rd cd u jd; rewrite /jhessian jloop //= /entry_of big_nil add0r. Qed.
End Columns.

Lemma known_sym (K : ringType) (Hj : nat -> nat -> K) jcols r c : known Hj jcols r c = known Hj jcols c r.
Proof.
elim: jcols => //= j jcols ->; by case: (eqVneq c j) => [cj|_]; case: (eqVneq r j) => [rj|_] //; rewrite ?cj ?rj.
Qed.

(** ** The stored factor with known blocks *)
Section Stored.
Variable R : rcfType.
Variable qr : forall n m, 'M[R]_(n, m) -> economic R n m.
Variable eigh : forall k, 'M[R]_k -> 'rV[R]_k * 'M[R]_k.
Variable inv : forall k, 'M[R]_k -> 'M[R]_k.
Variable cholP : forall k, 'M[R]_k -> factor R k.
Variable compute_Linv : forall k, 'M[R]_k -> 'M[R]_k.
Variable qrr : forall k e, 'M[R]_(e, k) -> 'M[R]_k * ('I_k -> 'I_k).
Variable rank_one : forall k, 'M[R]_k -> 'cV[R]_k -> R -> 'M[R]_k.
Variable root_eps : R.
Hypothesis qrok : qr_ok qr.
Hypothesis eighok : eigh_ok eigh.
Hypothesis invok : forall k, inv_ok (@inv k).
Hypothesis eps0 : 0 < root_eps.
Hypothesis eps1 : root_eps <= 1.
Variables nF nA : nat.
Notation n := (nF + nA)%N.
Hypothesis cholok : chol_ok (@cholP n).
Hypothesis linvok : linv_ok (@compute_Linv n).
Hypothesis rankok : rank_one_ok (@rank_one n).
Variable tcols : 'I_n -> 'I_n.
Hypothesis inj : injective tcols.
Notation P1 := (P1 R tcols).

Lemma stored_blocks_ok (J : 'M[R]_n) damp (PD PD' : bool) N HBB IHBB HBb
    m (s y : 'I_m.+1 -> 'rV[R]_n) rho (lo : linop R n) r (S_root : 'M[R]_(n, r)) S_emb dampB H :
  J^T = J -> drsubmx (P1^T *m J *m P1) = 0 -> (PD -> ulsubmx (P1^T *m J *m P1) != 0) -> (PD' -> PD) ->
  makepdd eigh root_eps tcols J damp true PD = (N, HBB, IHBB, HBb) ->
  lo_mem lo = Pairs s y rho ->
  0 < part_omega tcols s y (lo_sampled lo) dampB ->
  proper (part tcols \o s) (part tcols \o y) (fun i => 1 / dot (part tcols (s i)) (part tcols (y i)))
    (part_omega tcols s y (lo_sampled lo) dampB) ->
  S_root *m S_root^T = S_emb ->
  getExplicitnH_blocks qr eigh inv root_eps tcols lo N IHBB dampB true true = Some H ->
  definite (H + S_emb) ->
  exists L LV, stored_blocks qr eigh inv cholP compute_Linv qrr rank_one root_eps tcols lo N IHBB S_emb S_root dampB PD'
      = Some (- H, L, LV) /\
    L *m L^T = H + S_emb /\ LV^T *m LV *m (H + S_emb) = 1%:M.
Proof.
move=> Js z nz pp NE memE w0 prop SE HE d.
have [N' [B' [I' [b' [e [[NP sB pin rg] [_ _ bd]]]]]]] := @makepdd_ok _ _ _ eps0 eps1 _ _ eighok _ inj J damp PD Js nz.
move: e; rewrite NE => -[? ? ? ?]; subst N' B' I' b'; rewrite z in NP.
rewrite -SE in d.
have bd' U (e : 'rV[R]_nF) : PD' -> HBB = U *m diag_mx e *m U^T -> U^T *m U = 1%:M ->
    forall i, root_eps * max_abs e <= e 0 i by move=> /pp; exact: bd.
have [LP [e f]] := @chol_blocks_ok _ qr eigh inv cholP qrr rank_one root_eps qrok invok nF nA tcols inj eighok
  cholok rankok N HBB IHBB HBb PD' NP sB pin rg bd' _ _ _ _ _ _ _ _ _ _ memE w0 prop HE d.
by rewrite /stored_blocks HE e; rewrite SE in f d; exact: store_ok.
Qed.
End Stored.

(** ** Known blocks that need no correction *)
Lemma makepdd_unchanged (R : rcfType) (eigh : forall k, 'M[R]_k -> 'rV[R]_k * 'M[R]_k) root_eps nF nA
    (tcols : 'I_(nF + nA) -> 'I_(nF + nA)) (J : 'M[R]_(nF + nA)) damp (PD : bool) :
  eigh_ok eigh -> injective tcols -> J^T = J -> 0 <= root_eps ->
  let J' := (P1 R tcols)^T *m J *m P1 R tcols in
  (forall U (e : 'rV[R]_nF), ulsubmx J' = U *m diag_mx e *m U^T -> U^T *m U = 1%:M ->
     forall i, root_eps * max_abs e < e 0 i) ->
  exists N IHBB, makepdd eigh root_eps tcols J damp true PD = (N, ulsubmx J', IHBB, damp *: ursubmx J') /\
    IHBB *m ulsubmx J' = 1%:M.
Proof.
move=> eighok inj Js e0 J' big.
have ul : (ulsubmx J')^T = ulsubmx J' by rewrite trmx_ulsub /J' !trmx_mul trmxK Js mulmxA.
have [JE UU] := eighok _ _ ul; rewrite /makepdd -/J'.
case eE : (eigh _ (ulsubmx J')) JE UU => [eig U] /= JE UU.
have b := big U eig JE UU.
have pos i : 0 < eig 0 i by apply: le_lt_trans (b i); rewrite mulr_ge0 // max_abs_ge0.
have inv : U *m diag_mx (dinv eig) *m U^T *m ulsubmx J' = 1%:M.
  rewrite JE spectral_mul //.
  have -> : (\row_i (dinv eig 0 i * eig 0 i)) = const_mx 1.
    by apply/rowP => i; rewrite !mxE gt_eqF //= mul1r mulVf // gt_eqF.
  by rewrite diag_const_mx mulmx1; exact: mulmx1C.
case: PD => /=.
  have -> : \row_i (if eig 0 i <= root_eps * max_abs eig then root_eps * max_abs eig else eig 0 i) = eig.
    by apply/rowP => i; rewrite mxE leNgt b.
  have -> : \row_i (1 / eig 0 i) = dinv eig by apply/rowP => i; rewrite !mxE gt_eqF.
  by rewrite -JE; do 2 eexists; split; first by reflexivity.
have -> : \row_i (if eig 0 i <= 0 then 0 else eig 0 i) = eig.
  by apply/rowP => i; rewrite mxE leNgt pos.
have -> : \row_i (if eig 0 i != 0 then 1 / eig 0 i else 0) = dinv eig by [].
by rewrite -JE (mulmx1C inv) mul1mx; do 2 eexists; split; first by reflexivity.
Qed.

(** Entries in the order of [tcols]. *)
Lemma known_entry (F : fieldType) nF nA (tcols : 'I_(nF + nA) -> 'I_(nF + nA)) (J : 'M[F]_(nF + nA)) i j :
  injective tcols -> ((P1 F tcols)^T *m J *m P1 F tcols) i j = J (tcols i) (tcols j).
Proof.
move=> inj; rewrite -[LHS](SH_entry inj) !mulmxA (perm_mul_tr F inj) mul1mx -mulmxA (perm_mul_tr F inj) mulmx1.
by [].
Qed.

Lemma max_abs_attained (R : rcfType) k (e : 'rV[R]_k) (i0 : 'I_k) : exists i, max_abs e = `|e 0 i|.
Proof.
have h (l : seq 'I_k) : l != [::] -> exists i, foldr Num.max 0 [seq `|e 0 i| | i <- l] = `|e 0 i|.
  elim: l => // a l ih _; case: l ih => [|b l] ih /=.
    by exists a; rewrite max_l // normr_ge0.
  have [i E] := ih isT; case: (leP `|e 0 a| `|e 0 i|) => le; [exists i|exists a]; rewrite /= in E; rewrite E.
    by rewrite max_r.
  by rewrite max_l // ltW.
by apply: h; apply/eqP => z; have := mem_enum 'I_k i0; rewrite z.
Qed.
