From mathcomp Require Import all_ssreflect all_algebra.
From Verif Require Import MatModel MatSpec MatProofs MatProofs2 MatProofs3 MatProofs4 MatProofs5 QefsModel QefsSpec QefsProofs.
Set Implicit Arguments.
Unset Strict Implicit.
Unset Printing Implicit Defensive.
Import Order.TTheory GRing.Theory Num.Theory.
Local Open Scope ring_scope.

(** ** Updating a factor *)
Section Update.
Variable R : rcfType.
Variable qr : forall n m, 'M[R]_(n, m) -> economic R n m.
Variable eigh : forall k, 'M[R]_k -> 'rV[R]_k * 'M[R]_k.
Variable rank_one : forall k, 'M[R]_k -> 'cV[R]_k -> R -> 'M[R]_k.
Hypothesis qrok : qr_ok qr.
Variable n : nat.
Hypothesis eighok : eigh_ok eigh.
Hypothesis rankok : rank_one_ok (@rank_one n).

Lemma diag_sum k (W : 'M[R]_(n, k)) (ev : 'rV[R]_k) :
  W *m diag_mx ev *m W^T = \sum_i ev 0 i *: (col i W *m (col i W)^T).
Proof.
apply/matrixP => a b; rewrite summxE mxE; apply: eq_bigr => i _.
rewrite mul_mx_diag !mxE big_ord1 !mxE.
by rewrite [W a i * ev 0 i]mulrC mulrA.
Qed.

(** A lower triangular matrix with positive diagonal. *)
Definition chol_factor (L : 'M[R]_n) := lower L /\ forall i, 0 < L i i.

Lemma chol_factor_unit L : chol_factor L -> L \in unitmx.
Proof. by move=> [low pos]; apply: lower_unit => // i; rewrite gt_eqF. Qed.

Lemma gram_definite (L : 'M[R]_n) : L \in unitmx -> definite (L *m L^T).
Proof.
move=> u; split; first by rewrite trmx_mul trmxK.
move=> x x0; rewrite q_gram sq_gt0 //; apply: contra x0 => /eqP e.
have ut : L^T \in unitmx by rewrite unitmx_tr.
by rewrite -[x]mul1mx -(mulVmx ut) -mulmxA e mulmx0.
Qed.

Lemma fold_up (I : Type) (w : I -> 'cV[R]_n) sigma us : forall L, chol_factor L ->
  (forall k, definite (L *m L^T + sigma *: \sum_(i <- take k us) w i *m (w i)^T)) ->
  let L' := foldl (fun L i => rank_one L (w i) sigma) L us in
  chol_factor L' /\ L' *m L'^T = L *m L^T + sigma *: \sum_(i <- us) w i *m (w i)^T.
Proof.
elim: us => [|u us ih] L cL def /=; first by rewrite big_nil scaler0 addr0.
have [low pos] := cL.
have d1 := def 1%N; rewrite /= take0 big_seq1 in d1.
have [l1 p1 e1] := rankok low pos d1.
have [k|] := ih (rank_one L (w u) sigma) (conj l1 p1).
  by have := def k.+1; rewrite /= big_cons scalerDr addrA e1.
by move=> c e; split=> //; rewrite e e1 big_cons scalerDr addrA.
Qed.

Section UpDown.
Variables (L P : 'M[R]_n) (k : nat) (t1 : 'M[R]_(n, k)) (t2 : 'M[R]_k).
Hypothesis cL : chol_factor L.
Hypothesis PP : P^T *m P = 1%:M.
Hypothesis t2s : t2^T = t2.
Hypothesis def : definite (P *m L *m L^T *m P^T + t1 *m t2 *m t1^T).

Lemma up_down_ok : let r := up_down qr eigh rank_one (L, P) t1 t2 in
  [/\ chol_factor r.1, r.2 = P & P *m r.1 *m r.1^T *m P^T = P *m L *m L^T *m P^T + t1 *m t2 *m t1^T].
Proof.
rewrite /up_down; have [t1E QQ] := qrok t1.
set q := qr t1 in t1E QQ *.
have sym : (eR q *m t2 *m (eR q)^T)^T = eR q *m t2 *m (eR q)^T.
  by rewrite !trmx_mul trmxK t2s mulmxA.
have := eighok sym; case: (eigh _) => ev U /= [evE UU].
set U3 := P^T *m eQ q *m U.
have PP' := mulmx1C PP.
pose M i := col i U3 *m (col i U3)^T.
have upd : P^T *m (t1 *m t2 *m t1^T) *m P = \sum_i ev 0 i *: M i.
  have -> : P^T *m (t1 *m t2 *m t1^T) *m P = U3 *m diag_mx ev *m U3^T.
    rewrite t1E trmx_mul.
    have -> : eQ q *m eR q *m t2 *m ((eR q)^T *m (eQ q)^T) = eQ q *m (eR q *m t2 *m (eR q)^T) *m (eQ q)^T.
      by rewrite !mulmxA.
    by rewrite evE /U3 !trmx_mul trmxK !mulmxA.
  exact: diag_sum.
set pos := [seq i <- _ | 0 < _]; set neg := [seq i <- _ | _ < 0].
pose wp i := Num.sqrt (ev 0 i) *: col i U3; pose wn i := Num.sqrt `|ev 0 i| *: col i U3.
have wpE i : 0 < ev 0 i -> wp i *m (wp i)^T = ev 0 i *: M i.
  move=> e0; rewrite /wp linearZ /= -scalemxAl -scalemxAr scalerA -expr2 sqr_sqrtr //.
  exact: ltW.
have wnE i : ev 0 i < 0 -> wn i *m (wn i)^T = - (ev 0 i *: M i).
  move=> e0; rewrite /wn linearZ /= -scalemxAl -scalemxAr scalerA -expr2 sqr_sqrtr //.
  by rewrite ltr0_norm // scaleNr.
have split_sum : \sum_i ev 0 i *: M i = \sum_(i <- pos) wp i *m (wp i)^T - \sum_(i <- neg) wn i *m (wn i)^T.
  rewrite !big_filter !big_enum_cond /= (big_mkcond (fun i => 0 < ev 0 i)) (big_mkcond (fun i => ev 0 i < 0)).
  rewrite -sumrB; apply: eq_bigr => i _.
  case: (ltrgtP (ev 0 i) 0) => [h|h|h].
  - by rewrite wnE // sub0r opprK.
  - by rewrite wpE // subr0.
  - by rewrite h scale0r subr0.
have sumpsd (I : Type) (l : seq I) (w : I -> 'cV[R]_n) : semi (\sum_(i <- l) w i *m (w i)^T).
  elim: l => [|i l [ih1 ih2]]; rewrite ?big_nil ?big_cons.
    by split=> [|x]; rewrite ?trmx0 // /quad mulmx0 mul0mx mxE.
  split; first by rewrite raddfD /= ih1 trmx_mul trmxK.
  by move=> x; rewrite qD addr_ge0 // q_gram_ge0.
have defLP (Z : 'M[R]_n) : chol_factor L -> semi Z -> definite (L *m L^T + Z).
  move=> c [zs zp]; have [gs gp] := gram_definite (chol_factor_unit c).
  split; first by rewrite raddfD /= gs zs.
  by move=> x x0; rewrite qD ltr_spaddl // gp.
have [|c1 e1] := @fold_up _ wp 1 pos L cL.
  by move=> j; rewrite scale1r; apply: defLP => //; exact: sumpsd.
set L1 := foldl _ L pos in c1 e1 *.
pose B := P *m L *m L^T *m P^T + t1 *m t2 *m t1^T.
have Brot : P^T *m B *m P = L *m L^T + \sum_i ev 0 i *: M i.
  rewrite /B mulmxDr mulmxDl upd; congr (_ + _).
  by rewrite !mulmxA PP mul1mx -!mulmxA PP mulmx1.
have defB : definite (P^T *m B *m P).
  have [bs bp] := def; split; first by rewrite !trmx_mul trmxK /B bs !mulmxA.
  move=> x x0; rewrite -{2}[P]trmxK q_turn trmxK; apply: bp.
  by apply: contra x0 => /eqP e; rewrite -[x]mul1mx -PP -mulmxA e mulmx0.
have [|c2 e2] := @fold_up _ wn (-1) neg L1 c1.
  move=> j; rewrite e1 scale1r scaleN1r.
  have -> : L *m L^T + \sum_(i <- pos) wp i *m (wp i)^T - \sum_(i <- take j neg) wn i *m (wn i)^T =
            P^T *m B *m P + \sum_(i <- drop j neg) wn i *m (wn i)^T.
    rewrite Brot split_sum -[in X in _ = _ + (_ - X) + _](cat_take_drop j neg) big_cat /= opprD.
    by rewrite !addrA addrNK.
  have [bs bp] := defB; have [zs zp] := sumpsd _ (drop j neg) wn.
  split; first by rewrite raddfD /= bs zs.
  by move=> x x0; rewrite qD ltr_spaddl // bp.
split=> //=; set L2 := foldl _ L1 neg in c2 e2 *.
have -> : P *m L2 *m L2^T *m P^T = P *m (L2 *m L2^T) *m P^T by rewrite !mulmxA.
rewrite e2 e1 scale1r scaleN1r -addrA -split_sum -Brot.
by rewrite !mulmxA PP' mul1mx -!mulmxA PP' mulmx1 /B !mulmxA.
Qed.
End UpDown.
End Update.

(** ** What is stored *)
Section Stored.
Variable R : rcfType.
Variable qr : forall n m, 'M[R]_(n, m) -> economic R n m.
Variable eigh : forall k, 'M[R]_k -> 'rV[R]_k * 'M[R]_k.
Variable inv : forall k, 'M[R]_k -> 'M[R]_k.
Variable cholP : forall k, 'M[R]_k -> factor R k.
Variable compute_Linv : forall k, 'M[R]_k -> 'M[R]_k.
Variable qrr : forall k e, 'M[R]_(e, k) -> 'M[R]_k * ('I_k -> 'I_k).
Variable rank_one : forall k, 'M[R]_k -> 'cV[R]_k -> R -> 'M[R]_k.
Variable root_eps : R.
Hypothesis qrok : qr_ok qr.
Hypothesis invok : forall k, inv_ok (@inv k).
Variable n : nat.
Hypothesis eighok : eigh_ok eigh.
Hypothesis cholok : chol_ok (@cholP n).
Hypothesis linvok : linv_ok (@compute_Linv n).
Hypothesis rankok : rank_one_ok (@rank_one n).

(** L and P with P L L^T P^T = A. *)
Definition factored_as (A : 'M[R]_n) (LP : 'M[R]_n * 'M[R]_n) :=
  [/\ chol_factor LP.1, LP.2^T *m LP.2 = 1%:M & LP.2 *m LP.1 *m LP.1^T *m LP.2^T = A].

Lemma pivoted (A : 'M[R]_n) : definite A ->
  factored_as A (fac_L (cholP A), (compute_eigen_perm R (fac_P (cholP A)))^T).
Proof.
move=> d; have [ok tot] := cholok; have fA := ok A (tot A d).
case: (fA) => inj low pos _; split=> //=.
  by rewrite trmxK perm_mul_tr.
by rewrite trmxK [RHS](factor_eq fA).
Qed.

Lemma root_factor_ok e (E : 'M[R]_(n, e)) : definite (E *m E^T) ->
  factored_as (E *m E^T) (root_factor cholP qrr E).
Proof.
move=> d; have [ok tot] := cholok.
by rewrite /root_factor (tot _ d) eqxx; exact: pivoted.
Qed.

Lemma store_ok m (S nH : 'M[R]_n) LP : definite (nH + S) -> factored_as (nH + S) LP ->
  exists L LV, store cholP compute_Linv m S (Some nH) (Some LP) = Some (- nH, L, LV) /\
    L *m L^T = nH + S /\ LV^T *m LV *m (nH + S) = 1%:M.
Proof.
move=> d f.
have [LP' [-> f']] : exists LP', store cholP compute_Linv m S (Some nH) (Some LP) =
    Some (- nH, LP'.2 *m LP'.1, compute_Linv LP'.1 *m LP'.2^T) /\ factored_as (nH + S) LP'.
  rewrite /store !scaleN1r opprK; case: ifP => _.
    set LP' := (fac_L (cholP (nH + S)), (compute_eigen_perm R (fac_P (cholP (nH + S))))^T).
    by exists LP'; split=> //; exact: pivoted.
  by exists LP; split=> //; case: (LP).
case: f' => [c PP e]; do 2 eexists; split; first by reflexivity.
have li := linvok (proj1 c) (proj2 c).
split; first by rewrite trmx_mul !mulmxA.
rewrite -e trmx_mul trmxK !mulmxA.
have li' := mulmx1C li.
set L := LP'.1 in c li li' *; set P := LP'.2 in PP *; set X := compute_Linv L in li li' *.
rewrite -(mulmxA _ P^T P) PP mulmx1 -(mulmxA _ X L) li' mulmx1.
rewrite -(mulmxA P X^T L^T) -trmx_mul li trmx1 mulmx1.
exact: mulmx1C.
Qed.

Lemma getCholnH_ok r m (s y : 'I_m.+1 -> 'rV[R]_n) rho lo (S_root : 'M[R]_(n, r)) H pd :
  lo_mem lo = Pairs s y rho -> 0 < compute_omega s y (lo_sampled lo) ->
  proper s y rho (compute_omega s y (lo_sampled lo)) ->
  getExplicitnH qr eigh inv root_eps lo true pd = Some H ->
  definite (H + S_root *m S_root^T) ->
  exists LP, getCholnH qr eigh inv cholP qrr rank_one root_eps lo S_root pd = Some LP /\
    factored_as (H + S_root *m S_root^T) LP.
Proof.
move=> memE; rewrite /getExplicitnH /getCholnH memE.
set w := compute_omega _ _ _ => w0 prop [HE] d.
have [t3E t2s] := hsr1_sym qr eigh root_eps invok prop true pd.
set t := hsr1 _ _ _ _ _ _ _ _ _ _ _ in HE t3E t2s *.
set E := row_mx _ _.
have EE : E *m E^T = w%:M + S_root *m S_root^T.
  rewrite /E tr_row_mx mul_row_col tr_scalar_mx -scalar_mxM -expr2 sqr_sqrtr ?ltW //.
  by rewrite addrC.
have HS : H + S_root *m S_root^T = E *m E^T + tt1 t *m tt2 t *m (tt1 t)^T.
  by rewrite EE -HE t3E addrAC.
have dE : definite (E *m E^T).
  rewrite EE; apply: shifted_definite => //; split; first by rewrite trmx_mul trmxK.
  by move=> x; exact: q_gram_ge0.
case rE : (root_factor cholP qrr E) (root_factor_ok dE) => [L P] [c PP e] /=.
eexists; split; first by reflexivity.
have := @up_down_ok _ qr eigh rank_one qrok n eighok rankok L P _ (tt1 t) (tt2 t) c PP t2s.
rewrite /= in e; rewrite e -HS => /(_ d) [c' PE e'].
by split=> //; rewrite PE.
Qed.

Lemma stored_ok r m (s y : 'I_m.+1 -> 'rV[R]_n) rho lo (S_emb : 'M[R]_n) (S_root : 'M[R]_(n, r)) H :
  lo_mem lo = Pairs s y rho -> 0 < compute_omega s y (lo_sampled lo) ->
  proper s y rho (compute_omega s y (lo_sampled lo)) ->
  S_root *m S_root^T = S_emb ->
  getExplicitnH qr eigh inv root_eps lo true true = Some H ->
  definite (H + S_emb) ->
  exists L LV, stored qr eigh inv cholP compute_Linv qrr rank_one root_eps lo S_emb S_root = Some (- H, L, LV) /\
    L *m L^T = H + S_emb /\ LV^T *m LV *m (H + S_emb) = 1%:M.
Proof.
move=> memE w0 prop SE HE d; rewrite -SE in d.
have [LP [e f]] := getCholnH_ok memE w0 prop HE d.
by rewrite /stored HE e; rewrite SE in f d; exact: store_ok.
Qed.
End Stored.
