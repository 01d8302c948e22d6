(** Theorems about the quasi-Newton Hessians of models estimated with method "qEFS". *)
From Coq Require Import FunctionalExtensionality.
From mathcomp Require Import all_ssreflect all_algebra.
From Verif Require Import MatModel MatSpec MatProofs3 MatProofs5 MatProps QefsModel QefsSpec QefsProofs QefsProofs2
  QefsProofs3 QefsProofs4 QefsProofs5 RcfMat.
Set Implicit Arguments.
Unset Strict Implicit.
Unset Printing Implicit Defensive.
Import Order.TTheory GRing.Theory Num.Theory.
Local Open Scope ring_scope.

(** ** C131: effective degrees of freedom *)

(** With update vectors in memory the total is tr((H + S)^-1 H) and each penalty uses up
    lambda tr((H + S)^-1 S_j), where H is the explicit quasi-Newton matrix of the same memory. *)
Theorem C131_edf (R : rcfType) qr eigh inv svd cholP compute_Linv (root_eps : R)
    n m (s y : 'I_m.+1 -> 'rV[R]_n) rho (lo : linop R n) (S_emb H : 'M[R]_n) pens :
  svd_ok svd -> chol_ok (cholP n) -> linv_ok (compute_Linv n) ->
  lo_mem lo = Pairs s y rho -> lo_corrs lo <> 0%N -> 0 < compute_omega s y (lo_sampled lo) ->
  semi S_emb -> getExplicitnH qr eigh inv root_eps lo true false = Some H -> H + S_emb \in unitmx ->
  List.Forall (@in_place R n) pens -> S_emb = total_penalty pens ->
  calculate_edf qr eigh inv svd cholP compute_Linv root_eps lo S_emb pens =
  Some (\tr (invmx (H + S_emb) *m H), [seq pn_lam p * \tr (invmx (H + S_emb) *m pn_S p) | p <- pens]).
Proof. by move=> sv ch li mE /eqP c w se HE u; exact: (edf_value sv ch li mE c w se HE u). Qed.

(** The scale of the initial matrix is positive for a memory collected along the path of the optimiser,
    and for sampled pairs of positive curvature. *)
Theorem C131_scale (R : rcfType) n m (s y : 'I_m.+1 -> 'rV[R]_n) :
  (dot (y ord_max) (s ord_max) <> 0 -> 0 < compute_omega s y false) /\
  ((forall i, 0 < dot (s i) (y i)) -> 0 < compute_omega s y true).
Proof.
have sq (x : 'rV[R]_n) : 0 <= dot x x by apply: sumr_ge0 => k _; rewrite -expr2 sqr_ge0.
have sq0 (x z : 'rV[R]_n) : dot x z <> 0 -> 0 < dot x x.
  move=> h; rewrite lt0r sq andbT; apply/eqP => e; apply: h.
  rewrite /dot big1 // => k _.
  have /eqP : \sum_k x 0 k * x 0 k = 0 by [].
  rewrite psumr_eq0 => [/allP h|i _]; last by rewrite -expr2 sqr_ge0.
  have := h k (mem_index_enum k); rewrite -expr2 sqrf_eq0 => /eqP ->.
  by rewrite mul0r.
split=> h; rewrite /compute_omega.
  set w := _ / _; case: (ltP w 0) => [_|w0]; [exact: ltr01|]; rewrite lt0r w0 andbT; apply/eqP => z.
  have /eqP := z; rewrite mulf_eq0 invr_eq0 gt_eqF ?(sq0 _ _ h) //= => /eqP z'.
  by rewrite z' in h.
set w := _ / _; case: (ltP w 0) => _; [exact: ltr01|]; rewrite /w divr_gt0 ?ltr0n // (bigD1 ord_max) //= ltr_paddr //.
  apply: sumr_ge0 => i _; apply: divr_ge0 => //; exact: ltW.
have hm := h ord_max; rewrite divr_gt0 // (@sq0 _ (y ord_max)) //.
by move=> e; rewrite e ltxx in hm.
Qed.

(** Sampled pairs of mixed curvature may give the scale 0: the test of the code asks for a negative
    value. *)
Theorem C131_scale_refuted (R : rcfType) : exists (s y : 'I_2 -> 'rV[R]_1),
  (forall i, dot (s i) (y i) <> 0) /\ compute_omega s y true = 0.
Proof.
exists (fun _ => 1%:M), (fun i => (if i == 0 then 1 else -1)%:M).
have e i : dot (1%:M : 'rV[R]_1) ((if i == 0 then 1 else -1)%:M : 'rV[R]_1) = if i == 0 :> 'I_2 then 1 else -1.
  by rewrite /dot big_ord1 !mxE mul1r.
split=> [i|]; first by rewrite e; case: ifP => _; apply/eqP; rewrite ?oppr_eq0 oner_eq0.
have e1 : dot (1%:M : 'rV[R]_1) 1%:M = 1 by rewrite /dot big_ord1 !mxE mul1r.
rewrite /compute_omega.
have -> : \sum_(i < 2) dot (1%:M : 'rV[R]_1) (if i == 0 then 1 else -1)%:M / dot (1%:M : 'rV[R]_1) 1%:M = 0.
  under eq_bigr do rewrite e e1 divr1.
  by rewrite !big_ord_recl big_ord0 /= addr0 subrr.
by rewrite mul0r ltxx.
Qed.

(** Before any update vector was accepted, or when the first ones were sampled, a model with a penalised
    term has no effective degrees of freedom: the code raises an error. *)
Theorem C131_empty_refuted (R : rcfType) qr eigh inv svd cholP compute_Linv (root_eps : R) :
  exists (S_emb : 'M[R]_1) pens, semi S_emb /\ List.Forall (@in_place R 1) pens /\ S_emb = total_penalty pens /\
  (forall sampled, calculate_edf qr eigh inv svd cholP compute_Linv root_eps
     (Linop (@Nothing R 1) 0 sampled) S_emb pens = None) /\
  (forall m (s y : 'I_m.+1 -> 'rV[R]_1) rho, calculate_edf qr eigh inv svd cholP compute_Linv root_eps
     (Linop (Pairs s y rho) 0 true) S_emb pens = None).
Proof.
exists 1%:M, [:: Pen 1%:M 0 1 1]; split; [|split; [|split; [|]]].
- split; first by rewrite trmx1.
  by move=> x; rewrite q_scalar mul1r mxE; apply: sumr_ge0 => k _; rewrite mxE -expr2 sqr_ge0.
- by constructor=> // i j; rewrite ord1.
- by rewrite /total_penalty big_seq1 scale1r.
- by split=> *; rewrite /calculate_edf /getImplicitV /= /computetrVS3 /= enum_ordSl.
Qed.

(** Two sampled pairs in one dimension, curvatures 1 and 3: the scale is 2 and the quasi-Newton matrix has
    the entry 3.  With a penalty matrix of one and smoothing parameter 1 there are 3/4 degrees of
    freedom. *)
Section OneColumn.
Variable R : rcfType.
Definition ex_s : 'I_2 -> 'rV[R]_1 := fun _ => 1%:M.
Definition ex_y : 'I_2 -> 'rV[R]_1 := fun i => (if i == 0 then 1 else 3%:R)%:M.
Definition ex_rho : 'I_2 -> R := fun i => 1 / dot (ex_s i) (ex_y i).
Definition ex_lo : linop R 1 := Linop (Pairs ex_s ex_y ex_rho) 2 true.
Definition ex_middle : 'M[R]_2 := \matrix_(i, j) (if (i == 1) && (j == 1) then 1 else -1).

Lemma ex_dot i j : dot (ex_s i) (ex_y j) = if j == 0 then 1 else 3%:R.
Proof. by rewrite /dot big_ord1 !mxE mul1r. Qed.
Lemma ex_ss i j : dot (ex_s i) (ex_s j) = 1.
Proof. by rewrite /dot big_ord1 !mxE mul1r. Qed.
Lemma ex_omega : compute_omega ex_s ex_y true = 2%:R.
Proof.
rewrite /compute_omega.
have -> : \sum_i dot (ex_s i) (ex_y i) / dot (ex_s i) (ex_s i) = 4%:R.
  under eq_bigr do rewrite ex_dot ex_ss divr1.
  by rewrite !big_ord_recl big_ord0 /= addr0 -(natrD _ 1 3).
have -> : 4%:R / 2%:R = 2%:R :> R by rewrite (natrM _ 2 2) mulfK // pnatr_eq0.
by rewrite ltNge ler0n.
Qed.

Lemma ord2 (i : 'I_2) : i = 0 \/ i = 1.
Proof. by case: i => [[|[|]]] // h; [left|right]; apply: val_inj. Qed.
Lemma ex_middleE : sr1_H_middle ex_s ex_y (2%:R)%:M = ex_middle.
Proof.
apply/matrixP => i j; rewrite [LHS]mxE !ex_dot.
have -> : (ex_s i *m (2%:R)%:M *m (ex_s j)^T) 0 0 = 2%:R by rewrite trmx1 mulmx1 mul1mx mxE.
have a : 1 - 2%:R = -1 :> R by rewrite (natrD _ 1 1) opprD addrA subrr add0r.
have b : 3%:R - 2%:R = 1 :> R by rewrite (natrD _ 1 2) addrK.
rewrite mxE; by case: (ord2 i) => ->; case: (ord2 j) => -> /=; rewrite ?a ?b.
Qed.
Lemma ex_middle_sq : ex_middle *m ex_middle = (2%:R)%:M.
Proof.
apply/matrixP => i j; rewrite mxE !big_ord_recl big_ord0 !mxE.
case: (ord2 i) => ->; case: (ord2 j) => -> /=; rewrite ?(mulNr, mulrN, mul1r, mulr1, opprK, addr0, mulr0n) ?mulr1n ?subrr ?addNr //;
by rewrite -(natrD _ 1 1).
Qed.
Lemma ex_unit : ex_middle \in unitmx.
Proof.
have two : 2%:R != 0 :> R by rewrite pnatr_eq0.
have e : ex_middle *m (2%:R^-1 *: ex_middle) = 1%:M.
  by rewrite -scalemxAr ex_middle_sq scale_scalar_mx mulVf.
by case: (mulmx1_unit e).
Qed.
Lemma ex_inv : invmx ex_middle = 2%:R^-1 *: ex_middle.
Proof.
have two : 2%:R != 0 :> R by rewrite pnatr_eq0.
have e : ex_middle *m (2%:R^-1 *: ex_middle) = 1%:M.
  by rewrite -scalemxAr ex_middle_sq scale_scalar_mx mulVf.
by rewrite -[LHS]mulmx1 -e mulKmx // ex_unit.
Qed.
Lemma ex_proper : proper ex_s ex_y ex_rho 2%:R.
Proof. by split=> //; rewrite ex_middleE ex_unit. Qed.

Lemma ex_core e pd : let t := hsr1 (@full_qr R) (@some_eigh R) (fun k => @invmx R k) e ex_s ex_y ex_rho (2%:R)%:M 2%:R
    true pd in (2%:R)%:M + tt1 t *m tt2 t *m tt3 t = (3%:R)%:M.
Proof.
rewrite /hsr1.
have [rE u] := ex_proper; have mE := middle_H rE (2%:R)%:M; rewrite ex_middleE /= in mE.
rewrite /HSR1_terms /= mE ex_inv; set t1 := _ - _.
have t1E : t1 = \row_j (if j == 0 then -1 else 1).
  apply/matrixP => i j; rewrite !ord1 /t1 mul_scalar_mx !mxE; case: (ord2 j) => -> /=.
    by rewrite mulr1 mulr1n (natrD _ 1 1) opprD addrA subrr add0r.
  by rewrite mulr1 !mulr1n (natrD _ 1 2) addrK.
have core : t1 *m (2%:R^-1 *: ex_middle) *m t1^T = 1%:M.
  have two : 2%:R != 0 :> R by rewrite pnatr_eq0.
  rewrite -scalemxAr -scalemxAl; apply/matrixP => i j; rewrite !ord1 !mxE !big_ord_recl big_ord0.
  rewrite t1E !mxE !big_ord_recl !big_ord0 !mxE /= !(mulNr, mulrN, mul1r, mulr1, opprK, addr0, mulr1n).
  by rewrite subrr oppr0 add0r -(natrD _ 1 1) mulVf.
have sym : (t1 *m (2%:R^-1 *: ex_middle) *m t1^T)^T = t1 *m (2%:R^-1 *: ex_middle) *m t1^T by rewrite core trmx1.
have [eE oE] := some_eigh_ok sym.
case eigE : (some_eigh _) eE oE => [ev U] /= eE oE.
have -> : [exists i, ev 0 i + 2%:R <= 0] = false.
  apply/existsP => -[i]; have [q1 q2] := eigenvalue_quad ev i oE.
  have -> : ev 0 i = 1 by rewrite -q1 -eE core q_scalar mul1r.
  by rewrite -(natrD _ 1 2) leNgt ltr0n.
by rewrite /= core -raddfD /= -(natrD _ 2 1).
Qed.
Lemma ex_H e pd : getExplicitnH (@full_qr R) (@some_eigh R) (fun k => @invmx R k) e ex_lo true pd = Some (3%:R)%:M.
Proof. by rewrite /getExplicitnH /= ex_omega ex_core. Qed.

Lemma one_definite (c : R) : 0 < c -> definite (c%:M : 'M[R]_1).
Proof.
move=> c0; split; first by rewrite tr_scalar_mx.
by move=> x x0; rewrite q_scalar mulr_gt0 // sq_gt0.
Qed.
End OneColumn.

Example C131_one_column (R : rcfType) (e : R) :
  calculate_edf (@full_qr R) (@some_eigh R) (fun k => @invmx R k) (@some_svd R) (@some_chol R) (fun k => @invmx R k) e
    (ex_lo R) 1%:M [:: Pen 1%:M 0 1 1] = Some (3%:R / 4%:R, [:: 1 / 4%:R]).
Proof.
have d4 : (3%:R)%:M + 1%:M = (4%:R)%:M :> 'M[R]_1 by rewrite -raddfD /= -(natrD _ 3 1).
have u4 : ((4%:R)%:M : 'M[R]_1) \in unitmx by rewrite unitmxE det_scalar1 unitfE (pnatr_eq0 R).
rewrite (@C131_edf _ _ _ _ _ _ _ _ _ _ (ex_s R) (ex_y R) (ex_rho R) (ex_lo R) 1%:M (3%:R)%:M) //.
- rewrite d4 /= invmx_scalar -!scalar_mxM !mxtrace_scalar mulr1n; congr (Some (_, [:: _])); first by rewrite mulrC.
  by rewrite !mul1r mulr1.
- exact: some_svd_ok.
- exact: some_chol_ok.
- exact: invmx_linv_ok.
- by rewrite ex_omega ltr0n.
- split; first by rewrite trmx1.
  by move=> x; rewrite q_scalar mul1r mxE; apply: sumr_ge0 => k _; rewrite mxE -expr2 sqr_ge0.
- exact: ex_H.
- by rewrite d4.
- by constructor=> // i j; rewrite ord1.
- by rewrite /total_penalty big_seq1 scale1r.
Qed.

(** ** C132: what is stored after estimation *)

(** The stored factor L and the stored inverse factor LV belong to the stored Hessian -H and the total
    penalty. *)
Theorem C132_factor (R : rcfType) qr eigh inv cholP compute_Linv qrr rank_one (root_eps : R)
    n r m (s y : 'I_m.+1 -> 'rV[R]_n) rho (lo : linop R n) (S_emb : 'M[R]_n) (S_root : 'M[R]_(n, r)) H :
  qr_ok qr -> eigh_ok eigh -> (forall k, inv_ok (inv k)) -> chol_ok (cholP n) -> linv_ok (compute_Linv n) ->
  rank_one_ok (rank_one n) ->
  lo_mem lo = Pairs s y rho -> 0 < compute_omega s y (lo_sampled lo) ->
  proper s y rho (compute_omega s y (lo_sampled lo)) ->
  S_root *m S_root^T = S_emb ->
  getExplicitnH qr eigh inv root_eps lo true true = Some H -> definite (H + S_emb) ->
  exists L LV, stored qr eigh inv cholP compute_Linv qrr rank_one root_eps lo S_emb S_root = Some (- H, L, LV) /\
    L *m L^T = H + S_emb /\ LV^T *m LV *m (H + S_emb) = 1%:M.
Proof. by move=> q e i c l k; exact: stored_ok. Qed.

(** The same with second derivatives known for some columns.  They are those that makepdd_fd2llk
    returns for a symmetric matrix with zeros outside the known rows and columns. *)
Theorem C132_blocks (R : rcfType) qr eigh inv (cholP : forall k, 'M[R]_k -> factor R k)
    (compute_Linv : forall k, 'M[R]_k -> 'M[R]_k) qrr (rank_one : forall k, 'M[R]_k -> 'cV[R]_k -> R -> 'M[R]_k)
    (root_eps : R) nF nA
    (tcols : 'I_(nF + nA) -> 'I_(nF + nA)) (J : 'M[R]_(nF + nA)) damp (PD PD' : bool) N HBB IHBB HBb
    m (s y : 'I_m.+1 -> 'rV[R]_(nF + nA)) rho (lo : linop R (nF + nA)) r (S_root : 'M[R]_(nF + nA, r)) S_emb dampB H :
  qr_ok qr -> eigh_ok eigh -> (forall k, inv_ok (inv k)) -> chol_ok (@cholP (nF + nA)%N) ->
  linv_ok (@compute_Linv (nF + nA)%N) -> rank_one_ok (@rank_one (nF + nA)%N) -> 0 < root_eps -> root_eps <= 1 ->
  injective tcols -> J^T = J ->
  (forall i j, J (tcols (rshift nF i)) (tcols (rshift nF j)) = 0) ->
  (PD -> exists i j, J (tcols (lshift nA i)) (tcols (lshift nA j)) <> 0) -> (PD' -> PD) ->
  makepdd eigh root_eps tcols J damp true PD = (N, HBB, IHBB, HBb) ->
  lo_mem lo = Pairs s y rho ->
  0 < part_omega tcols s y (lo_sampled lo) dampB ->
  proper (part tcols \o s) (part tcols \o y) (fun i => 1 / dot (part tcols (s i)) (part tcols (y i)))
    (part_omega tcols s y (lo_sampled lo) dampB) ->
  S_root *m S_root^T = S_emb ->
  getExplicitnH_blocks qr eigh inv root_eps tcols lo N IHBB dampB true true = Some H -> definite (H + S_emb) ->
  exists L LV, stored_blocks qr eigh inv cholP compute_Linv qrr rank_one root_eps tcols lo N IHBB S_emb S_root dampB PD'
      = Some (- H, L, LV) /\
    L *m L^T = H + S_emb /\ LV^T *m LV *m (H + S_emb) = 1%:M.
Proof.
move=> q e i c l k e0 e1 inj Js z nz; apply: (@stored_blocks_ok _ _ _ _ _ _ _ _ _ q e i e0 e1 _ _ c l k _ inj) => //.
- by apply/matrixP => a b; rewrite [LHS]mxE [LHS]mxE known_entry // z mxE.
- move=> /nz [a [b h]]; apply/eqP => /matrixP /(_ a b).
  by rewrite [in X in X = _]mxE [in X in X = _]mxE known_entry // mxE.
Qed.

(** Without update vectors nothing is stored: the code raises an error where it means to use the identity. *)
Theorem C132_empty_refuted (R : rcfType) qr eigh inv cholP compute_Linv qrr rank_one (root_eps : R) n r sampled
    (S_emb : 'M[R]_n) (S_root : 'M[R]_(n, r)) :
  omega_of (@Nothing R n) sampled = 1 /\
  stored qr eigh inv cholP compute_Linv qrr rank_one root_eps (Linop (@Nothing R n) 0 sampled) S_emb S_root = None.
Proof. by []. Qed.

(** A single sampled pair: the scale is its curvature, so that the matrix the code inverts is zero. *)
Theorem C132_single_refuted (R : rcfType) n (s y : 'I_1 -> 'rV[R]_n) :
  0 < dot (s 0) (y 0) -> let omega := compute_omega s y true in
  omega = dot (s 0) (y 0) / dot (s 0) (s 0) /\ ~ sr1_H_middle s y omega%:M \in unitmx.
Proof.
move=> c; have ss : dot (s 0) (s 0) != 0.
  have [_ /(_ _)] := C131_scale s y => /(_ (fun i => _)); rewrite /compute_omega big_ord1 divr1 => h.
  apply/eqP => z; rewrite z invr0 mulr0 ltxx ltxx in h.
  by have := h (fun i => etrans (congr1 (fun k => 0 < dot (s k) (y k)) (ord1 i)) c).
have w : compute_omega s y true = dot (s 0) (y 0) / dot (s 0) (s 0).
  rewrite /compute_omega big_ord1 divr1 ltNge divr_ge0 //; first exact: ltW.
  by apply: sumr_ge0 => k _; rewrite -expr2 sqr_ge0.
rewrite /= w; split=> //; set m := sr1_H_middle _ _ _.
have -> : m = 0.
  apply/matrixP => i j; rewrite !ord1 /m [LHS]mxE [RHS]mxE ltnn.
  have -> : (s 0 *m (dot (s 0) (y 0) / dot (s 0) (s 0))%:M *m (s 0)^T) 0 0 = dot (s 0) (y 0) / dot (s 0) (s 0) * dot (s 0) (s 0).
    rewrite mul_mx_scalar -scalemxAl mxE; congr (_ * _); rewrite mxE; apply: eq_bigr => k _.
    by rewrite mxE.
  by rewrite mulfVK // subrr.
by rewrite unitmxE det0 unitr0.
Qed.

(** Two sampled pairs in one dimension and a penalty of 1: -3 is stored, with a factor of 4. *)
Example C132_one_column (R : rcfType) (e : R) qrr : exists L LV,
  stored (@full_qr R) (@some_eigh R) (fun k => @invmx R k) (@some_chol R) (fun k => @invmx R k) qrr (@some_rank_one R) e
    (ex_lo R) 1%:M (1%:M : 'M_1) = Some (- (3%:R)%:M, L, LV) /\
  L *m L^T = (4%:R)%:M /\ LV^T *m LV *m (4%:R)%:M = 1%:M.
Proof.
have d4 : (3%:R)%:M + 1%:M = (4%:R)%:M :> 'M[R]_1 by rewrite -raddfD /= -(natrD _ 3 1).
have := @C132_factor _ _ _ _ _ _ qrr _ e 1 1 1 (ex_s R) (ex_y R) (ex_rho R) (ex_lo R) 1%:M 1%:M (3%:R)%:M
  (@full_qr_ok R) (@some_eigh_ok R) (@invmx_inv_ok R) (@some_chol_ok R 1) (@invmx_linv_ok R 1) (@some_rank_one_ok R 1) erefl.
rewrite d4; apply.
- by rewrite /= ex_omega ltr0n.
- by rewrite /= ex_omega; exact: ex_proper.
- by rewrite trmx1 mulmx1.
- exact: ex_H.
- by apply: one_definite; rewrite ltr0n.
Qed.

(** ** C133: columns of second derivatives *)

(** Entries come from the column that is listed first; all others are zero. *)
Theorem C133_columns (K : ringType) dim (Hj : nat -> nat -> K) jcols r c : (r < dim)%N -> (c < dim)%N ->
  uniq jcols -> (forall j, j \in jcols -> (j < dim)%N) ->
  jhessian dim Hj jcols r c = known Hj jcols r c /\ jhessian dim Hj jcols r c = jhessian dim Hj jcols c r.
Proof. by move=> rd cd u jd; rewrite !jhessian_known //; split=> //; exact: known_sym. Qed.

(** If the columns are those of a symmetric matrix D, the result agrees with D in the rows and columns
    asked for, and the complete Hessian is D. *)
Theorem C133_derivatives (K : ringType) dim (D : nat -> nat -> K) jcols r c : (forall a b, D a b = D b a) ->
  (r < dim)%N -> (c < dim)%N -> uniq jcols -> (forall j, j \in jcols -> (j < dim)%N) ->
  jhessian dim D jcols r c = (if (r \in jcols) || (c \in jcols) then D r c else 0) /\ hessian dim D r c = D r c.
Proof.
move=> sym rd cd u jd.
have k js : known D js r c = if (r \in js) || (c \in js) then D r c else 0.
  elim: js => //= j js ->; rewrite !inE; case: (eqVneq c j) => [->|_]; first by rewrite orbT sym.
  by case: (eqVneq r j) => [->|].
rewrite /hessian !jhessian_known ?k ?iota_uniq //; last by move=> j; rewrite mem_iota add0n.
by rewrite mem_iota rd.
Qed.

(** A column listed twice is counted twice. *)
Theorem C133_twice_refuted : exists (D : nat -> nat -> int) jcols, (forall a b, D a b = D b a) /\
  jhessian 2 D jcols 1%N 0%N <> D 1%N 0%N.
Proof.
exists (fun _ _ => 1), [:: 0; 0]%N; split=> //.
by rewrite /jhessian /= /entry_of !big_cons big_nil.
Qed.

(** Columns 2 and 0 of a matrix with three columns. *)
Example C133_three_columns : let D a b : int := Posz (10 * minn a b + maxn a b)%N in
  (forall a b, D a b = D b a) /\ uniq [:: 2; 0]%N /\
  [seq [seq jhessian 3 D [:: 2; 0]%N r c | c <- iota 0 3] | r <- iota 0 3] =
  [:: [:: Posz 0; Posz 1; Posz 2]; [:: Posz 1; 0; Posz 12]; [:: Posz 2; Posz 12; Posz 22]].
Proof.
move=> D; split; first by move=> a b; rewrite /D minnC maxnC.
by split=> //; rewrite /jhessian /= /entry_of !big_cons !big_nil.
Qed.

(** ** C134: known second derivatives are made positive *)

(** makepdd_fd2llk returns a symmetric matrix with a positive semi-definite block of known columns, its
    pseudo-inverse, and mixed derivatives in the range of the block; with make_PD the block is positive
    definite and the mixed derivatives are only damped. *)
Theorem C134_blocks (R : rcfType) eigh (root_eps : R) nF nA (tcols : 'I_(nF + nA) -> 'I_(nF + nA))
    (J : 'M[R]_(nF + nA)) damp (PD : bool) :
  0 < root_eps -> root_eps <= 1 -> eigh_ok eigh -> injective tcols -> J^T = J ->
  (PD -> exists i j, J (tcols (lshift nA i)) (tcols (lshift nA j)) <> 0) ->
  exists N HBB IHBB HBb, makepdd eigh root_eps tcols J damp true PD = (N, HBB, IHBB, HBb) /\
    let f i := tcols (lshift nA i) in let a i := tcols (rshift nF i) in
    [/\ (forall i j, N (f i) (f j) = HBB i j), (forall i j, N (f i) (a j) = HBb i j),
        (forall i j, N (a i) (f j) = HBb j i) & (forall i j, N (a i) (a j) = J (a i) (a j))] /\
    [/\ semi HBB, pseudo_inverse HBB IHBB, HBB *m IHBB *m HBb = HBb &
        PD -> definite HBB /\ forall i j, HBb i j = damp * J (f i) (a j)].
Proof.
move=> e0 e1 eo inj Js nz.
have nz' : PD -> ulsubmx ((P1 R tcols)^T *m J *m P1 R tcols) != 0.
  move=> /nz [a [b h]]; apply/eqP => /matrixP /(_ a b).
  by rewrite [in X in X = _]mxE [in X in X = _]mxE known_entry // mxE.
have [N [HBB [IHBB [HBb [E [[NP sB pin rg] [dB cr _]]]]]]] := @makepdd_ok _ _ _ e0 e1 _ _ eo _ inj J damp PD Js nz'.
exists N, HBB, IHBB, HBb; split=> //; split; last first.
  split=> // pd; split; first exact: dB.
  by move=> i j; rewrite (cr pd) [LHS]mxE [X in _ * X]mxE [X in _ * X]mxE known_entry.
split=> i j; rewrite -(known_entry _ _ _ inj) NP.
- by rewrite block_mxEul.
- by rewrite block_mxEur.
- by rewrite block_mxEdl mxE.
- by rewrite block_mxEdr [LHS]mxE [LHS]mxE known_entry // known_entry.
Qed.

(** Known derivatives whose eigenvalues all exceed the threshold are returned as they are. *)
Theorem C134_unchanged (R : rcfType) eigh (root_eps : R) nF nA (tcols : 'I_(nF + nA) -> 'I_(nF + nA))
    (J : 'M[R]_(nF + nA)) damp (PD : bool) :
  eigh_ok eigh -> injective tcols -> J^T = J -> 0 <= root_eps ->
  let B := \matrix_(i < nF, j < nF) J (tcols (lshift nA i)) (tcols (lshift nA j)) in
  let C := \matrix_(i < nF, j < nA) J (tcols (lshift nA i)) (tcols (rshift nF j)) in
  (forall U (e : 'rV[R]_nF) big, B = U *m diag_mx e *m U^T -> U^T *m U = 1%:M ->
     (exists i, big = `|e 0 i|) -> forall i, root_eps * big < e 0 i) ->
  exists N IHBB, makepdd eigh root_eps tcols J damp true PD = (N, B, IHBB, damp *: C) /\ IHBB *m B = 1%:M.
Proof.
move=> eo inj Js e0 B C big.
have BE : ulsubmx ((P1 R tcols)^T *m J *m P1 R tcols) = B.
  by apply/matrixP => i j; rewrite [LHS]mxE [LHS]mxE known_entry // mxE.
have CE : ursubmx ((P1 R tcols)^T *m J *m P1 R tcols) = C.
  by apply/matrixP => i j; rewrite [LHS]mxE [LHS]mxE known_entry // mxE.
have := @makepdd_unchanged _ _ root_eps _ _ _ J damp PD eo inj Js e0; rewrite /= BE CE; apply.
by move=> U e E o i; exact: (big U e _ E o (max_abs_attained e i) i).
Qed.

(** With make_PD a block of zeros stays singular. *)
Theorem C134_zero_refuted (R : rcfType) eigh (root_eps damp : R) : eigh_ok eigh ->
  exists N IHBB HBb, makepdd eigh root_eps id (0 : 'M[R]_(1 + 1)) damp true true = (N, 0, IHBB, HBb) /\
    ~ definite (0 : 'M[R]_1).
Proof.
move=> eo; rewrite /makepdd mulmx0 mul0mx.
have -> : ulsubmx (0 : 'M[R]_(1 + 1)) = 0 by apply/matrixP => i j; rewrite !mxE.
have := eo 1%N 0 (trmx0 _ _ _); case: (eigh _ 0) => ev U /= [E o].
have ev0 : ev = 0.
  apply/rowP => i; have [q1 _] := eigenvalue_quad ev i o; rewrite mxE -q1 -E /quad mulmx0 mul0mx mxE.
  by [].
have mz : max_abs (0 : 'rV[R]_1) = 0.
  by apply/le_anti; rewrite max_abs_ge0 andbT; apply: max_abs_le => // i; rewrite mxE normr0.
rewrite ev0 mz mulr0.
have -> : \row_i (if (0 : 'rV[R]_1) 0 i <= 0 then 0 else (0 : 'rV[R]_1) 0 i) = 0.
  by apply/rowP => i; rewrite !mxE lexx.
rewrite raddf0 mulmx0 mul0mx; do 3 eexists; split; first by reflexivity.
case=> _ /(_ 1%:M); rewrite /quad mulmx0 mul0mx mxE ltxx => h.
by have : false by apply: h; exact: oner_neq0.
Qed.

(** One known column, one approximated column: [[2, 1], [1, 0]] is kept, and the approximated column gets
    3 + 1/2. *)
Section TwoColumns.
Variable R : rcfType.
Definition ex_J : 'M[R]_(1 + 1) := block_mx (2%:R)%:M 1%:M 1%:M 0.
Definition ex_s2 : 'I_2 -> 'rV[R]_(1 + 1) := fun i => row_mx 0 (ex_s R i).
Definition ex_y2 : 'I_2 -> 'rV[R]_(1 + 1) := fun i => row_mx 0 (ex_y R i).
Definition ex_lo2 : linop R (1 + 1) := Linop (Pairs ex_s2 ex_y2 (ex_rho R)) 2 true.

Lemma ex_part_s : part id \o ex_s2 = ex_s R.
Proof.
apply: functional_extensionality => i; apply/rowP => j; rewrite [LHS]mxE [LHS]mxE.
by case: splitP => k; rewrite !ord1.
Qed.
Lemma ex_part_y : part id \o ex_y2 = ex_y R.
Proof.
apply: functional_extensionality => i; apply/rowP => j; rewrite [LHS]mxE [LHS]mxE.
by case: splitP => k; rewrite !ord1.
Qed.

Lemma ex_P1 : P1 R (id : 'I_(1 + 1) -> 'I_(1 + 1)) = 1%:M.
Proof. by apply/matrixP => i j; rewrite !mxE; case: eqP. Qed.
Lemma ex_J_sym : ex_J^T = ex_J.
Proof. by rewrite /ex_J tr_block_mx tr_scalar_mx trmx1 trmx0. Qed.
Lemma ex_l (i : 'I_1) (j : 'I_1) : ex_J (lshift 1 i) (lshift 1 j) = 2%:R.
Proof. by rewrite /ex_J block_mxEul !ord1 mxE. Qed.
Lemma ex_u (i : 'I_1) (j : 'I_1) : ex_J (lshift 1 i) (rshift 1 j) = 1.
Proof. by rewrite /ex_J block_mxEur !ord1 mxE. Qed.
Lemma ex_r (i : 'I_1) (j : 'I_1) : ex_J (rshift 1 i) (rshift 1 j) = 0.
Proof. by rewrite /ex_J block_mxEdr !ord1 mxE. Qed.

Definition ex_H2 : 'M[R]_(1 + 1) := block_mx (2%:R)%:M 1%:M 1%:M (3%:R + 2%:R^-1)%:M.

Lemma ex_H2_definite : definite ex_H2.
Proof.
split; first by rewrite /ex_H2 tr_block_mx !tr_scalar_mx.
move=> x; rewrite -[x]vsubmxK; move: (usubmx x) (dsubmx x) => a b {x} x0.
rewrite /ex_H2 -[X in block_mx _ X]trmx1 q_block q_scalar trmx1 mul1mx.
have -> : ((2%:R)%:M : 'M[R]_1) 0 0 = 2%:R by rewrite mxE eqxx mulr1n.
have -> : (b^T *m b) 0 0 = b 0 0 ^+ 2 by rewrite mxE big_ord1 mxE.
set p := a 0 0; set q := b 0 0.
have pq : (p != 0) || (q != 0).
  apply: contraR x0; rewrite negb_or !negbK => /andP[/eqP pz /eqP qz].
  apply/eqP/matrixP => i j; rewrite !mxE (ord1 j).
  by case: splitP => k _; rewrite (ord1 k); [exact: pz|exact: qz].
have h : 0 < 2%:R^-1 :> R by rewrite invr_gt0 ltr0n.
have -> : p * 2%:R * p + 2%:R * (p * q) + (3%:R + 2%:R^-1) * q ^+ 2 =
    (p + q) ^+ 2 + (p ^+ 2 + (2%:R + 2%:R^-1) * q ^+ 2).
  have -> : p * 2%:R * p = p ^+ 2 + p ^+ 2 by rewrite (natrD _ 1 1) mulrDr mulr1 mulrDl !expr2.
  have -> : 2%:R * (p * q) = p * q + p * q by rewrite mulr_natl mulr2n.
  have -> : (3%:R + 2%:R^-1) * q ^+ 2 = q ^+ 2 + (2%:R + 2%:R^-1) * q ^+ 2.
    by rewrite (natrD _ 1 2) -addrA mulrDl mul1r.
  rewrite sqrrD mulr2n; move: (p ^+ 2) (p * q) (q ^+ 2) ((2%:R + 2%:R^-1) * _) => X Y Z W.
  by rewrite -!addrA (addrCA Z X W) (addrCA Y X) (addrCA Y X).
apply: ltr_paddl; first exact: sqr_ge0.
have c0 : 0 < 2%:R + 2%:R^-1 :> R by rewrite addr_gt0 ?ltr0n.
case/orP: pq => nz.
  apply: ltr_paddr; first by rewrite mulr_ge0 ?sqr_ge0 // ltW.
  by rewrite lt0r sqr_ge0 sqrf_eq0 nz.
apply: ltr_paddl; first exact: sqr_ge0.
by rewrite mulr_gt0 // lt0r sqr_ge0 sqrf_eq0 nz.
Qed.
End TwoColumns.

Example C134_two_columns (R : rcfType) : let e : R := 2%:R^-1 in
  exists N IHBB HBb, makepdd (@some_eigh R) e id (ex_J R) 1 true true = (N, (2%:R)%:M, IHBB, HBb) /\
    IHBB = (2%:R^-1)%:M /\ HBb = 1%:M /\ N = ex_J R.
Proof.
move=> e; have two : 2%:R != 0 :> R by rewrite pnatr_eq0.
have e0 : 0 < e by rewrite invr_gt0 ltr0n.
have e1 : e < 1 by rewrite invf_lt1 ?ltr0n // ltr1n.
have inj : injective (id : 'I_(1 + 1) -> 'I_(1 + 1)) by [].
have BE : \matrix_(i < 1, j < 1) ex_J R (lshift 1 i) (lshift 1 j) = (2%:R)%:M.
  by apply/matrixP => i j; rewrite mxE ex_l !ord1 mxE.
have CE : \matrix_(i < 1, j < 1) ex_J R (lshift 1 i) (rshift 1 j) = 1%:M.
  by apply/matrixP => i j; rewrite mxE ex_u !ord1 mxE.
have [|N [I [E inv]]] := @C134_unchanged R (@some_eigh R) e 1 1 id (ex_J R) 1 true (@some_eigh_ok R) inj (ex_J_sym R) (ltW e0).
  rewrite /= BE => U ev big E o [k ->] i; rewrite (ord1 i) (ord1 k).
  have [q1 q2] := eigenvalue_quad ev 0 o.
  have -> : ev 0 0 = 2%:R by rewrite -q1 -E q_scalar q2 mulr1.
  by rewrite ger0_norm ?ler0n // mulVf // ltr1n.
rewrite /= BE CE scale1r in E inv.
exists N, I, 1%:M; split=> //; split; last split=> //.
  apply: (can_inj (mulKmx (_ : (2%:R)%:M \in unitmx))); first by rewrite unitmxE det_scalar1 unitfE.
  by rewrite (mulmx1C inv) -scalar_mxM mulfV.
have nz : true -> exists i j, ex_J R (id (lshift 1 i)) (id (lshift 1 j)) <> 0.
  by move=> _; exists 0, 0; rewrite ex_l; apply/eqP.
have [N' [B' [I' [b' [E' [[a1 a2 a3 a4] _]]]]]] := @C134_blocks R (@some_eigh R) e 1 1 id (ex_J R) 1 true e0 (ltW e1)
  (@some_eigh_ok R) inj (ex_J_sym R) nz.
move: E'; rewrite E => -[? ? ? ?]; subst N' B' I' b'.
rewrite -[N]submxK -[RHS]submxK; congr block_mx; apply/matrixP => i j; rewrite 2![LHS]mxE 2![RHS]mxE.
- by rewrite a1 ex_l !ord1 mxE.
- by rewrite a2 ex_u !ord1 mxE.
- by rewrite a3 /ex_J block_mxEdl !ord1.
- by rewrite a4.
Qed.

Example C132_two_columns (R : rcfType) qrr : let e : R := 2%:R^-1 in exists L LV,
  stored_blocks (@full_qr R) (@some_eigh R) (fun k => @invmx R k) (@some_chol R) (fun k => @invmx R k) qrr
    (@some_rank_one R) e id (ex_lo2 R) (ex_J R) (2%:R^-1)%:M 0 (0 : 'M_(1 + 1, 1)) 1 true = Some (- ex_H2 R, L, LV) /\
  L *m L^T = ex_H2 R /\ LV^T *m LV *m ex_H2 R = 1%:M.
Proof.
move=> e; have two : 2%:R != 0 :> R by rewrite pnatr_eq0.
have e0 : 0 < e by rewrite invr_gt0 ltr0n.
have e1 : e < 1 by rewrite invf_lt1 ?ltr0n // ltr1n.
have inj : injective (id : 'I_(1 + 1) -> 'I_(1 + 1)) by [].
have nz : true -> exists i j, ex_J R (id (lshift 1 i)) (id (lshift 1 j)) <> 0.
  by move=> _; exists 0, 0; rewrite ex_l; apply/eqP.
have [N [I [b [E [IE [bE NE]]]]]] := C134_two_columns R; rewrite -/e IE bE NE in E.
have rE : (fun i => 1 / dot (part id (ex_s2 R i)) (part id (ex_y2 R i))) = ex_rho R.
  apply: functional_extensionality => i; rewrite /ex_rho -(ex_part_s R) -(ex_part_y R).
  by [].
have wE : part_omega id (ex_s2 R) (ex_y2 R) true 1 = 2%:R.
  by rewrite /part_omega ex_part_s ex_part_y ex_omega mul1r.
have := @C132_blocks R _ _ _ _ _ qrr _ e 1 1 id (ex_J R) 1 true true _ _ _ _ 1 (ex_s2 R) (ex_y2 R) (ex_rho R) (ex_lo2 R) 1
  0 0 1 (ex_H2 R) (@full_qr_ok R) (@some_eigh_ok R) (@invmx_inv_ok R) (@some_chol_ok R _) (@invmx_linv_ok R _)
  (@some_rank_one_ok R _) e0 (ltW e1) inj (ex_J_sym R) (ex_r R) nz id E erefl.
rewrite addr0; apply.
- by rewrite /= wE ltr0n.
- by rewrite /= wE ex_part_s ex_part_y rE; exact: ex_proper.
- by rewrite mul0mx.
- rewrite /getExplicitnH_blocks /= wE /part_terms wE ex_part_s ex_part_y rE ex_core.
  rewrite ex_P1 trmx1 !mul1mx !mulmx1 P3_block /ex_J block_mxKur trmx1 mul1mx mulmx1 add_block_mx !addr0 add0r.
  by rewrite /ex_H2 -raddfD.
- exact: ex_H2_definite.
Qed.

(** Steps and changes of gradients are restricted to the columns for which the Hessian is approximated, in the order in
    which P2 puts the approximation back. *)
Theorem C132_coordinates (R : rcfType) nF nA (tcols : 'I_(nF + nA) -> 'I_(nF + nA)) (x : 'rV[R]_(nF + nA)) :
  part tcols x = x *m P2 R tcols.
Proof.
apply/matrixP => i j; rewrite !mxE (bigD1 (tcols (rshift nF j))) //= big1 => [|k /negPf nk].
  by rewrite !mxE eqxx mulr1 addr0 (ord1 i).
by rewrite !mxE nk mulr0.
Qed.

Print Assumptions C131_edf.
Print Assumptions C131_scale.
Print Assumptions C131_scale_refuted.
Print Assumptions C131_empty_refuted.
Print Assumptions C132_factor.
Print Assumptions C132_blocks.
Print Assumptions C132_empty_refuted.
Print Assumptions C132_single_refuted.
Print Assumptions C133_columns.
Print Assumptions C133_derivatives.
Print Assumptions C133_twice_refuted.
Print Assumptions C134_blocks.
Print Assumptions C134_unchanged.
Print Assumptions C134_zero_refuted.
Print Assumptions C132_coordinates.
