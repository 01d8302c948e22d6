(** Formulas: theorems. *)

From Coq Require Import List Bool Arith Lia Permutation Sorted Ring ZArith Reals Lra.
From Verif Require Import FormModel FormSpec FormProofs FormProofs2 FormProofs3 FormProofs4 FormProofs5 FormProofs6 FormProofs7.
Import ListNotations.
Local Open Scope nat_scope.

Section Generic.
Variable K : Type.
Variables (k0 k1 : K) (kadd kmul ksub : K -> K -> K) (kopp : K -> K).
Variable Kring : ring_theory k0 k1 kadd kmul ksub kopp (@eq K).
Variable big : K -> bool.

(** *** C44: columns, coefficients and names

    The matrix of a formula consists of the columns of its terms, term after term in the order of the
    coefficients, with zero columns for terms that are left out; as many columns as coefficients are
    reported, and the reported ranges of coefficients are where the term's columns are. *)
Theorem C44_model_matrix e (d : frame K) lens pool terms use_only :
  all_ok K k0 kadd kmul ksub big e d lens (intercept K terms) (ordered K terms) ->
  let used ti := match use_only with None => true | Some l => existsb (Nat.eqb ti) l end in
  let cols := design K k0 k1 kadd kmul ksub big e d lens used (intercept K terms) (ordered K terms) in
  let out := get_coef_info e terms in
  exists ts,
    build_sparse K k0 k1 kadd kmul ksub big e d lens pool terms use_only = Some (ts, in_n out) /\
    is_matrix K k0 (n_y d) (entry K k0 kadd ts) (concat cols) /\
    in_n out = length (concat cols) /\
    Permutation (map fst (in_terms out)) (seq 0 (length terms)) /\
    map fst (in_terms out) = map fst (ordered K terms) /\
    tiles 0 (map snd (in_terms out)) (map (@length _) cols).
Proof.
  intros Hok used cols out.
  pose proof (ordered_nth K terms) as Hn.
  destruct (loop_ok K k0 k1 kadd kmul ksub kopp Kring big e d lens pool terms use_only
              (ordered K terms) (intercept K terms) [] 0 [] Hn Hok) as (us & EB & ER).
  { intros r c. simpl. rewrite andb_false_r by lia. destruct ((r <? n_y d) && true && (c <? 0)); destruct (c - 0); reflexivity. }
  { reflexivity. }
  destruct (info_ok K k0 k1 kadd kmul ksub kopp Kring big e d lens terms used (ordered K terms) (intercept K terms)
              (Info 0 0 [] []) Hn Hok) as (EN & _ & new & ET & EF & TL).
  rewrite <- ordered_visit in EB, EN, ET. 
  change (info_loop e terms (visit terms) (intercept K terms) (Info 0 0 [] [])) with out in EN, ET.
  cbn [in_n in_terms Nat.add app] in EN, ET, TL. rewrite ET.
  exists us. rewrite EN. split; [exact EB|]. split.
  { intros r c. rewrite (ER r c). simpl. rewrite andb_true_r, Nat.sub_0_r. reflexivity. }
  split; [reflexivity|]. split; [|split; assumption].
  rewrite EF. rewrite (ordered_perm K terms).
  assert (E : forall (l : list (term K)) a, map fst (combine (seq a (length l)) l) = seq a (length l)).
  { induction l as [|t l IH]; intros a; simpl; [reflexivity|]. rewrite IH. reflexivity. }
  rewrite E. reflexivity.
Qed.

(** Every coefficient has one name, except for impulse responses with a by-factor. *)
Theorem C44_names e (d : frame K) lens terms :
  all_ok K k0 kadd kmul ksub big e d lens (intercept K terms) (ordered K terms) ->
  (forall s v, In (TIrf s) terms -> i_by s = Some v -> length (levels e v) = 1) ->
  length (in_names (get_coef_info e terms)) = in_n (get_coef_info e terms).
Proof.
  intros Hok HI. pose proof (ordered_nth K terms) as Hn.
  destruct (info_ok K k0 k1 kadd kmul ksub kopp Kring big e d lens terms (fun _ => true) (ordered K terms) (intercept K terms)
              (Info 0 0 [] []) Hn Hok) as (EN & EM & _).
  rewrite <- ordered_visit in EN, EM.
  change (info_loop e terms (visit terms) (intercept K terms) (Info 0 0 [] [])) with (get_coef_info e terms) in EN, EM.
  rewrite EN, EM; [reflexivity|]. eapply Forall_impl; [|exact Hn]. intros [i t] H. simpl in H. apply nth_error_In in H.
  destruct t; simpl; auto. destruct (i_by s) eqn:E; [|exact I]. apply (HI s v H E).
Qed.

(** An identifiable smooth, as it is set up before the matrix is built, can always be built: the constraint
    takes one column from the tensor product or from every marginal. *)
Theorem C44_setup qr repara ct rp (d : frame K) (s : smooth K) e ci :
  f_vars s <> [] -> length (f_nk s) = length (f_vars s) -> Forall (fun n => 0 < n) (f_nk s) ->
  (forall vi n, mcols (f_basis s vi n) = n) ->
  f_ident s = true -> (f_te s = true -> 1 < length (f_vars s)) -> f_drop s = None ->
  (forall vi X, mcols (repara vi X) = mcols X) ->
  let s' := absorb_constraints K k0 kadd kmul ksub qr repara ct rp d s in
  let levels_of := match f_by s with None => 1 | Some v => length (levels e v) end in
  let size := fold_right Nat.mul 1 (f_nk s) - (if f_te s then 1 else 0) in
  exists ts, f_build K k0 kadd kmul ksub big s' e d ci true = Some (ts, size * levels_of).
Proof.
  intros Hv Hn Hp Hb Hi Ht Hd Hr s' levels_of size.
  assert (W : well_formed K s' e) by (apply setup_well_formed; assumption).
  destruct (smooth_matrix K k0 k1 kadd kmul ksub kopp Kring big s' e d ci W) as (ts & E & _).
  { unfold drops_last. replace (f_drop s') with (f_drop s) by reflexivity. rewrite Hd. exact I. }
  exists ts. rewrite E. do 2 f_equal.
  pose proof (term_count K k0 k1 kadd kmul ksub kopp Kring big e d [] false false (TF s')) as C.
  cbn [term_ok term_cols] in C. rewrite <- C.
  2:{ split; [exact W|]. unfold drops_last. replace (f_drop s') with (f_drop s) by reflexivity. rewrite Hd. exact I. }
  cbn [term_info f_info fst]. unfold n_dropped. replace (f_drop s') with (f_drop s) by reflexivity. rewrite Hd, Nat.sub_0_r.
  unfold f_all_coef, levels_of. replace (f_by s') with (f_by s) by reflexivity.
  assert (EC : f_term_coef s' = size).
  { unfold f_term_coef, size, np_prod. replace (f_vars s') with (f_vars s) by reflexivity.
    replace (f_nk s') with (f_nk s) by reflexivity. replace (f_te s') with (f_te s) by reflexivity.
    replace (f_ident s') with (f_ident s) by reflexivity. rewrite Hi, andb_true_r.
    assert (P : forall l a, fold_left Nat.mul l a = a * fold_right Nat.mul 1 l).
    { induction l as [|x l IH]; intros a; simpl; [lia|]. rewrite IH. lia. }
    rewrite P, Nat.mul_1_l. destruct (f_vars s) as [|a [|b l]] eqn:EV; [congruence| |].
    - destruct (f_nk s) as [|n [|]]; try discriminate. destruct (f_te s) eqn:Et; [specialize (Ht eq_refl); simpl in Ht; lia|]. simpl. lia.
    - destruct (f_te s); lia. }
  rewrite EC. destruct (f_by s); lia.
Qed.

(** *** C45: dropped columns

    If only the last columns are dropped, the matrix consists of the others. *)
Theorem C45_drop_last_partial (s : smooth K) e (d : frame K) ci :
  well_formed K s e -> drops_last K k0 kadd kmul ksub big s e d ->
  exists ts, f_build K k0 kadd kmul ksub big s e d ci true
             = Some (ts, length (smooth_cols K k0 kadd kmul ksub big s e d)) /\
  forall r c, entry K k0 kadd ts r (ci + c)
    = if (r <? n_y d) && (c <? length (smooth_cols K k0 kadd kmul ksub big s e d))
      then col K k0 (smooth_cols K k0 kadd kmul ksub big s e d) c r else k0.
Proof.
  intros W D. destruct (smooth_matrix K k0 k1 kadd kmul ksub kopp Kring big s e d ci W D) as (ts & E & R).
  exists ts. split; [exact E|]. intros r c. rewrite (R r (ci + c)).
  replace (ci <=? ci + c) with true by (symmetry; apply Nat.leb_le; lia).
  replace (ci + c - ci) with c by lia.
  assert (X : (ci + c <? ci + length (smooth_cols K k0 kadd kmul ksub big s e d))
              = (c <? length (smooth_cols K k0 kadd kmul ksub big s e d))).
  { destruct (Nat.ltb_spec c (length (smooth_cols K k0 kadd kmul ksub big s e d))); [apply Nat.ltb_lt|apply Nat.ltb_ge]; lia. }
  rewrite X, andb_true_r. reflexivity.
Qed.

(** *** C48: linear terms

    A linear term has the products of its predictors' columns: a numeric predictor its values, a factor one
    indicator per level, without the first one if the columns before it span the constant. *)
Theorem C48_linear_columns e (d : frame K) h vars ci :
  vars <> [] -> length vars = 1 \/ codable e h vars ->
  exists ts, build_linear_term K k1 kmul e d vars h ci true = (ts, length (linear_cols K k0 k1 kmul e d h vars)) /\
  forall r c, entry K k0 kadd ts r (ci + c)
    = if (r <? n_y d) && (c <? length (linear_cols K k0 k1 kmul e d h vars))
      then col K k0 (linear_cols K k0 k1 kmul e d h vars) c r else k0.
Proof.
  intros W D. destruct (linear_matrix K k0 k1 kadd kmul ksub kopp Kring e d h vars ci W D) as (ts & E & R).
  exists ts. split; [exact E|]. intros r c. rewrite (R r (ci + c)).
  replace (ci <=? ci + c) with true by (symmetry; apply Nat.leb_le; lia).
  replace (ci + c - ci) with c by lia.
  assert (X : (ci + c <? ci + length (linear_cols K k0 k1 kmul e d h vars))
              = (c <? length (linear_cols K k0 k1 kmul e d h vars))).
  { destruct (Nat.ltb_spec c (length (linear_cols K k0 k1 kmul e d h vars))); [apply Nat.ltb_lt|apply Nat.ltb_ge]; lia. }
  rewrite X, andb_true_r. reflexivity.
Qed.

(** Two rows have the same entries for a factor exactly if they have the same level. *)
Theorem C48_rows_and_levels e (d : frame K) h v ci r r' j j' :
  k1 <> k0 -> vt e v = Factor -> r < n_y d -> r' < n_y d ->
  code d r v = Some j -> code d r' v = Some j' -> j < length (levels e v) -> j' < length (levels e v) ->
  let '(ts, n) := build_linear_term K k1 kmul e d [v] h ci true in
  n = length (levels e v) - (if h then 1 else 0) /\
  ((forall c, ci <= c < ci + n -> entry K k0 kadd ts r c = entry K k0 kadd ts r' c) <-> j = j').
Proof.
  intros H10 Ev Hr Hr' Ec Ec' Hj Hj'.
  destruct (linear_matrix K k0 k1 kadd kmul ksub kopp Kring e d h [v] ci ltac:(discriminate) (or_introl eq_refl)) as (ts & E & R).
  rewrite E. change (linear_cols K k0 k1 kmul e d h [v]) with (var_cols K k0 k1 e d h v) in *.
  unfold var_cols in *. rewrite Ev in R |- *. rewrite map_length.
  set (ks := filter _ (seq 0 (length (levels e v)))) in *.
  assert (EK : ks = seq (if h then 1 else 0) (length (levels e v) - (if h then 1 else 0))).
  { unfold ks. destruct h; cbn [andb].
    - destruct (length (levels e v)) as [|L]; [lia|]. simpl. rewrite Nat.sub_0_r. 
      assert (A : forall L a, filter (fun k => negb (k =? 0)) (seq (S a) L) = seq (S a) L).
      { clear. induction L as [|L IH]; intros a; simpl; [reflexivity|]. rewrite IH. reflexivity. }
      apply A.
    - rewrite Nat.sub_0_r. generalize (seq 0 (length (levels e v))). clear. induction l as [|a l IH]; [reflexivity|].
      cbn [filter negb andb]. f_equal. exact IH. }
  rewrite EK in R |- *. rewrite seq_length.
  split; [reflexivity|].
  assert (V : forall q k, q < n_y d -> code d q v = Some k -> forall c, c < length (levels e v) - (if h then 1 else 0) ->
     entry K k0 kadd ts q (ci + c) = if k =? (if h then 1 else 0) + c then k1 else k0).
  { intros q k Hq Hk c Hc. rewrite (R q (ci + c)). rewrite map_length, seq_length.
    assert (B : (q <? n_y d) && (ci <=? ci + c) && (ci + c <? ci + (length (levels e v) - (if h then 1 else 0))) = true).
    { rewrite !andb_true_iff. repeat split; [apply Nat.ltb_lt|apply Nat.leb_le|apply Nat.ltb_lt]; lia. }
    rewrite B. replace (ci + c - ci) with c by lia.
    rewrite (nth_indep _ _ (on_level K k0 d v 0 (one K k1))) by (rewrite map_length, seq_length; exact Hc).
    rewrite (map_nth (fun k => on_level K k0 d v k (one K k1))), seq_nth by exact Hc.
    unfold on_level, one. rewrite Hk. reflexivity. }
  split.
  - intros H. destruct (Nat.eq_dec j j') as [|Hne]; [assumption|exfalso].
    assert (C : forall x y, x < length (levels e v) -> x <> y -> (h = true -> x <> 0) ->
       (if x =? (if h then 1 else 0) + (x - (if h then 1 else 0)) then k1 else k0)
       <> (if y =? (if h then 1 else 0) + (x - (if h then 1 else 0)) then k1 else k0)).
    { intros x y Hx Hxy H0. replace ((if h then 1 else 0) + (x - (if h then 1 else 0))) with x.
      2:{ destruct h; [specialize (H0 eq_refl)|]; lia. }
      rewrite Nat.eqb_refl. destruct (Nat.eqb_spec y x); [congruence|exact H10]. }
    assert (D : (h = true -> j <> 0) \/ (h = true -> j' <> 0)).
    { destruct h; [|left; discriminate]. destruct j; [right; lia|left; lia]. }
    destruct D as [D|D].
    + specialize (H (ci + (j - (if h then 1 else 0)))). 
      assert (c : j - (if h then 1 else 0) < length (levels e v) - (if h then 1 else 0)) by (destruct h; [specialize (D eq_refl)|]; lia).
      rewrite (V r j Hr Ec), (V r' j' Hr' Ec') in H by exact c. apply (C j j' Hj Hne D). apply H. lia.
    + specialize (H (ci + (j' - (if h then 1 else 0)))).
      assert (c : j' - (if h then 1 else 0) < length (levels e v) - (if h then 1 else 0)) by (destruct h; [specialize (D eq_refl)|]; lia).
      rewrite (V r j Hr Ec), (V r' j' Hr' Ec') in H by exact c. apply (C j' j Hj' (not_eq_sym Hne) D). symmetry. apply H. lia.
  - intros <- c Hc. replace c with (ci + (c - ci)) by lia. rewrite (V r j Hr Ec), (V r' j Hr' Ec') by lia. reflexivity.
Qed.

(** *** C81: names say what the columns mean

    Where a column is not zero, the row has the levels that its coefficient's name mentions. *)
Theorem C81_names_and_levels e (d : frame K) lens pool icpt h t ci :
  term_ok K k0 kadd kmul ksub big e d lens h t ->
  match t with TF s => forall v, f_by s = Some v -> in_order e v | TIrf _ => False | _ => True end ->
  exists ts n, term_build K k0 k1 kadd kmul ksub big e d lens pool h t ci true = Some (ts, n) /\
    n = fst (fst (term_info e icpt h t)) /\
    forall r c, entry K k0 kadd ts r c <> k0 ->
      exists nm, ci <= c /\ nth_error (snd (term_info e icpt h t)) (c - ci) = Some nm /\ name_holds K e d t nm r.
Proof.
  intros Hok Hord. destruct (term_matrix K k0 k1 kadd kmul ksub kopp Kring big e d lens pool h t ci Hok) as (ts & E & _ & R).
  eexists ts, _. split; [exact E|]. split; [symmetry; apply (term_count K k0 k1 kadd kmul ksub kopp Kring); exact Hok|].
  pose proof (term_labels K k0 k1 kadd kmul ksub kopp Kring big e d lens icpt h t Hok Hord) as F.
  intros r c Hne. rewrite (R r c) in Hne.
  destruct ((r <? n_y d) && (ci <=? c) && (c <? ci + length (term_cols K k0 k1 kadd kmul ksub big e d lens h t))) eqn:B; [|congruence].
  rewrite !andb_true_iff in B. destruct B as [[B1 B2] B3]. apply Nat.leb_le in B2. apply Nat.ltb_lt in B3.
  assert (G : forall i (A : list (column K)) N, Forall2 (fun a nm => forall r, a r <> k0 -> name_holds K e d t nm r) A N ->
     i < length A -> nth i A (zero K k0) r <> k0 -> exists nm, nth_error N i = Some nm /\ name_holds K e d t nm r).
  { clear. intros i A N H. revert i. induction H as [|a nm A N E H IH]; intros i Hi Hn; simpl in Hi; [lia|].
    destruct i as [|i]; [exists nm; split; [reflexivity|apply E; exact Hn]|]. apply (IH i); [lia|exact Hn]. }
  destruct (G (c - ci) _ _ F ltac:(lia) Hne) as (nm & E1 & E2). exists nm. auto.
Qed.

(** *** C82: sparse identifiability constraints

    Dropping a coefficient (DROP) or differencing coefficients (DIFF) is a change of coefficients b = W g:
    the model matrix becomes X W with one column less, the root of a penalty S = D D' becomes W' D and the
    penalty W' S W.  The coefficients that can be reached are those whose middle one is zero or which sum to
    zero. *)
Theorem C82_same_matrix n Z : fits K Z n ->
  exists W : nat -> nat -> K,
    (forall X, mcols X = n -> mcols (absorb K k0 kadd kmul ksub X Z) = n - 1 /\
       forall r c, c < n - 1 -> mval (absorb K k0 kadd kmul ksub X Z) r c
                                = total_of K k0 kadd n (fun k => kmul (mval X r k) (W k c))) /\
    (forall D i j, i < n - 1 -> mval (absorb_root K k0 kadd kmul ksub n D Z) i j
                                = total_of K k0 kadd n (fun k => kmul (W k i) (mval D k j))) /\
    (forall Sm D i j, i < n - 1 -> j < n - 1 ->
       (forall k l, k < n -> l < n -> mval Sm k l = total_of K k0 kadd (mcols D) (fun m => kmul (mval D k m) (mval D l m))) ->
       mval (absorb_penalty K k0 kadd kmul ksub n Sm D Z) i j
       = total_of K k0 kadd n (fun k => total_of K k0 kadd n (fun l => kmul (kmul (W k i) (mval Sm k l)) (W l j)))) /\
    (forall b, (exists g, forall k, k < n -> b k = total_of K k0 kadd (n - 1) (fun c => kmul (W k c) (g c))) <->
       match Z with
       | CQR Z => exists g, forall k, k < n -> b k = total_of K k0 kadd (n - 1) (fun c => kmul (mval Z k c) (g c))
       | CDrop z => b z = k0
       | CDiff _ => total_of K k0 kadd n b = k0
       end).
Proof.
  change (total_of K k0 kadd) with (ksum K k0 kadd). intros Hf. exists (mval (absorb K k0 kadd kmul ksub (identity K k0 k1 n) Z)). split; [|split; [|split]].
  - intros X HX. split; [rewrite (mcols_absorb K k0 kadd kmul ksub X Z) by (rewrite HX; exact Hf); lia|].
    intros r c Hc. apply (absorb_matrix K k0 k1 kadd kmul ksub kopp Kring); assumption.
  - intros D i j Hi. apply (root_matrix K k0 k1 kadd kmul ksub kopp Kring); assumption.
  - intros Sm D i j Hi Hj HS. apply (penalty_matrix K k0 k1 kadd kmul ksub kopp Kring); assumption.
  - intros b. destruct Z as [Z|z|z].
    + assert (E : forall k c, k < n -> c < n - 1 -> mval (absorb K k0 kadd kmul ksub (identity K k0 k1 n) (CQR Z)) k c = mval Z k c).
      { intros k c Hk Hc. cbn [absorb mat_mul mval mcols identity].
        rewrite (ksum_ext K k0 kadd n _ (fun l => if l =? k then mval Z l c else k0)).
        - apply (ksum_unit K k0 k1 kadd kmul ksub kopp Kring n k (fun l => mval Z l c)). exact Hk.
        - intros l _. rewrite (Nat.eqb_sym k l). destruct (l =? k).
          + apply (Ring_theory.Rmul_1_l Kring).
          + apply (Ring_theory.ARmul_0_l (Rth_ARth (Eqsth K) (Eq_ext kadd kmul kopp) Kring)). }
      split; intros (g & Hg); exists g; intros k Hk; rewrite (Hg k Hk); apply (ksum_ext K k0 kadd); intros c Hc; rewrite E by assumption; reflexivity.
    + apply (drop_range K k0 k1 kadd kmul ksub kopp Kring). exact Hf.
    + apply (diff_range K k0 k1 kadd kmul ksub kopp Kring). exact Hf.
Qed.
End Generic.

(** *** C39: constraints as they are set up

    Without a te, every marginal of an identifiable smooth sums to zero over the data, whatever
    reparameterisation follows. *)
Theorem C39_marginals_centred (K : Type) (k0 k1 : K) (kadd kmul ksub : K -> K -> K) (kopp : K -> K)
    (Kring : ring_theory k0 k1 kadd kmul ksub kopp (@eq K)) qr repara rp (d : frame K) (s : smooth K) :
  f_ident s = true -> f_te s = false -> (forall vi n, mcols (f_basis s vi n) = n) ->
  (forall vi X, mcols (repara vi X) = mcols X) ->
  forall vi, vi < length (f_vars s) ->
  (let n := S (nth vi (f_nk s) 0) in
   let sums c := total_of K k0 kadd (n_y d) (fun r => mval (f_basis s vi n) r c) in qr_of K k0 k1 kadd kmul n sums (qr n sums)) ->
  exists X, f_marginal K k0 kadd kmul ksub (absorb_constraints K k0 kadd kmul ksub qr repara QR rp d s) vi = Some X /\
    mcols X = nth vi (f_nk s) 0 /\ forall c, c < mcols X -> total_of K k0 kadd (n_y d) (fun r => mval X r c) = k0.
Proof.
  intros Hi Ht Hb Hr vi Hvi Hq. unfold f_marginal.
  cbn [absorb_constraints f_ident f_te f_nk f_basis f_Z f_rp]. rewrite Hi, Ht. cbn [andb negb].
  assert (EV : nth_error (seq 0 (length (f_vars s))) vi = Some vi).
  { rewrite nth_error_nth' with (d := 0) by (rewrite seq_length; exact Hvi). rewrite seq_nth by exact Hvi. reflexivity. }
  rewrite nth_error_map, EV. cbn [option_map].
  set (B := f_basis s vi (S (nth vi (f_nk s) 0))).
  set (X1 := absorb K k0 kadd kmul ksub B (make_constraint K k0 kadd qr QR (n_y d) B)).
  assert (C1 : mcols X1 = nth vi (f_nk s) 0).
  { unfold X1. rewrite (mcols_absorb K k0 kadd kmul ksub); [unfold B; rewrite Hb; lia|].
    apply (fits_made K k0 kadd); [reflexivity|]. unfold B. rewrite Hb. lia. }
  assert (S1 : forall c, c < mcols X1 -> total_of K k0 kadd (n_y d) (fun r => mval X1 r c) = k0).
  { intros c Hc. apply (centred K k0 k1 kadd kmul ksub kopp Kring qr (n_y d) B c).
    { unfold B. rewrite Hb. exact Hq. }
    unfold B. rewrite Hb. rewrite C1 in Hc. lia. }
  destruct rp.
  - destruct (map (fun vi0 => repara vi0 (absorb K k0 kadd kmul ksub (f_basis s vi0 (S (nth vi0 (f_nk s) 0)))
                (make_constraint K k0 kadd qr QR (n_y d) (f_basis s vi0 (S (nth vi0 (f_nk s) 0)))))) (seq 0 (length (f_vars s)))) eqn:EM.
    + apply (f_equal (@length _)) in EM. rewrite map_length, seq_length in EM. simpl in EM. lia.
    + rewrite <- EM, nth_error_map, EV. cbn [option_map]. fold B. fold X1. eexists. split; [reflexivity|].
      split; [cbn [mat_mul mcols]; rewrite Hr; exact C1|].
      intros c _. apply (centred_mul K k0 k1 kadd kmul ksub kopp Kring). exact S1.
  - exists X1. auto.
Qed.

(** For a te without reparameterisation the columns of the tensor product sum to zero. *)
Theorem C39_tensor_centred (K : Type) (k0 k1 : K) (kadd kmul ksub : K -> K -> K) (kopp : K -> K)
    (Kring : ring_theory k0 k1 kadd kmul ksub kopp (@eq K)) qr repara (d : frame K) (s : smooth K) :
  f_vars s <> [] -> f_ident s = true -> f_te s = true -> f_by_cont s = None ->
  (let T := fold_left (fun T vi => tp_basis K kmul T (f_basis s vi (nth vi (f_nk s) 0))) (tl (seq 0 (length (f_vars s))))
              (f_basis s 0 (nth 0 (f_nk s) 0)) in
   let sums c := total_of K k0 kadd (n_y d) (fun r => mval T r c) in qr_of K k0 k1 kadd kmul (mcols T) sums (qr (mcols T) sums)) ->
  exists T, f_matrix K k0 kadd kmul ksub (absorb_constraints K k0 kadd kmul ksub qr repara QR false d s) d = Some T /\
    forall c, c < mcols T -> total_of K k0 kadd (n_y d) (fun r => mval T r c) = k0.
Proof.
  intros Hv Hi Ht Hc Hq. unfold f_matrix.
  rewrite (tensor_fold K k0 kadd kmul ksub _ (fun vi => f_basis s vi (nth vi (f_nk s) 0))).
  - cbn [absorb_constraints f_ident f_te f_Z f_by_cont]. rewrite Hi, Ht, Hc. cbn [andb nth_error].
    eexists. split; [reflexivity|]. intros c Hlt.
    apply (centred K k0 k1 kadd kmul ksub kopp Kring); [exact Hq|].
    cbn [make_constraint absorb mat_mul mcols] in Hlt. exact Hlt.
  - exact Hv.
  - intros vi _. unfold f_marginal. cbn [absorb_constraints f_ident f_te f_nk f_basis f_Z f_rp].
    rewrite Hi, Ht. reflexivity.
Qed.

(** With the reparameterisation that is the default for several variables, they do not: the constraint is
    computed from the bases before they are reparameterised.  Two variables with the basis (1, x) on the
    four points of {0, 1} x {0, 1}; [C] turns coefficients into function values at 0 and 1. *)
Section TeWitness.
Local Open Scope R_scope.
Definition te_point (vi r : nat) : R :=
  match vi, r with O, 2%nat | O, 3%nat => 1 | S O, 1%nat | S O, 3%nat => 1 | _, _ => 0 end.
Definition te_basis (vi n : nat) : mat R := Mat n (fun r c => match c with O => 1 | _ => te_point vi r end).
Definition te_C : mat R := Mat 2 (fun i j => match i, j with O, O => 1 | S O, O => -1 | S O, S O => 1 | _, _ => 0 end).
Definition te_v (k : nat) : R := match k with O => 9 | S O => 2 | 2%nat => 2 | 3%nat => 1 | _ => 0 end.
Definition te_Q : mat R := Mat 4 (fun i j => (if (i =? j)%nat then 1 else 0) - te_v i * te_v j / 45).
Definition te_smooth : smooth R := Smooth [0%nat; 1%nat] [2%nat; 2%nat] true true [] [] te_basis None None None None true.
End TeWitness.

Theorem C39_te_refuted :
  exists (qr : nat -> (nat -> R) -> mat R) (repara : nat -> mat R -> mat R) (d : frame R) (s : smooth R),
    f_ident s = true /\ f_te s = true /\ f_by_cont s = None /\
    (forall vi n, mcols (f_basis s vi n) = n) /\ (forall vi X, mcols X = 2 -> mcols (repara vi X) = 2) /\
    let T0 := fold_left (fun T vi => tp_basis R Rmult T (f_basis s vi 2)) [1] (f_basis s 0 2) in
    qr_of R 0%R 1%R Rplus Rmult 4 (col_sums R 0%R Rplus (n_y d) T0) (qr 4 (col_sums R 0%R Rplus (n_y d) T0)) /\
    exists T, f_matrix R 0%R Rplus Rmult Rminus (absorb_constraints R 0%R Rplus Rmult Rminus qr repara QR true d s) d = Some T /\
      mcols T = 3 /\ total_of R 0%R Rplus (n_y d) (fun r => mval T r 0) <> 0%R.
Proof.
  exists (fun _ _ => te_Q), (fun _ _ => te_C), (Frame 4 (fun _ _ => 0%R) (fun _ _ => None)), te_smooth.
  do 3 (split; [reflexivity|]). split; [reflexivity|]. split; [reflexivity|]. split.
  - split.
    + exists (-5)%R. intros k Hk. do 4 (destruct k as [|k]; [cbv -[Rplus Rmult Rminus Rdiv IZR Ropp]; lra|]). lia.
    + intros c c' Hc Hc'. do 4 (destruct c as [|c]; [do 4 (destruct c' as [|c']; [cbv -[Rplus Rmult Rminus Rdiv IZR Ropp]; lra|]); lia|]). lia.
  - eexists. split; [reflexivity|]. split; [reflexivity|].
    cbv -[Rplus Rmult Rminus Rdiv IZR Ropp]. lra.
Qed.

(** The hypotheses of the positive theorems can be met: a smooth of one variable with the basis (1, x). *)
Example C39_case :
  let s := Smooth [0] [1] false true [] [] te_basis None None None None true in
  f_ident s = true /\ f_te s = false /\ (forall vi n, mcols (f_basis s vi n) = n) /\
  (let sums c := total_of R 0%R Rplus 4 (fun r => mval (f_basis s 0 2) r c) in qr_of R 0%R 1%R Rplus Rmult 2 sums (Mat 2 (fun i j => match i, j with
     | 0, 0 => 2 / sqrt 5 | 0, 1 => - (1 / sqrt 5) | 1, 0 => 1 / sqrt 5 | 1, 1 => 2 / sqrt 5 | _, _ => 0 end)%R)).
Proof.
  intros s. do 3 (split; [reflexivity|]). cbn zeta. assert (H5 : (sqrt 5 * sqrt 5 = 5)%R) by (apply sqrt_sqrt; lra).
  assert (N5 : (sqrt 5 <> 0)%R) by (apply Rgt_not_eq, sqrt_lt_R0; lra).
  assert (I : (/ sqrt 5 * / sqrt 5 = / 5)%R) by (rewrite <- Rinv_mult, H5; reflexivity).
  split.
  - exists (2 * sqrt 5)%R. intros k Hk.
    do 2 (destruct k as [|k]; [cbv -[Rplus Rmult Rminus Rdiv IZR Ropp sqrt]; field; exact N5|]). lia.
  - intros c c' Hc Hc'.
    do 2 (destruct c as [|c]; [do 2 (destruct c' as [|c']; [cbv -[Rplus Rmult Rminus Rdiv Rinv IZR Ropp sqrt]; unfold Rdiv; nra|]); lia|]). lia.
Qed.

(** *** C44: an impulse response with a by-factor reports too many names *)
Theorem C44_irf_names_refuted :
  exists (e : env) (d : frame Z) (lens : list nat) (terms : list (term Z)),
    all_ok Z 0%Z Z.add Z.mul Z.sub (fun x => negb (x =? 0)%Z) e d lens (intercept Z terms) (ordered Z terms) /\
    length (in_names (get_coef_info e terms)) <> in_n (get_coef_info e terms).
Proof.
  exists (Env (fun v => if v =? 1 then Factor else Numeric) (fun v => [0; 1]) (fun _ k => k)).
  exists (Frame 2 (fun _ _ => 0%Z) (fun r v => Some r)).
  exists [1; 1], [TI; TIrf (Irf [0] [2] (Some 1) true 2 (fun _ _ n => Mat n (fun _ _ => 1%Z)))].
  split; [|vm_compute; discriminate].
  simpl. split; [exact I|]. split; [|exact I]. split.
  - split; [discriminate|]. split; reflexivity.
  - split; [discriminate|]. split; [repeat constructor|]. split; [simpl; lia|]. split; [reflexivity|].
    simpl. intros r r' si q q' H H'.
    destruct r as [|[|r]]; simpl in H; try discriminate; destruct r' as [|[|r']]; simpl in H'; try discriminate; congruence.
Qed.

(** An intercept, a factor and its interaction with a number, a smooth per level, random intercepts and
    slopes: the hypotheses of C44 hold and the matrix has 12 columns. *)
Definition case_env : env := Env (fun v => if v =? 1 then Factor else Numeric) (fun _ => [5; 6]) (fun _ k => 5 + k).
Definition case_frame : frame Z := Frame 3 (fun r _ => Z.of_nat (S r)) (fun r _ => if r =? 1 then Some 1 else Some 0).
Definition case_terms : list (term Z) :=
  [TRi 1; TI; TF (Smooth [0] [2] false false [] [] (fun _ n => Mat n (fun r c => Z.of_nat (r + c))) (Some 1) None None None true);
   TL [1]; TL [1; 0]; TRs [0] (Some 1)].
Example C44_case :
  all_ok Z 0%Z Z.add Z.mul Z.sub (fun x => negb (x =? 0)%Z) case_env case_frame [] (intercept Z case_terms) (ordered Z case_terms) /\
  in_n (get_coef_info case_env case_terms) = 11 /\
  in_terms (get_coef_info case_env case_terms) = [(1, (0, 1)); (3, (1, 1)); (4, (2, 1)); (2, (3, 4)); (0, (7, 2)); (5, (9, 2))] /\
  match build_sparse Z 0%Z 1%Z Z.add Z.mul Z.sub (fun x => negb (x =? 0)%Z) case_env case_frame [] false case_terms None with
  | Some (ts, n) => n = 11 /\ map (fun r => map (entry Z 0%Z Z.add ts r) (seq 0 11)) [0; 1; 2]
      = [[1; 0; 0; 0; 1; 0; 0; 1; 0; 1; 0]; [1; 1; 2; 0; 0; 1; 2; 0; 1; 0; 2]; [1; 0; 0; 2; 3; 0; 0; 1; 0; 3; 0]]%Z
  | None => False
  end.
Proof.
  split; [|split; [reflexivity|split; [reflexivity|vm_compute; split; reflexivity]]].
  simpl. repeat split; auto; try discriminate; try lia.
  - right. repeat constructor; simpl; intros; try lia; discriminate.
  - simpl. intros H; contradiction.
Qed.

(** The set-up of C44 for a te of two variables with a by-factor: (2 * 3 - 1) * 2 columns. *)
Example C44_setup_case :
  let s := Smooth [0; 2] [2; 3] true true [] [] (fun vi n => Mat n (fun r c => Z.of_nat (vi + r + c))) (Some 1) None None None true in
  f_vars s <> [] /\ length (f_nk s) = length (f_vars s) /\ Forall (fun n => 0 < n) (f_nk s) /\
  (forall vi n, mcols (f_basis s vi n) = n) /\ f_ident s = true /\ 1 < length (f_vars s) /\ f_drop s = None /\
  match f_build Z 0%Z Z.add Z.mul Z.sub (fun x => negb (x =? 0)%Z)
          (absorb_constraints Z 0%Z Z.add Z.mul Z.sub (fun n _ => Mat n (fun _ _ => 1%Z)) (fun _ X => X) DROP true case_frame s)
          case_env case_frame 0 true with
  | Some (_, n) => n = 10
  | None => False
  end.
Proof.
  intros s. split; [discriminate|]. split; [reflexivity|]. split; [repeat constructor; lia|].
  split; [reflexivity|]. split; [reflexivity|]. split; [simpl; lia|]. split; [reflexivity|]. vm_compute. reflexivity.
Qed.

(** *** C45: if another column is dropped, the columns that are kept are taken from the wrong places.
    A tensor smooth with the basis columns (1, 0) and (0, 1) on two rows whose first column is dropped. *)
Theorem C45_drop_refuted :
  exists (s : smooth Z) (e : env) (d : frame Z),
    well_formed Z s e /\ f_drop s = Some [0] /\
    let cols := smooth_cols Z 0%Z Z.add Z.mul Z.sub (fun x => negb (x =? 0)%Z) s e d in
    exists ts, f_build Z 0%Z Z.add Z.mul Z.sub (fun x => negb (x =? 0)%Z) s e d 0 true = Some (ts, length cols) /\
    exists r c, r < n_y d /\ c < length cols /\ entry Z 0%Z Z.add ts r c <> col Z 0%Z cols c r.
Proof.
  exists (Smooth [0; 1] [2; 1] false false [] [] (fun vi n => Mat n (fun r c => match vi with 0 => if r =? c then 1%Z else 0%Z | _ => 1%Z end))
           None None None (Some [0]) true).
  exists (Env (fun _ => Numeric) (fun _ => []) (fun _ k => k)), (Frame 2 (fun _ _ => 0%Z) (fun _ _ => None)).
  split; [|split; [reflexivity|]].
  - constructor; simpl; try discriminate; auto. intros H; contradiction.
  - intros cols. eexists. split; [vm_compute; reflexivity|]. exists 0, 0.
    split; [simpl; lia|]. split; [vm_compute; lia|]. vm_compute. discriminate.
Qed.

Example C45_case :
  let s := Smooth [0; 1] [2; 2] false false [] [] (fun vi n => Mat n (fun r c => Z.of_nat (vi + r + c)))
             None None None (Some [3]) true in
  let e := Env (fun _ => Numeric) (fun _ => []) (fun _ k => k) in
  let d := Frame 2 (fun _ _ => 0%Z) (fun _ _ => None) in
  well_formed Z s e /\ drops_last Z 0%Z Z.add Z.mul Z.sub (fun x => negb (x =? 0)%Z) s e d /\
  length (smooth_cols Z 0%Z Z.add Z.mul Z.sub (fun x => negb (x =? 0)%Z) s e d) = 3.
Proof.
  intros s e d. split; [|split; [|reflexivity]].
  - constructor; simpl; try discriminate; auto. intros H; contradiction.
  - unfold drops_last. simpl. split; [repeat constructor; simpl; lia|]. exists 3. split; [reflexivity|].
    intros i. lia.
Qed.

(** *** C47: coding of factors

    With or without a codebook that numbers the levels from zero: every level has one code, every code below
    the number of levels has one level, and decoding the code of a row gives its level. *)
Theorem C47_coding (codebook : option (level -> nat)) (column : list (option level)) :
  let ls := factor_levels_of column in
  match codebook with
  | None => True
  | Some cb => (forall x y, In x ls -> In y ls -> cb x = cb y -> x = y) /\ (forall x, In x ls -> cb x < length ls)
  end ->
  (forall x, In x ls <-> In (Some x) column) /\ NoDup ls /\
  (forall k, k < length ls -> exists x, In x ls /\ factor_coding codebook ls x = Some k /\ coding_factor codebook ls 0 k = Some x) /\
  length (encode_column codebook ls column) = length column /\
  (forall r, nth_error column r = Some None -> nth_error (encode_column codebook ls column) r = Some None) /\
  (forall r x, nth_error column r = Some (Some x) ->
     exists k, nth_error (encode_column codebook ls column) r = Some (Some k) /\ k < length ls /\
               coding_factor codebook ls 0 k = Some x) /\
  (forall x y k, factor_coding codebook ls x = Some k -> factor_coding codebook ls y = Some k -> x = y).
Proof.
  intros ls Hcb.
  assert (ND : NoDup ls) by (apply sorted_NoDup, np_unique_sorted).
  assert (IN : forall x, In x ls <-> In (Some x) column).
  { intros x. unfold ls, factor_levels_of. rewrite np_unique_in. apply not_null_in. }
  assert (POS : forall x, In x ls -> exists k, position x ls 0 = Some k /\ k < length ls /\ nth_error ls k = Some x).
  { intros x Hx. destruct (In_nth_error ls x Hx) as [k Hk]. exists k. split.
    - apply position_nth; [exact ND|]. rewrite Nat.sub_0_r. split; [lia|exact Hk].
    - split; [apply nth_error_Some; congruence|exact Hk]. }
  assert (NP : forall x k, position x ls 0 = Some k -> nth_error ls k = Some x).
  { intros x k H. apply position_nth in H; [|exact ND]. destruct H as [_ H]. rewrite Nat.sub_0_r in H. exact H. }
  assert (COD : forall x, In x ls -> exists k, factor_coding codebook ls x = Some k /\ k < length ls /\ coding_factor codebook ls 0 k = Some x).
  { intros x Hx. destruct (POS x Hx) as (k & E & Hk & En). unfold factor_coding. rewrite E.
    destruct codebook as [cb|].
    - destruct Hcb as [Hinj Hlt]. exists (cb x). split; [reflexivity|]. split; [apply Hlt; exact Hx|].
      apply coding_factor_book; auto.
    - exists k. split; [reflexivity|]. split; [exact Hk|]. rewrite coding_factor_nth. simpl. rewrite Nat.sub_0_r. exact En. }
  split; [exact IN|]. split; [exact ND|]. split; [|split; [|split; [|split]]].
  - intros k Hk. destruct codebook as [cb|].
    + destruct Hcb as [Hinj Hlt].
      assert (NM : NoDup (map cb ls)).
      { clear - ND Hinj. induction ND as [|a l Ha ND IH]; simpl; constructor.
        - intros H. apply in_map_iff in H. destruct H as (b & E & Hb). apply Ha.
          rewrite <- (Hinj b a); [exact Hb|right; exact Hb|left; reflexivity|exact E].
        - apply IH. intros x y Hx Hy. apply Hinj; right; assumption. }
      assert (INC : incl (map cb ls) (seq 0 (length ls))).
      { intros c Hc. apply in_map_iff in Hc. destruct Hc as (x & <- & Hx). apply in_seq. specialize (Hlt x Hx). lia. }
      assert (BACK : incl (seq 0 (length ls)) (map cb ls)).
      { apply NoDup_length_incl; [exact NM|rewrite map_length, seq_length; lia|exact INC]. }
      assert (Ik : In k (map cb ls)) by (apply BACK, in_seq; lia).
      apply in_map_iff in Ik. destruct Ik as (x & E & Hx). exists x. split; [exact Hx|].
      destruct (POS x Hx) as (p & Ep & _). unfold factor_coding. rewrite Ep, E. split; [reflexivity|].
      apply coding_factor_book; auto.
    + destruct (nth_error ls k) as [x|] eqn:E; [|apply nth_error_None in E; lia].
      exists x. split; [eapply nth_error_In; exact E|]. unfold factor_coding.
      assert (EP : position x ls 0 = Some k) by (apply position_nth; [exact ND|]; rewrite Nat.sub_0_r; split; [lia|exact E]).
      rewrite EP. split; [reflexivity|]. rewrite coding_factor_nth. simpl. rewrite Nat.sub_0_r. exact E.
  - unfold encode_column. apply map_length.
  - intros r H. unfold encode_column. rewrite nth_error_map, H. reflexivity.
  - intros r x H. unfold encode_column. rewrite nth_error_map, H. cbn [option_map].
    destruct (COD x) as (k & E & Hk & Ec); [apply IN; eapply nth_error_In; exact H|].
    exists k. rewrite E. auto.
  - intros x y k Hx Hy. unfold factor_coding in Hx, Hy.
    destruct (position x ls 0) as [p|] eqn:Ep; [|discriminate]. destruct (position y ls 0) as [q|] eqn:Eq; [|discriminate].
    pose proof (NP _ _ Ep) as Np. pose proof (NP _ _ Eq) as Nq.
    destruct codebook as [cb|].
    + destruct Hcb as [Hinj _]. apply Hinj; [eapply nth_error_In; exact Np|eapply nth_error_In; exact Nq|congruence].
    + congruence.
Qed.

Example C47_case :
  let column := [Some 7; None; Some 3; Some 7; Some 5] in
  factor_levels_of column = [3; 5; 7] /\
  encode_column None (factor_levels_of column) column = [Some 2; None; Some 0; Some 2; Some 1] /\
  let cb x := match x with 3 => 1 | 5 => 2 | _ => 0 end in
  encode_column (Some cb) (factor_levels_of column) column = [Some 0; None; Some 1; Some 0; Some 2] /\
  (forall x y, In x [3; 5; 7] -> In y [3; 5; 7] -> cb x = cb y -> x = y) /\ (forall x, In x [3; 5; 7] -> cb x < 3).
Proof.
  cbn zeta. split; [reflexivity|]. split; [reflexivity|]. split; [reflexivity|]. split.
  - intros x y Hx Hy. simpl in Hx, Hy.
    destruct Hx as [<-|[<-|[<-|[]]]]; destruct Hy as [<-|[<-|[<-|[]]]]; simpl; intros; congruence.
  - intros x Hx. simpl in Hx. destruct Hx as [<-|[<-|[<-|[]]]]; simpl; lia.
Qed.

(** *** C48: a factor with a single level in an interaction

    has no columns besides the constant, but its interaction with another predictor repeats that predictor. *)
Theorem C48_single_level_refuted :
  exists (e : env) (d : frame Z) (a b : var),
    a <> b /\ vt e a = Factor /\ length (levels e a) = 1 /\ vt e b = Numeric /\
    linear_cols Z 0%Z 1%Z Z.mul e d true [a; b] = [] /\
    build_linear_term Z 1%Z Z.mul e d [a] true 0 true = ([], 0) /\
    build_linear_term Z 1%Z Z.mul e d [a; b] true 0 true = build_linear_term Z 1%Z Z.mul e d [b] true 0 true /\
    exists r, entry Z 0%Z Z.add (fst (build_linear_term Z 1%Z Z.mul e d [a; b] true 0 true)) r 0 <> 0%Z.
Proof.
  exists (Env (fun v => if v =? 0 then Factor else Numeric) (fun _ => [9]) (fun _ _ => 9)).
  exists (Frame 2 (fun r _ => Z.of_nat (S r)) (fun _ _ => Some 0)), 0, 1.
  repeat split; try discriminate; try reflexivity. exists 0. vm_compute. discriminate.
Qed.

Example C48_case :
  let e := Env (fun v => if v =? 2 then Numeric else Factor) (fun v => if v =? 0 then [1; 2; 3] else [1; 2]) (fun _ k => S k) in
  let d := Frame 6 (fun r _ => Z.of_nat (10 + r)) (fun r v => Some (if v =? 0 then r / 2 else r mod 2)) in
  codable e true [0; 1; 2] /\
  linear_cols Z 0%Z 1%Z Z.mul e d true [0; 1; 2] <> [] /\
  snd (build_linear_term Z 1%Z Z.mul e d [0; 1; 2] true 0 true) = 2 /\
  map (fun r => map (entry Z 0%Z Z.add (fst (build_linear_term Z 1%Z Z.mul e d [0; 1; 2] true 0 true)) r) [0; 1]) (seq 0 6)
  = [[0; 0]; [0; 0]; [0; 0]; [13; 0]; [0; 0]; [0; 15]]%Z /\
  map (fun r => map (entry Z 0%Z Z.add (fst (build_linear_term Z 1%Z Z.mul e d [0] true 0 true)) r) [0; 1]) (seq 0 6)
  = [[0; 0]; [0; 0]; [1; 0]; [1; 0]; [0; 1]; [0; 1]]%Z.
Proof.
  intros e d. split; [repeat constructor; simpl; lia|]. split; [discriminate|]. repeat split; vm_compute; reflexivity.
Qed.

(** *** C49: li *)
Theorem C49_all_interactions (vars : list var) : NoDup vars ->
  (forall s, In s (li vars) <-> subsequence s vars /\ s <> []) /\
  NoDup (li vars) /\ StronglySorted (fun s t => length s <= length t) (li vars) /\
  firstn (length vars) (li vars) = map (fun v => [v]) vars.
Proof.
  intros ND. split; [|split; [apply li_NoDup; exact ND|split; [apply li_sorted|]]].
  - intros s. unfold li. rewrite in_flat_map. split.
    + intros (o & Ho & Hs). apply in_seq in Ho. apply combinations_spec in Hs. destruct Hs as [Hs Hl].
      split; [exact Hs|]. intros ->. simpl in Hl. lia.
    + intros [Hs Hne]. exists (length s). pose proof (sub_length _ _ Hs) as HL.
      split; [apply in_seq; destruct s; [congruence|simpl in *; lia]|]. apply combinations_spec. auto.
  - unfold li. destruct vars as [|v l]; [reflexivity|].
    change (seq 1 (length (v :: l))) with (1 :: seq 2 (length l)). cbn [flat_map]. rewrite combinations_one.
    rewrite firstn_app, map_length, Nat.sub_diag, firstn_O, app_nil_r.
    rewrite firstn_all2 by (rewrite map_length; lia). reflexivity.
Qed.

Example C49_case : NoDup [4; 7; 2] /\ li [4; 7; 2] = [[4]; [7]; [2]; [4; 7]; [4; 2]; [7; 2]; [4; 7; 2]].
Proof. split; [repeat constructor; simpl; lia|reflexivity]. Qed.

(** *** C81: with a codebook that does not follow the alphabet, the names of smooths per level are exchanged *)
Theorem C81_codebook_refuted :
  exists (column : list (option level)) (cb : level -> nat) (e : env) (d : frame Z) (s : smooth Z),
    let ls := factor_levels_of column in
    (forall x y, In x ls -> In y ls -> cb x = cb y -> x = y) /\ (forall x, In x ls -> cb x < length ls) /\
    levels e 1 = ls /\ (forall k, k < length ls -> coding_factor (Some cb) ls 0 k = Some (decode e 1 k)) /\
    (forall r, r < n_y d -> nth_error (encode_column (Some cb) ls column) r = Some (code d r 1)) /\
    term_ok Z 0%Z Z.add Z.mul Z.sub (fun x => negb (x =? 0)%Z) e d [] false (TF s) /\
    exists ts n r c nm,
      term_build Z 0%Z 1%Z Z.add Z.mul Z.sub (fun x => negb (x =? 0)%Z) e d [] false false (TF s) 0 true = Some (ts, n) /\
      entry Z 0%Z Z.add ts r c <> 0%Z /\ nth_error (snd (term_info e false false (TF s))) c = Some nm /\
      ~ name_holds Z e d (TF s) nm r.
Proof.
  exists [Some 3; Some 5], (fun x => if x =? 3 then 1 else 0).
  exists (Env (fun v => if v =? 1 then Factor else Numeric) (fun _ => [3; 5]) (fun _ k => if k =? 0 then 5 else 3)).
  exists (Frame 2 (fun _ _ => 0%Z) (fun r _ => Some (1 - r))).
  exists (Smooth [0] [1] false false [] [] (fun _ n => Mat n (fun _ _ => 1%Z)) (Some 1) None None None true).
  cbn zeta. change (factor_levels_of [Some 3; Some 5]) with [3; 5].
  split; [|split; [|split; [reflexivity|split; [|split; [|split]]]]].
  - intros x y Hx Hy. simpl in Hx, Hy. destruct Hx as [<-|[<-|[]]]; destruct Hy as [<-|[<-|[]]]; simpl; congruence.
  - intros x Hx. simpl in Hx. destruct Hx as [<-|[<-|[]]]; simpl; lia.
  - intros [|[|k]] Hk; simpl in Hk; try lia; reflexivity.
  - intros [|[|r]] Hr; simpl in Hr; try lia; reflexivity.
  - split; [|exact I]. constructor; simpl; try discriminate; auto. intros H; contradiction.
  - eexists _, _, 0, 1, _. split; [vm_compute; reflexivity|]. split; [vm_compute; discriminate|].
    split; [reflexivity|]. simpl. intros (v & E & H). injection E as <-. discriminate.
Qed.

Example C81_case :
  Forall (fun p => term_ok Z 0%Z Z.add Z.mul Z.sub (fun x => negb (x =? 0)%Z) case_env case_frame [] true (snd p)) (ordered Z case_terms) /\
  in_order case_env 1 /\
  in_names (get_coef_info case_env case_terms)
  = [NInt; NLin [(1, Some 6)]; NLin [(1, Some 6); (0, None)]; NF [0] None 0 (Some 5); NF [0] None 1 (Some 5);
     NF [0] None 0 (Some 6); NF [0] None 1 (Some 6); NRi 1 5; NRi 1 6;
     NRs (NLin [(0, None)]) (Some 5); NRs (NLin [(0, None)]) (Some 6)].
Proof.
  split; [|split; reflexivity]. destruct C44_case as [H _]. simpl in H.
  destruct H as (H1 & H2 & H3 & H4 & H5 & H6 & _).
  repeat (apply Forall_cons || apply Forall_nil); assumption.
Qed.

(** *** C82: functions under sparse constraints

    If the rows of the basis sum to one (as for B-splines), every function is a constant plus a constrained
    function, and if the columns are independent the constrained functions do not contain the constants. *)
Section Functions.
Local Open Scope R_scope.
Notation sumR := (ksum R 0 Rplus).
Notation absorbR := (absorb R 0 Rplus Rmult Rminus).

(** Both theorems follow from the change of coefficients. *)
Lemma product_coef (n : nat) (X : mat R) (Z : constraint R) (W : nat -> nat -> R) (b g : nat -> R) r :
  (forall r c, (c < n - 1)%nat -> mval (absorbR X Z) r c = sumR n (fun k => mval X r k * W k c)) ->
  mcols (absorbR X Z) = (n - 1)%nat ->
  (forall k, (k < n)%nat -> b k = sumR (n - 1)%nat (fun c => W k c * g c)) ->
  sumR n (fun k => mval X r k * b k) = sumR (mcols (absorbR X Z)) (fun c => mval (absorbR X Z) r c * g c).
Proof.
  intros HW HC Hb. rewrite HC.
  transitivity (sumR n (fun k => sumR (n - 1)%nat (fun c => mval X r k * (W k c * g c)))).
  - apply (ksum_ext R 0 Rplus). intros k Hk. rewrite (Hb k Hk). 
    symmetry. apply (ksum_scal_l R 0 1 Rplus Rmult Rminus Ropp RTheory).
  - rewrite (ksum_swap R 0 1 Rplus Rmult Rminus Ropp RTheory). apply (ksum_ext R 0 Rplus). intros c Hc.
    rewrite HW by exact Hc. rewrite <- (ksum_scal_r R 0 1 Rplus Rmult Rminus Ropp RTheory).
    apply (ksum_ext R 0 Rplus). intros k _. ring.
Qed.
Lemma sum_const n a : sumR n (fun _ => a) = INR n * a.
Proof. induction n as [|n IH]; [simpl; ring|]. rewrite S_INR. cbn [ksum]. rewrite IH. ring. Qed.

Theorem C82_any_function (n N : nat) (X : mat R) (Z : constraint R) (b : nat -> R) :
  mcols X = n -> fits R Z n -> match Z with CQR _ => False | _ => True end ->
  (forall r, (r < N)%nat -> total_of R 0 Rplus n (fun k => mval X r k) = 1) ->
  exists (a : R) (g : nat -> R), forall r, (r < N)%nat ->
    total_of R 0 Rplus n (fun k => mval X r k * b k)
    = a + total_of R 0 Rplus (mcols (absorbR X Z)) (fun c => mval (absorbR X Z) r c * g c).
Proof.
  change (total_of R 0 Rplus) with sumR. intros HX Hf HQ H1.
  destruct (C82_same_matrix R 0 1 Rplus Rmult Rminus Ropp RTheory n Z Hf) as (W & HM & _ & _ & HR).
  change (total_of R 0 Rplus) with sumR in *. destruct (HM X HX) as [HC HW].
  assert (n0 : INR n <> 0) by (apply not_0_INR; destruct Z; simpl in Hf; lia).
  set (a := match Z with CDrop z => b z | _ => sumR n b / INR n end). exists a.
  destruct (proj2 (HR (fun k => b k - a))) as (g & Hg).
  { destruct Z as [Z|z|z]; [contradiction| |].
    - unfold a. ring.
    - rewrite (ksum_sub R 0 1 Rplus Rmult Rminus Ropp RTheory), sum_const. unfold a. field. exact n0. }
  exists g. intros r Hr. rewrite <- (product_coef n X Z W (fun k => b k - a) g r HW HC Hg).
  rewrite (ksum_ext R 0 Rplus n _ (fun k => mval X r k * (b k - a) + a * mval X r k)) by (intros; ring).
  rewrite (ksum_add R 0 1 Rplus Rmult Rminus Ropp RTheory), (ksum_scal_l R 0 1 Rplus Rmult Rminus Ropp RTheory).
  pose proof (H1 r Hr) as E. change (fun k => mval X r k) with (mval X r) in E. rewrite E. ring.
Qed.

Theorem C82_constant_removed (n N : nat) (X : mat R) (Z : constraint R) (g : nat -> R) :
  mcols X = n -> fits R Z n -> match Z with CQR _ => False | _ => True end ->
  (forall r, (r < N)%nat -> total_of R 0 Rplus n (fun k => mval X r k) = 1) ->
  (forall b, (forall r, (r < N)%nat -> total_of R 0 Rplus n (fun k => mval X r k * b k) = 0) -> forall k, (k < n)%nat -> b k = 0) ->
  exists r, (r < N)%nat /\
    total_of R 0 Rplus (mcols (absorbR X Z)) (fun c => mval (absorbR X Z) r c * g c) <> 1.
Proof.
  change (total_of R 0 Rplus) with sumR. intros HX Hf HQ H1 HI.
  destruct (C82_same_matrix R 0 1 Rplus Rmult Rminus Ropp RTheory n Z Hf) as (W & HM & _ & _ & HR).
  change (total_of R 0 Rplus) with sumR in *. destruct (HM X HX) as [HC HW].
  set (b k := sumR (n - 1)%nat (fun c => W k c * g c)).
  assert (Hb : forall r, sumR n (fun k => mval X r k * b k) = sumR (mcols (absorbR X Z)) (fun c => mval (absorbR X Z) r c * g c))
    by (intros r; apply (product_coef n X Z W b g r HW HC); reflexivity).
  assert (B : match Z with CDrop z => b z = 0 | _ => sumR n b = 0 end).
  { destruct Z as [Z|z|z]; [contradiction| |]; apply (HR b); exists g; reflexivity. }
  assert (D : (exists r, (r < N)%nat /\ sumR n (fun k => mval X r k * b k) <> 1) \/
              (forall r, (r < N)%nat -> sumR n (fun k => mval X r k * b k) = 1)).
  { clear. induction N as [|N IH]; [right; intros; lia|].
    destruct IH as [(r & Hr & H)|H]; [left; exists r; split; [lia|exact H]|].
    destruct (Req_dec (sumR n (fun k => mval X N k * b k)) 1) as [E|E].
    - right. intros r Hr. destruct (Nat.eq_dec r N) as [->|]; [exact E|apply H; lia].
    - left. exists N. split; [lia|exact E]. }
  destruct D as [(r & Hr & H)|H]; [exists r; split; [exact Hr|rewrite <- Hb; exact H]|exfalso].
  assert (E : forall k, (k < n)%nat -> b k = 1).
  { intros k Hk. apply Rminus_diag_uniq. apply (HI (fun k => b k - 1)); [|exact Hk]. intros r Hr.
    rewrite (ksum_ext R 0 Rplus n _ (fun k => mval X r k * b k - mval X r k)) by (intros; ring).
    rewrite (ksum_sub R 0 1 Rplus Rmult Rminus Ropp RTheory), (H r Hr).
    pose proof (H1 r Hr) as E. change (fun k => mval X r k) with (mval X r) in E. rewrite E. ring. }
  destruct Z as [Z|z|z]; [contradiction| |]; simpl in Hf.
  - rewrite (E z Hf) in B. lra.
  - rewrite (ksum_ext R 0 Rplus n _ (fun _ => 1) E), sum_const in B.
    assert (0 < INR n) by (apply lt_0_INR; lia). lra.
Qed.

(** The identity matrix on three rows: rows sum to one and the columns are independent. *)
Example C82_case :
  let X := Mat 3 (fun r c => if (r =? c)%nat then 1 else 0) in
  fits R (CDrop 1) 3 /\ fits R (CDiff 1) 3 /\
  (forall r, (r < 3)%nat -> total_of R 0 Rplus 3 (fun k => mval X r k) = 1) /\
  (forall b, (forall r, (r < 3)%nat -> total_of R 0 Rplus 3 (fun k => mval X r k * b k) = 0) -> forall k, (k < 3)%nat -> b k = 0) /\
  (forall r, map (mval (absorbR X (CDiff 1)) r) [0%nat; 1%nat]
             = [mval X r 0%nat - mval X r 2%nat; mval X r 2%nat - mval X r 1%nat]).
Proof.
  intros X. split; [simpl; lia|]. split; [simpl; lia|]. split; [|split].
  - intros r Hr. do 3 (destruct r as [|r]; [simpl; lra|]). lia.
  - intros b H k Hk. specialize (H k Hk). revert H.
    do 3 (destruct k as [|k]; [simpl; intros; lra|]). lia.
  - intros r. reflexivity.
Qed.
End Functions.

Print Assumptions C44_model_matrix.
Print Assumptions C44_names.
Print Assumptions C44_setup.
Print Assumptions C44_irf_names_refuted.
Print Assumptions C45_drop_last_partial.
Print Assumptions C45_drop_refuted.
Print Assumptions C47_coding.
Print Assumptions C48_linear_columns.
Print Assumptions C48_rows_and_levels.
Print Assumptions C48_single_level_refuted.
Print Assumptions C49_all_interactions.
Print Assumptions C81_names_and_levels.
Print Assumptions C81_codebook_refuted.
Print Assumptions C82_same_matrix.
Print Assumptions C82_any_function.
Print Assumptions C82_constant_removed.
Print Assumptions C39_marginals_centred.
Print Assumptions C39_tensor_centred.
Print Assumptions C39_te_refuted.
