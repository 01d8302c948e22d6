(** Impulse response matrices. *)

From Coq Require Import List Bool Arith Reals Lia Lra.
From Verif Require Import SplModel SplSpec SplProofs SplProofs2.
Import ListNotations.
Local Open Scope R_scope.

(** ** Row-wise Kronecker products *)

Lemma tp_row_length a b : length (tp_row a b) = (length a * length b)%nat.
Proof. unfold tp_row. induction a as [|v a IH]; [reflexivity|]. cbn [flat_map length]. rewrite app_length, map_length, IH. lia. Qed.
Lemma tp_row_zero m n : tp_row (repeat 0 m) (repeat 0 n) = repeat 0 (m * n).
Proof.
  unfold tp_row. induction m as [|m IH]; [reflexivity|]. cbn [repeat flat_map Nat.mul]. rewrite IH, repeat_app. f_equal.
  clear. induction n as [|n IH]; [reflexivity|]. cbn [repeat map]. rewrite IH. f_equal. ring.
Qed.
Lemma tp_row_app a a' b : tp_row (a ++ a') b = tp_row a b ++ tp_row a' b.
Proof. unfold tp_row. apply flat_map_app. Qed.
Lemma tp_row_scal v b c : tp_row (map (fun w => v * w) b) c = map (fun w => v * w) (tp_row b c).
Proof.
  unfold tp_row. induction b as [|w b IH]; [reflexivity|]. cbn [map flat_map]. rewrite map_app, IH, map_map. f_equal.
  apply map_ext. intros. ring.
Qed.
Lemma tp_row_assoc a b c : tp_row (tp_row a b) c = tp_row a (tp_row b c).
Proof.
  induction a as [|v a IH]; [reflexivity|]. change (tp_row (v :: a) b) with (map (fun w => v * w) b ++ tp_row a b).
  rewrite tp_row_app, IH, tp_row_scal. reflexivity.
Qed.
Lemma tp_row_1 a : tp_row a [1] = a.
Proof. induction a as [|v a IH]; [reflexivity|]. change (tp_row (v :: a) [1]) with (v * 1 :: tp_row a [1]). rewrite IH. f_equal. ring. Qed.
Lemma products_fold ls : forall a, fold_left tp_row ls a = tp_row a (products ls).
Proof.
  induction ls as [|l ls IH]; intros a; cbn [fold_left products]; [now rewrite tp_row_1|]. rewrite IH.
  change (flat_map (fun v => map (fun w => v * w) (products ls)) l) with (tp_row l (products ls)). apply tp_row_assoc.
Qed.
Lemma products_length ls : length (products ls) = fold_right Nat.mul 1%nat (map (@length R) ls).
Proof.
  induction ls as [|l ls IH]; [reflexivity|]. cbn [products map fold_right].
  change (flat_map (fun v => map (fun w => v * w) (products ls)) l) with (tp_row l (products ls)). now rewrite tp_row_length, IH.
Qed.
Lemma products_zero ns : products (map (fun n => repeat 0 n) ns) = repeat 0 (fold_right Nat.mul 1%nat ns) \/ ns = [].
Proof.
  destruct ns as [|n ns]; [now right|]. left. revert n. induction ns as [|k ns IH]; intros n.
  - change (products (map (fun n => repeat 0 n) [n])) with (tp_row (repeat 0 n) [1]). rewrite tp_row_1. cbn [fold_right]. f_equal. lia.
  - cbn [map]. change (products (repeat 0 n :: ?l)) with (tp_row (repeat 0 n) (products l)).
    specialize (IH k). cbn [map] in IH. rewrite IH, tp_row_zero. reflexivity.
Qed.
Lemma tp_basis_nth A B r : length A = length B -> (r < length A)%nat -> nth r (tp_basis A B) [] = tp_row (nth r A []) (nth r B []).
Proof.
  intros E H. unfold tp_basis. rewrite (nth_map_in _ _ _ _ ([], [])) by (rewrite combine_length; lia).
  rewrite combine_nth by exact E. reflexivity.
Qed.
Lemma tp_basis_length A B : length A = length B -> length (tp_basis A B) = length A.
Proof. intros E. unfold tp_basis. rewrite map_length, combine_length. lia. Qed.

Section Series.
Variables (t : irf_term) (var_mins var_maxs : nat -> option R) (lims : nat -> R * R).
Hypothesis Hlim : limits t var_mins var_maxs lims.
Variables (s_cov : list (list R)) (s_event : nat).

Definition mrow (vi r : nat) : list R :=
  if (r <? s_event)%nat then repeat 0 (nth vi (nks t) 0%nat)
  else delay_basis (nth vi (nks t) 0%nat) (nth vi (basis_kwargs t) no_kw) (fst (lims vi)) (snd (lims vi))
         (nth (nth vi (variables t) 0%nat) (nth (r - s_event) s_cov []) 0).

Lemma column_nth j (A : list (list R)) r : (r < length A)%nat -> nth r (column j A) 0 = nth j (nth r A []) 0.
Proof. intros H. unfold column. now rewrite (nth_map_in _ _ _ _ []) by assumption. Qed.

Lemma marginal_rows vi m : marginal t var_mins var_maxs s_cov s_event vi = Some m -> length m = length s_cov /\
  forall r, (r < length s_cov)%nat -> nth r m [] = mrow vi r.
Proof.
  unfold marginal. destruct (nth_error (basis_kwargs t) vi) as [kw|] eqn:Ek; [|discriminate].
  destruct Hlim as (_ & _ & _ & H). destruct (H vi kw Ek) as (Hc & Hlt & Hb). clear H.
  assert (En : nth vi (basis_kwargs t) no_kw = kw) by (apply nth_error_nth; exact Ek).
  set (v := nth vi (variables t) 0%nat) in *. intros E.
  assert (G : exists kw', b_spline_basis (column v s_cov) s_event (nth vi (nks t) 0%nat) kw' = Some m /\ convolve kw' = true /\
    min_c kw' = Some (fst (lims vi)) /\ max_c kw' = Some (snd (lims vi)) /\ degree kw' = degree kw).
  { destruct (min_c kw) as [lo|] eqn:E1, (max_c kw) as [hi|] eqn:E2; try discriminate.
    - exists kw. rewrite Hb. cbn [fst snd]. auto.
    - destruct Hb as [B1 B2]. eexists. split; [exact E|]. cbn. auto. }
  destruct G as (kw' & G1 & G2 & G3 & G4 & G5).
  destruct (basis_convolved _ _ _ _ _ _ _ G1 G2 G3 G4 Hlt) as (_ & L & P).
  assert (Lc : length (column v s_cov) = length s_cov) by apply map_length. rewrite Lc in *.
  split; [exact L|]. intros r Hr. rewrite (P r Hr). unfold mrow. rewrite En. destruct (Nat.ltb_spec r s_event); [reflexivity|].
  rewrite column_nth by lia. unfold delay_basis. now rewrite G5.
Qed.

Lemma tensor_loop_rows vis : forall acc M, (forall vi, In vi vis -> vi <> 0%nat) -> length acc = length s_cov ->
  tensor_loop t var_mins var_maxs s_cov s_event acc vis = Some M -> length M = length s_cov /\
  forall r, (r < length s_cov)%nat -> nth r M [] = fold_left tp_row (map (fun vi => mrow vi r) vis) (nth r acc []).
Proof.
  induction vis as [|vi vis IH]; intros acc Mx Hvi Ha E.
  - injection E as <-. split; [exact Ha|reflexivity].
  - cbn [tensor_loop] in E. destruct (marginal t var_mins var_maxs s_cov s_event vi) as [m|] eqn:Em; [|discriminate].
    destruct (marginal_rows vi m Em) as [Lm Pm].
    destruct (Nat.eqb_spec vi 0) as [Z|_]; [exfalso; apply (Hvi vi); [now left|exact Z]|].
    destruct (IH (tp_basis acc m) Mx) as [L P].
    + intros w Hw. apply Hvi. now right.
    + rewrite tp_basis_length; lia.
    + exact E.
    + split; [exact L|]. intros r Hr. rewrite (P r Hr). cbn [map fold_left]. rewrite tp_basis_nth by lia. now rewrite Pm by assumption.
Qed.

Definition term_width : nat := fold_right Nat.mul 1%nat (nks t).

Lemma seq_S_pos n : (0 < n)%nat -> seq 0 n = 0%nat :: seq 1 (n - 1).
Proof. destruct n; [lia|]. intros _. cbn [seq]. do 2 f_equal. lia. Qed.
Lemma mrow_length vi r : length (mrow vi r) = nth vi (nks t) 0%nat.
Proof. unfold mrow, delay_basis. destruct (r <? s_event)%nat; [apply repeat_length|now rewrite map_length, seq_length]. Qed.
Lemma nks_seq : map (fun vi => nth vi (nks t) 0%nat) (seq 0 (length (variables t))) = nks t.
Proof.
  destruct Hlim as (_ & L & _ & _). rewrite <- L. rewrite <- (map_as_seq (fun x => x)). apply map_id.
Qed.

Lemma tensor_rows M : tensor_loop t var_mins var_maxs s_cov s_event [] (seq 0 (length (variables t))) = Some M ->
  length M = length s_cov /\ forall r, (r < length s_cov)%nat ->
    nth r M [] = if (r <? s_event)%nat then repeat 0 term_width else response t lims (nth (r - s_event) s_cov []).
Proof.
  destruct Hlim as (Hv & L1 & L2 & _). assert (N : (0 < length (variables t))%nat) by (destruct (variables t); [contradiction|cbn; lia]).
  rewrite (seq_S_pos _ N). cbn [tensor_loop]. destruct (marginal t var_mins var_maxs s_cov s_event 0) as [m|] eqn:Em; [|discriminate].
  cbn [Nat.eqb]. intros E. destruct (marginal_rows 0 m Em) as [Lm Pm].
  destruct (tensor_loop_rows (seq 1 (length (variables t) - 1)) m M) as [L P]; [|exact Lm|exact E|].
  { intros vi H. apply in_seq in H. lia. }
  split; [exact L|]. intros r Hr. rewrite (P r Hr), (Pm r Hr), products_fold.
  change (tp_row (mrow 0 r) (products ?l)) with (products (mrow 0 r :: l)).
  change (mrow 0 r :: map (fun vi => mrow vi r) (seq 1 (length (variables t) - 1))) with (map (fun vi => mrow vi r) (0%nat :: seq 1 (length (variables t) - 1))).
  rewrite <- (seq_S_pos _ N). unfold mrow. destruct (r <? s_event)%nat.
  - transitivity (products (map (fun n => repeat 0 n) (nks t))).
    + transitivity (products (map (fun n => repeat 0 n) (map (fun vi => nth vi (nks t) 0%nat) (seq 0 (length (variables t)))))); [now rewrite map_map|now rewrite nks_seq].
    + destruct (products_zero (nks t)) as [Z|Z]; [exact Z|]. rewrite Z in L1. cbn in L1. lia.
  - reflexivity.
Qed.

Lemma response_length prow : length (response t lims prow) = term_width.
Proof.
  unfold response. rewrite products_length, map_map. unfold term_width. transitivity (fold_right Nat.mul 1%nat (map (fun vi => nth vi (nks t) 0%nat) (seq 0 (length (variables t))))); [|now rewrite nks_seq]. f_equal. apply map_ext.
  intros vi. unfold delay_basis. now rewrite map_length, seq_length.
Qed.

(** Blocks of levels. *)
Lemma blocks_nth (row : list R) (w : nat) (P : nat -> bool) : length row = w -> forall n k c, (c < n * w)%nat ->
  nth c (flat_map (fun level => if P level then row else repeat 0 w) (seq k n)) 0 = if P (k + c / w)%nat then nth (c mod w) row 0 else 0.
Proof.
  intros Hw. induction n as [|n IH]; intros k c Hc; [lia|]. cbn [seq flat_map]. assert (w <> 0)%nat by lia.
  assert (Lb : length (if P k then row else repeat 0 w) = w) by (destruct (P k); [exact Hw|apply repeat_length]).
  destruct (Nat.ltb_spec c w) as [H1|H1].
  - rewrite app_nth1 by lia. rewrite Nat.div_small, Nat.mod_small by assumption. rewrite Nat.add_0_r.
    destruct (P k); [reflexivity|]. now rewrite nth_repeat.
  - rewrite app_nth2 by lia. rewrite Lb, IH by lia.
    assert (E : c = ((c - w) + 1 * w)%nat) by lia.
    assert (D1 : (c / w = (c - w) / w + 1)%nat) by (rewrite E at 1; apply Nat.div_add; assumption).
    assert (D2 : (c mod w = (c - w) mod w)%nat) by (rewrite E at 1; apply Nat.mod_add; assumption).
    rewrite D1, D2.
    replace (k + ((c - w) / w + 1))%nat with (S k + (c - w) / w)%nat by lia. reflexivity.
Qed.
Lemma blocks_length (row : list R) (w : nat) (P : nat -> bool) n k : length row = w -> length (flat_map (fun level => if P level then row else repeat 0 w) (seq k n)) = (n * w)%nat.
Proof.
  intros Hw. revert k. induction n as [|n IH]; intros k; [reflexivity|]. cbn [seq flat_map]. rewrite app_length, IH.
  destruct (P k); [rewrite Hw|rewrite repeat_length]; lia.
Qed.

Lemma series_rows n_levels M : (by_col t = None -> n_levels = 1%nat) ->
  build_ir_smooth_series t var_mins var_maxs n_levels s_cov s_event = Some M ->
  length M = length s_cov /\ forall r, (r < length s_cov)%nat -> length (nth r M []) = (term_width * n_levels)%nat /\
    forall c, (c < term_width * n_levels)%nat ->
    nth c (nth r M []) 0 = if (r <? s_event)%nat then 0 else irf_value t lims (nth (r - s_event) s_cov []) c.
Proof.
  intros Hn. unfold build_ir_smooth_series.
  destruct (tensor_loop t var_mins var_maxs s_cov s_event [] (seq 0 (length (variables t)))) as [T0|] eqn:ET; [|discriminate].
  destruct (tensor_rows T0 ET) as [L P]. unfold irf_value.
  destruct (by_col t) as [b|] eqn:Eb.
  - destruct (forallb _ _) eqn:Ef; [|discriminate]. intros E. injection E as <-. rewrite map_length. split; [exact L|].
    intros r Hr. rewrite (nth_map_in _ _ _ _ []) by lia.
    assert (Wr : forall q, (q < length s_cov)%nat -> length (nth q T0 []) = term_width).
    { intros q Hq. rewrite (P q Hq). destruct (q <? s_event)%nat; [apply repeat_length|apply response_length]. }
    assert (Hd : length (hd [] T0) = term_width).
    { destruct T0 as [|h T0]; [cbn in L; lia|]. apply (Wr 0%nat). lia. }
    rewrite Hd.
    set (Pl := fun level => if Req_EM_T (INR level) (hd 0 (column b s_cov)) then true else false).
    assert (EP : flat_map (fun level => if Req_EM_T (INR level) (hd 0 (column b s_cov)) then nth r T0 [] else repeat 0 term_width) (seq 0 n_levels)
               = flat_map (fun level => if Pl level then nth r T0 [] else repeat 0 term_width) (seq 0 n_levels)).
    { apply flat_map_ext. intros a. unfold Pl. destruct (Req_EM_T _ _); reflexivity. }
    rewrite EP. split; [rewrite blocks_length by (apply Wr; lia); lia|]. intros c Hc.
    rewrite blocks_nth; [|apply Wr; lia|lia]. rewrite Nat.add_0_l, (P r Hr).
    destruct (Nat.ltb_spec r s_event) as [H1|H1]; [destruct (Pl _); [now rewrite nth_repeat|reflexivity]|].
    rewrite response_length. unfold Pl.
    assert (Ev : nth b (nth (r - s_event) s_cov []) 0 = hd 0 (column b s_cov)).
    { rewrite forallb_forall in Ef. specialize (Ef (nth b (nth (r - s_event) s_cov []) 0)).
      destruct (Req_EM_T (nth b (nth (r - s_event) s_cov []) 0) (hd 0 (column b s_cov))) as [e|_]; [exact e|].
      discriminate Ef. unfold column. apply in_map_iff. exists (nth (r - s_event) s_cov []). split; [reflexivity|]. apply nth_In. lia. }
    rewrite Ev. destruct (Req_EM_T _ _); reflexivity.
  - intros E. injection E as <-. rewrite (Hn eq_refl). rewrite Nat.mul_1_r. split; [exact L|]. intros r Hr. rewrite (P r Hr).
    destruct (r <? s_event)%nat.
    + split; [apply repeat_length|]. intros. apply nth_repeat.
    + split; [apply response_length|]. reflexivity.
Qed.
End Series.

(** ** Triplets *)

Lemma sum_list_app l l' : sum_list (l ++ l') = sum_list l + sum_list l'.
Proof. unfold sum_list. induction l as [|a l IH]; cbn [app fold_right]; [ring|]. rewrite IH. ring. Qed.
Lemma predictor_app a b beta r : predictor (a ++ b) beta r = predictor a beta r + predictor b beta r.
Proof. unfold predictor. rewrite map_app. apply sum_list_app. Qed.

Lemma select_app {A} (l1 l2 : list A) f1 f2 : length l1 = length f1 -> select (l1 ++ l2) (f1 ++ f2) = select l1 f1 ++ select l2 f2.
Proof.
  intros E. unfold select. rewrite <- map_app, <- filter_app. do 2 f_equal. revert f1 E. induction l1 as [|a l1 IH]; intros [|b f1] E; cbn in *; try lia; [reflexivity|].
  f_equal. apply IH. lia.
Qed.
Lemma flags_length tol col : length (flags tol col) = length col.
Proof. apply map_length. Qed.
Lemma flags_app tol a b : flags tol (a ++ b) = flags tol a ++ flags tol b.
Proof. apply map_app. Qed.
Lemma column_app j A B : column j (A ++ B) = column j A ++ column j B.
Proof. apply map_app. Qed.
Lemma flat_flags tol j finals : flat_map (fun f => flags tol (column j f)) finals = flags tol (column j (concat finals)).
Proof. induction finals as [|f l IH]; [reflexivity|]. cbn [flat_map concat]. now rewrite column_app, flags_app, IH. Qed.
Lemma flat_select tol j finals : flat_map (fun f => let col := column j f in select col (flags tol col)) finals =
  select (column j (concat finals)) (flags tol (column j (concat finals))).
Proof.
  induction finals as [|f l IH]; [reflexivity|]. cbn [flat_map concat]. rewrite column_app, flags_app, select_app by (symmetry; apply flags_length).
  f_equal. exact IH.
Qed.
Lemma select_length {A B} (l : list A) (l' : list B) f : length l = length l' -> length (select l f) = length (select l' f).
Proof.
  unfold select. rewrite !map_length. revert l' f. induction l as [|a l IH]; intros [|a' l'] f E; cbn [length] in E; try (exfalso; lia); [reflexivity|]. cbn [combine].
  destruct f as [|b f]; [reflexivity|]. destruct b; cbn [filter snd length]; rewrite (IH l') by lia; reflexivity.
Qed.
Lemma map_const_length {A B C} (x : C) (l : list A) (l' : list B) : length l = length l' -> map (fun _ => x) l = map (fun _ => x) l'.
Proof. revert l'. induction l as [|a l IH]; intros [|b l'] E; cbn in *; try lia; [reflexivity|]. f_equal. apply IH. lia. Qed.

Definition col_triplets (k n : nat) (col : list R) (c : nat) : list (nat * nat * R) :=
  combine (combine (select (seq k n) (flags 0 col)) (map (fun _ => c) (select col (flags 0 col)))) (select col (flags 0 col)).

Lemma col_triplets_cons k n v col c : col_triplets k (S n) (v :: col) c =
  if Rlt_dec 0 (Rabs v) then (k, c, v) :: col_triplets (S k) n col c else col_triplets (S k) n col c.
Proof.
  unfold col_triplets, select, flags. cbn [seq map]. destruct (Rlt_dec 0 (Rabs v)); reflexivity.
Qed.
Lemma col_predictor beta c r : forall col k, predictor (col_triplets k (length col) col c) beta r =
  if (k <=? r)%nat && (r <? k + length col)%nat then nth (r - k) col 0 * beta c else 0.
Proof.
  induction col as [|v col IH]; intros k.
  - cbn [length]. change (predictor (col_triplets k 0 [] c) beta r) with 0.
    destruct (Nat.leb_spec k r), (Nat.ltb_spec r (k + 0)); cbn [andb]; try reflexivity; lia.
  - cbn [length]. rewrite col_triplets_cons.
    transitivity ((if (k =? r)%nat then v * beta c else 0) + predictor (col_triplets (S k) (length col) col c) beta r).
    + destruct (Rlt_dec 0 (Rabs v)) as [_|Z].
      * unfold predictor. cbn [map fst snd]. reflexivity.
      * assert (v = 0). { destruct (Req_dec v 0) as [->|N]; [reflexivity|]. exfalso. apply Z. now apply Rabs_pos_lt. }
        subst v. destruct (k =? r)%nat; ring.
    + rewrite IH. destruct (Nat.eqb_spec k r) as [->|N].
      * rewrite Nat.sub_diag. cbn [nth]. destruct (Nat.leb_spec (S r) r); [lia|]. destruct (Nat.leb_spec r r); [|lia].
        destruct (Nat.ltb_spec r (r + S (length col))); [|lia]. cbn [andb]. ring.
      * destruct (Nat.leb_spec (S k) r), (Nat.leb_spec k r); try lia; cbn [andb]; [|ring].
        destruct (Nat.ltb_spec r (S k + length col)), (Nat.ltb_spec r (k + S (length col))); try lia; [|ring].
        replace (r - k)%nat with (S (r - S k)) by lia. cbn [nth]. ring.
Qed.

Lemma predictor_columns beta r ci n (G : nat -> list (nat * nat * R)) (v : nat -> R) :
  (forall j, (j < n)%nat -> predictor (G j) beta r = v j * beta (ci + j)%nat) ->
  predictor (flat_map G (seq 0 n)) beta r = sumn n (fun j => beta (ci + j)%nat * v j).
Proof.
  induction n as [|n IH]; intros H; [reflexivity|].
  rewrite seq_S, flat_map_app, predictor_app, IH by (intros; apply H; lia). cbn [sumn flat_map Nat.add]. rewrite app_nil_r, H by lia. ring.
Qed.

(** ** From series to rows of the data *)

Lemma map_opt_spec {A B} (f : A -> option B) l ys : map_opt f l = Some ys ->
  length ys = length l /\ forall i a, nth_error l i = Some a -> exists y, nth_error ys i = Some y /\ f a = Some y.
Proof.
  revert ys. induction l as [|x l IH]; intros ys E.
  - injection E as <-. split; [reflexivity|]. intros [|i] a H; discriminate H.
  - cbn [map_opt] in E. destruct (f x) as [y|] eqn:Ey; [|discriminate]. destruct (map_opt f l) as [zs|] eqn:Ez; [|discriminate].
    injection E as <-. destruct (IH zs eq_refl) as [L P]. split; [cbn; lia|]. intros [|i] a H; cbn [nth_error] in *.
    + injection H as <-. exists y. auto.
    + apply P. exact H.
Qed.

Lemma concat_nth {A} (d : A) (ls : list (list A)) : forall s r l, nth_error ls s = Some l -> (r < length l)%nat ->
  nth (fold_right Nat.add 0%nat (map (@length _) (firstn s ls)) + r) (concat ls) d = nth r l d.
Proof.
  induction ls as [|l0 ls IH]; intros [|s] r l E H; cbn [nth_error] in E; try discriminate.
  - injection E as <-. cbn [firstn map fold_right concat Nat.add]. now rewrite app_nth1.
  - cbn [firstn map fold_right concat]. rewrite app_nth2 by lia. replace (_ + _ + r - length l0)%nat with (fold_right Nat.add 0%nat (map (@length _) (firstn s ls)) + r)%nat by lia.
    now apply IH.
Qed.
Lemma concat_bound {A} (ls : list (list A)) : forall s r l, nth_error ls s = Some l -> (r < length l)%nat ->
  (fold_right Nat.add 0%nat (map (@length _) (firstn s ls)) + r < length (concat ls))%nat.
Proof.
  induction ls as [|l0 ls IH]; intros [|s] r l E H; cbn [nth_error] in E; try discriminate.
  - injection E as <-. cbn [firstn map fold_right concat Nat.add]. rewrite app_length. lia.
  - cbn [firstn map fold_right concat]. rewrite app_length. pose proof (IH s r l E H). lia.
Qed.

Lemma forallb_seq_true {A} (P : A -> bool) (f : nat -> A) n : (forall j, (j < n)%nat -> P (f j) = true) -> forallb P (map f (seq 0 n)) = true.
Proof. intros H. apply forallb_forall. intros x Hx. apply in_map_iff in Hx. destruct Hx as (j & <- & Hj). apply in_seq in Hj. apply H. lia. Qed.

Section Term.
Variables (t : irf_term) (levels : nat -> nat) (var_mins var_maxs : nat -> option R) (lims : nat -> R * R).
Hypothesis Hlim : limits t var_mins var_maxs lims.
Variables (cov : list (list (list R))).
Hypothesis Hev : (length cov <= length (event_onset t))%nat.
Let n_levels := match by_col t with None => 1%nat | Some b => levels b end.

Lemma term_finals finals : map_opt (fun p => build_ir_smooth_series t var_mins var_maxs n_levels (fst p) (snd p)) (combine cov (event_onset t)) = Some finals ->
  length finals = length cov /\
  forall s sc, nth_error cov s = Some sc -> exists M, nth_error finals s = Some M /\ length M = length sc /\
    forall r, (r < length sc)%nat -> length (nth r M []) = width levels t /\ forall c, (c < width levels t)%nat ->
      nth c (nth r M []) 0 = if (r <? nth s (event_onset t) 0%nat)%nat then 0 else irf_value t lims (nth (r - nth s (event_onset t) 0%nat) sc []) c.
Proof.
  intros E. apply map_opt_spec in E. destruct E as [L P]. rewrite combine_length in L. split; [lia|].
  intros s sc Hs. assert (Hl : (s < length cov)%nat) by (apply nth_error_Some; congruence).
  assert (Ec : nth_error (combine cov (event_onset t)) s = Some (sc, nth s (event_onset t) 0%nat)).
  { clear - Hs Hl Hev. revert s Hs Hl Hev. generalize (event_onset t). induction cov as [|a l IH]; intros ev [|s] Hs Hl He; cbn in *; try lia; destruct ev as [|e ev]; cbn in *; try lia.
    - congruence.
    - apply IH; [exact Hs|lia|lia]. }
  destruct (P s _ Ec) as (M & HM & EM). cbn [fst snd] in EM. exists M. split; [exact HM|].
  apply (series_rows t var_mins var_maxs lims Hlim) in EM; [|unfold n_levels; intros ->; reflexivity]. destruct EM as [LM PM]. split; [exact LM|].
  intros r Hr. destruct (PM r Hr) as [P1 P2]. split; [exact P1|]. intros c Hc. apply P2. exact Hc.
Qed.

Lemma finals_offset finals : length finals = length cov ->
  (forall s sc, nth_error cov s = Some sc -> exists M, nth_error finals s = Some M /\ length M = length sc) ->
  map (@length (list R)) finals = map (@length (list R)) cov.
Proof.
  clear. revert finals. induction cov as [|a l IH]; intros [|f fs] L P; cbn in *; try lia; [reflexivity|]. f_equal.
  - destruct (P 0%nat a eq_refl) as (M & E & H). cbn in E. congruence.
  - apply IH; [lia|]. intros s sc Hs. apply (P (S s) sc Hs).
Qed.

Lemma firstn_lengths {A B} (l : list (list A)) (l' : list (list B)) s : map (@length A) l = map (@length B) l' ->
  map (@length A) (firstn s l) = map (@length B) (firstn s l').
Proof. intros E. now rewrite <- !firstn_map, E. Qed.

Lemma column_length j (A : list (list R)) : length (column j A) = length A.
Proof. apply map_length. Qed.
Lemma concat_length {A} (ls : list (list A)) : length (concat ls) = fold_right Nat.add 0%nat (map (@length A) ls).
Proof. induction ls as [|l ls IH]; [reflexivity|]. cbn [concat map fold_right]. now rewrite app_length, IH. Qed.

Lemma finals_rows (finals : list (list (list R))) :
  (forall s sc, nth_error cov s = Some sc -> exists M, nth_error finals s = Some M /\ length M = length sc /\
    forall r, (r < length sc)%nat -> length (nth r M []) = width levels t /\ forall c, (c < width levels t)%nat ->
      nth c (nth r M []) 0 = if (r <? nth s (event_onset t) 0%nat)%nat then 0 else irf_value t lims (nth (r - nth s (event_onset t) 0%nat) sc []) c) ->
  map (@length (list R)) finals = map (@length (list R)) cov ->
  forall beta (ci n s r : nat), (s < length cov)%nat -> (r < length (nth s cov []))%nat -> n = length (concat finals) ->
  predictor (flat_map (fun j => col_triplets 0 n (column j (concat finals)) (ci + j)%nat) (seq 0 (width levels t))) beta (offset cov s + r) =
  event_response t lims (width levels t) (fun c => beta (ci + c)%nat) cov s r.
Proof.
  intros P LL beta ci n s r Hs Hr Hn.
  assert (Es : nth_error cov s = Some (nth s cov [])) by (apply nth_error_nth'; exact Hs).
  destruct (P s _ Es) as (M & EM & LM & PM). destruct (PM r Hr) as [_ PM2].
  rewrite (predictor_columns beta _ ci (width levels t) _ (fun c => nth c (nth r M []) 0)).
  - unfold event_response. destruct (r <? nth s (event_onset t) 0%nat)%nat.
    + apply sumn_zero. intros c Hc. rewrite PM2 by exact Hc. ring.
    + apply sumn_ext. intros c Hc. rewrite PM2 by exact Hc. reflexivity.
  - intros j Hj. rewrite Hn. replace (length (concat finals)) with (length (column j (concat finals))) by apply column_length.
    rewrite col_predictor. cbn [Nat.leb andb Nat.add]. rewrite Nat.sub_0_r, column_length.
    assert (Eo : offset cov s = fold_right Nat.add 0%nat (map (@length _) (firstn s finals))).
    { unfold offset. now rewrite (firstn_lengths finals cov s LL). }
    rewrite Eo. pose proof (concat_bound finals s r M EM ltac:(lia)) as Hb.
    destruct (Nat.ltb_spec (fold_right Nat.add 0%nat (map (@length _) (firstn s finals)) + r) (length (concat finals))); [|lia].
    rewrite column_nth by exact Hb. rewrite (concat_nth [] finals s r M EM) by lia. reflexivity.
Qed.

Lemma flat_map_ext_in {A B} (f g : A -> list B) l : (forall x, In x l -> f x = g x) -> flat_map f l = flat_map g l.
Proof. induction l as [|a l IH]; intros H; [reflexivity|]. cbn [flat_map]. rewrite (H a), IH; [reflexivity| |now left]. intros; apply H; now right. Qed.

Lemma width_n_coef : width levels t = n_coef t n_levels.
Proof. unfold width, n_coef, n_levels. destruct (by_col t); reflexivity. Qed.

Lemma serial_term n_y ci use tri m : n_y = length (concat cov) -> Forall (fun sc => sc <> []) cov ->
  build_serial t var_mins var_maxs n_levels cov (seq 0 n_y) 0 use ci = Some (tri, m) -> m = width levels t /\
  forall beta s r, (s < length cov)%nat -> (r < length (nth s cov []))%nat ->
    predictor tri beta (offset cov s + r) = if use then event_response t lims m (fun c => beta (ci + c)%nat) cov s r else 0.
Proof.
  intros Hn Hne E. unfold build_serial in E.
  destruct (map_opt _ _) as [finals|] eqn:Ef; [|discriminate]. destruct (term_finals finals Ef) as [L P].
  rewrite map_length, seq_length in E.
  set (m_cols := match finals with [] => 0%nat | f :: _ => length (hd [] f) end) in E.
  destruct (Nat.eqb_spec (n_coef t n_levels) m_cols) as [Em|]; [|discriminate]. cbn [negb] in E.
  destruct (use && _) eqn:Eu; [discriminate|]. injection E as <- <-. rewrite <- Em, <- width_n_coef. split; [reflexivity|].
  intros beta s r Hs Hr. destruct use.
  - assert (LL : map (@length (list R)) finals = map (@length (list R)) cov).
    { apply finals_offset; [exact L|]. intros s' sc' H'. destruct (P s' sc' H') as (M & A & B & _). eauto. }
    rewrite <- (finals_rows finals P LL beta ci n_y s r Hs Hr).
    + f_equal. apply flat_map_ext_in. intros j Hj. apply in_seq in Hj.
      rewrite !nth_map_seq by (pose proof width_n_coef; lia). rewrite flat_flags, flat_select. reflexivity.
    + rewrite Hn, !concat_length. now rewrite LL.
  - unfold predictor. replace (flat_map _ _) with (@nil (nat * nat * R)); [reflexivity|].
    clear. generalize (seq 0 (width levels t)). induction l; [reflexivity|]. cbn [flat_map app]. exact IHl.
Qed.

Lemma parallel_term n_y ci use tri m : n_y = length (concat cov) -> Forall (fun sc => sc <> []) cov ->
  build_parallel t var_mins var_maxs n_levels cov (seq 0 n_y) 0 use ci = Some (tri, m) -> m = width levels t /\
  forall beta s r, (s < length cov)%nat -> (r < length (nth s cov []))%nat ->
    predictor tri beta (offset cov s + r) = if use then event_response t lims m (fun c => beta (ci + c)%nat) cov s r else 0.
Proof.
  intros Hn Hne E. unfold build_parallel in E.
  destruct (map_opt _ _) as [finals|] eqn:Ef; [|discriminate]. destruct (term_finals finals Ef) as [L P].
  destruct finals as [|f0 fs]; [discriminate|]. set (finals := f0 :: fs) in *.
  destruct (use && _) eqn:Eu; [discriminate|]. 
  assert (Em : length (hd [] (concat finals)) = width levels t).
  { destruct cov as [|c0 cs] eqn:Ecov; [cbn in L; lia|]. destruct (P 0%nat c0 eq_refl) as (M & A & B & C).
    cbn in A. injection A as <-. apply Forall_inv in Hne. assert (0 < length c0)%nat by (destruct c0; [contradiction|cbn; lia]).
    destruct (C 0%nat) as [C1 _]; [assumption|]. unfold finals. cbn [concat]. destruct f0; [cbn in B; lia|]. exact C1. }
  rewrite Em in E. injection E as <- <-. split; [reflexivity|].
  intros beta s r Hs Hr. destruct use.
  - assert (LL : map (@length (list R)) finals = map (@length (list R)) cov).
    { apply finals_offset; [exact L|]. intros s' sc' H'. destruct (P s' sc' H') as (M & A & B & _). eauto. }
    assert (En : n_y = length (concat finals)) by (rewrite Hn, !concat_length; now rewrite LL).
    rewrite <- (finals_rows finals P LL beta ci n_y s r Hs Hr En).
    f_equal. apply flat_map_ext_in. intros j Hj. unfold col_triplets. do 2 f_equal. apply map_const_length. apply select_length.
    rewrite seq_length, column_length. exact En.
  - unfold predictor. replace (flat_map _ _) with (@nil (nat * nat * R)); [reflexivity|].
    clear. generalize (seq 0 (width levels t)). induction l; [reflexivity|]. cbn [flat_map app]. exact IHl.
Qed.
End Term.

Lemma irfs_predictor pool levels var_mins var_maxs cov n_y beta s r : n_y = length (concat cov) -> Forall (fun sc => sc <> []) cov ->
  (s < length cov)%nat -> (r < length (nth s cov []))%nat ->
  forall ts (lims : nat -> nat -> R * R) k ci tri ci',
  (forall i t, nth_error ts i = Some t -> limits (fst t) var_mins var_maxs (lims (k + i)%nat) /\ (length cov <= length (event_onset (fst t)))%nat) ->
  build_irfs pool levels var_mins var_maxs cov (seq 0 n_y) 0 ci ts = Some (tri, ci') ->
  predictor tri beta (offset cov s + r) = superposition levels lims beta cov s r k ci ts.
Proof.
  intros Hn Hne Hs Hr. induction ts as [|[t use] ts IH]; intros lims k ci tri ci' H E; cbn [build_irfs] in E.
  - injection E as <- <-. reflexivity.
  - destruct (H 0%nat (t, use) eq_refl) as [H1 H2]. cbn [fst] in H1, H2. rewrite Nat.add_0_r in H1.
    destruct ((if pool then build_parallel else build_serial) _ _ _ _ _ _ _ _ _) as [[tri1 n1]|] eqn:E1; [|discriminate].
    destruct (build_irfs _ _ _ _ _ _ _ _ ts) as [[tri2 c2]|] eqn:E2; [|discriminate]. injection E as <- <-.
    assert (G : n1 = width levels t /\ predictor tri1 beta (offset cov s + r) = if use then event_response t (lims k) n1 (fun c => beta (ci + c)%nat) cov s r else 0).
    { destruct pool.
      - destruct (parallel_term t levels var_mins var_maxs (lims k) H1 cov H2 n_y ci use tri1 n1 Hn Hne E1) as [A B]. split; [exact A|]. now apply B.
      - destruct (serial_term t levels var_mins var_maxs (lims k) H1 cov H2 n_y ci use tri1 n1 Hn Hne E1) as [A B]. split; [exact A|]. now apply B. }
    destruct G as [-> G]. rewrite predictor_app, G. cbn [superposition]. f_equal. apply (IH lims (S k) _ _ c2); [|exact E2].
    intros i t' Ht. destruct (H (S i) t' Ht) as [A B]. replace (S k + i)%nat with (k + S i)%nat by lia. auto.
Qed.

(** ** Terms that can be built are built *)

Lemma basis_total cov onset nk kw lo hi : cov <> [] -> (degree kw < nk)%nat -> min_c kw = Some lo -> max_c kw = Some hi ->
  exists B, b_spline_basis cov onset nk kw = Some B.
Proof.
  intros N H E1 E2. unfold b_spline_basis. destruct (Nat.eqb_spec (length cov) 0) as [Z|_]; [destruct cov; [contradiction|discriminate]|].
  destruct (Nat.leb_spec nk (degree kw)); [lia|]. cbn [orb]. rewrite E1, E2. destruct (convolve kw); eauto.
Qed.
Lemma marginal_total t var_mins var_maxs lims cov s_cov s_event vi : limits t var_mins var_maxs lims -> buildable t cov -> s_cov <> [] ->
  (vi < length (variables t))%nat -> exists m, marginal t var_mins var_maxs s_cov s_event vi = Some m.
Proof.
  intros (_ & _ & L & H) (_ & Hb & _) N Hv. unfold marginal.
  destruct (nth_error (basis_kwargs t) vi) as [kw|] eqn:Ek; [|apply nth_error_None in Ek; lia].
  destruct (H vi kw Ek) as (Hc & Hlt & Hm). destruct (Hb vi kw Ek) as [Hd Hi].
  assert (Nc : column (nth vi (variables t) 0%nat) s_cov <> []) by (unfold column; destruct s_cov; [contradiction|discriminate]).
  destruct (min_c kw) as [lo|] eqn:E1, (max_c kw) as [hi|] eqn:E2.
  - apply (basis_total _ _ _ _ lo hi); assumption.
  - exfalso. destruct Hi as [_ Hi]. specialize (Hi eq_refl). discriminate.
  - exfalso. destruct Hi as [Hi _]. specialize (Hi eq_refl). discriminate.
  - destruct Hm as [M1 M2]. apply (basis_total _ _ _ _ (fst (lims vi)) (snd (lims vi))); [exact Nc|exact Hd|exact M1|exact M2].
Qed.
Lemma tensor_total t var_mins var_maxs lims cov s_cov s_event : limits t var_mins var_maxs lims -> buildable t cov -> s_cov <> [] ->
  forall vis acc, (forall vi, In vi vis -> (vi < length (variables t))%nat) -> exists M, tensor_loop t var_mins var_maxs s_cov s_event acc vis = Some M.
Proof.
  intros Hl Hb N. induction vis as [|vi vis IH]; intros acc H; [eexists; reflexivity|]. cbn [tensor_loop].
  destruct (marginal_total t var_mins var_maxs lims cov s_cov s_event vi Hl Hb N) as [m ->]; [apply H; now left|].
  apply IH. intros w Hw. apply H. now right.
Qed.
Lemma series_total t var_mins var_maxs lims cov n_levels s_cov s_event : limits t var_mins var_maxs lims -> buildable t cov -> s_cov <> [] -> In s_cov cov ->
  exists M, build_ir_smooth_series t var_mins var_maxs n_levels s_cov s_event = Some M.
Proof.
  intros Hl Hb N Hi. unfold build_ir_smooth_series.
  destruct (tensor_total t var_mins var_maxs lims cov s_cov s_event Hl Hb N (seq 0 (length (variables t))) []) as [M ->].
  { intros vi H. apply in_seq in H. lia. }
  destruct (by_col t) as [b|] eqn:Eb; [|eauto]. destruct (forallb _ _) eqn:Ef; [eauto|]. exfalso. destruct Hb as (_ & _ & Hb).
  apply Bool.not_true_iff_false in Ef. apply Ef. apply forallb_forall. intros v Hv. unfold column in Hv. apply in_map_iff in Hv. destruct Hv as (row & <- & Hr).
  destruct (Req_EM_T _ _) as [_|Ne]; [reflexivity|]. exfalso. apply Ne. destruct s_cov as [|row0 rest]; [contradiction|]. cbn [column map hd].
  apply (Hb b (row0 :: rest) row row0 Eb Hi Hr). now left.
Qed.
Lemma map_opt_total {A B} (f : A -> option B) l : (forall a, In a l -> exists b, f a = Some b) -> exists ys, map_opt f l = Some ys.
Proof.
  induction l as [|a l IH]; intros H; [eexists; reflexivity|]. cbn [map_opt]. destruct (H a (or_introl eq_refl)) as [b ->].
  destruct IH as [ys ->]; [intros; apply H; now right|]. eauto.
Qed.

Lemma term_total pool t levels var_mins var_maxs lims cov use ci : limits t var_mins var_maxs lims -> buildable t cov ->
  cov <> [] -> Forall (fun sc => sc <> []) cov ->
  exists tri, (if pool : bool then build_parallel else build_serial) t var_mins var_maxs (match by_col t with None => 1%nat | Some b => levels b end) cov
    (seq 0 (length (concat cov))) 0 use ci = Some (tri, width levels t).
Proof.
  intros Hl Hb N Hne.
  set (n_levels := match by_col t with None => 1%nat | Some b => levels b end).
  assert (He : (length cov <= length (event_onset t))%nat) by apply Hb.
  destruct (map_opt_total (fun p => build_ir_smooth_series t var_mins var_maxs n_levels (fst p) (snd p)) (combine cov (event_onset t))) as [finals Ef].
  { intros [sc ev] Hi. pose proof (in_combine_l _ _ _ _ Hi) as Hin. cbn [fst snd]. apply (series_total t var_mins var_maxs lims cov); auto.
    rewrite Forall_forall in Hne. auto. }
  destruct (term_finals t levels var_mins var_maxs lims Hl cov He finals Ef) as [L P].
  assert (LL : map (@length (list R)) finals = map (@length (list R)) cov).
  { apply finals_offset; [exact L|]. intros s' sc' H'. destruct (P s' sc' H') as (M & A & B & _). eauto. }
  assert (Em : exists h0 f0 fs, finals = (h0 :: f0) :: fs /\ length h0 = width levels t).
  { destruct cov as [|c0 cs] eqn:Ecov; [contradiction|]. destruct (P 0%nat c0 eq_refl) as (M & A & B & C).
    apply Forall_inv in Hne. assert (0 < length c0)%nat by (destruct c0; [contradiction|cbn; lia]). destruct (C 0%nat) as [C1 _]; [assumption|].
    destruct finals as [|[|h0 f0] fs]; cbn in A; [discriminate| |].
    - injection A as <-. cbn in B. lia.
    - injection A as <-. exists h0, f0, fs. split; [reflexivity|exact C1]. }
  destruct Em as (h0 & f0 & fs & Efin & Eh).
  assert (Lc : length (concat finals) = length (concat cov)) by (rewrite !concat_length; now rewrite LL).
  destruct pool.
  - unfold build_parallel. rewrite Ef. rewrite Efin. rewrite <- Efin. rewrite Lc, seq_length, Nat.eqb_refl. rewrite andb_false_r.
    replace (length (hd [] (concat finals))) with (width levels t); [eauto|]. rewrite Efin. cbn [concat app hd]. now symmetry.
  - unfold build_serial. rewrite Ef. rewrite map_length, seq_length.
    assert (Ec : match finals with [] => 0%nat | f :: _ => length (hd [] f) end = width levels t) by (rewrite Efin; exact Eh).
    rewrite Ec. replace (n_coef t n_levels) with (width levels t) by apply (width_n_coef t levels). rewrite Nat.eqb_refl. cbn [negb].
    rewrite forallb_seq_true; [rewrite andb_false_r; eauto|].
    intros j _. rewrite flat_flags, flags_length, column_length, Lc, seq_length. apply Nat.eqb_refl.
Qed.

Lemma irfs_total pool levels var_mins var_maxs cov : cov <> [] -> Forall (fun sc => sc <> []) cov ->
  forall ts (lims : nat -> nat -> R * R) k ci,
  (forall i t, nth_error ts i = Some t -> limits (fst t) var_mins var_maxs (lims (k + i)%nat) /\ buildable (fst t) cov) ->
  exists tri, build_irfs pool levels var_mins var_maxs cov (seq 0 (length (concat cov))) 0 ci ts =
    Some (tri, (ci + fold_right Nat.add 0 (map (fun t => width levels (fst t)) ts))%nat).
Proof.
  intros N Hne. induction ts as [|[t use] ts IH]; intros lims k ci H; cbn [build_irfs map fold_right].
  - exists []. do 2 f_equal. lia.
  - destruct (H 0%nat (t, use) eq_refl) as [H1 H2]. cbn [fst] in *. rewrite Nat.add_0_r in H1.
    destruct (term_total pool t levels var_mins var_maxs (lims k) cov use ci H1 H2 N Hne) as [tri ->].
    destruct (IH lims (S k) (ci + width levels t)%nat) as [tri' ->].
    + intros i t' Ht. destruct (H (S i) t' Ht) as [A B]. replace (S k + i)%nat with (k + S i)%nat by lia. auto.
    + eexists. do 2 f_equal. lia.
Qed.
