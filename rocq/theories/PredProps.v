(** C53 and C55: predictions, differences and their intervals. *)

From Coq Require Import List Bool Arith Reals Lia Lra Permutation.
From Verif Require Import Ext AsmModel AsmSpec FormModel FormSpec FormProofs4 PredModel PredSpec PredProofs PredProofs2 PredProofs3.
Import ListNotations.
Local Open Scope R_scope.

Section Predictions.
Variable big : R -> bool.
Variable ppf : R -> R.
Notation predict := (predict big ppf).
Notation predict_diff := (predict_diff big ppf).

(** *** C53: the prediction for several terms is the sum of the predictions for each, and without a selection it is the
    sum over all terms. *)
Theorem C53_sum m par use dat alpha (p : nat -> list R) : NoDup use -> use <> [] ->
  (forall t, In t use -> exists X b, predict m par (Some [t]) dat alpha = Some (p t, X, b)) ->
  exists q X b, predict m par (Some use) dat alpha = Some (q, X, b) /\ length q = n_y (fst dat) /\
    forall r, nth r q 0 = sum_over use (fun t => nth r (p t) 0).
Proof. apply predict_sum. Qed.

Theorem C53_all m par dat alpha e terms (p : nat -> list R) : nth_error (formulas m) par = Some (e, terms) -> terms <> [] ->
  (forall t, (t < length terms)%nat -> exists X b, predict m par (Some [t]) dat alpha = Some (p t, X, b)) ->
  exists q X b, predict m par None dat alpha = Some (q, X, b) /\ length q = n_y (fst dat) /\
    forall r, nth r q 0 = sum_over (seq 0 (length terms)) (fun t => nth r (p t) 0).
Proof.
  intros E NE H. rewrite (predict_all big ppf m par dat alpha e terms E). apply predict_sum.
  - apply seq_NoDup.
  - destruct terms; [easy|discriminate].
  - intros t Ht. apply in_seq in Ht. apply H. lia.
Qed.

(** *** C53: the prediction for one term applies the columns of that term to the coefficients of that term, within the
    coefficients of the parameter. *)
Theorem C53_term m sizes extra par dat alpha e terms i ti start n :
  laid_out m sizes extra -> nth_error (formulas m) par = Some (e, terms) -> nth par sizes 0%nat = in_n (get_coef_info e terms) ->
  all_ok R 0 Rplus Rmult Rminus big e (fst dat) (snd dat) (intercept R terms) (ordered R terms) ->
  nth_error (in_terms (get_coef_info e terms)) i = Some (ti, (start, n)) ->
  let block := nth i (design R 0 1 Rplus Rmult Rminus big e (fst dat) (snd dat) (fun _ => true) (intercept R terms) (ordered R terms)) [] in
  exists p X b, predict m par (Some [ti]) dat alpha = Some (p, X, b) /\ length p = n_y (fst dat) /\
    forall r, (r < n_y (fst dat))%nat ->
      nth r p 0 = sum_to n (fun c => FormSpec.col R 0 block c r * nth (first_coef sizes par + start + c) (coefs m) 0).
Proof.
  intros L E EN Hok Hi block.
  assert (Hp : (par < length (formulas m))%nat) by (apply nth_error_Some; now rewrite E).
  destruct (par_coef_spec m sizes extra par L Hp) as [LC HC].
  destruct (par_lvi_spec m sizes extra par L Hp) as (Vr & Vc & _).
  destruct (term_prediction big e terms (fst dat) (snd dat) (fun c => nth (first_coef sizes par + c) (coefs m) 0) i ti start n Hok Hi) as (ts & EB & ES).
  unfold PredModel.predict, predi_mat. rewrite E, EB. unfold matvec, half_width, matmul, scaled, transpose. cbn [a_rows a_cols at_].
  rewrite LC, Vc, EN, Nat.eqb_refl. cbn [a_rows a_cols at_]. rewrite Nat.eqb_refl. cbn [a_rows a_cols at_].
  rewrite Nat.eqb_refl. cbn [a_rows a_cols at_].
  eexists. eexists. eexists. split; [reflexivity|]. split; [now rewrite map_length, seq_length|]. intros r Hr.
  rewrite nth_map_seq by easy. unfold block.
  transitivity (sum_to (in_n (get_coef_info e terms)) (fun c => FormModel.entry R 0 Rplus ts r c * nth (first_coef sizes par + c) (coefs m) 0)).
  - apply sum_to_ext. intros c Hc. rewrite HC by lia. easy.
  - rewrite ES by easy. apply sum_to_ext. intros c _. now rewrite Nat.add_assoc.
Qed.

(** *** C53: the half width of the interval is the normal quantile times the posterior standard deviation. *)
Theorem C53_interval m sizes extra par use dat alpha p X b : laid_out m sizes extra -> (par < length (formulas m))%nat ->
  predict m par use dat alpha = Some (p, X, b) ->
  let row r := among_all sizes par (at_ X r) in
  length p = n_y (fst dat) /\ length b = n_y (fst dat) /\
  forall r, (r < n_y (fst dat))%nat ->
    nth r p 0 = sum_to (length (coefs m)) (fun i => row r i * nth i (coefs m) 0) /\
    nth r b 0 = ppf alpha * sqrt (covariance m (row r) (row r)).
Proof.
  intros L Hp H row. apply predict_some in H. destruct H as (E & M & W). apply predi_mat_rows in E.
  destruct (half_width_spec ppf m sizes extra par X alpha b L Hp W) as [Lb Hb]. apply matvec_some in M. destruct M as [C ->].
  split; [now rewrite map_length, seq_length|]. split; [congruence|]. intros r Hr. rewrite <- E in Hr. split; [|now apply Hb].
  destruct (par_coef_spec m sizes extra par L Hp) as [LC HC].
  rewrite nth_map_seq by easy. unfold row. rewrite (sum_among m sizes extra par _ (fun i => nth i (coefs m) 0) L Hp).
  rewrite C, LC. apply sum_to_ext. intros c Hc. now rewrite HC.
Qed.

(** *** C53: a difference prediction is the difference of the predictions, with the standard deviation of the difference,
    and exchanging the two data sets only changes its sign. *)
Theorem C53_difference m sizes extra par dat1 dat2 use alpha p1 X1 b1 p2 X2 b2 : laid_out m sizes extra -> (par < length (formulas m))%nat ->
  predict m par use dat1 alpha = Some (p1, X1, b1) -> predict m par use dat2 alpha = Some (p2, X2, b2) ->
  n_y (fst dat1) = n_y (fst dat2) ->
  let row1 r := among_all sizes par (at_ X1 r) in let row2 r := among_all sizes par (at_ X2 r) in
  exists d b d', predict_diff m par dat1 dat2 use alpha = Some (d, b) /\ predict_diff m par dat2 dat1 use alpha = Some (d', b) /\
    length d = n_y (fst dat1) /\ length d' = length d /\ length b = length d /\
    forall r, (r < n_y (fst dat1))%nat ->
      nth r d 0 = nth r p1 0 - nth r p2 0 /\ nth r d' 0 = - nth r d 0 /\
      nth r b 0 = ppf alpha * sqrt (covariance m (row1 r) (row1 r) + covariance m (row2 r) (row2 r) - 2 * covariance m (row1 r) (row2 r)).
Proof.
  intros L Hp H1 H2 HN row1 row2.
  destruct (diff_some big ppf m par dat1 dat2 use alpha p1 X1 b1 p2 X2 b2 H1 H2 HN) as (X & d & b & _ & W & E & Ld & Hd & Rx & Cx & Vx).
  destruct (diff_some big ppf m par dat2 dat1 use alpha p2 X2 b2 p1 X1 b1 H2 H1 (eq_sym HN)) as (Y & d' & b' & _ & W' & E' & Ld' & Hd' & Ry & Cy & Vy).
  destruct (half_width_spec ppf m sizes extra par X alpha b L Hp W) as [Lb Hb].
  destruct (half_width_spec ppf m sizes extra par Y alpha b' L Hp W') as [Lb' Hb'].
  assert (K : forall (x y : nat -> nat -> R) r, covariance m (among_all sizes par (fun c => x r c - y r c)) (among_all sizes par (fun c => x r c - y r c)) =
     covariance m (among_all sizes par (x r)) (among_all sizes par (x r)) + covariance m (among_all sizes par (y r)) (among_all sizes par (y r))
     - 2 * covariance m (among_all sizes par (x r)) (among_all sizes par (y r))).
  { intros x y r. rewrite <- covariance_minus. rewrite !covariance_image. f_equal. apply sum_to_ext. intros k _.
    replace (image m (among_all sizes par (fun c => x r c - y r c)) k) with (image m (fun i => among_all sizes par (x r) i - among_all sizes par (y r) i) k); [easy|].
    apply sum_to_ext. intros i _. f_equal. unfold among_all. destruct (_ && _)%bool; lra. }
  assert (S : forall x y, covariance m x y = covariance m y x).
  { intros x y. rewrite !covariance_image. f_equal. apply sum_to_ext. intros; ring. }
  assert (F : forall z w : nat -> R, (forall c, z c = w c) -> covariance m (among_all sizes par z) (among_all sizes par z) = covariance m (among_all sizes par w) (among_all sizes par w)).
  { intros z w Hz. rewrite !covariance_image. f_equal. apply sum_to_ext. intros k _.
    replace (image m (among_all sizes par z) k) with (image m (among_all sizes par w) k); [easy|].
    apply sum_to_ext. intros i _. f_equal. unfold among_all. destruct (_ && _)%bool; [now rewrite Hz|easy]. }
  assert (Vb : forall r, (r < n_y (fst dat1))%nat -> nth r b 0 = ppf alpha * sqrt (covariance m (row1 r) (row1 r) + covariance m (row2 r) (row2 r) - 2 * covariance m (row1 r) (row2 r))).
  { intros r Hr. rewrite Hb by lia. f_equal. f_equal. rewrite (F _ (fun c => at_ X1 r c - at_ X2 r c)) by (intros; apply Vx).
    apply (K (at_ X1) (at_ X2) r). }
  assert (Eb : b' = b).
  { apply (nth_ext _ _ 0 0); [lia|]. intros r Hr. rewrite Vb by lia. rewrite Hb' by lia. f_equal. f_equal.
    rewrite (F _ (fun c => at_ X2 r c - at_ X1 r c)) by (intros; apply Vy). rewrite (K (at_ X2) (at_ X1) r). unfold row1, row2.
    rewrite (S (among_all sizes par (at_ X2 r)) (among_all sizes par (at_ X1 r))). ring. }
  subst b'. exists d, b, d'. split; [easy|]. split; [easy|]. split; [easy|]. split; [lia|]. split; [lia|].
  intros r Hr. split; [apply Hd|]. split; [rewrite Hd, Hd'; ring|now apply Vb].
Qed.

(** Two parameters: 10 + 2 x for the first, 7 for the second. *)
Definition case_env : env := Env (fun _ => Numeric) (fun _ => []) (fun _ k => k).
Definition case_terms : list (term R) := [TI; TL [0%nat]].
Definition case_model : fitted :=
  Fitted [(case_env, case_terms); (case_env, [TI])] [10; 2; 7] (Array 3 3 (fun r c => if (r =? c)%nat then INR (S c) else 0)) 1 [2%nat] false.
Definition case_data (a b : R) : frame R * list nat := (Frame 2 (fun r _ => if (r =? 0)%nat then a else b) (fun _ _ => None), [2%nat]).
Example C53_case :
  laid_out case_model [2%nat; 1%nat] None /\
  all_ok R 0 Rplus Rmult Rminus big case_env (fst (case_data 1 3)) [2%nat] true (ordered R case_terms) /\
  in_terms (get_coef_info case_env case_terms) = [(0, (0, 1)); (1, (1, 1))]%nat /\
  exists p X b, predict case_model 0 None (case_data 1 3) (1/20) = Some (p, X, b) /\ p = [12; 16] /\
    b = [ppf (1/20) * sqrt (1 + 4 * 1); ppf (1/20) * sqrt (1 + 4 * 9)] /\
  exists d, predict_diff case_model 0 (case_data 1 3) (case_data 4 4) None (1/20) =
      Some (d, [ppf (1/20) * sqrt (4 * 9); ppf (1/20) * sqrt (4 * 1)]) /\ d = [-6; -2].
Proof.
  split; [constructor; cbn; auto; discriminate|].
  split; [cbn; repeat split; auto; discriminate|]. split; [reflexivity|].
  assert (W : forall x y, x = y -> ppf (1/20) * sqrt x = ppf (1/20) * sqrt y) by (intros; now subst).
  assert (LL : forall a b c d : R, a = c -> b = d -> [a; b] = [c; d]) by (intros; now subst).
  eexists. eexists. eexists. split; [cbn; reflexivity|]. split; [cbn; apply LL; lra|].
  split; [cbn; apply LL; apply W; lra|].
  eexists. split.
  - unfold PredModel.predict_diff. cbn. apply f_equal. apply f_equal2; [reflexivity|]. apply LL; apply W; lra.
  - apply LL; lra.
Qed.
End Predictions.

(** *** C55: the multiplier is the requested quantile, over draws, of the largest ratio between the deviation of a
    prediction and its half width, where the deviations come from all coefficients, provided no half width is zero and no
    non-zero column of the prediction matrix sums to zero. *)
Theorem C55_multiplier quantile lvi scale z b X use_terms alpha :
  a_cols X = a_cols lvi -> a_rows lvi = a_rows z -> (0 < a_rows X)%nat ->
  (use_terms <> None -> no_cancelling X) -> (forall r, (r < a_rows X)%nat -> 0 < nth r b 0) ->
  exists q, length q = a_cols z /\ (forall s, (s < a_cols z)%nat -> largest_ratio lvi scale z X b s (nth s q 0)) /\
    forall k, quantile alpha (map Fin q) = Fin k ->
    exists after, adjust_CI quantile lvi scale z b X use_terms alpha = Some (map (fun x => Fin (x * k)) b, after).
Proof.
  intros H1 H2 H3 H4 H5. destruct (adjust_spec quantile lvi scale z b X use_terms alpha H1 H2 H3 H4 H5) as (q & Lq & Hq & E).
  exists q. split; [easy|]. split; [easy|]. intros k Hk. eexists. rewrite E, Hk. reflexivity.
Qed.

Definition one_draw (v : R) : array := Array 1 1 (fun _ _ => v).
Example C55_case : exists lvi z b X,
  a_cols X = a_cols lvi /\ a_rows lvi = a_rows z /\ (0 < a_rows X)%nat /\ no_cancelling X /\
  (forall r, (r < a_rows X)%nat -> 0 < nth r b 0) /\ largest_ratio lvi 1 z X b 0 3.
Proof.
  exists (one_draw 1), (one_draw 3), [1; 2], (Array 2 1 (fun _ _ => 1)). cbn.
  split; [easy|]. split; [easy|]. split; [lia|]. split; [|split].
  - intros c _. cbn. lra.
  - intros [|[|r]] Hr; cbn; try lra; lia.
  - unfold largest_ratio, is_max, deviation, sum_to. cbn. rewrite sqrt_1.
    replace (1 * (1 * (1 * 3 + 0)) + 0) with 3 by lra. rewrite Rabs_right by lra.
    split; [left; lra|]. repeat constructor; lra.
Qed.

(** *** C55: if a column of the prediction matrix sums to zero its coefficient is left out although it matters.  Two
    rows +1 and -1: the interval shrinks to zero although the largest ratio is 1. *)
Theorem C55_cancel_refuted quantile : (forall alpha x, quantile alpha [x] = x) ->
  exists lvi z b X, a_cols X = a_cols lvi /\ a_rows lvi = a_rows z /\ (forall r, (r < a_rows X)%nat -> 0 < nth r b 0) /\
    largest_ratio lvi 1 z X b 0 1 /\
    forall alpha, exists after, adjust_CI quantile lvi 1 z b X (Some [0%nat]) alpha = Some ([Fin 0; Fin 0], after).
Proof.
  intros Q. exists (one_draw 1), (one_draw 1), [1; 1], (Array 2 1 (fun r _ => if (r =? 0)%nat then 1 else -1)).
  split; [easy|]. split; [easy|]. split; [intros [|[|r]] Hr; cbn; try lra; cbn in Hr; lia|]. split.
  - unfold largest_ratio, is_max, deviation, sum_to. cbn. rewrite sqrt_1.
    replace (1 * (1 * (1 * 1 + 0)) + 0) with 1 by lra. replace (-1 * (1 * (1 * 1 + 0)) + 0) with (-1) by lra.
    rewrite Rabs_R1, Rabs_left by lra. split; [left; lra|]. repeat constructor; lra.
  - intros alpha. eexists. unfold adjust_CI, sum_to. cbn [a_rows a_cols at_ seq map fold_right filter Nat.eqb].
    destruct Req_EM_T as [_|N]; [|exfalso; apply N; lra]. cbn. unfold sum_to. cbn. unfold np_quantile, ediv.
    destruct Req_EM_T as [N|_]; [exfalso; lra|]. cbn [np_max fold_left emax map existsb isnan orb]. rewrite Q. cbn [emul].
    rewrite Rabs_R0. rewrite Rmax_left by lra. repeat f_equal; lra.
Qed.

(** *** C55: the caller's interval is overwritten: afterwards the array holds the adjusted half widths. *)
Theorem C55_altered_refuted quantile : (forall alpha x, quantile alpha [x] = x) ->
  exists lvi z b X, forall alpha, exists res after, adjust_CI quantile lvi 1 z b X None alpha = Some (res, after) /\ after <> map Fin b.
Proof.
  intros Q. exists (one_draw 1), (one_draw 2), [1], (one_draw 1). intros alpha. eexists. eexists. split; [cbn; reflexivity|].
  unfold np_quantile, ediv, sum_to. cbn. destruct Req_EM_T as [N|_]; [lra|]. cbn. rewrite Q. cbn. rewrite sqrt_1.
  replace (1 * (1 * 1 * 2 + 0) + 0) with 2 by lra. rewrite Rabs_right by lra. intros H. injection H as H. lra.
Qed.

(** *** C55: a prediction that involves none of the coefficients, with half width zero, makes the interval of every
    other prediction NaN. *)
Theorem C55_zero_row_refuted quantile :
  exists lvi z b X, a_cols X = a_cols lvi /\ a_rows lvi = a_rows z /\ no_cancelling X /\ b = [1; 0] /\
    (forall c, at_ X 1 c = 0) /\ nth 0 b 0 = sqrt (at_ X 0 0 * at_ lvi 0 0 * at_ lvi 0 0 * at_ X 0 0) /\
    forall use_terms alpha, exists after, adjust_CI quantile lvi 1 z b X use_terms alpha = Some ([NaN; NaN], after).
Proof.
  exists (one_draw 1), (one_draw 1), [1; 0], (Array 2 1 (fun r _ => if (r =? 0)%nat then 1 else 0)).
  split; [easy|]. split; [easy|]. split; [intros c _; cbn; lra|]. split; [easy|]. split; [easy|].
  split; [cbn; rewrite !Rmult_1_l; symmetry; apply sqrt_1|]. intros use_terms alpha. eexists.
  unfold adjust_CI. destruct use_terms as [l|].
  - unfold sum_to at 1. cbn [a_rows a_cols at_ seq map fold_right filter Nat.eqb].
    destruct Req_EM_T as [N|_]; [exfalso; lra|]. cbn. unfold ediv. destruct (Req_EM_T 0 0) as [_|N]; [|now exfalso].
    destruct (Req_EM_T 1 0) as [N|_]; [exfalso; lra|]. unfold sum_to. cbn.
    rewrite Rmult_0_l, Rplus_0_l, Rabs_R0. destruct (Req_EM_T 0 0) as [_|N]; [|now exfalso]. cbn. reflexivity.
  - cbn. unfold ediv. destruct (Req_EM_T 0 0) as [_|N]; [|now exfalso].
    destruct (Req_EM_T 1 0) as [N|_]; [exfalso; lra|]. unfold sum_to. cbn.
    rewrite Rmult_0_l, Rplus_0_l, Rabs_R0. destruct (Req_EM_T 0 0) as [_|N]; [|now exfalso]. cbn. reflexivity.
Qed.

Print Assumptions C53_sum.
Print Assumptions C53_all.
Print Assumptions C53_term.
Print Assumptions C53_interval.
Print Assumptions C53_difference.
Print Assumptions C55_multiplier.
Print Assumptions C55_cancel_refuted.
Print Assumptions C55_altered_refuted.
Print Assumptions C55_zero_row_refuted.
