From Coq Require Import List Arith Bool Reals Lra Lia.
From Verif Require Import Ext StepModel StepSpec.
Import ListNotations.
Local Open Scope R_scope.

Lemma vmid_same c : vmid c c = c.
Proof.
  unfold vmid. induction c as [|x c IH]; simpl; [reflexivity|].
  rewrite IH. f_equal. field.
Qed.

Lemma vmid_length a b : length a = length b -> length (vmid a b) = length a.
Proof. intros H. unfold vmid. rewrite map_length, combine_length. lia. Qed.

Lemma partway_0 a b : length a = length b -> partway 0 a b = b.
Proof.
  revert b. induction a as [|x a IH]; intros [|z b] H; try discriminate; simpl; [reflexivity|].
  rewrite IH by (simpl in H; lia). f_equal. field.
Qed.

Lemma vmid_partway k a b : length a = length b -> vmid a (partway k a b) = partway (S k) a b.
Proof.
  revert b. induction a as [|x a IH]; intros [|z b] H; try discriminate; simpl; [reflexivity|].
  unfold vmid in *. simpl. rewrite IH by (simpl in H; lia). f_equal.
  field. apply pow_nonzero. lra.
Qed.

Lemma keep_valid_rows {A} (mu : list ext) (l : list A) :
  keep_valid (map isnan mu) l = rows_defined mu l.
Proof.
  unfold keep_valid. revert l. induction mu as [|m mu IH]; intros [|x l]; try reflexivity.
  - destruct m; reflexivity.
  - specialize (IH l). destruct m; simpl; rewrite ?IH; reflexivity.
Qed.

(** ** C10 *)
Section Gamm.
Variables (lin : list R -> list R) (fi : R -> ext) (gauss_id : bool)
  (deviance : list R -> list ext -> ext) (quad_S : list R -> R) (n_pen : nat) (y : list R).
Notation eval := (gamm_eval lin fi gauss_id deviance quad_S n_pen y).
Notation fit_of := (gamm_fit_of lin fi gauss_id deviance quad_S (0 <? n_pen)%nat y).
Notation loop := (coef_loop lin fi gauss_id deviance quad_S n_pen y).

Definition fits (f : gfit) := fit_of (f_coef f) (f_dev f) (f_pen f) (f_mu f) (f_eta f).

Lemma eval_fits c : fits (eval c).
Proof.
  unfold fits, gamm_fit_of. simpl. rewrite !keep_valid_rows.
  repeat split; auto. destruct n_pen; reflexivity.
Qed.

Lemma accept_dev prev pen :
  eltb prev pen || (isinf pen || isnan pen) = false -> dev_not_worse prev pen.
Proof.
  intros H. apply orb_false_iff in H as [H1 H2]. apply orb_false_iff in H2 as [H2 H3].
  destruct pen as [v| | |]; try discriminate. exists v. split; [reflexivity|].
  destruct prev as [p| | |]; simpl in *; auto; try discriminate. now apply rltb_false.
Qed.

(** The loop with all its facts; [k] counts the halvings so far. *)
Lemma loop_spec coef n_coef prev : length coef = length n_coef ->
  forall fuel corr st, (33 < fuel + corr)%nat -> (corr <= 32)%nat ->
  fits st ->
  ((corr <= 31)%nat -> f_coef st = partway corr coef n_coef) ->
  ((31 < corr)%nat -> f_coef st = coef) ->
  exists r, loop fuel corr coef prev st = Some r /\ fits r /\
    (dev_not_worse prev (f_pen r) \/ f_coef r = coef) /\
    (f_coef r = coef \/ exists k, (k <= 31)%nat /\ f_coef r = partway k coef n_coef).
Proof.
  intros Hlen. induction fuel as [|fuel IH]; intros corr st Hf Hc Hst Hlo Hhi; [lia|].
  cbn [coef_loop].
  destruct (eltb prev (f_pen st) || (isinf (f_pen st) || isnan (f_pen st))) eqn:Econd.
  - destruct (Nat.ltb_spec 30 corr) as [H30|H30].
    + destruct (Nat.ltb_spec 31 corr) as [H31|H31].
      * eexists. split; [reflexivity|]. cbn [f_coef f_pen f_dev f_mu f_eta].
        split; [|split; [right; reflexivity|left; reflexivity]].
        unfold fits in *. cbn [f_coef f_pen f_dev f_mu f_eta].
        rewrite (Hhi H31) in Hst. exact Hst.
      * apply IH; try lia.
        -- apply eval_fits.
        -- intros _. cbn. apply vmid_same.
    + destruct (Nat.ltb_spec 31 corr) as [H31|H31]; [lia|].
      apply IH; try lia.
      * apply eval_fits.
      * intros _. cbn. rewrite (Hlo ltac:(lia)), Nat.add_1_r. now apply vmid_partway.
  - exists st. split; [reflexivity|]. split; [assumption|].
    split; [left; now apply accept_dev|].
    destruct (le_lt_dec corr 31) as [Hl|Hl]; [right; exists corr; auto|left; auto].
Qed.

Lemma gamm_step_control coef n_coef dev pen_dev prev eta mu :
  length coef = length n_coef -> fit_of n_coef dev pen_dev mu eta ->
  exists r, correct_coef_step lin fi gauss_id deviance quad_S n_pen y 34 coef n_coef dev pen_dev prev eta mu
            = Some r /\
    fit_of (f_coef r) (f_dev r) (f_pen r) (f_mu r) (f_eta r) /\
    (dev_not_worse prev (f_pen r) \/ f_coef r = coef) /\
    (f_coef r = coef \/ exists k, (k <= 31)%nat /\ f_coef r = partway k coef n_coef).
Proof.
  intros Hlen Hfit. unfold correct_coef_step.
  apply loop_spec; simpl; try lia; auto.
  intros _. now rewrite partway_0.
Qed.
End Gamm.

(** ** C11 *)

Lemma accept_llk prev pen :
  eleb prev pen && (negb (isinf pen) && negb (isnan pen)) = true -> llk_not_worse prev pen.
Proof.
  intros H. apply andb_true_iff in H as [H1 H2]. apply andb_true_iff in H2 as [H2 H3].
  destruct pen as [v| | |]; try discriminate. exists v. split; [reflexivity|].
  destruct prev as [p| | |]; simpl in *; auto; try discriminate. now apply rleb_true.
Qed.

Lemma adapt_a_bounds n a : 0 < a <= 1 -> 0 < adapt_a n a <= 2.
Proof.
  intros H. unfold adapt_a.
  destruct ((0 <? n)%nat && rltb (/ 1000000000) a); [lra|].
  destruct ((n =? 0)%nat && rltb a 1); lra.
Qed.

Lemma skipn_skipn {A} a b (l : list A) : skipn a (skipn b l) = skipn (b + a) l.
Proof.
  revert l. induction b as [|b IH]; intros l; [reflexivity|].
  destruct l as [|x l]; simpl; [apply skipn_nil|apply IH].
Qed.

Lemma np_split_from_nil {A} start (v : list A) : np_split_from start v [] = [skipn start v].
Proof. reflexivity. Qed.

Lemma np_split_pieces {A} (sizes : list nat) (v : list A) start :
  sizes <> [] -> length v = (start + fold_right Nat.add 0 sizes)%nat ->
  np_split_from start v (cuts start sizes) = pieces sizes (skipn start v).
Proof.
  revert start. induction sizes as [|n sizes IH]; intros start Hne Hlen; [congruence|].
  destruct sizes as [|m sizes].
  - simpl. f_equal. symmetry. apply firstn_all2. rewrite skipn_length. simpl in Hlen. lia.
  - change (cuts start (n :: m :: sizes)) with ((start + n)%nat :: cuts (start + n) (m :: sizes)).
    cbn [np_split_from pieces]. f_equal; [f_equal; lia|].
    rewrite IH; [|discriminate|simpl in *; lia]. cbn [pieces]. now rewrite !skipn_skipn.
Qed.

Lemma cuts_nil start sizes : (1 < length sizes)%nat -> cuts start sizes <> [].
Proof. destruct sizes as [|a [|b l]]; simpl; intros; try lia; discriminate. Qed.

(** Masks as functions of the row. *)
Lemma mask_or_map rows f g : 
  mask_or (map f rows) (map g rows) = map (fun r : nat => f r || g r) rows.
Proof.
  unfold mask_or. induction rows as [|r rows IH]; simpl; [reflexivity|]. now rewrite IH.
Qed.

Lemma list_as_map {A} (d : A) (l : list A) : l = map (fun r => nth r l d) (seq 0 (length l)).
Proof.
  induction l as [|x l IH]; [reflexivity|].
  simpl length. rewrite <- cons_seq. cbn [map]. f_equal.
  rewrite <- seq_shift, map_map. exact IH.
Qed.

Lemma fold_mask (n : nat) : forall ms f,
  (forall m, In m ms -> length m = n) ->
  fold_left (fun acc m' => mask_or acc (map isnan m')) ms (map f (seq 0 n))
  = map (fun r => f r || existsb (fun m => isnan (nth r m NaN)) ms) (seq 0 n).
Proof.
  induction ms as [|m ms IH]; intros f H; simpl.
  - apply map_ext. intros r. now rewrite orb_false_r.
  - rewrite (list_as_map NaN m) at 1. rewrite (H m (or_introl eq_refl)), map_map, mask_or_map.
    rewrite IH by (intros; apply H; now right). apply map_ext. intros r. now rewrite orb_assoc.
Qed.

Lemma keep_valid_map {A} (d : A) (l : list A) f n : length l = n ->
  keep_valid (map f (seq 0 n)) l = map (fun r => nth r l d) (filter (fun r => negb (f r)) (seq 0 n)).
Proof.
  intros <-. unfold keep_valid. rewrite (list_as_map d l) at 2.
  generalize (seq 0 (length l)). intros rows. induction rows as [|r rows IH]; simpl; [reflexivity|].
  destruct (f r); simpl; now rewrite IH.
Qed.

Section Gammlss.
Variables (Xmul : nat -> list R -> list R) (fi : nat -> R -> ext)
  (llk : list R -> list (list ext) -> ext) (quad_S : list R -> R).
Variables (sizes : list nat) (y : list R).
Notation n_par := (length sizes).
Notation idx := (cuts 0 sizes).

Notation gammlss_fit_of := (StepSpec.gammlss_fit_of Xmul fi llk quad_S sizes y).

Hypothesis sizes_ne : sizes <> [].
Hypothesis rows_y : forall i b, length (Xmul i b) = length y.

Lemma gammlss_eval_fits c : length c = fold_right Nat.add 0%nat sizes ->
  let f := gammlss_eval Xmul fi llk quad_S n_par idx y c in
  l_coef f = c /\
  gammlss_fit_of (l_coef f) (l_split f) (l_mus f) (l_etas f) (l_llk f) (l_pen f).
Proof.
  intros Hc. cbv zeta. split; [reflexivity|].
  unfold gammlss_eval, StepSpec.gammlss_fit_of. cbn [l_coef l_split l_mus l_etas l_llk l_pen].
  assert (Esc : pieces sizes c = np_split c idx)
    by (symmetry; apply (np_split_pieces sizes c 0); [assumption|lia]).
  rewrite Esc. set (sc := np_split c idx).
  set (etas := map (fun i => Xmul i (nth i sc [])) (seq 0 n_par)).
  set (mus := map (fun i => map (fi i) (nth i etas [])) (seq 0 n_par)).
  assert (He : forall i, (i < n_par)%nat -> nth i etas [] = Xmul i (nth i sc [])).
  { intros i Hi. unfold etas. rewrite nth_indep with (d' := Xmul 0%nat (nth 0 sc [])) by (now rewrite map_length, seq_length).
    rewrite map_nth with (f := fun i => Xmul i (nth i sc [])). now rewrite seq_nth. }
  assert (Hm : forall i, (i < n_par)%nat -> nth i mus [] = map (fi i) (nth i etas [])).
  { intros i Hi. unfold mus.
    rewrite nth_indep with (d' := map (fi 0%nat) (nth 0 etas [])) by (now rewrite map_length, seq_length).
    rewrite map_nth with (f := fun i => map (fi i) (nth i etas [])). now rewrite seq_nth. }
  assert (Hlm : forall m, In m mus -> length m = length y).
  { intros m Hin. apply (In_nth _ _ []) in Hin as (i & Hi & <-).
    unfold mus in Hi. rewrite map_length, seq_length in Hi.
    rewrite Hm, He, map_length by assumption. apply rows_y. }
  assert (Hmask : inval_rows idx mus = map (fun r => negb (row_ok mus r)) (seq 0 (length y))).
  { unfold inval_rows. destruct mus as [|m ms] eqn:Em.
    { unfold mus in Em. destruct sizes; [congruence|discriminate]. }
    assert (Hrow : forall r, negb (row_ok (m :: ms) r)
        = isnan (nth r m NaN) || existsb (fun m => isnan (nth r m NaN)) ms).
    { intros r. unfold row_ok. cbn [forallb]. rewrite negb_andb, negb_involutive. f_equal.
      clear. induction ms as [|a ms IH]; simpl; [reflexivity|]. rewrite negb_andb, negb_involutive. now f_equal. }
    assert (H0 : map isnan m = map (fun r => isnan (nth r m NaN)) (seq 0 (length y))).
    { rewrite (list_as_map NaN m) at 1. rewrite map_map. now rewrite (Hlm m (or_introl eq_refl)). }
    destruct idx as [|i0 l0] eqn:Ei.
    - destruct (le_lt_dec n_par 1) as [H1|H1].
      + assert (length (m :: ms) = n_par) as Hl by (rewrite <- Em; unfold mus; now rewrite map_length, seq_length).
        destruct ms; [|simpl in Hl; lia]. rewrite H0. apply map_ext. intros r. rewrite Hrow. simpl.
        now rewrite orb_false_r.
      + exfalso. now apply (cuts_nil 0 sizes).
    - rewrite H0, fold_mask by (intros; apply Hlm; now right).
      apply map_ext. intros r. symmetry. apply Hrow. }
  repeat split.
  - unfold etas. now rewrite map_length, seq_length.
  - unfold mus. now rewrite map_length, seq_length.
  - now apply He.
  - now apply Hm.
  - rewrite Hmask. f_equal.
    + rewrite (keep_valid_map 0) by reflexivity. unfold rows_all_defined.
      f_equal. apply filter_ext. intros r. apply negb_involutive.
    + apply map_ext_in. intros m Hin. rewrite (keep_valid_map NaN) by (now apply Hlm).
      unfold rows_all_defined. rewrite (Hlm m Hin). f_equal. apply filter_ext. intros r. apply negb_involutive.
Qed.

Notation loop := (gammlss_loop Xmul fi llk quad_S n_par idx y).

Definition lfits (f : lfit) :=
  gammlss_fit_of (l_coef f) (l_split f) (l_mus f) (l_etas f) (l_llk f) (l_pen f).

Lemma partway_length k a b : length a = length b -> length (partway k a b) = length a.
Proof.
  revert b. induction a as [|x a IH]; intros [|z b] H; try discriminate; simpl; [reflexivity|].
  f_equal. apply IH. simpl in H. lia.
Qed.

Lemma gammlss_loop_spec coef n_coef prev : length coef = length n_coef ->
  length coef = fold_right Nat.add 0%nat sizes ->
  forall rem n st, (rem + n = 32)%nat -> lfits st ->
  ((n <= 31)%nat -> l_coef st = partway n coef n_coef) ->
  ((31 < n)%nat -> l_coef st = coef) ->
  let (r, k) := loop rem n coef prev st in
    lfits r /\ (llk_not_worse prev (l_pen r) \/ l_coef r = coef) /\
    (l_coef r = coef \/ exists k, (k <= 31)%nat /\ l_coef r = partway k coef n_coef) /\
    (k <= 31)%nat.
Proof.
  intros Hlen Hsz. induction rem as [|rem IH]; intros n st Hn Hst Hlo Hhi; cbn [gammlss_loop].
  - split; [assumption|]. rewrite (Hhi ltac:(lia)). repeat split; auto. lia.
  - destruct (eleb prev (l_pen st) && (negb (isinf (l_pen st)) && negb (isnan (l_pen st)))) eqn:E.
    + split; [assumption|]. split; [left; now apply accept_llk|]. split; [|lia].
      right. exists n. split; [lia|]. apply Hlo. lia.
    + destruct (Nat.ltb_spec 30 n) as [H|H].
      * apply IH; try lia.
        -- apply gammlss_eval_fits. rewrite vmid_same. assumption.
        -- intros _. cbn. apply vmid_same.
      * assert (E2 : vmid coef (l_coef st) = partway (n + 1) coef n_coef).
        { rewrite Hlo by lia. rewrite Nat.add_1_r. now apply vmid_partway. }
        apply IH; try lia.
        -- apply gammlss_eval_fits. rewrite E2, partway_length; assumption.
        -- intros _. exact E2.
Qed.

Lemma gammlss_step_control coef n_coef c_llk a :
  length coef = length n_coef -> length coef = fold_right Nat.add 0%nat sizes ->
  let prev := eadd c_llk (- (1 / 2 * quad_S coef)) in
  let (r, a') := correct_coef_step_gammlss Xmul fi llk quad_S n_par idx y coef n_coef c_llk a in
    gammlss_fit_of (l_coef r) (l_split r) (l_mus r) (l_etas r) (l_llk r) (l_pen r) /\
    (llk_not_worse prev (l_pen r) \/ l_coef r = coef) /\
    (l_coef r = coef \/ exists k, (k <= 31)%nat /\ l_coef r = partway k coef n_coef).
Proof.
  intros Hlen Hsz. cbv zeta. unfold correct_coef_step_gammlss.
  set (prev := eadd c_llk (- (1 / 2 * quad_S coef))).
  pose proof (gammlss_loop_spec coef n_coef prev Hlen Hsz 32 0
     (gammlss_eval Xmul fi llk quad_S n_par idx y n_coef) eq_refl) as H.
  destruct (loop 32 0 coef prev (gammlss_eval Xmul fi llk quad_S n_par idx y n_coef)) as [r k].
  destruct H as (H1 & H2 & H3 & _).
  - apply gammlss_eval_fits. now rewrite <- Hlen.
  - intros _. cbn. now rewrite partway_0.
  - lia.
  - split; [exact H1|]. split; assumption.
Qed.
End Gammlss.

Section Gen.
Variables (llk : list R -> ext) (quad_S : list R -> R).

Notation gen_fit_of := (StepSpec.gen_fit_of llk quad_S).

Lemma gen_loop_spec coef n_coef prev : length coef = length n_coef ->
  forall rem n c l pen, (rem + n = 32)%nat -> gen_fit_of c l pen ->
  ((n <= 31)%nat -> c = partway n coef n_coef) ->
  ((31 < n)%nat -> c = coef) ->
  let '((c', l', pen'), k) := gen_loop llk quad_S rem n coef prev (c, l, pen) in
    gen_fit_of c' l' pen' /\ (llk_not_worse prev pen' \/ c' = coef) /\
    (c' = coef \/ exists k, (k <= 31)%nat /\ c' = partway k coef n_coef).
Proof.
  intros Hlen. induction rem as [|rem IH]; intros n c l pen Hn Hst Hlo Hhi; cbn [gen_loop].
  - split; [assumption|]. rewrite (Hhi ltac:(lia)). auto.
  - destruct (eleb prev pen && (negb (isinf pen) && negb (isnan pen))) eqn:E.
    + split; [assumption|]. split; [left; now apply accept_llk|].
      right. exists n. split; [lia|]. apply Hlo. lia.
    + unfold gen_eval. destruct (Nat.ltb_spec 30 n) as [H|H].
      * rewrite vmid_same. apply IH; try lia; [split; reflexivity|reflexivity].
      * assert (E2 : vmid coef c = partway (n + 1) coef n_coef).
        { rewrite Hlo by lia. rewrite Nat.add_1_r. now apply vmid_partway. }
        apply IH; try lia; [split; reflexivity|]. intros _. exact E2.
Qed.

Lemma gen_step_control coef n_coef c_llk a : length coef = length n_coef ->
  let prev := eadd c_llk (- (1 / 2 * quad_S coef)) in
  let '((c, l, pen), a') := correct_coef_step_gen_smooth llk quad_S coef n_coef c_llk a in
    gen_fit_of c l pen /\ (llk_not_worse prev pen \/ c = coef) /\
    (c = coef \/ exists k, (k <= 31)%nat /\ c = partway k coef n_coef).
Proof.
  intros Hlen. cbv zeta. unfold correct_coef_step_gen_smooth.
  set (prev := eadd c_llk (- (1 / 2 * quad_S coef))).
  pose proof (gen_loop_spec coef n_coef prev Hlen 32 0 n_coef (llk n_coef)
    (eadd (llk n_coef) (- (1 / 2 * quad_S n_coef))) eq_refl) as H.
  change (gen_eval llk quad_S n_coef) with (n_coef, llk n_coef, eadd (llk n_coef) (- (1 / 2 * quad_S n_coef))).
  destruct (gen_loop llk quad_S 32 0 coef prev (n_coef, llk n_coef,
        eadd (llk n_coef) (- (1 / 2 * quad_S n_coef)))) as [[[c l] pen] k].
  apply H; [split; reflexivity| |lia]. intros _. now rewrite partway_0.
Qed.
End Gen.

(** ** C12 *)
Section Theta.
Variables (llk : list R -> ext) (grad_small : list R -> ext -> bool) (proposal : list R -> list R).

Lemma better_trans a b c : llk_better a b -> llk_better b c -> llk_better a c.
Proof.
  intros (v & -> & H1) (w & -> & H2). exists w. split; [reflexivity|].
  destruct a; auto. lra.
Qed.

Lemma accept_strict prev now :
  eltb prev now && (negb (isinf now) && negb (isnan now)) = true -> llk_better prev now.
Proof.
  intros H. apply andb_true_iff in H as [H1 H2]. apply andb_true_iff in H2 as [H2 H3].
  destruct now as [v| | |]; try discriminate. exists v. split; [reflexivity|].
  destruct prev as [p| | |]; simpl in *; auto; try discriminate. now apply rltb_true.
Qed.

Lemma theta_halve_spec theta cllk : forall rem n nt nllk, (rem + n = 32)%nat -> (n < 32)%nat -> nllk = llk nt ->
  match theta_halve llk rem n theta nt cllk nllk with
  | None => True
  | Some (nt', l) => l = llk nt' /\ llk_better cllk l
  end.
Proof.
  induction rem as [|rem IH]; intros n nt nllk Hn H32 E; [lia|]. cbn [theta_halve].
  destruct (eltb cllk nllk && (negb (isinf nllk) && negb (isnan nllk))) eqn:Ec.
  - split; [assumption|]. now apply accept_strict.
  - destruct (Nat.ltb_spec 30 n); [exact I|]. apply IH; try lia; reflexivity.
Qed.

Lemma theta_loop_spec : forall outer theta cllk, cllk = llk theta ->
  let r := theta_loop llk grad_small proposal outer theta cllk in
  r = theta \/ llk_better cllk (llk r).
Proof.
  induction outer as [|outer IH]; intros theta cllk E; cbn [theta_loop]; [now left|].
  destruct (grad_small theta cllk); [now left|].
  pose proof (theta_halve_spec theta cllk 32 0 (proposal theta) (llk (proposal theta)) eq_refl
    ltac:(lia) eq_refl) as H.
  destruct (theta_halve llk 32 0 theta (proposal theta) cllk (llk (proposal theta))) as [[nt l]|]; [|now left].
  destruct H as [-> H]. destruct (IH nt (llk nt) eq_refl) as [->|H2]; right; [assumption|].
  eapply better_trans; eassumption.
Qed.
End Theta.

(** ** C13 *)
Section BT.
Variables (llk_at : R -> ext) (c_llk : ext) (slope c1 : R).

Notation sufficient := (StepSpec.sufficient llk_at c_llk slope c1).

Lemma bt_test alpha :
  eleb (llk_at alpha) (eadd c_llk (alpha * c1 * slope)) && (negb (isnan (llk_at alpha)) && negb (isinf (llk_at alpha)))
  = true <-> sufficient alpha.
Proof.
  unfold StepSpec.sufficient. destruct (llk_at alpha) as [v| | |]; simpl.
  - destruct c_llk as [c| | |]; simpl.
    + rewrite andb_true_r, rleb_true. split.
      * intros H. exists v. split; [reflexivity|lra].
      * intros (v' & E & H). inversion E; subst. lra.
    + split; [intros _; exists v; auto|reflexivity].
    + split; [discriminate|intros (v' & E & []) ].
    + split; [discriminate|intros (v' & E & []) ].
  - split; [intros H; try discriminate; destruct c_llk; discriminate|intros (v' & E & _); discriminate].
  - split; [intros H; try discriminate; destruct c_llk; discriminate|intros (v' & E & _); discriminate].
  - split; [intros H; try discriminate; destruct c_llk; discriminate|intros (v' & E & _); discriminate].
Qed.

Lemma bt_loop_spec : forall rem alpha,
  match bt_loop llk_at c_llk slope c1 rem alpha with
  | Some a => exists k, (k < rem)%nat /\ a = alpha / 2 ^ k /\ sufficient a /\
                forall j, (j < k)%nat -> ~ sufficient (alpha / 2 ^ j)
  | None => forall j, (j < rem)%nat -> ~ sufficient (alpha / 2 ^ j)
  end.
Proof.
  induction rem as [|rem IH]; intros alpha; cbn [bt_loop]; [intros; lia|].
  assert (E0 : alpha / 2 ^ 0 = alpha) by (simpl; field).
  assert (ES : forall j, alpha / 2 / 2 ^ j = alpha / 2 ^ S j).
  { intros j. simpl. field. apply pow_nonzero. lra. }
  destruct (eleb (llk_at alpha) (eadd c_llk (alpha * c1 * slope)) &&
            (negb (isnan (llk_at alpha)) && negb (isinf (llk_at alpha)))) eqn:E.
  - exists 0%nat. rewrite E0. split; [lia|]. split; [reflexivity|]. split; [now apply bt_test|]. intros; lia.
  - assert (Hn : ~ sufficient alpha) by (intros H; apply bt_test in H; congruence).
    specialize (IH (alpha / 2)). destruct (bt_loop llk_at c_llk slope c1 rem (alpha / 2)) as [a|].
    + destruct IH as (k & Hk & -> & Hs & Hj). exists (S k). split; [lia|].
      split; [apply ES|]. split; [assumption|]. intros [|j] Hj'; [now rewrite E0|].
      rewrite <- ES. apply Hj. lia.
    + intros [|j] Hj'; [now rewrite E0|]. rewrite <- ES. apply IH. lia.
Qed.
End BT.

(** ** C15 *)

Lemma last_n_snoc {A} n (l : list A) x :
  last_n n (l ++ [x]) = (if (n <? length (last_n n l) + 1)%nat then skipn 1 (last_n n l ++ [x])
                         else last_n n l ++ [x]).
Proof.
  unfold last_n. rewrite app_length, skipn_length. simpl length.
  destruct (Nat.ltb_spec n (length l - (length l - n) + 1)) as [H|H].
  - assert (Hn : (n <= length l)%nat) by lia.
    destruct n as [|n].
    + rewrite !Nat.sub_0_r, (skipn_all l), skipn_all2; [reflexivity|rewrite app_length; simpl; lia].
    + replace (length l + 1 - S n)%nat with (1 + (length l - S n))%nat by lia.
      rewrite (Nat.add_comm 1), <- skipn_skipn. rewrite skipn_app.
      replace (length l - S n - length l)%nat with 0%nat by lia. simpl. reflexivity.
  - replace (length l + 1 - n)%nat with 0%nat by lia.
    replace (length l - n)%nat with 0%nat by lia. reflexivity.
Qed.

Lemma last_n_length {A} n (l : list A) : (length (last_n n l) <= n)%nat.
Proof. unfold last_n. rewrite skipn_length. lia. Qed.

Lemma last_n_map {A B} (f : A -> B) n l : last_n n (map f l) = map f (last_n n l).
Proof. unfold last_n. rewrite map_length. apply skipn_map. Qed.

Notation holds maxcor acc m := (memory_is maxcor acc (m_s m) (m_y m) (m_rho m)).

Lemma mem_add_holds maxcor acc m sk yk rhok : holds maxcor acc m ->
  holds maxcor (acc ++ [(sk, yk, rhok)]) (mem_add maxcor sk yk rhok m).
Proof.
  intros (Hs & Hy & Hr). unfold memory_is. rewrite last_n_snoc. unfold mem_add.
  rewrite Hs, Hy, Hr. clear Hs Hy Hr m. set (L := last_n maxcor acc).
  assert (E : match map (fun t : list R * list R * R => fst (fst t)) L with [] => [sk] | l => l ++ [sk] end
          = map (fun t => fst (fst t)) (L ++ [(sk, yk, rhok)])).
  { rewrite map_app. destruct L; reflexivity. }
  assert (E2 : match map (fun t : list R * list R * R => fst (fst t)) L with [] => [yk] | _ => map (fun t => snd (fst t)) L ++ [yk] end
          = map (fun t => snd (fst t)) (L ++ [(sk, yk, rhok)])).
  { rewrite map_app. destruct L; reflexivity. }
  assert (E3 : match map (fun t : list R * list R * R => fst (fst t)) L with [] => [rhok] | _ => map snd L ++ [rhok] end
          = map snd (L ++ [(sk, yk, rhok)])).
  { rewrite map_app. destruct L; reflexivity. }
  rewrite E, E2, E3. rewrite map_length, app_length. simpl length.
  destruct (maxcor <? length L + 1)%nat; cbn [m_s m_y m_rho]; rewrite ?skipn_map; repeat split; reflexivity.
Qed.

Lemma vsub_neg a b : vsub (vscale (-1) b) (vscale (-1) a) = minus_vec a b.
Proof.
  unfold vsub, vscale. revert b. induction a as [|x a IH]; intros [|z b]; simpl; try reflexivity.
  rewrite IH. f_equal. ring.
Qed.

Lemma vscale_times r a : vscale r a = times_vec r a.
Proof. induction a as [|x a IH]; simpl; [reflexivity|]. unfold vscale in *. simpl. now rewrite IH. Qed.

Lemma dot_inner a b : dot a b = inner a b.
Proof.
  unfold dot. revert b. induction a as [|x a IH]; intros [|z b]; simpl; try reflexivity. now rewrite IH.
Qed.

Section Mem.
Variable test_SR1 : list R -> list R -> R -> list (list R) -> list (list R) -> list R -> bool.

(** One call with gradients before and after, step, step length, skip flag; the accepted
    triples so far are carried along. *)
Definition call := (list R * list R * list R * R * bool)%type.
Definition run_call (maxcor : nat) (st : mem * list (list R * list R * R)) (c : call) :=
  let '(g, g', step, alpha, skip) := c in
  let (m', skipped) := update_ys_qefs test_SR1 g g' step alpha skip maxcor (fst st) in
  (m', if skipped then snd st
       else snd st ++ [(times_vec alpha step, minus_vec g g',
                        / inner (minus_vec g g') (times_vec alpha step))]).

Lemma run_call_holds maxcor st c : holds maxcor (snd st) (fst st) ->
  (forall t, In t (snd st) -> inner (snd (fst t)) (fst (fst t)) <> 0 /\
      snd t = / inner (snd (fst t)) (fst (fst t))) ->
  holds maxcor (snd (run_call maxcor st c)) (fst (run_call maxcor st c)) /\
  (forall t, In t (snd (run_call maxcor st c)) -> inner (snd (fst t)) (fst (fst t)) <> 0 /\
      snd t = / inner (snd (fst t)) (fst (fst t))).
Proof.
  intros H H2. destruct c as [[[[g g'] step] alpha] skip]. unfold run_call, update_ys_qefs.
  rewrite vsub_neg, vscale_times, dot_inner.
  destruct (Req_EM_T (inner (minus_vec g g') (times_vec alpha step)) 0) as [E|E].
  - rewrite orb_true_r. simpl. now split.
  - rewrite orb_false_r.
    destruct (skip || test_SR1 (times_vec alpha step) (minus_vec g g')
      (/ inner (minus_vec g g') (times_vec alpha step)) (m_s (fst st)) (m_y (fst st)) (m_rho (fst st))).
    + now split.
    + simpl. split; [now apply mem_add_holds|]. intros t Ht. apply in_app_or in Ht as [Ht|[<-|[]]]; auto.
Qed.

Lemma run_holds maxcor : forall calls st, holds maxcor (snd st) (fst st) ->
  (forall t, In t (snd st) -> inner (snd (fst t)) (fst (fst t)) <> 0 /\
      snd t = / inner (snd (fst t)) (fst (fst t))) ->
  let st' := fold_left (run_call maxcor) calls st in
  holds maxcor (snd st') (fst st') /\
  (forall t, In t (snd st') -> inner (snd (fst t)) (fst (fst t)) <> 0 /\
      snd t = / inner (snd (fst t)) (fst (fst t))).
Proof.
  induction calls as [|c calls IH]; intros st H H2; simpl; [now split|].
  destruct (run_call_holds maxcor st c H H2) as [H3 H4]. now apply IH.
Qed.
End Mem.
