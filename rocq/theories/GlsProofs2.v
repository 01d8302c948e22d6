(** Lemmas for the provided families with several parameters and the scaled t family. *)

From Coq Require Import Reals List Lra Lia Arith Bool FunctionalExtensionality.
From Coquelicot Require Import Coquelicot.
From Verif Require Import Ext FamModel FamSpec FamProofs GlsModel GlsSpec GlsProofs.
Import ListNotations.
Local Open Scope R_scope.

(** ** Multinomial *)

Lemma values_length n w : length (values n w) = n.
Proof. unfold values. now rewrite map_length, seq_length. Qed.

Lemma values_nth n w i : (i < n)%nat -> nth i (values n w) 0 = w i.
Proof.
  intros H. unfold values. rewrite (nth_indep _ 0 (w 0%nat)) by (now rewrite map_length, seq_length).
  rewrite map_nth, seq_nth by assumption. reflexivity.
Qed.

Lemma total_values n w : total (values n w) = sumf n w.
Proof. apply total_sumf. Qed.

Lemma sumf_nonneg n w : (forall i, (i < n)%nat -> 0 <= w i) -> 0 <= sumf n w.
Proof.
  induction n as [|n IH]; intros H; simpl; [lra|].
  assert (0 <= w n) by (apply H; lia). assert (0 <= sumf n w) by (apply IH; intros; apply H; lia). lra.
Qed.

Lemma sumf_weight n w : sumf (n + 1) (weight w) = sumf n w + 1.
Proof.
  rewrite Nat.add_1_r. induction n as [|n IH]; [simpl; ring|].
  change (sumf (S (S n)) (weight w)) with (sumf (S n) (weight w) + weight w (S n)).
  rewrite IH. simpl. ring.
Qed.

Lemma sumf_pos_term n w i : (forall i, (i < n)%nat -> 0 < w i) -> (i < n)%nat -> w i <= sumf n w.
Proof.
  induction n as [|n IH]; intros H Hi; [lia|]. simpl.
  assert (0 < w n) by (apply H; lia).
  destruct (Nat.eq_dec i n) as [->|Hne].
  - assert (0 <= sumf n w) by (apply sumf_nonneg; intros; left; apply H; lia). lra.
  - assert (w i <= sumf n w) by (apply IH; [intros; apply H; lia|lia]). lra.
Qed.

Lemma sumf_upd n w i t : (i < n)%nat -> sumf n (upd w i t) = sumf n w - w i + t.
Proof.
  induction n as [|n IH]; intros Hi; [lia|]. simpl. destruct (Nat.eq_dec i n) as [->|Hne].
  - rewrite upd_same. rewrite (sumf_ext n (upd w n t) w); [ring|].
    intros k Hk. apply upd_other. lia.
  - rewrite IH by lia. rewrite upd_other by lia. ring.
Qed.

Lemma mulnom_lp_eq y n w :
  mulnom_lp y (values n w)
  = - ln (sumf n w + 1) + (if (1 <=? y)%nat && (y <=? n)%nat then ln (w (y - 1)%nat) else 0).
Proof.
  unfold mulnom_lp. rewrite values_length, total_values.
  assert (H : forall k b, (k <= n)%nat ->
    fold_left (fun lp pi => if (y =? pi + 1)%nat then lp + ln (nth pi (values n w) 0) else lp) (seq 0 k) b
    = b + (if (1 <=? y)%nat && (y <=? k)%nat then ln (w (y - 1)%nat) else 0)).
  { induction k as [|k IH]; intros b Hk.
    - cbn [seq fold_left]. destruct (Nat.leb_spec 1 y), (Nat.leb_spec y 0); try lia; cbn [andb]; ring.
    - rewrite seq_S, fold_left_app, IH by lia. cbn [fold_left]. rewrite Nat.add_0_l.
      destruct (Nat.eqb_spec y (k + 1)) as [->|Hne].
      + rewrite values_nth by lia.
        destruct (Nat.leb_spec 1 (k + 1)), (Nat.leb_spec (k + 1) k), (Nat.leb_spec (k + 1) (S k)); try lia.
        simpl andb; cbv iota. replace (k + 1 - 1)%nat with k by lia. ring.
      + destruct (Nat.leb_spec 1 y), (Nat.leb_spec y k), (Nat.leb_spec y (S k)); simpl; try lia; reflexivity. }
  rewrite H by lia. reflexivity.
Qed.

Lemma mulnom_lp_prob y n w : (forall i, (i < n)%nat -> 0 < w i) -> (y <= n)%nat ->
  mulnom_lp y (values n w) = ln (cat_prob n w y) /\ 0 < cat_prob n w y.
Proof.
  intros Hw Hy. assert (HS : 0 <= sumf n w) by (apply sumf_nonneg; intros; left; auto).
  rewrite mulnom_lp_eq. unfold cat_prob. rewrite sumf_weight.
  assert (P : 0 < weight w y) by (destruct y; simpl; [lra|apply Hw; lia]).
  split; [|apply Rdiv_lt_0_compat; lra].
  rewrite ln_div by lra. destruct y as [|y]; simpl weight.
  - simpl. rewrite ln_1. ring.
  - destruct (Nat.leb_spec 1 (S y)), (Nat.leb_spec (S y) n); try lia. simpl. rewrite Nat.sub_0_r. ring.
Qed.

Lemma sumf_scal n c f : sumf n (fun i => c * f i) = c * sumf n f.
Proof. induction n as [|n IH]; simpl; [ring|]. rewrite IH. ring. Qed.

Lemma cat_prob_sum n w : (forall i, (i < n)%nat -> 0 < w i) -> sumf (n + 1) (cat_prob n w) = 1.
Proof.
  intros Hw. assert (HS : 0 <= sumf n w) by (apply sumf_nonneg; intros; left; auto).
  unfold cat_prob.
  rewrite (sumf_ext _ _ (fun k => / sumf (n + 1) (weight w) * weight w k)) by (intros; unfold Rdiv; ring).
  rewrite sumf_scal, sumf_weight. field. lra.
Qed.

Section MulnomDeriv.
Variables (n y : nat) (eta : nat -> R).
Notation w := (fun i => exp (eta i)).
Notation L := (fun e : nat -> R => mulnom_lp y (values n (fun i => exp (e i)))).

(** The log-likelihood along coordinate i. *)
Lemma mulnom_line (e : nat -> R) i t : (i < n)%nat ->
  L (upd e i t) = - ln (sumf n (fun k => exp (e k)) - exp (e i) + exp t + 1)
    + (if (y =? i + 1)%nat then t
       else if (1 <=? y)%nat && (y <=? n)%nat then e (y - 1)%nat else 0).
Proof.
  intros Hi. cbv beta. rewrite mulnom_lp_eq.
  assert (E : (fun k => exp (upd e i t k)) = upd (fun k => exp (e k)) i (exp t)).
  { apply functional_extensionality. intros k. unfold upd. now destruct (k =? i)%nat. }
  rewrite E. rewrite sumf_upd by assumption. f_equal.
  destruct (Nat.eqb_spec y (i + 1)) as [->|Hne].
  - destruct (Nat.leb_spec 1 (i + 1)), (Nat.leb_spec (i + 1) n); try lia. cbn [andb].
    replace (i + 1 - 1)%nat with i by lia. rewrite upd_same. apply ln_exp.
  - destruct (Nat.leb_spec 1 y), (Nat.leb_spec y n); simpl; try reflexivity.
    rewrite upd_other by lia. apply ln_exp.
Qed.

Lemma rest_nonneg (e : nat -> R) i : (i < n)%nat -> 0 <= sumf n (fun k => exp (e k)) - exp (e i).
Proof.
  intros Hi. pose proof (sumf_pos_term n (fun k => exp (e k)) i (fun k _ => exp_pos (e k)) Hi). simpl in *. lra.
Qed.

Lemma mulnom_first (e : nat -> R) i : (i < n)%nat ->
  partial L i e (- (exp (e i) / (sumf n (fun k => exp (e k)) + 1)) + (if (y =? i + 1)%nat then 1 else 0)).
Proof.
  intros Hi. unfold partial.
  apply is_derive_ext with (fun t => - ln (sumf n (fun k => exp (e k)) - exp (e i) + exp t + 1)
    + (if (y =? i + 1)%nat then t
       else if (1 <=? y)%nat && (y <=? n)%nat then e (y - 1)%nat else 0)).
  { intros t. symmetry. now apply mulnom_line. }
  pose proof (rest_nonneg e i Hi). pose proof (exp_pos (e i)).
  destruct (y =? i + 1)%nat; [|destruct ((1 <=? y)%nat && (y <=? n)%nat)];
    (auto_derive; [lra|]; field; lra).
Qed.

Lemma mulnom_second i : (i < n)%nat ->
  partial2 L i eta (- (exp (eta i) / (sumf n w + 1)) + exp (eta i) ^ 2 / (sumf n w + 1) ^ 2).
Proof.
  intros Hi. unfold partial2.
  apply (is_derive_ext (fun t => - (exp t / (sumf n w - exp (eta i) + exp t + 1))
    + (if (y =? i + 1)%nat then 1 else 0))).
  - intros t. symmetry. apply is_derive_unique.
    pose proof (mulnom_first (upd eta i t) i Hi) as H. unfold partial in H. rewrite upd_same in H.
    assert (E : (fun k => exp (upd eta i t k)) = upd w i (exp t)).
    { apply functional_extensionality. intros k. unfold upd. now destruct (k =? i)%nat. }
    rewrite E in H. rewrite sumf_upd in H by assumption.
    apply is_derive_ext with (2 := H). intros s. now rewrite upd_upd.
  - pose proof (rest_nonneg eta i Hi). pose proof (exp_pos (eta i)).
    destruct (y =? i + 1)%nat; (auto_derive; [lra|]; field; lra).
Qed.

Lemma mulnom_mixed i j : (i < n)%nat -> (j < n)%nat -> i <> j ->
  partial_mixed L i j eta (exp (eta i) * exp (eta j) / (sumf n w + 1) ^ 2).
Proof.
  intros Hi Hj Hij. unfold partial_mixed.
  apply (is_derive_ext (fun t => - (exp (eta i) / (sumf n w - exp (eta j) + exp t + 1))
    + (if (y =? i + 1)%nat then 1 else 0))).
  - intros t. symmetry. apply is_derive_unique.
    pose proof (mulnom_first (upd eta j t) i Hi) as H. unfold partial in H.
    rewrite upd_other in H by assumption.
    assert (E : (fun k => exp (upd eta j t k)) = upd w j (exp t)).
    { apply functional_extensionality. intros k. unfold upd. now destruct (k =? j)%nat. }
    rewrite E in H. rewrite sumf_upd in H by assumption. exact H.
  - pose proof (rest_nonneg eta j Hj). pose proof (exp_pos (eta j)).
    destruct (y =? i + 1)%nat; (auto_derive; [lra|]; field; lra).
Qed.
End MulnomDeriv.

(** Residual intervals. *)
Lemma lcp_sum y n w : (y <= n)%nat ->
  fold_left (fun s pi => if (pi <? y)%nat then s + nth pi (values n w) 0 else s) (seq 0 n) 0 = sumf y w.
Proof.
  intros Hy.
  assert (H : forall k, (k <= n)%nat ->
    fold_left (fun s pi => if (pi <? y)%nat then s + nth pi (values n w) 0 else s) (seq 0 k) 0
    = sumf (Nat.min k y) w).
  { induction k as [|k IH]; intros Hk; [reflexivity|].
    rewrite seq_S, fold_left_app, IH by lia. cbn [fold_left]. rewrite Nat.add_0_l.
    destruct (Nat.ltb_spec k y).
    - rewrite values_nth by lia. rewrite !Nat.min_l by lia. reflexivity.
    - rewrite !Nat.min_r by lia. reflexivity. }
  rewrite H by lia. now rewrite Nat.min_r.
Qed.

Lemma sumf_pos n w : (0 < n)%nat -> (forall i, (i < n)%nat -> 0 < w i) -> 0 < sumf n w.
Proof. intros Hn Hw. pose proof (sumf_pos_term n w 0 Hw Hn). pose proof (Hw 0%nat Hn). lra. Qed.

Lemma exp_lcp y n w : (forall i, (i < n)%nat -> 0 < w i) -> (1 <= y <= n)%nat ->
  exp (mulnom_lcp y (values n w)) = sumf y w / (sumf n w + 1).
Proof.
  intros Hw Hy. unfold mulnom_lcp. destruct (Nat.eqb_spec y 0); [lia|].
  rewrite values_length, lcp_sum, total_values by lia.
  assert (0 < sumf y w) by (apply sumf_pos; [lia|intros; apply Hw; lia]).
  assert (0 < sumf n w) by (apply sumf_pos; [lia|assumption]).
  rewrite <- ln_div by lra. apply exp_ln. apply Rdiv_lt_0_compat; lra.
Qed.

Lemma fold_find {A} (f : nat -> A) (c : nat -> nat) y is a :
  (forall i j, In i is -> In j is -> c i = c j -> i = j) ->
  (forall i, In i is -> c i = y -> fold_left (fun s i => if (y =? c i)%nat then f i else s) is a = f i) /\
  ((forall i, In i is -> c i <> y) -> fold_left (fun s i => if (y =? c i)%nat then f i else s) is a = a).
Proof.
  revert a. induction is as [|k is IH]; intros a Hinj; simpl; [split; [tauto|reflexivity]|].
  assert (Hinj' : forall i j, In i is -> In j is -> c i = c j -> i = j) by (intros; apply Hinj; auto using in_cons).
  split.
  - intros i [->|Hi] Hc.
    + destruct (Nat.eqb_spec y (c i)); [|congruence].
      destruct (in_dec Nat.eq_dec i is) as [Hin|Hni]; [now apply (proj1 (IH (f i) Hinj') i)|].
      apply IH; [assumption|]. intros j Hj Ej. apply Hni. replace i with j; [assumption|].
      apply Hinj; [now right|now left|congruence].
    + now apply IH.
  - intros H. destruct (Nat.eqb_spec y (c k)) as [E|_].
    + exfalso. apply (H k); [now left|congruence].
    + apply IH; [assumption|]. intros; apply H; now right.
Qed.

Lemma comp_nth n yi : (yi <= n)%nat ->
  nth yi (0%nat :: rev (seq 1 n)) 0%nat = match yi with O => 0 | _ => n + 1 - yi end%nat.
Proof.
  destruct yi as [|yi]; intros H; [reflexivity|]. cbn [nth].
  rewrite rev_nth by (rewrite seq_length; lia). rewrite seq_length, seq_nth by lia. lia.
Qed.

Lemma mulnom_interval_eq y n w : (1 <= n)%nat -> (y <= n)%nat ->
  mulnom_interval y (values n w)
  = match y with
    | O => (exp (mulnom_lcp n (values n w)), 1)
    | 1 => (0, exp (mulnom_lcp 1 (values n w)))
    | S k => (exp (mulnom_lcp k (values n w)), exp (mulnom_lcp (S k) (values n w)))
    end.
Proof.
  intros Hn Hy. unfold mulnom_interval. rewrite values_length.
  set (comp := 0%nat :: rev (seq 1 n)).
  assert (Lc : (length comp - 1 = n)%nat) by (unfold comp; simpl; rewrite rev_length, seq_length; lia).
  rewrite Lc.
  set (f := fun yi => (exp (mulnom_lcp (nth (yi + 1) comp 0%nat) (values n w)),
                       exp (mulnom_lcp (nth yi comp 0%nat) (values n w)))).
  set (c := fun yi => nth yi comp 0%nat).
  assert (Hc : forall i, (i <= n)%nat -> c i = match i with O => 0 | _ => n + 1 - i end%nat)
    by (intros; now apply comp_nth).
  assert (Hinj : forall i j, In i (seq 0 n) -> In j (seq 0 n) -> c i = c j -> i = j).
  { intros i j Hi Hj. apply in_seq in Hi, Hj. rewrite !Hc by lia. destruct i, j; lia. }
  destruct (fold_find f c y (seq 0 n) (0, 0) Hinj) as [F1 F2].
  destruct y as [|[|k]].
  - simpl (0 =? 1)%nat. cbv iota. fold f.
    transitivity (f 0%nat).
    + apply F1; [apply in_seq; lia|]. now rewrite Hc by lia.
    + unfold f. fold (c 0%nat). fold (c 1%nat). change (nth (0 + 1) comp 0%nat) with (c 1%nat).
      rewrite (Hc 1%nat), (Hc 0%nat) by lia.
      replace (n + 1 - 1)%nat with n by lia. f_equal. unfold mulnom_lcp. simpl. apply exp_0.
  - simpl (1 =? 1)%nat. cbv iota.
    change (fold_left _ (seq 0 n) (0, 0)) with (fold_left (fun s i => if (1 =? c i)%nat then f i else s) (seq 0 n) (0, 0)).
    rewrite F2; [reflexivity|]. intros i Hi. apply in_seq in Hi. rewrite Hc by lia. destruct i; lia.
  - destruct (Nat.eqb_spec (S (S k)) 1); [lia|].
    transitivity (f (n + 1 - S (S k))%nat).
    + apply F1; [apply in_seq; lia|]. rewrite Hc by lia.
      destruct (n + 1 - S (S k))%nat eqn:E; lia.
    + unfold f. change (nth (n + 1 - S (S k) + 1) comp 0%nat) with (c (n + 1 - S (S k) + 1)%nat).
      change (nth (n + 1 - S (S k)) comp 0%nat) with (c (n + 1 - S (S k))%nat).
      rewrite !Hc by lia. f_equal; do 2 f_equal.
      * destruct (n + 1 - S (S k) + 1)%nat eqn:E; lia.
      * destruct (n + 1 - S (S k))%nat eqn:E; lia.
Qed.
