From Coq Require Import List Arith Bool Reals Lra Lia.
From Verif Require Import ArModel ArSpec.
Import ListNotations.
Local Open Scope R_scope.

(** ** Sums *)
Lemma rsum_ext n f g : (forall i, (i < n)%nat -> f i = g i) -> rsum n f = rsum n g.
Proof. induction n as [|n IH]; intros H; simpl; [reflexivity|]. rewrite IH, H by (intros; try apply H; lia). reflexivity. Qed.
Lemma rsum_zero n f : (forall i, (i < n)%nat -> f i = 0) -> rsum n f = 0.
Proof. induction n as [|n IH]; intros H; simpl; [reflexivity|]. rewrite IH, H by (intros; try apply H; lia). lra. Qed.
Lemma rsum_plus n f g : rsum n (fun i => f i + g i) = rsum n f + rsum n g.
Proof. induction n as [|n IH]; simpl; [lra|]. rewrite IH. lra. Qed.
Lemma rsum_scal n c f : rsum n (fun i => c * f i) = c * rsum n f.
Proof. induction n as [|n IH]; simpl; [lra|]. rewrite IH. lra. Qed.
Lemma rsum_single n k f : (k < n)%nat -> rsum n (fun i => if (i =? k)%nat then f i else 0) = f k.
Proof.
  induction n as [|n IH]; intros H; [lia|]. simpl. destruct (Nat.eqb_spec n k) as [->|Hn].
  - rewrite rsum_zero; [lra|]. intros i Hi. destruct (Nat.eqb_spec i k); [lia|reflexivity].
  - rewrite IH by lia. lra.
Qed.
Lemma rsum_fold n f : rsum n f = fold_right Rplus 0 (map f (seq 0 n)).
Proof.
  induction n as [|n IH]; [reflexivity|]. rewrite seq_S, map_app, fold_right_app. simpl. rewrite IH.
  generalize (map f (seq 0 n)) as l. induction l as [|x l IHl]; simpl; lra.
Qed.

(** ** The bidiagonal transform *)
Lemma banded_sum n d0 d1 i f : (i < n)%nat ->
  rsum n (fun k => banded d0 d1 k i * f k) = apply_tr d0 d1 f i.
Proof.
  intros Hi.
  rewrite (rsum_ext n _ (fun k => (if (k =? i)%nat then nth k d0 0 * f k else 0) +
     (if (k =? i - 1)%nat then (match i with O => 0 | S _ => nth k d1 0 * f k end) else 0))).
  - rewrite rsum_plus, (rsum_single n i (fun k => nth k d0 0 * f k)) by assumption.
    rewrite (rsum_single n (i - 1) (fun k => match i with O => 0 | S _ => nth k d1 0 * f k end)) by lia.
    unfold apply_tr. destruct i as [|i]; simpl; [lra|]. rewrite Nat.sub_0_r. lra.
  - intros k Hk. unfold banded. destruct (Nat.eqb_spec k i) as [->|Hn].
    + destruct i as [|i]; [simpl; lra|]. destruct (Nat.eqb_spec (S i) (S i - 1)); [lia|lra].
    + destruct (Nat.eqb_spec (S k) i) as [<-|Hn2].
      * destruct (Nat.eqb_spec k (S k - 1)); [lra|lia].
      * destruct i as [|i]; [destruct (k =? 0 - 1)%nat; lra|].
        destruct (Nat.eqb_spec k (S i - 1)); [lia|lra].
Qed.

Section Abstract.
Variables (n : nat) (rho : R) (ser : nat -> nat) (b : nat -> bool) (d0 d1 : list R).
Hypothesis Hrho : -1 < rho < 1.
Hypothesis Hmono : forall j k, (j <= k)%nat -> (k < n)%nat -> (ser j <= ser k)%nat.
Hypothesis Hb0 : b 0%nat = true.
Hypothesis Hb : forall k, (S k < n)%nat -> b (S k) = true <-> ser (S k) <> ser k.
Hypothesis Hd0 : forall k, (k < n)%nat -> nth k d0 0 = if b k then 1 else ar_w rho.
Hypothesis Hd1 : forall k, (S k < n)%nat -> nth k d1 0 = if b (S k) then 0 else - rho * ar_w rho.

Let s := sqrt (1 - rho * rho).
Lemma s_pos : 0 < s.
Proof. apply sqrt_lt_R0. nra. Qed.
Lemma s_sq : s * s = 1 - rho * rho.
Proof. apply sqrt_sqrt. nra. Qed.
Lemma w_s : ar_w rho = / s.
Proof. unfold ar_w. fold s. unfold Rdiv. ring. Qed.

Lemma opens k : (k < n)%nat -> b k = true <-> opens_series ser k.
Proof.
  intros Hk. destruct k as [|k].
  - split; [intros _ j Hj; lia|intros _; assumption].
  - rewrite Hb by assumption. split.
    + intros Hne j Hj Heq. pose proof (Hmono j k ltac:(lia) ltac:(lia)).
      pose proof (Hmono k (S k) ltac:(lia) Hk). lia.
    + intros Ho Heq. apply (Ho k); [lia|now symmetry].
Qed.

Definition cc (k : nat) : R := if b k then 1 else s.
Definition U (i l : nat) : R := if (l <? i)%nat then 0 else
  if Nat.eq_dec (ser i) (ser l) then cc i * rho ^ (l - i) else 0.

Lemma first_side i l : (i < n)%nat -> (l < n)%nat ->
  apply_tr d0 d1 (fun k => ar1_cor rho ser k l) i = U i l.
Proof.
  intros Hi Hl. unfold U, cc.
  assert (Hown : (l <? i)%nat = false -> ar1_cor rho ser i l =
     if Nat.eq_dec (ser i) (ser l) then rho ^ (l - i) else 0).
  { intros H. apply Nat.ltb_ge in H. unfold ar1_cor. destruct (Nat.eq_dec (ser i) (ser l)); [|reflexivity].
    f_equal. lia. }
  destruct (b i) eqn:Eb.
  - assert (apply_tr d0 d1 (fun k => ar1_cor rho ser k l) i = ar1_cor rho ser i l) as ->.
    { destruct i as [|i]; simpl; [rewrite Hd0, Hb0 by lia; lra|].
      rewrite Hd0, Hd1 by lia. rewrite Eb. lra. }
    destruct (l <? i)%nat eqn:El.
    + apply Nat.ltb_lt in El. apply opens in Eb; [|assumption]. unfold ar1_cor.
      destruct (Nat.eq_dec (ser i) (ser l)) as [E|_]; [|reflexivity]. exfalso. apply (Eb l); auto.
    + rewrite (Hown eq_refl). destruct (Nat.eq_dec (ser i) (ser l)); lra.
  - destruct i as [|i]; [congruence|].
    assert (Es : ser (S i) = ser i).
    { destruct (Nat.eq_dec (ser (S i)) (ser i)) as [E|E]; [assumption|]. apply Hb in E; [congruence|assumption]. }
    simpl apply_tr. rewrite Hd0, Hd1, Eb, w_s by lia.
    destruct (l <? S i)%nat eqn:El.
    + apply Nat.ltb_lt in El. unfold ar1_cor. rewrite Es.
      destruct (Nat.eq_dec (ser i) (ser l)); [|ring].
      replace (Nat.max (S i) l - Nat.min (S i) l)%nat with (S (i - l)) by lia.
      replace (Nat.max i l - Nat.min i l)%nat with (i - l)%nat by lia. simpl. ring.
    + rewrite (Hown eq_refl). unfold ar1_cor. rewrite Es. apply Nat.ltb_ge in El.
      destruct (Nat.eq_dec (ser i) (ser l)); [|ring].
      replace (Nat.max i l - Nat.min i l)%nat with (S (l - S i)) by lia. simpl (rho ^ S _).
      replace (- rho * / s * (rho * rho ^ (l - S i)) + / s * rho ^ (l - S i))
        with (/ s * (1 - rho * rho) * rho ^ (l - S i)) by ring.
      rewrite <- s_sq. field. apply Rgt_not_eq, s_pos.
Qed.

Lemma second_side i j : (i < n)%nat -> (j < n)%nat ->
  apply_tr d0 d1 (U i) j = if (i =? j)%nat then 1 else 0.
Proof.
  intros Hi Hj.
  assert (Hdiag : nth i d0 0 * U i i = 1).
  { unfold U. rewrite Nat.ltb_irrefl, Nat.sub_diag. destruct (Nat.eq_dec (ser i) (ser i)); [|congruence].
    rewrite Hd0 by assumption. unfold cc. destruct (b i); [simpl; ring|]. rewrite w_s. simpl. field.
    apply Rgt_not_eq, s_pos. }
  destruct j as [|j].
  - simpl. destruct i as [|i]; [exact Hdiag|]. simpl. unfold U. simpl. ring.
  - simpl apply_tr. destruct (Nat.eqb_spec i (S j)) as [->|Hn].
    + rewrite Hdiag. unfold U. replace (j <? S j)%nat with true by (symmetry; apply Nat.ltb_lt; lia). ring.
    + destruct (Nat.lt_ge_cases (S j) i) as [H|H].
      * unfold U. replace (j <? i)%nat with true by (symmetry; apply Nat.ltb_lt; lia).
        replace (S j <? i)%nat with true by (symmetry; apply Nat.ltb_lt; lia). ring.
      * unfold U. replace (j <? i)%nat with false by (symmetry; apply Nat.ltb_ge; lia).
        replace (S j <? i)%nat with false by (symmetry; apply Nat.ltb_ge; lia).
        rewrite Hd1, Hd0 by lia. destruct (b (S j)) eqn:Eb.
        -- apply opens in Eb; [|assumption].
           destruct (Nat.eq_dec (ser i) (ser (S j))) as [E|E]; [exfalso; apply (Eb i); [lia|assumption]|ring].
        -- assert (Es : ser (S j) = ser j).
           { destruct (Nat.eq_dec (ser (S j)) (ser j)) as [E|E]; [assumption|]. apply Hb in E; [congruence|assumption]. }
           rewrite Es. destruct (Nat.eq_dec (ser i) (ser j)); [|ring].
           replace (S j - i)%nat with (S (j - i)) by lia. simpl. ring.
Qed.

Lemma whitens i j : (i < n)%nat -> (j < n)%nat ->
  cov_after n (banded d0 d1) (ar1_cor rho ser) i j = if (i =? j)%nat then 1 else 0.
Proof.
  intros Hi Hj. unfold cov_after.
  assert (Hswap : forall m k f, rsum m (fun a => rsum k (fun c => f a c)) = rsum k (fun c => rsum m (fun a => f a c))).
  { induction m as [|m IH]; intros k f; simpl; [symmetry; now apply rsum_zero|].
    rewrite IH, <- rsum_plus. reflexivity. }
  rewrite Hswap. rewrite <- (second_side i j) by assumption.
  rewrite <- (banded_sum n d0 d1 j (U i)) by assumption.
  apply rsum_ext. intros l Hl. rewrite <- (first_side i l) by assumption.
  rewrite <- (banded_sum n d0 d1 i) by assumption. rewrite <- rsum_scal. apply rsum_ext.
  intros k Hk. ring.
Qed.

Lemma innovations u e i : (i < n)%nat -> ar1_process n rho ser u e ->
  transformed n (banded d0 d1) e i = u i.
Proof.
  intros Hi Hp. unfold transformed. rewrite banded_sum by assumption.
  destruct (Hp i Hi) as [H1 H2]. destruct (b i) eqn:Eb.
  - rewrite <- H1 by (apply opens; assumption).
    destruct i as [|i]; simpl; [rewrite Hd0, Hb0 by lia; ring|]. rewrite Hd0, Hd1, Eb by lia. ring.
  - destruct H2 as (j & -> & E). { intros Ho. apply opens in Ho; [congruence|assumption]. }
    simpl. rewrite Hd0, Hd1, Eb, w_s by lia. rewrite E. fold s. field. apply Rgt_not_eq, s_pos.
Qed.

(** Log determinant. *)
Fixpoint dprod (m : nat) (f : nat -> R) : R := match m with O => 1 | S k => f O * dprod k (fun i => f (S i)) end.

Lemma det_upper : forall m A, (forall i j, (j < i)%nat -> A i j = 0) -> det m A = dprod m (fun i => A i i).
Proof.
  induction m as [|m IH]; intros A HA; [reflexivity|]. cbn [det dprod].
  rewrite (rsum_ext (S m) _ (fun i => if (i =? 0)%nat then (-1) ^ i * A i O * det m (minor i A) else 0)).
  - rewrite (rsum_single (S m) 0 (fun i => (-1) ^ i * A i O * det m (minor i A))) by lia.
    rewrite IH by (intros i j Hij; unfold minor; simpl; apply HA; lia).
    change (fun i : nat => minor 0 A i i) with (fun i : nat => A (S i) (S i)). rewrite pow_O. lra.
  - intros i Hi. destruct (Nat.eqb_spec i 0) as [->|Hn]; [reflexivity|]. rewrite HA by lia. ring.
Qed.

Lemma dprod_ln m f : (forall i, (i < m)%nat -> 0 < f i) -> ln (dprod m f) = rsum m (fun i => ln (f i)) /\ 0 < dprod m f.
Proof.
  revert f. induction m as [|m IH]; intros f H; simpl; [split; [apply ln_1|lra]|].
  destruct (IH (fun i => f (S i))) as [E P]; [intros; apply H; lia|].
  assert (0 < f O) by (apply H; lia). split; [|nra]. rewrite ln_mult, E by assumption.
  clear -E. assert (Hs : forall q (g : nat -> R), rsum (S q) g = g O + rsum q (fun i => g (S i))).
  { induction q as [|q IHq]; intros g; [simpl; ring|]. change (rsum (S (S q)) g) with (rsum (S q) g + g (S q)).
    rewrite IHq. simpl. ring. }
  change (rsum m (fun i => ln (f i)) + ln (f m)) with (rsum (S m) (fun i => ln (f i))). rewrite Hs. reflexivity.
Qed.

Lemma d0_pos i : (i < n)%nat -> 0 < nth i d0 0.
Proof.
  intros Hi. rewrite Hd0 by assumption. destruct (b i); [lra|]. rewrite w_s. apply Rinv_0_lt_compat, s_pos.
Qed.

Lemma logdet : ln (det n (banded d0 d1)) =
  rsum n (fun i => if b i then 0 else ln (ar_w rho)).
Proof.
  rewrite det_upper.
  - destruct (dprod_ln n (fun i => banded d0 d1 i i)) as [-> _].
    + intros i Hi. unfold banded. rewrite Nat.eqb_refl. now apply d0_pos.
    + apply rsum_ext. intros i Hi. unfold banded. rewrite Nat.eqb_refl, Hd0 by assumption.
      destruct (b i); [apply ln_1|reflexivity].
  - intros i j Hij. unfold banded. destruct (Nat.eqb_spec i j); [lia|]. destruct (Nat.eqb_spec (S i) j); [lia|reflexivity].
Qed.

(** The change of variables, row by row. *)
Lemma density_row r scale i : (i < n)%nat -> 0 < scale ->
  log_normal_density (apply_tr d0 d1 r i) 0 scale + (if b i then 0 else ln (ar_w rho)) =
  if b i then log_normal_density (r i) 0 scale
  else log_normal_density (r i) (rho * r (i - 1)%nat) ((1 - rho * rho) * scale).
Proof.
  intros Hi Hs. destruct (b i) eqn:Eb.
  - assert (apply_tr d0 d1 r i = r i) as ->; [|ring].
    destruct i as [|i]; simpl; [rewrite Hd0, Hb0 by lia; ring|]. rewrite Hd0, Hd1, Eb by lia. ring.
  - destruct i as [|i]; [congruence|]. simpl apply_tr. rewrite Hd0, Hd1, Eb, w_s by lia.
    replace (S i - 1)%nat with i by lia. unfold log_normal_density. rewrite <- s_sq.
    pose proof s_pos as Hsp. pose proof PI_RGT_0 as Hpi.
    rewrite ln_Rinv by assumption.
    replace (2 * PI * (s * s * scale)) with ((2 * PI * scale) * (s * s)) by ring.
    rewrite (ln_mult (2 * PI * scale) (s * s)) by nra. rewrite (ln_mult s s) by assumption.
    field. split; lra.
Qed.
End Abstract.
