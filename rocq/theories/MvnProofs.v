(** Lemmas about the layout of the multivariate Gaussian family. *)

From Coq Require Import Reals List Lra Lia Arith Bool FunctionalExtensionality.
From Coquelicot Require Import Coquelicot.
From Verif Require Import FamModel FamSpec FamProofs GlsModel GlsSpec GlsProofs GlsProofs2 MvnModel MvnSpec.
Import ListNotations.
Local Open Scope R_scope.

Lemma nsum_sumf n f : nsum n f = sumf n f.
Proof. apply total_sumf. Qed.

Lemma sumf_zero n f : (forall i, (i < n)%nat -> f i = 0) -> sumf n f = 0.
Proof.
  induction n as [|n IH]; intros H; [reflexivity|]. simpl. rewrite H by lia. rewrite IH; [ring|]. intros; apply H; lia.
Qed.

Lemma sumf_single n f k : (k < n)%nat -> (forall i, (i < n)%nat -> i <> k -> f i = 0) -> sumf n f = f k.
Proof.
  induction n as [|n IH]; intros Hk H; [lia|]. simpl. destruct (Nat.eq_dec k n) as [->|N].
  - rewrite sumf_zero; [ring|]. intros; apply H; lia.
  - rewrite IH by (lia || (intros; apply H; lia)). rewrite (H n) by lia. ring.
Qed.

Lemma sumf_plus n f g : sumf n (fun i => f i + g i) = sumf n f + sumf n g.
Proof. induction n as [|n IH]; simpl; [ring|]. rewrite IH. ring. Qed.

Lemma sumf_const n c : sumf n (fun _ => c) = INR n * c.
Proof. induction n as [|n IH]; [simpl; ring|]. rewrite S_INR. simpl sumf. rewrite IH. ring. Qed.

Lemma is_derive_sumf n (f : nat -> R -> R) (f' : nat -> R) (x : R) :
  (forall i, (i < n)%nat -> is_derive (f i) x (f' i)) ->
  is_derive (fun t => sumf n (fun i => f i t)) x (sumf n f').
Proof.
  induction n as [|n IH]; intros H; simpl.
  - apply (is_derive_const 0 x).
  - apply (is_derive_plus (fun t => sumf n (fun i => f i t)) (f n) x (sumf n f') (f' n)).
    + apply IH. intros; apply H; lia.
    + apply H. lia.
Qed.

(** ** Positions *)

Lemma off_S len k : (off len (S k) = off len k + len k)%nat.
Proof. unfold off. rewrite seq_S, fold_left_app. reflexivity. Qed.

Lemma off_mono len a b : (a <= b)%nat -> (off len a <= off len b)%nat.
Proof.
  intros H. induction H as [|b H IH]; [lia|]. rewrite off_S. lia.
Qed.

Lemma off_block len k m a : (k < m)%nat -> (a < len k)%nat -> (off len k + a < off len m)%nat.
Proof. intros Hk Ha. pose proof (off_mono len (S k) m ltac:(lia)). rewrite off_S in H. lia. Qed.

Lemma off_inj len k k' a a' : (a < len k)%nat -> (a' < len k')%nat ->
  (off len k + a = off len k' + a')%nat -> k = k' /\ a = a'.
Proof.
  intros Ha Ha' E. destruct (lt_eq_lt_dec k k') as [[H|H]|H].
  - pose proof (off_block len k k' a H Ha). lia.
  - subst. split; [reflexivity|lia].
  - pose proof (off_block len k' k a' H Ha'). lia.
Qed.

Lemma off_find len m t : (t < off len m)%nat ->
  exists k a, (k < m)%nat /\ (a < len k)%nat /\ t = (off len k + a)%nat.
Proof.
  induction m as [|m IH]; intros H.
  - unfold off in H. simpl in H. lia.
  - rewrite off_S in H. destruct (Nat.lt_ge_cases t (off len m)) as [L|L].
    + destruct (IH L) as (k & a & Hk & Ha & E). exists k, a. repeat split; auto; lia.
    + exists m, (t - off len m)%nat. repeat split; lia.
Qed.

Section Blocks.
Context {A : Type}.
Variables (s len : nat -> nat) (f : nat -> nat -> A).
Definition blocks (m : nat) : list A := flat_map (fun k => map (f k) (seq (s k) (len k))) (seq 0 m).

Lemma blocks_S m : blocks (S m) = blocks m ++ map (f m) (seq (s m) (len m)).
Proof. unfold blocks. rewrite seq_S, flat_map_app. simpl. now rewrite app_nil_r. Qed.

Lemma blocks_length m : length (blocks m) = off len m.
Proof.
  induction m as [|m IH]; [reflexivity|].
  rewrite blocks_S, app_length, map_length, seq_length, off_S. lia.
Qed.

Lemma blocks_nth m k a : (k < m)%nat -> (a < len k)%nat ->
  nth_error (blocks m) (off len k + a) = Some (f k (s k + a)%nat).
Proof.
  induction m as [|m IH]; intros Hk Ha; [lia|]. rewrite blocks_S.
  destruct (Nat.eq_dec k m) as [->|N].
  - rewrite nth_error_app2 by (rewrite blocks_length; lia). rewrite blocks_length.
    replace (off len m + a - off len m)%nat with a by lia.
    rewrite nth_error_map. rewrite (nth_error_nth' _ 0%nat) by now rewrite seq_length.
    now rewrite seq_nth by assumption.
  - rewrite nth_error_app1; [apply IH; lia|]. rewrite blocks_length. apply off_block; lia.
Qed.
End Blocks.

Lemma columns_blocks p m : columns p m = blocks (fun _ => 0%nat) p pair m.
Proof. induction m as [|m IH]; [reflexivity|]. simpl columns. rewrite IH, blocks_S. reflexivity. Qed.

(** ** Cells *)

Notation tri m := (fun i => (m - i)%nat).

Lemma thet_idx_blocks m : thet_idx m = blocks (fun i => i) (tri m) pair m.
Proof. reflexivity. Qed.

Lemma filter_seq_ge x : forall l a, filter (fun c => (x <=? c)%nat) (seq a l) = seq (Nat.max a x) (a + l - Nat.max a x).
Proof.
  induction l as [|l IH]; intros a; simpl.
  - replace (a + 0 - Nat.max a x)%nat with 0%nat by lia. reflexivity.
  - rewrite IH. destruct (Nat.leb_spec x a).
    + rewrite !Nat.max_l by lia. replace (S a + l - S a)%nat with l by lia.
      replace (a + S l - a)%nat with (S l) by lia. reflexivity.
    + replace (Nat.max (S a) x) with x by lia. replace (Nat.max a x) with x by lia. f_equal. lia.
Qed.

Lemma filter_map_pair x (l : list nat) :
  filter (fun rc => (fst rc <=? snd rc)%nat) (map (pair x) l) = map (pair x) (filter (fun c => (x <=? c)%nat) l).
Proof. induction l as [|c l IH]; [reflexivity|]. simpl. rewrite IH. now destruct (x <=? c)%nat. Qed.

Lemma thet_idx_cells m : thet_idx m = cells m.
Proof.
  unfold thet_idx, cells.
  generalize (seq 0 m) at 1 2. intros l.
  induction l as [|x l IH]; [reflexivity|]. cbn [flat_map list_prod].
  rewrite filter_app, <- IH. f_equal. rewrite filter_map_pair, filter_seq_ge.
  rewrite Nat.max_r by lia. reflexivity.
Qed.

Lemma off_tri m k : (k <= m)%nat -> (2 * off (tri m) k + k * (k - 1) = 2 * k * m)%nat.
Proof.
  induction k as [|k IH]; intros H; [reflexivity|]. rewrite off_S. specialize (IH ltac:(lia)).
  destruct k; simpl in *; [lia|]. nia.
Qed.

Lemma cells_length m : length (cells m) = extra_coef m.
Proof.
  rewrite <- thet_idx_cells, thet_idx_blocks, blocks_length. unfold extra_coef.
  pose proof (off_tri m m ltac:(lia)) as H.
  apply Nat.div_unique with 0%nat; [lia|].
  destruct m; [reflexivity|]. replace (S m - 1)%nat with m in H by lia. nia.
Qed.

Definition pos (m r c : nat) : nat := (off (tri m) r + (c - r))%nat.

Lemma cells_nth m r c : (r <= c < m)%nat -> nth_error (cells m) (pos m r c) = Some (r, c).
Proof.
  intros H. rewrite <- thet_idx_cells, thet_idx_blocks. unfold pos.
  rewrite (blocks_nth (fun i => i) (tri m) pair m r (c - r)) by lia. do 2 f_equal. lia.
Qed.

Lemma cells_pos m q r c : nth_error (cells m) q = Some (r, c) -> (r <= c < m)%nat /\ q = pos m r c.
Proof.
  intros H. assert (L : (q < off (tri m) m)%nat).
  { rewrite <- (blocks_length (fun i => i) (tri m) (@pair nat nat)), <- thet_idx_blocks, thet_idx_cells.
    apply nth_error_Some. congruence. }
  destruct (off_find _ _ _ L) as (k & a & Hk & Ha & ->).
  rewrite <- thet_idx_cells, thet_idx_blocks, (blocks_nth (fun i => i) (tri m)) in H by assumption.
  injection H as <- <-. split; [lia|]. unfold pos. lia.
Qed.

Lemma pos_inj m r c r' c' : (r <= c < m)%nat -> (r' <= c' < m)%nat -> pos m r c = pos m r' c' -> r = r' /\ c = c'.
Proof.
  intros H H' E. assert (A : (c - r < m - r)%nat) by lia. assert (B : (c' - r' < m - r')%nat) by lia.
  destruct (off_inj (tri m) r r' (c - r) (c' - r') A B E). lia.
Qed.

(** ** getR *)

Definition Rspec (m : nat) (theta : nat -> R) (r c : nat) : R :=
  if (r <=? c)%nat && (c <? m)%nat
  then (if (r =? c)%nat then exp (theta (pos m r c)) else theta (pos m r c)) else 0.

Lemma getR_loop m theta : forall k, (k <= m)%nat ->
  fold_left (getR_step m theta) (seq 0 k) (fun _ _ => 0, 0%nat, 0)
  = ((fun r c => if (r <? k)%nat then Rspec m theta r c else 0), off (tri m) k,
     sumf k (fun r => theta (pos m r r))).
Proof.
  induction k as [|k IH]; intros H; [reflexivity|].
  rewrite seq_S, fold_left_app, IH by lia. cbn [fold_left Nat.add]. unfold getR_step.
  assert (Ek : ((k =? k)%nat && (k <=? k)%nat && (k <? m)%nat) = true).
  { rewrite Nat.eqb_refl, Nat.leb_refl. simpl. apply Nat.ltb_lt. lia. }
  rewrite Ek. rewrite Nat.sub_diag. f_equal; [f_equal|].
  - apply functional_extensionality. intros r. apply functional_extensionality. intros c.
    unfold Rspec, pos.
    destruct (Nat.eqb_spec r k) as [->|N].
    + rewrite Nat.ltb_irrefl. destruct (Nat.ltb_spec k (S k)); [|lia]. simpl.
      destruct (Nat.eqb_spec c k) as [->|Nc].
      * rewrite Nat.leb_refl, Nat.eqb_refl, Nat.sub_diag. destruct (Nat.ltb_spec k m); [|lia]. reflexivity.
      * destruct (Nat.eqb_spec k c); [congruence|]. destruct ((k <=? c)%nat && (c <? m)%nat); reflexivity.
    + simpl. destruct (Nat.ltb_spec r k), (Nat.ltb_spec r (S k)); try lia; reflexivity.
  - now rewrite off_S.
  - simpl sumf. unfold pos. rewrite Nat.sub_diag. reflexivity.
Qed.

Lemma getR_eq m theta : getR m theta = (Rspec m theta, sumf m (fun r => theta (pos m r r))).
Proof.
  unfold getR. rewrite getR_loop by lia. f_equal.
  apply functional_extensionality. intros r. apply functional_extensionality. intros c.
  unfold Rspec. destruct (Nat.ltb_spec r m); [reflexivity|].
  destruct (Nat.leb_spec r c), (Nat.ltb_spec c m); try lia; reflexivity.
Qed.

(** ** Determinant of a triangular matrix *)

Fixpoint prodf (n : nat) (f : nat -> R) : R := match n with O => 1 | S k => prodf k f * f k end.

Lemma prodf_shift n f : prodf (S n) f = f 0%nat * prodf n (fun i => f (S i)).
Proof. induction n as [|n IH]; [simpl; ring|]. change (prodf (S (S n)) f) with (prodf (S n) f * f (S n)). rewrite IH. simpl. ring. Qed.

Lemma det_upper n : forall A, (forall r c, (c < r)%nat -> (r < n)%nat -> A r c = 0) ->
  det n A = prodf n (fun i => A i i).
Proof.
  induction n as [|n IH]; intros A HA; [reflexivity|].
  rewrite prodf_shift. cbn [det].
  rewrite (sumf_single (S n) _ 0%nat); [|lia|].
  - rewrite IH.
    + simpl. ring.
    + intros r c Hc Hr. simpl. apply HA; lia.
  - intros i Hi Hn. rewrite (HA i 0%nat) by lia. ring.
Qed.

Lemma prodf_exp n f : prodf n (fun i => exp (f i)) = exp (sumf n f).
Proof. induction n as [|n IH]; simpl; [now rewrite exp_0|]. now rewrite IH, exp_plus. Qed.

Lemma prodf_ext n f g : (forall i, (i < n)%nat -> f i = g i) -> prodf n f = prodf n g.
Proof.
  induction n as [|n IH]; intros H; [reflexivity|]. simpl. rewrite H by lia. f_equal. apply IH. intros; apply H; lia.
Qed.
