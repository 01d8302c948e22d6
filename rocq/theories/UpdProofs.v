(** Lemmas for UpdProps: the loop keeps fit and coefficients together. *)

From Coq Require Import List Bool Arith ZArith Reals Lra Lia.
From Verif Require Import Ext StepModel StepSpec StepProofs AsmModel AsmSpec AsmProofs3 AsmProps UpdModel UpdSpec.
Import ListNotations.
Local Open Scope R_scope.

Lemma row_times_dot X b r : row_times X b r = dot r X b.
Proof. revert b. induction X as [|x X IH]; intros [|c b]; cbn; [reflexivity..|]. now rewrite IH. Qed.

Lemma mat_times_predictor n X b : mat_times n X b = predictor n X b.
Proof. apply map_ext. intros r. apply row_times_dot. Qed.

Lemma sum_over_map ks f : sum_over ks f = fold_right Rplus 0 (map f ks).
Proof. induction ks as [|k ks IH]; cbn; [reflexivity|]. now rewrite IH. Qed.

Lemma sum_over_ext ks f g : (forall k, In k ks -> f k = g k) -> sum_over ks f = sum_over ks g.
Proof.
  induction ks as [|k ks IH]; intros H; cbn; [reflexivity|].
  rewrite (H k) by now left. rewrite IH; [reflexivity|]. intros k' I. apply H. now right.
Qed.

Lemma sum_over_scale ks a f : a * sum_over ks f = sum_over ks (fun k => a * f k).
Proof. induction ks as [|k ks IH]; cbn; [ring|]. rewrite <- IH. ring. Qed.

Lemma quad_penalty S c : quad S c = penalty S c.
Proof.
  unfold quad, penalty. rewrite sum_over_map. f_equal. apply map_ext. intros p.
  rewrite sum_over_scale, sum_over_map. f_equal. apply map_ext. intros q. ring.
Qed.

(** Sums over all indices of something that vanishes outside of a part of them. *)
Lemma sum_over_filter keepb ks f : (forall k, In k ks -> keepb k = false -> f k = 0) ->
  sum_over ks f = sum_over (filter keepb ks) f.
Proof.
  induction ks as [|k ks IH]; intros H; cbn; [reflexivity|].
  rewrite IH by (intros; apply H; [now right|assumption]).
  destruct (keepb k) eqn:E; cbn; [reflexivity|]. rewrite H by (auto; now left). ring.
Qed.

Lemma sum_over_nth keep f : sum_over (seq 0 (length keep)) (fun a => f (nth a keep 0%nat)) = sum_over keep f.
Proof.
  induction keep as [|k keep IH]; cbn; [reflexivity|]. f_equal. rewrite <- IH.
  clear IH. rewrite <- seq_shift. rewrite !sum_over_map, map_map. reflexivity.
Qed.

(** ** Padding *)
Lemma pad_length {A} (z : A) n keep c : length (pad z n keep c) = n.
Proof.
  unfold pad. rewrite <- (repeat_length z n) at 2. generalize (repeat z n). generalize (combine keep c). intros l.
  induction l as [|p l IH]; intros v; cbn; [reflexivity|]. rewrite IH. apply set_nth_length.
Qed.

Lemma pad_other {A} (d : A) : forall ps v k, (forall p, In p ps -> fst p <> k) ->
  nth k (fold_left (fun l p => set_nth (fst p) (snd p) l) ps v) d = nth k v d.
Proof.
  induction ps as [|p ps IH]; intros v k H; cbn; [reflexivity|]. rewrite IH by (intros; apply H; now right).
  assert (N : fst p <> k) by (apply H; now left).
  destruct (le_lt_dec (length v) (fst p)) as [L|L].
  - assert (E : set_nth (fst p) (snd p) v = v).
    { clear -L. revert L. generalize (fst p). induction v as [|x v IH]; intros [|i] L; cbn in *; try reflexivity; [lia|]. f_equal. apply IH. lia. }
    now rewrite E.
  - rewrite nth_set_nth by assumption. destruct (Nat.eq_dec k (fst p)); [congruence|reflexivity].
Qed.

Lemma pad_kept {A} (d z : A) : forall keep c n a, NoDup keep -> (forall k, In k keep -> (k < n)%nat) -> length c = length keep ->
  (a < length keep)%nat -> nth (nth a keep 0%nat) (pad z n keep c) d = nth a c d.
Proof.
  intros keep c n a. unfold pad. assert (L : length (repeat z n) = n) by apply repeat_length. revert L. generalize (repeat z n) as v.
  revert c a. induction keep as [|k keep IH]; intros c a v L ND Hn Hc Ha; [cbn in Ha; lia|].
  destruct c as [|x c]; [discriminate|]. cbn [combine fold_left fst snd]. inversion ND as [|? ? N1 N2]; subst.
  destruct a as [|a]; cbn [nth].
  - rewrite pad_other.
    + rewrite nth_set_nth by (apply Hn; now left).
      destruct (Nat.eq_dec k k); [reflexivity|congruence].
    + intros [p q] I E. apply in_combine_l in I. cbn in E. congruence.
  - apply IH; auto.
    + now rewrite set_nth_length.
    + intros k' I. apply Hn. now right.
    + cbn in Ha. lia.
Qed.

Lemma pad_dropped {A} (z : A) n keep c k : (k < n)%nat -> ~ In k keep -> nth k (pad z n keep c) z = z.
Proof.
  intros Hk N. unfold pad. rewrite pad_other.
  - apply nth_repeat.
  - intros [p q] I E. apply in_combine_l in I. cbn in E. congruence.
Qed.

Lemma take_length {A} (d : A) l keep : length (take d l keep) = length keep.
Proof. apply map_length. Qed.

Lemma take_nth {A} (d : A) l keep a : (a < length keep)%nat -> nth a (take d l keep) d = nth (nth a keep 0%nat) l d.
Proof.
  intros H. unfold take. rewrite nth_indep with (d' := nth 0 l d) by (now rewrite map_length).
  now rewrite map_nth with (f := fun k => nth k l d).
Qed.

Lemma take_pad n drop c : let keep := keep_of n drop in length c = length keep -> take 0 (pad 0 n keep c) keep = c.
Proof.
  intros keep H. apply nth_ext with (d := 0) (d' := 0); [now rewrite take_length|].
  intros a Ha. rewrite take_length in Ha. rewrite take_nth by assumption. apply pad_kept; auto.
  - apply keep_nodup.
  - intros k I. apply keep_in in I. tauto.
Qed.

Lemma quad_reduced S n drop c : let keep := keep_of n drop in length c = length keep ->
  quad (fun a b => S (nth a keep 0%nat) (nth b keep 0%nat)) c = quad S (pad 0 n keep c).
Proof.
  intros keep H. unfold quad. rewrite pad_length, H.
  assert (K : forall a, (a < length keep)%nat -> nth a c 0 = nth (nth a keep 0%nat) (pad 0 n keep c) 0).
  { intros a Ha. symmetry. apply pad_kept; auto; [apply keep_nodup|]. intros k I. apply keep_in in I. tauto. }
  assert (Z : forall k, In k (seq 0 n) -> negb (existsb (Nat.eqb k) drop) = false -> nth k (pad 0 n keep c) 0 = 0).
  { intros k I E. apply in_seq in I. apply pad_dropped; [lia|]. intros C. apply filter_In in C. rewrite E in C. destruct C. discriminate. }
  set (full := pad 0 n keep c) in *.
  assert (In1 : forall a, sum_over (seq 0 n) (fun b => S a b * nth b full 0) =
     sum_over (seq 0 (length keep)) (fun b => S a (nth b keep 0%nat) * nth b c 0)).
  { intros a. rewrite (sum_over_filter (fun k => negb (existsb (Nat.eqb k) drop))) by (intros k I E; rewrite (Z k I E); ring).
    fold (keep_of n drop). fold keep. rewrite <- sum_over_nth. apply sum_over_ext. intros b I. apply in_seq in I. rewrite (K b) by lia. reflexivity. }
  rewrite (sum_over_filter (fun k => negb (existsb (Nat.eqb k) drop)) (seq 0 n)) by (intros k I E; rewrite (Z k I E); ring).
  fold (keep_of n drop). fold keep. match goal with |- _ = sum_over keep ?f => rewrite <- (sum_over_nth keep f) end.
  apply sum_over_ext. intros a I. apply in_seq in I.
  rewrite In1, <- K by lia. reflexivity.
Qed.

(** Split positions *)
Lemma cuts_csum : forall sz p, sz <> [] -> cuts p sz = csum p (removelast sz).
Proof.
  induction sz as [|n sz IH]; intros p NE; [congruence|]. destruct sz as [|m sz]; [reflexivity|].
  change (removelast (n :: m :: sz)) with (n :: removelast (m :: sz)).
  change (cuts p (n :: m :: sz)) with ((p + n)%nat :: cuts (p + n) (m :: sz)). rewrite IH by discriminate. cbn [csum].
  f_equal; [lia|]. f_equal. lia.
Qed.

Lemma remaining_keep n drop : remaining n drop = keep_of n drop.
Proof.
  apply filter_ext. intros k. destruct (in_dec Nat.eq_dec k drop) as [I|I]; symmetry.
  - apply negb_false_iff. apply existsb_exists. exists k. split; [assumption|apply Nat.eqb_refl].
  - apply negb_true_iff. apply Bool.not_true_is_false. intros C. apply existsb_exists in C as (x & I' & Q). apply Nat.eqb_eq in Q. now subst.
Qed.
