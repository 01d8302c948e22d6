(** Residuals are ratios of sums over segmentations. *)

From Coq Require Import List Bool Arith Reals Lia Lra.
From Verif Require Import HsmmModel HsmmSpec HsmmProofs HsmmProofs2 HsmmProofs3 HsmmProofs5 ResidModel ResidSpec.
Import ListNotations.
Local Open Scope R_scope.

(** All cells. *)
Definition full (m : tables R) (f : nat -> nat -> R) : R := dj_sum m f.

Lemma full_ext m f g : (forall d j, (d < D m - 1)%nat -> (j < n_S m)%nat -> f d j = g d j) -> full m f = full m g.
Proof. intros H. apply nsum_ext. intros d Hd. apply nsum_ext. intros j Hj. apply H; assumption. Qed.
Lemma full_div m f c : full m (fun d j => f d j / c) = full m f / c.
Proof. unfold full, dj_sum, Rdiv. rewrite <- nsum_scal_r. apply nsum_ext. intros d _. apply nsum_scal_r. Qed.

Lemma full_until m n f : full (until m n) f = full m f. Proof. reflexivity. Qed.
Lemma full_replaced m t f h : full (replaced m t f) h = full m h. Proof. reflexivity. Qed.

Definition open_end (m : tables R) (t : nat) : Prop := ends_with_last m = false /\ ((t < n_T m - 1)%nat \/ ends_in_last m = false).

Lemma counts_open (m : tables R) t d j : open_end m t -> counts m t d j = true.
Proof.
  intros [E1 E2]. unfold counts. rewrite E1, orb_true_r. destruct E2 as [H|H].
  - apply Nat.ltb_lt in H. rewrite H. reflexivity.
  - rewrite H, orb_true_r. reflexivity.
Qed.
Lemma open_before m t : (S t < n_T m)%nat -> open_end m (S t) -> open_end m t.
Proof. intros H [E _]. split; [exact E|]. left. lia. Qed.
Lemma sum_open m t f : open_end m t -> sum_counted m t f = full m f.
Proof. intros H. apply nsum_ext. intros d _. apply nsum_ext. intros j _. rewrite counts_open by exact H. reflexivity. Qed.
Lemma range_open (m : tables R) t d : ends_with_last m = false -> in_range m t d = true.
Proof. intros H. unfold in_range. rewrite H. apply orb_true_r. Qed.

(** Cells only depend on what the tables hold for their time point. *)
Lemma raw_cell_same (m m' : tables R) t prev d j :
  hmp m = hmp m' -> event_width m = event_width m' -> D m = D m' -> n_S m = n_S m' -> starts_with_first m = starts_with_first m' ->
  tvdtpi m = tvdtpi m' -> dur m = dur m' -> tr m = tr m' -> (forall k j, b m t k j = b m' t k j) ->
  in_range m t d = true -> in_range m' t d = true ->
  forall prev', (forall d j, prev d j = prev' d j) -> raw_cell m t prev d j = raw_cell m' t prev' d j.
Proof.
  intros H1 H2 H3 H4 H5 H6 H7 H8 Hb R1 R2 prev' Hp. unfold raw_cell. rewrite R1, R2. unfold b_cont, b_first, ds, T, later.
  rewrite H1, H2, H3, H4, H5, H6, H7, H8, !Hb. f_equal.
  - destruct (_ <=? _)%nat; [|reflexivity]. destruct (hmp m'); [destruct (Nat.odd j); [destruct (_ <=? _)%nat|]|]; rewrite ?Hb, ?Hp; reflexivity.
  - f_equal. unfold nsum. f_equal. apply map_ext. intros i. destruct (_ =? _)%nat; [reflexivity|]. rewrite Hp. reflexivity.
Qed.

Lemma alpha_until m n t d j : ends_with_last m = false -> alpha m t d j = alpha (until m n) t d j.
Proof.
  intros E. revert d j. induction t as [|t IH]; intros d j; [reflexivity|]. cbn [alpha].
  apply raw_cell_same; try reflexivity; [apply range_open; exact E|apply range_open; reflexivity|exact IH].
Qed.
Lemma alpha_replaced m t f u d j : ends_with_last m = false -> (u < t)%nat -> alpha (replaced m t f) u d j = alpha m u d j.
Proof.
  intros E. revert d j. induction u as [|u IH]; intros d j Hu.
  - cbn [alpha]. unfold first_cell. cbn [replaced pi b]. destruct (Nat.eqb_spec 0 t); [lia|]. reflexivity.
  - cbn [alpha]. apply raw_cell_same; try reflexivity.
    + intros k i. cbn [replaced b]. destruct (Nat.eqb_spec (S u) t); [lia|reflexivity].
    + apply range_open. exact E.
    + apply range_open. exact E.
    + intros d' j'. apply IH. lia.
Qed.

Section Series.
Variable m : tables R.
Hypothesis Hb : fixed_bumps 0 m.
Hypothesis Ew : ends_with_last m = false.

Lemma until_bumps n : fixed_bumps 0 (until m n). Proof. exact Hb. Qed.

(** Sum of the weights of all segmentations of the first time points. *)
Lemma past_sum t L : lists_segmentations (until m (S t)) L -> lsum L (weight R 1 Rmult (until m (S t))) = full m (alpha m t).
Proof.
  intros H. rewrite (total_any (until m (S t)) L) by (try exact H; cbn; lia). rewrite <- (total_alpha (until m (S t)) (until_bumps (S t))) by (cbn; lia).
  cbn [until n_T]. replace (S t - 1)%nat with t by lia.
  rewrite sum_open by (split; [reflexivity|right; reflexivity]). rewrite full_until. apply full_ext. intros d j _ _. symmetry. apply alpha_until. exact Ew.
Qed.
Lemma now_sum t f L : lists_segmentations (until m (S t)) L ->
  lsum L (weight R 1 Rmult (replaced (until m (S t)) t f)) = full m (alpha (replaced (until m (S t)) t f) t).
Proof.
  intros H. assert (H' : lists_segmentations (replaced (until m (S t)) t f) L) by exact H.
  rewrite (total_any (replaced (until m (S t)) t f) L) by (try exact H'; cbn; lia).
  rewrite <- (total_alpha (replaced (until m (S t)) t f) (until_bumps (S t))) by (cbn; lia). cbn [until replaced n_T]. replace (S t - 1)%nat with t by lia.
  rewrite sum_open by (split; [reflexivity|right; reflexivity]). reflexivity.
Qed.

(** The cell at the time point whose factor is replaced. *)
Definition cell_with (t : nat) (f : nat -> nat -> R) (prev : nat -> nat -> R) (d j : nat) : R :=
  raw_cell (replaced (until m (S t)) t f) t prev d j.
Lemma now_step t f : full m (alpha (replaced (until m (S (S t))) (S t) f) (S t)) = full m (cell_with (S t) f (alpha m t)).
Proof.
  apply full_ext. intros d j _ _. cbn [alpha]. unfold cell_with. apply raw_cell_same; try reflexivity; try (apply range_open; reflexivity).
  intros d' j'. rewrite alpha_replaced by (try reflexivity; lia). symmetry. apply alpha_until. exact Ew.
Qed.
Lemma cell_scal t f prev prev' c d j : (forall d j, (d < D m - 1)%nat -> (j < n_S m)%nat -> prev d j = prev' d j / c) ->
  (d < D m - 1)%nat -> (j < n_S m)%nat -> cell_with t f prev d j = cell_with t f prev' d j / c.
Proof. intros H Hd Hj. unfold cell_with. apply raw_cell_scal; assumption. Qed.

Hypothesis Hpos : nonnegative m.
Lemma until_pos n : nonnegative (until m n). Proof. exact Hpos. Qed.

Lemma alive_before t : full m (alpha m (S t)) > 0 -> full m (alpha m t) > 0.
Proof.
  intros H.
  assert (E : forall u, full m (alpha m u) = sum_counted (until m (S (S t))) u (alpha (until m (S (S t))) u)).
  { intros u. rewrite sum_open by (split; [reflexivity|right; reflexivity]). rewrite full_until. apply full_ext. intros d j _ _. apply alpha_until. exact Ew. }
  rewrite E in *.
  destruct (sum_counted_nonneg (until m (S (S t))) (until_pos _) t) as [P|P]; [exact P|].
  rewrite (sum_counted_dead (until m (S (S t))) (until_pos _) t) in H; [lra|cbn; lia|symmetry; exact P].
Qed.

Definition scale (t : nat) : R := match t with O => 1 | S u => full m (alpha m u) end.
Lemma scale_pos t : full m (alpha m t) > 0 -> scale t > 0.
Proof. destruct t as [|t]; intros H; cbn; [lra|]. apply alive_before. exact H. Qed.

Lemma fr_alpha t : (t < n_T m)%nat -> open_end m t -> full m (alpha m t) > 0 ->
  (forall d j, (d < D m - 1)%nat -> (j < n_S m)%nat -> fst (fr_lam m t) d j = alpha m t d j / scale t) /\
  snd (fr_lam m t) = full m (alpha m t) / scale t.
Proof.
  induction t as [|t IH]; intros Ht O H.
  - cbn [fr_lam fst snd scale alpha]. split; [intros; field|]. rewrite sum_open by exact O. field.
  - pose proof (alive_before t H) as H'. pose proof (scale_pos t H') as Hs.
    destruct (IH ltac:(lia) (open_before m t Ht O) H') as [I1 I2]. cbn [fr_lam]. destruct (fr_lam m t) as [prev L]. cbn [fst snd] in *.
    assert (E : forall d j, (d < D m - 1)%nat -> (j < n_S m)%nat ->
      (if in_range m (S t) d then raw_cell m (S t) prev d j / L else 0) = alpha m (S t) d j / scale (S t)).
    { intros d j Hd Hj. rewrite range_open by exact Ew. rewrite (raw_cell_scal m (S t) prev (alpha m t) (scale t)) by assumption.
      rewrite I2. cbn [alpha scale]. field. split; lra. }
    split; [exact E|]. rewrite sum_open by exact O. rewrite <- full_div. apply full_ext. exact E.
Qed.

(** Any sum that treats the current time point like [cell_with]. *)
Lemma ratio t f cell : (S t < n_T m)%nat -> open_end m (S t) -> full m (alpha m t) > 0 ->
  (forall prev L d j, (d < D m - 1)%nat -> (j < n_S m)%nat -> (forall d, (d < D m - 1)%nat -> skipped m d j = true -> prev d j = 0) ->
     cell prev L d j = cell_with (S t) f prev d j / L) ->
  (let '(prev, L) := fr_lam m t in sum_counted m (S t) (cell prev L)) = full m (cell_with (S t) f (alpha m t)) / full m (alpha m t).
Proof.
  intros Ht O H C. pose proof (scale_pos t H) as Hs. destruct (fr_alpha t ltac:(lia) (open_before m t Ht O) H) as [I1 I2].
  destruct (fr_lam m t) as [prev L]. cbn [fst snd] in *. rewrite sum_open by exact O. rewrite <- full_div. apply full_ext.
  intros d j Hd Hj. rewrite C by (try assumption; intros d' Hd' Hs'; rewrite I1 by assumption; rewrite alpha_skipped by assumption; unfold Rdiv; ring).
  rewrite (cell_scal (S t) f prev (alpha m t) (scale t)) by assumption. rewrite I2. field. split; lra.
Qed.

Lemma past_of_given t f x : (t < n_T m)%nat ->
  match t with
  | O => x = full m (alpha (replaced (until m 1) 0 f) 0)
  | S u => full m (alpha m u) > 0 -> x = full m (cell_with t f (alpha m u)) / full m (alpha m u)
  end -> given_past m t f x.
Proof.
  intros Ht E now past Hn Hq. cbv zeta. rewrite now_sum by exact Hn. destruct t as [|t]; [exact E|].
  rewrite past_sum by exact Hq. rewrite now_step. exact E.
Qed.

(** Forward residuals. *)
Lemma clam_cell c t prev L d j : (d < D m - 1)%nat -> clam m c t prev L d j = cell_with t (c t) prev d j / L.
Proof.
  intros Hd. unfold clam, cell_with, raw_cell. rewrite range_open by exact Ew. rewrite range_open by reflexivity.
  unfold c_first, b_cont, b_first, entered, ds, T, later. cbn [until replaced hmp D n_S event_width b dur tr tvdtpi starts_with_first].
  rewrite Nat.eqb_refl. unfold Rdiv. f_equal. f_equal.
  - destruct (d + 1 <=? D m - 2)%nat; [|reflexivity]. destruct (hmp m); [|reflexivity]. destruct (Nat.odd j); [|reflexivity].
    destruct (_ <=? _)%nat; reflexivity.
  - rewrite Rmult_assoc. reflexivity.
Qed.

Lemma forward_given c t : (t < n_T m)%nat -> open_end m t -> given_past m t (c t) (forward_resid m c t).
Proof.
  intros Ht O. apply past_of_given; [exact Ht|]. destruct t as [|t].
  - cbn [forward_resid]. rewrite sum_open by exact O. apply full_ext. intros d j _ _. cbn [alpha]. unfold first_cell, clam_first.
    cbn. destruct (hmp m); reflexivity.
  - intros H. unfold forward_resid. rewrite (ratio t (c (S t)) (clam m c (S t))); try assumption; [reflexivity|].
    intros prev L d j Hd Hj _. apply clam_cell. exact Hd.
Qed.
End Series.
