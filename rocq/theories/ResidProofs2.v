(** Forward residuals are probabilities; expected observations. *)

From Coq Require Import List Bool Arith Reals Lia Lra.
From Verif Require Import HsmmModel HsmmSpec HsmmProofs HsmmProofs2 HsmmProofs3 HsmmProofs5 ResidModel ResidSpec ResidProofs.
Import ListNotations.
Local Open Scope R_scope.

Lemma nsum_le n f g : (forall i, (i < n)%nat -> f i <= g i) -> nsum n f <= nsum n g.
Proof.
  intros H. rewrite !nsum_lsum. assert (G : forall i, In i (seq 0 n) -> f i <= g i) by (intros i Hi; apply in_seq in Hi; apply H; lia).
  clear H. induction (seq 0 n) as [|i l IH]; [unfold lsum; cbn; lra|]. rewrite !lsum_cons. apply Rplus_le_compat; [apply G; left; reflexivity|].
  apply IH. intros k Hk. apply G. right. exact Hk.
Qed.
Lemma full_le m f g : (forall d j, (d < D m - 1)%nat -> (j < n_S m)%nat -> f d j <= g d j) -> full m f <= full m g.
Proof. intros H. apply nsum_le. intros d Hd. apply nsum_le. intros j Hj. apply H; assumption. Qed.
Lemma full_nonneg m f : (forall d j, 0 <= f d j) -> 0 <= full m f.
Proof. intros H. apply nsum_nonneg. intros d _. apply nsum_nonneg. intros j _. apply H. Qed.

Section Normalised.
Variable m : tables R.
Hypothesis Hb : fixed_bumps 0 m.
Hypothesis Ew : ends_with_last m = false.
Hypothesis Hpos : nonnegative m.
Hypothesis Hn : normalised m.

Lemma shift_sum g : (0 < D m - 1)%nat -> nsum (D m - 1) (fun d => if (d + 1 <=? D m - 2)%nat then g (d + 1)%nat else 0) = nsum (D m - 1) g - g 0%nat.
Proof.
  intros H. replace (D m - 1)%nat with (S (D m - 2)) by lia. rewrite nsum_S, nsum_shift.
  destruct (Nat.leb_spec (D m - 2 + 1) (D m - 2)); [lia|].
  rewrite (nsum_ext _ (fun d => if (d + 1 <=? D m - 2)%nat then g (d + 1)%nat else 0) (fun i => g (S i))); [ring|].
  intros i Hi. destruct (Nat.leb_spec (i + 1) (D m - 2)); [|lia]. f_equal. lia.
Qed.

(** All entries one: nothing is lost. *)
Lemma cell_one t prev : (forall d j, (d < D m - 1)%nat -> (j < n_S m)%nat -> skipped m d j = true -> prev d j = 0) ->
  full m (cell_with m (S t) (fun _ _ => 1) prev) = full m prev.
Proof.
  intros Hs. destruct (Nat.eq_dec (D m - 1) 0) as [Z|Z]; [unfold full, dj_sum; rewrite Z; reflexivity|].
  unfold full, dj_sum. rewrite nsum_swap. rewrite (nsum_swap (D m - 1) (n_S m) (fun d j => prev d j)).
  assert (E : forall j, (j < n_S m)%nat -> nsum (D m - 1) (fun d => cell_with m (S t) (fun _ _ => 1) prev d j) =
    nsum (D m - 1) (fun d => prev d j) - prev 0%nat j + nsum (n_S m) (fun i => if (i =? j)%nat then 0 else prev 0%nat i * T m i j t)).
  { intros j Hj. rewrite <- (shift_sum (fun d => prev d j)) by lia.
    set (tp := nsum (n_S m) (fun i => if (i =? j)%nat then 0 else prev 0%nat i * T m i j t)).
    replace tp with (nsum (D m - 1) (fun d => ds m d (later m j) (S t)) * tp).
    2:{ destruct Hn as (H1 & _ & _). destruct (H1 j (S t) Hj) as [_ H]. to_model. rewrite H. ring. }
    rewrite <- nsum_scal_r, <- nsum_plus. apply nsum_ext. intros d Hd. unfold cell_with, raw_cell. rewrite range_open by reflexivity.
    unfold b_cont, b_first, ds, T, later, tp. cbn [until replaced hmp D n_S event_width b dur tr tvdtpi starts_with_first].
    rewrite Nat.eqb_refl. replace (S t - 1)%nat with t by lia. f_equal.
    - destruct (Nat.leb_spec (d + 1) (D m - 2)); [|reflexivity]. destruct (hmp m) eqn:Hh; [|ring]. destruct (Nat.odd j) eqn:Ho; [|ring].
      destruct (Nat.leb_spec d (event_width m - 1)); [ring|]. symmetry. apply Hs; [lia|exact Hj|].
      unfold skipped. rewrite Hh, Ho. cbn [andb]. apply Nat.leb_le. lia.
    - unfold T. destruct (hmp m); [destruct (Nat.even j)|]; ring. }
  rewrite (nsum_ext _ _ _ E). clear E.
  rewrite (nsum_plus (n_S m) (fun j => nsum (D m - 1) (fun d => prev d j) - prev 0%nat j)).
  rewrite nsum_swap.
  rewrite (nsum_ext _ (fun i => nsum (n_S m) (fun j => if (i =? j)%nat then 0 else prev 0%nat i * T m i j t)) (fun i => prev 0%nat i)).
  - rewrite <- nsum_plus. apply nsum_ext. intros j _. ring.
  - intros i Hi. destruct Hn as (_ & H2 & _). specialize (H2 i t Hi). to_model.
    rewrite (nsum_ext _ _ (fun j => (if (i =? j)%nat then 0 else T m i j t) * prev 0%nat i)); [rewrite nsum_scal_r, H2; ring|].
    intros j _. destruct (i =? j)%nat; ring.
Qed.
Lemma first_one : full m (clam_first m (fun _ _ _ => 1)) = 1.
Proof.
  unfold full, dj_sum. rewrite nsum_swap. destruct Hn as (H1 & _ & H3). apply (eq_trans (y := nsum (n_S m) (pi m))); [|exact H3]. apply nsum_ext. intros j Hj.
  destruct (H1 j 0%nat Hj) as [H _]. to_model.
  rewrite (nsum_ext _ _ (fun d => ds m d j 0 * pi m j)); [rewrite nsum_scal_r, H; ring|]. intros d _. unfold clam_first. cbv beta. destruct (hmp m); ring.
Qed.

(** Larger entries, larger residuals. *)
Lemma cell_mono t f g prev : (forall k j, f k j <= g k j) -> (forall d j, 0 <= prev d j) ->
  full m (cell_with m (S t) f prev) <= full m (cell_with m (S t) g prev).
Proof.
  intros H Hp. apply full_le. intros d j _ _. unfold cell_with, raw_cell. rewrite !range_open by reflexivity.
  unfold b_cont, b_first. cbn [until replaced hmp D n_S event_width b].
  rewrite Nat.eqb_refl. apply Rplus_le_compat.
  - destruct (_ <=? _)%nat; [|lra].
    destruct (hmp m); [destruct (Nat.odd j); [destruct (_ <=? _)%nat; [|lra]|]|]; apply Rmult_le_compat_l; auto.
  - apply Rmult_le_compat_l.
    + apply nsum_nonneg. intros i _. destruct (i =? j)%nat; [lra|]. apply Rmult_le_pos; [apply Hp|apply Hpos].
    + apply Rmult_le_compat_r; [apply Hpos|]. destruct (hmp m); [destruct (Nat.even j)|]; apply H.
Qed.
Lemma cell_nonneg t f prev : (forall k j, 0 <= f k j) -> (forall d j, 0 <= prev d j) -> 0 <= full m (cell_with m (S t) f prev).
Proof.
  intros H Hp. apply full_nonneg. intros d j. unfold cell_with, raw_cell. rewrite range_open by reflexivity.
  unfold b_cont, b_first. cbn [until replaced hmp D n_S event_width b].
  rewrite Nat.eqb_refl. apply Rplus_le_le_0_compat.
  - destruct (_ <=? _)%nat; [|lra].
    destruct (hmp m); [destruct (Nat.odd j); [destruct (_ <=? _)%nat; [|lra]|]|]; apply Rmult_le_pos; auto.
  - apply Rmult_le_pos.
    + apply nsum_nonneg. intros i _. destruct (i =? j)%nat; [lra|]. apply Rmult_le_pos; [apply Hp|apply Hpos].
    + apply Rmult_le_pos; [|apply Hpos]. destruct (hmp m); [destruct (Nat.even j)|]; apply H.
Qed.

Lemma div_mono a a' c : 0 < c -> a <= a' -> a / c <= a' / c.
Proof. intros Hc H. apply Rmult_le_compat_r; [|exact H]. apply Rlt_le, Rinv_0_lt_compat. exact Hc. Qed.

Definition reachable (t : nat) : Prop := match t with O => True | S u => full m (alpha m u) > 0 end.
Lemma forward_mono c c' t : (t < n_T m)%nat -> open_end m t -> reachable t -> (forall u k j, c u k j <= c' u k j) ->
  forward_resid m c t <= forward_resid m c' t.
Proof.
  intros Ht O H Hc. destruct t as [|t].
  - cbn [forward_resid]. rewrite !sum_open by exact O. apply full_le. intros d j _ _. unfold clam_first.
    destruct Hpos as (_ & P2 & _ & P4).
    destruct (hmp m); (apply Rmult_le_compat_r; [apply P2|apply Rmult_le_compat_l; [apply P4|apply Hc]]).
  - unfold forward_resid.
    rewrite (ratio m Hb Ew Hpos t (c (S t)) (clam m c (S t))) by (try assumption; intros; apply clam_cell; assumption).
    rewrite (ratio m Hb Ew Hpos t (c' (S t)) (clam m c' (S t))) by (try assumption; intros; apply clam_cell; assumption).
    apply div_mono; [exact H|]. apply cell_mono; [intros; apply Hc|]. intros d j. apply alpha_nonneg. exact Hpos.
Qed.
Lemma forward_one t : (t < n_T m)%nat -> open_end m t -> reachable t -> forward_resid m (fun _ _ _ => 1) t = 1.
Proof.
  intros Ht O H. destruct t as [|t].
  - cbn [forward_resid]. rewrite sum_open by exact O. apply first_one.
  - unfold forward_resid.
    rewrite (ratio m Hb Ew Hpos t (fun _ _ => 1) (clam m (fun _ _ _ => 1) (S t)))
      by (try assumption; intros; rewrite (clam_cell m Ew) by assumption; reflexivity).
    cbn [reachable] in H. rewrite cell_one; [field; lra|]. intros d j Hd Hj Hs. apply alpha_skipped; assumption.
Qed.
Lemma forward_zero t : (t < n_T m)%nat -> open_end m t -> reachable t -> forward_resid m (fun _ _ _ => 0) t = 0.
Proof.
  intros Ht O H. destruct t as [|t].
  - cbn [forward_resid]. rewrite sum_open by exact O. apply nsum_zero. intros d _. apply nsum_zero. intros j _. unfold clam_first.
    destruct (hmp m); ring.
  - unfold forward_resid. destruct (fr_lam m t) as [prev L]. apply nsum_zero. intros d _. apply nsum_zero. intros j _.
    destruct (counts _ _ _ _); [|reflexivity]. unfold clam, c_first, Rdiv. destruct (in_range _ _ _); [|reflexivity].
    destruct (_ <=? _)%nat, (hmp m), (Nat.odd j), (Nat.even j); try destruct (_ <=? _)%nat; ring.
Qed.
End Normalised.

(** Expected observations. *)
Section Expected.
Variable m : tables R.
Hypothesis Hb : fixed_bumps 0 m.
Hypothesis Ew : ends_with_last m = false.
Hypothesis Hpos : nonnegative m.
Variable g : signals.

Lemma ebump_first_mean t j : hmp m = true -> Nat.odd j = true -> ebump_first g t j = mean_of m g t 0 j.
Proof.
  intros Hh Ho. unfold ebump_first, mean_of, weight0, ar0. rewrite Hh, Ho. destruct (ar g) as [r|]; [|ring].
  unfold Rdiv. replace (r ^ 2) with (r * r) by ring. ring.
Qed.
Lemma ebump_mean t d j : hmp m = true -> Nat.odd j = true -> ebump m g t d j = mean_of m g t (event_width m - 1 - d) j.
Proof.
  intros Hh Ho. unfold ebump, mean_of, weight0, weight1, ar0, ar1. rewrite Hh, Ho. set (k := (event_width m - 1 - d)%nat).
  destruct (ar g) as [r|].
  - replace (r ^ 2) with (r * r) by ring. destruct k as [|k]; cbn [Nat.ltb Nat.leb].
    + unfold Rdiv. ring.
    + replace (S k - 1)%nat with k by lia. unfold Rdiv. ring.
  - destruct k; ring.
Qed.

Lemma elam_cell t prev L d j : (d < D m - 1)%nat -> (hmp m = false -> n_M g = 1%nat /\ channel g = 0%nat) ->
  (hmp m = true -> ar g <> None -> forall i, T m i 0 t = 0) ->
  elam m g (S t) prev L d j = cell_with m (S t) (mean_of m g (S t)) prev d j / L.
Proof.
  intros Hd H1 H2. unfold elam, cell_with, raw_cell. rewrite range_open by exact Ew. rewrite range_open by reflexivity.
  unfold b_cont, b_first, entered. cbn [until replaced hmp D n_S event_width b].
  rewrite Nat.eqb_refl. unfold Rdiv. f_equal.
  change (ds (replaced (until m (S (S t))) (S t) (mean_of m g (S t)))) with (ds m).
  change (T (replaced (until m (S (S t))) (S t) (mean_of m g (S t)))) with (T m).
  change (later (replaced (until m (S (S t))) (S t) (mean_of m g (S t)))) with (later m).
  replace (S t - 1)%nat with t by lia.
  set (tp := nsum (n_S m) (fun i => if (i =? j)%nat then 0 else prev 0%nat i * T m i j t)).
  f_equal.
  - destruct (d + 1 <=? D m - 2)%nat; [|reflexivity]. destruct (hmp m) eqn:Hh.
    + destruct (Nat.odd j) eqn:Ho.
      * destruct (_ <=? _)%nat; [|reflexivity]. rewrite ebump_mean by assumption. reflexivity.
      * unfold mean_of. rewrite Hh, Ho. ring.
    + unfold mean_of. rewrite Hh. reflexivity.
  - destruct (hmp m) eqn:Hh.
    + rewrite <- Nat.negb_odd. destruct (Nat.odd j) eqn:Ho; cbn [negb].
      * rewrite ebump_first_mean by assumption. ring.
      * unfold mean_of, weight1, ar1. rewrite Hh, Ho. destruct (ar g) as [r|] eqn:Er.
        -- destruct j as [|j].
           ++ replace tp with 0; [ring|]. symmetry. apply nsum_zero. intros i _. rewrite (H2 eq_refl ltac:(discriminate) i).
              destruct (i =? 0)%nat; ring.
           ++ replace (r ^ 2) with (r * r) by ring. cbn [mus_before]. replace (S t - 1)%nat with t by lia. unfold Rdiv. ring.
        -- destruct j; ring.
    + destruct (H1 eq_refl) as [H3 H4]. unfold mean_of, mus2. rewrite Hh, H3, H4, Nat.mod_1_r, Nat.div_1_r. ring.
Qed.

Lemma expected_given t : (t < n_T m)%nat -> open_end m t -> (hmp m = false -> n_M g = 1%nat /\ channel g = 0%nat) ->
  (hmp m = true -> ar g <> None -> forall i u, T m i 0 u = 0) ->
  given_past m t (mean_of m g t) (expected m g t).
Proof.
  intros Ht O H1 H2. apply past_of_given; try assumption. destruct t as [|t].
  - cbn [expected]. rewrite sum_open by exact O. apply full_ext. intros d j _ _. cbn [alpha]. unfold first_cell, elam_first. cbn [until replaced pi b].
    rewrite Nat.eqb_refl. change (ds (replaced (until m 1) 0 (mean_of m g 0)) d j 0) with (ds m d j 0). destruct (hmp m) eqn:Hh.
    + destruct (Nat.odd j) eqn:Ho; [rewrite ebump_first_mean by assumption; reflexivity|]. unfold mean_of. rewrite Hh, Ho. ring.
    + unfold mean_of. rewrite Hh. reflexivity.
  - intros H. unfold expected. rewrite (ratio m Hb Ew Hpos t (mean_of m g (S t)) (elam m g (S t))); try assumption; [reflexivity|].
    intros prev L d j Hd Hj _. apply elam_cell; [exact Hd|exact H1|]. intros A B i. apply H2; assumption.
Qed.
End Expected.

(** Cumulated and standardised residuals. *)
Lemma cumulated_sum m g n : cumulated m g n = nsum (S n) (fun t => y g t - expected m g t).
Proof. induction n as [|n IH]; [cbn; unfold nsum; cbn; ring|]. cbn [cumulated]. rewrite IH, (nsum_S (S n)). reflexivity. Qed.
Lemma sd_sum m g n : resid_sd m g n = nsum (S n) (fun t => (y g t - expected m g t) ^ 2).
Proof.
  induction n as [|n IH]; [cbn; unfold nsum; cbn; ring|]. cbn [resid_sd]. rewrite IH, (nsum_S (S n)). cbn [cumulated]. f_equal. ring.
Qed.
Lemma cauchy n f : nsum n f ^ 2 <= INR n * nsum n (fun i => f i ^ 2).
Proof.
  induction n as [|n IH]; [unfold nsum; cbn; lra|]. rewrite !nsum_S, S_INR.
  set (A := nsum n f) in *. set (B := nsum n (fun i => f i ^ 2)) in *.
  assert (HB : 0 <= B) by (apply nsum_nonneg; intros; apply pow2_ge_0).
  assert (Hn : 0 <= INR n) by apply pos_INR.
  assert (2 * A * f n <= B + INR n * f n ^ 2).
  { destruct (Req_dec (INR n) 0) as [Z|Z].
    - assert (n = 0%nat) by (apply INR_eq; exact Z). subst n. assert (A = 0) by reflexivity. rewrite H, Z. lra.
    - assert (0 < INR n) by lra. apply (Rmult_le_reg_l (INR n)); [assumption|].
      pose proof (pow2_ge_0 (A - INR n * f n)). nra. }
  nra.
Qed.
