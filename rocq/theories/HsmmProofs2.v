(** The forward pass computes sums over segmentations. *)

From Coq Require Import List Bool Arith Reals Lia Lra Permutation.
From Verif Require Import Ext HsmmModel HsmmSpec HsmmProofs.
Import ListNotations.
Local Open Scope R_scope.

Lemma Rmul_assoc' x y z : x * (y * z) = x * y * z. Proof. ring. Qed.
Lemma Rone_l x : 1 * x = x. Proof. ring. Qed.
Lemma Rone_r x : x * 1 = x. Proof. ring. Qed.

Lemma lsum_nil A (f : A -> R) : lsum [] f = 0. Proof. reflexivity. Qed.
Lemma lsum_cons A (a : A) l f : lsum (a :: l) f = f a + lsum l f. Proof. reflexivity. Qed.
Lemma lsum_app A (l r : list A) f : lsum (l ++ r) f = lsum l f + lsum r f.
Proof. induction l as [|a l IH]; [cbn [app]; rewrite lsum_nil; ring|]. cbn [app]. rewrite !lsum_cons, IH. ring. Qed.
Lemma lsum_ext A (l : list A) f g : (forall a, In a l -> f a = g a) -> lsum l f = lsum l g.
Proof.
  induction l as [|a l IH]; intros H; [reflexivity|]. rewrite !lsum_cons, H by (left; reflexivity).
  rewrite IH; [reflexivity|]. intros; apply H; right; assumption.
Qed.
Lemma lsum_scal_r A (l : list A) f c : lsum l (fun a => f a * c) = lsum l f * c.
Proof. induction l as [|a l IH]; [rewrite !lsum_nil; ring|]. rewrite !lsum_cons, IH. ring. Qed.
Lemma lsum_scal_l A (l : list A) f c : lsum l (fun a => c * f a) = c * lsum l f.
Proof. induction l as [|a l IH]; [rewrite !lsum_nil; ring|]. rewrite !lsum_cons, IH. ring. Qed.
Lemma lsum_zero A (l : list A) f : (forall a, In a l -> f a = 0) -> lsum l f = 0.
Proof. intros H. rewrite (lsum_ext _ _ f (fun _ => 0 * 0)) by (intros; rewrite H; auto; ring). rewrite lsum_scal_r. ring. Qed.
Lemma lsum_map A B (g : A -> B) l f : lsum (map g l) f = lsum l (fun a => f (g a)).
Proof. unfold lsum. rewrite map_map. reflexivity. Qed.
Lemma lsum_flat_map A B (g : A -> list B) l f : lsum (flat_map g l) f = lsum l (fun a => lsum (g a) f).
Proof. induction l as [|a l IH]; [reflexivity|]. cbn [flat_map]. rewrite lsum_app, lsum_cons, IH. reflexivity. Qed.
Lemma lsum_perm A (l r : list A) f : Permutation l r -> lsum l f = lsum r f.
Proof.
  induction 1; [reflexivity|rewrite !lsum_cons, IHPermutation; reflexivity|rewrite !lsum_cons; ring|congruence].
Qed.
Lemma lsum_nonneg A (l : list A) f : (forall a, In a l -> 0 <= f a) -> 0 <= lsum l f.
Proof.
  induction l as [|a l IH]; intros H; [rewrite lsum_nil; lra|]. rewrite lsum_cons.
  pose proof (H a (or_introl eq_refl)). assert (0 <= lsum l f) by (apply IH; intros; apply H; right; assumption). lra.
Qed.
Lemma lsum_zero_inv A (l : list A) f : (forall a, In a l -> 0 <= f a) -> lsum l f = 0 -> forall a, In a l -> f a = 0.
Proof.
  induction l as [|c l IH]; intros H E a Ha; [destruct Ha|]. rewrite lsum_cons in E.
  pose proof (H c (or_introl eq_refl)).
  assert (0 <= lsum l f) by (apply lsum_nonneg; intros; apply H; right; assumption).
  destruct Ha as [<-|Ha]; [lra|]. apply IH; auto; [intros; apply H; right; assumption|lra].
Qed.
Lemma nsum_lsum n f : nsum n f = lsum (seq 0 n) f. Proof. reflexivity. Qed.
Lemma nsum_ext n f g : (forall i, (i < n)%nat -> f i = g i) -> nsum n f = nsum n g.
Proof. intros H. apply lsum_ext. intros i Hi. apply in_seq in Hi. apply H. lia. Qed.
Lemma nsum_zero n f : (forall i, (i < n)%nat -> f i = 0) -> nsum n f = 0.
Proof. intros H. apply lsum_zero. intros i Hi. apply in_seq in Hi. apply H. lia. Qed.
Lemma nsum_nonneg n f : (forall i, (i < n)%nat -> 0 <= f i) -> 0 <= nsum n f.
Proof. intros H. apply lsum_nonneg. intros i Hi. apply in_seq in Hi. apply H. lia. Qed.
Lemma nsum_zero_inv n f : (forall i, (i < n)%nat -> 0 <= f i) -> nsum n f = 0 -> forall i, (i < n)%nat -> f i = 0.
Proof. intros H E i Hi. apply (lsum_zero_inv _ (seq 0 n) f); [intros j Hj; apply in_seq in Hj; apply H; lia|exact E|apply in_seq; lia]. Qed.
Lemma nsum_scal_r n f c : nsum n (fun i => f i * c) = nsum n f * c. Proof. apply lsum_scal_r. Qed.
Lemma nsum_S n f : nsum (S n) f = nsum n f + f n.
Proof. rewrite !nsum_lsum, seq_S, lsum_app, lsum_cons, lsum_nil. cbn [Nat.add]. ring. Qed.

(** b_cont as a number. *)
Definition bc (m : tables R) t d j : R := match b_cont m t d j with Some x => x | None => 0 end.

Notation W m s := (wr R m 1 Rmult s).

Lemma raw_cell_eq m t prev d j : in_range m t d = true ->
  raw_cell m t prev d j =
  (if (d + 1 <=? D m - 2)%nat then prev (d + 1)%nat j * bc m t d j else 0)
  + nsum (n_S m) (fun i => if (i =? j)%nat then 0 else prev 0%nat i * T m i j (t - 1)) * (b_first m t j * ds m d (later m j) t).
Proof.
  intros E. unfold raw_cell. rewrite E. f_equal. destruct (_ <=? _)%nat; [|reflexivity].
  unfold bc. destruct (b_cont m t d j); ring.
Qed.

Fixpoint alpha (m : tables R) (t : nat) : nat -> nat -> R :=
  match t with O => first_cell m | S t' => raw_cell m t (alpha m t') end.

Section Forward.
Variable m : tables R.
Hypothesis Hb : fixed_bumps 0 m.

Lemma W_bump n j e r : hmp m = true -> (j < n_S m)%nat -> Nat.odd j = true -> e <> (event_width m - 1)%nat ->
  W m n ((j, e) :: r) = 0.
Proof.
  intros Hh Hj Ho He. destruct (Hb Hh) as [_ H]. to_model. cbn [wr]. destruct r as [|[i e'] r]; cbn [from_of enter fst snd]; to_model.
  - destruct (H e j (span []) Hj Ho He) as [H1 _]. rewrite H1. ring.
  - destruct (H e j (span ((i, e') :: r)) Hj Ho He) as [_ H1]. rewrite H1. ring.
Qed.

Lemma W_cont t d j s : (d + 1 < D m - 1)%nat -> (j < n_S m)%nat -> prefix R m t (d + 1) j s ->
  W m (S (S t)) s = W m (S t) s * bc m (S t) d j.
Proof.
  intros Hd Hj (e & r & -> & F & A & E & B). rewrite span_cons in E. cbn [snd] in E.
  assert (Hs : W m (S (S t)) ((j, e) :: r) = W m (S t) ((j, e) :: r) * observation R m (initial r) (span r) (S t - span r) j).
  { apply wr_step; [intros; ring|intros; ring|intros; ring|lia|lia]. }
  rewrite Hs. unfold bc, b_cont, observation. destruct (hmp m) eqn:Hh.
  - destruct (Nat.odd j) eqn:Ho.
    + destruct (Nat.eq_dec e (event_width m - 1)) as [He|He]; [|rewrite !W_bump by assumption; ring].
      destruct (Hb Hh) as [Hw _]. destruct (Nat.leb_spec d (event_width m - 1)); [|lia].
      replace (span r + (S t - span r))%nat with (S t) by lia.
      replace (event_width m - 1 - d)%nat with (S t - span r)%nat by lia. reflexivity.
    + destruct (Nat.eqb_spec (S t - span r) 0); [lia|]. cbn [andb].
      replace (span r + (S t - span r))%nat with (S t) by lia. reflexivity.
  - replace (span r + (S t - span r))%nat with (S t) by lia. reflexivity.
Qed.

Lemma W_enter t d j i r : prefix R m t 0 i r ->
  W m (S (S t)) ((j, d) :: r) = W m (S t) r * T m i j t * (b_first m (S t) j * ds m d (later m j) (S t)).
Proof.
  intros (e & r' & -> & F & A & E & B).
  assert (Hs : W m (S (S t)) ((j, d) :: (i, e) :: r') = W m (S t) ((i, e) :: r') *
    (enter R Rmult m (S t) (Some i) (j, d) * observation R m false (S t) 0 j)).
  { rewrite (wr_enter R m 1 Rmult); [reflexivity|intros; ring|lia]. }
  rewrite Hs. cbn [enter fst snd]. to_model. replace (S t - 1)%nat with t by lia.
  assert (Ho : observation R m false (S t) 0 j = b_first m (S t) j).
  { unfold observation, b_first. rewrite Nat.add_0_r. destruct (hmp m); [|reflexivity].
    rewrite <- Nat.negb_odd. destruct (Nat.odd j); reflexivity. }
  rewrite Ho. ring.
Qed.

Lemma in_range_prev t d : in_range m (S t) d = true -> in_range m t (d + 1) = true /\ in_range m t 0 = true.
Proof.
  unfold in_range. destruct (ends_with_last m); cbn [negb orb]; rewrite ?orb_true_r, ?orb_false_r; [|auto].
  rewrite !Nat.ltb_lt. lia.
Qed.

Lemma alpha_enum t : forall d j, (d < D m - 1)%nat -> (j < n_S m)%nat -> in_range m t d = true ->
  alpha m t d j = lsum (enum R m t d j) (W m (S t)).
Proof.
  induction t as [|t IH]; intros d j Hd Hj Hr.
  - cbn [alpha enum]. rewrite lsum_cons. rewrite (wr_enter R m 1 Rmult); [|intros; ring|reflexivity].
    assert (E : observation R m (initial []) 0 0 j = b m 0 0 j)
      by (unfold observation; destruct (hmp m); [destruct (Nat.odd j)|]; reflexivity).
    rewrite E, lsum_nil. cbn [wr from_of enter fst snd]. to_model. unfold first_cell. ring.
  - cbn [alpha]. rewrite raw_cell_eq by exact Hr. destruct (in_range_prev _ _ Hr) as [R1 R0]. cbn [enum]. rewrite lsum_app. f_equal.
    + destruct (Nat.leb_spec (d + 1) (D m - 2)); [|reflexivity]. rewrite IH by (assumption || lia).
      rewrite <- lsum_scal_r. apply lsum_ext. intros s Hs. apply enum_spec in Hs; [|lia|lia]. symmetry. apply W_cont; [lia|lia|exact Hs].
    + rewrite lsum_flat_map, <- nsum_scal_r. apply nsum_ext. intros i Hi. destruct (Nat.eqb_spec i j); [cbn; ring|].
      rewrite lsum_map. rewrite IH by (assumption || lia). rewrite <- !lsum_scal_r. apply lsum_ext. intros r Hrr.
      apply enum_spec in Hrr; [|lia|lia]. rewrite (W_enter t d j i r Hrr). replace (S t - 1)%nat with t by lia. reflexivity.
Qed.

Lemma alpha_skipped t d j : (d < D m - 1)%nat -> (j < n_S m)%nat -> skipped m d j = true -> alpha m t d j = 0.
Proof.
  intros Hd Hj Hs. unfold skipped in Hs. apply andb_true_iff in Hs. destruct Hs as [Hs Hw]. apply andb_true_iff in Hs.
  destruct Hs as [Hh Ho]. apply Nat.leb_le in Hw.
  destruct (in_range m t d) eqn:R.
  - rewrite alpha_enum by assumption. apply lsum_zero. intros s Hs. apply enum_spec in Hs; [|lia|lia].
    destruct Hs as (e & r & -> & _ & _ & E & B). rewrite span_cons in E. cbn [snd] in E. destruct (Hb Hh) as [H1 _].
    apply W_bump; auto. lia.
  - destruct t as [|t]; cbn [alpha].
    + unfold first_cell. destruct (Hb Hh) as [H1 H]. to_model. destruct (H d j 0%nat Hj Ho) as [H2 _]; [lia|]. rewrite H2. ring.
    + unfold raw_cell. rewrite R. reflexivity.
Qed.

Definition total_weight : R := lsum (all R m) (weight R 1 Rmult m).

Lemma sum_counted_ext t lam lam' : (forall d j, (d < D m - 1)%nat -> (j < n_S m)%nat -> lam d j = lam' d j) ->
  sum_counted m t lam = sum_counted m t lam'.
Proof.
  intros H. unfold sum_counted, dj_sum. apply nsum_ext. intros d Hd. apply nsum_ext. intros j Hj. rewrite H by assumption. reflexivity.
Qed.
Lemma sum_counted_scal t lam c : sum_counted m t (fun d j => lam d j / c) = sum_counted m t lam / c.
Proof.
  unfold sum_counted, dj_sum, Rdiv. rewrite <- nsum_scal_r. apply nsum_ext. intros d Hd. rewrite <- nsum_scal_r. apply nsum_ext. intros j Hj.
  destruct (counts m t d j); ring.
Qed.

(** The numbers that are summed at the last time point. *)
Lemma counted_alpha d j : (0 < n_T m)%nat -> (d < D m - 1)%nat -> (j < n_S m)%nat -> counts m (n_T m - 1) d j = true ->
  alpha m (n_T m - 1) d j = lsum (map (@rev segment) (enum R m (n_T m - 1) d j)) (weight R 1 Rmult m).
Proof.
  intros Hn Hd Hj C. rewrite alpha_enum; [|assumption|assumption|].
  - rewrite lsum_map. apply lsum_ext. intros s _. unfold weight. rewrite weight_rev by (intros; ring). f_equal. lia.
  - unfold in_range. apply counts_last in C; [|assumption|assumption]. destruct (ends_with_last m); [|apply orb_true_r].
    destruct C as [C _]. rewrite (C eq_refl). apply orb_true_iff. left. apply Nat.ltb_lt. lia.
Qed.

Lemma total_alpha : (0 < n_T m)%nat -> sum_counted m (n_T m - 1) (alpha m (n_T m - 1)) = total_weight.
Proof.
  intros Hn. unfold total_weight, all, sum_counted, dj_sum. rewrite lsum_flat_map. apply nsum_ext. intros d Hd.
  rewrite lsum_flat_map. apply nsum_ext. intros j Hj. destruct (counts m (n_T m - 1) d j) eqn:C; [|reflexivity].
  apply counted_alpha; assumption.
Qed.

(** Scaling. *)
Fixpoint scaling (t : nat) : R := match t with O => 1 | S t' => scaling t' * Lam m t' end.

Lemma raw_cell_scal t prev prev' c d j : (forall d j, (d < D m - 1)%nat -> (j < n_S m)%nat -> prev d j = prev' d j / c) ->
  (d < D m - 1)%nat -> (j < n_S m)%nat -> raw_cell m t prev d j = raw_cell m t prev' d j / c.
Proof.
  intros H Hd Hj. destruct (in_range m t d) eqn:R; [|unfold raw_cell, Rdiv; rewrite R; ring].
  rewrite !raw_cell_eq by exact R. unfold Rdiv. rewrite Rmult_plus_distr_r. f_equal.
  - destruct (Nat.leb_spec (d + 1) (D m - 2)); [|ring]. rewrite H by lia. unfold Rdiv. ring.
  - rewrite <- !nsum_scal_r. apply nsum_ext. intros i Hi. destruct (Nat.eqb_spec i j); [ring|]. rewrite H by lia. unfold Rdiv. ring.
Qed.

Lemma lam_alpha t : (forall u, (u < t)%nat -> Lam m u <> 0) -> forall d j, (d < D m - 1)%nat -> (j < n_S m)%nat ->
  fst (llk_lam m t) d j = alpha m t d j / scaling t.
Proof.
  induction t as [|t IH]; intros HL d j Hd Hj.
  - cbn. pose proof (alpha_skipped 0 d j Hd Hj) as H. cbn in H. destruct (skipped m d j); [rewrite H by reflexivity|]; field.
  - assert (HL' : forall u, (u < t)%nat -> Lam m u <> 0) by (intros; apply HL; lia). specialize (IH HL').
    pose proof (HL t ltac:(lia)) as HLt. unfold Lam in HLt. cbn [scaling]. unfold Lam. cbn [llk_lam].
    destruct (llk_lam m t) as [prev L]. cbn [fst snd] in *.
    pose proof (alpha_skipped (S t) d j Hd Hj) as Hs. destruct (skipped m d j); [rewrite Hs by reflexivity; unfold Rdiv; ring|].
    rewrite (raw_cell_scal (S t) prev (alpha m t) (scaling t) d j IH Hd Hj). cbn [alpha]. unfold Rdiv. rewrite Rinv_mult. ring.
Qed.
Lemma scaling_nonzero t : (forall u, (u < t)%nat -> Lam m u <> 0) -> scaling t <> 0.
Proof. induction t as [|t IH]; intros H; cbn; [lra|]. apply Rmult_integral_contrapositive. split; [apply IH; intros; apply H; lia|apply H; lia]. Qed.
Lemma Lam_eq t : Lam m t = sum_counted m t (fst (llk_lam m t)).
Proof. unfold Lam. destruct t as [|t]; cbn [llk_lam]; [reflexivity|]. destruct (llk_lam m t). reflexivity. Qed.
Lemma scaling_sum t : (forall u, (u < t)%nat -> Lam m u <> 0) -> scaling (S t) = sum_counted m t (alpha m t).
Proof.
  intros HL. cbn [scaling]. rewrite Lam_eq.
  rewrite (sum_counted_ext t _ (fun d j => alpha m t d j / scaling t)) by (intros; apply lam_alpha; assumption).
  rewrite sum_counted_scal. pose proof (scaling_nonzero t HL). field. assumption.
Qed.

Hypothesis Hpos : nonnegative m.

Lemma bc_nonneg t d j : 0 <= bc m t d j.
Proof. destruct Hpos as (H & _). unfold bc, b_cont. destruct (hmp m); [destruct (Nat.odd j); [destruct (_ <=? _)%nat|]|]; try apply H; lra. Qed.
Lemma b_first_nonneg t j : 0 <= b_first m t j.
Proof. destruct Hpos as (H & _). unfold b_first. destruct (hmp m); [destruct (Nat.even j)|]; apply H. Qed.
Lemma T_nonneg i j t : 0 <= T m i j t. Proof. apply Hpos. Qed.
Lemma ds_nonneg d j t : 0 <= ds m d j t. Proof. apply Hpos. Qed.
Lemma alpha_nonneg t : forall d j, 0 <= alpha m t d j.
Proof.
  induction t as [|t IH]; intros d j; cbn [alpha].
  - unfold first_cell. destruct Hpos as (H1 & _ & _ & H4). apply Rmult_le_pos; [|apply ds_nonneg]. apply Rmult_le_pos; auto.
  - destruct (in_range m (S t) d) eqn:R; [|unfold raw_cell; rewrite R; lra]. rewrite raw_cell_eq by exact R. apply Rplus_le_le_0_compat.
    + destruct (_ <=? _)%nat; [|lra]. apply Rmult_le_pos; [apply IH|apply bc_nonneg].
    + apply Rmult_le_pos; [|apply Rmult_le_pos; [apply b_first_nonneg|apply ds_nonneg]].
      apply nsum_nonneg. intros i Hi. destruct (i =? j)%nat; [lra|]. apply Rmult_le_pos; [apply IH|apply T_nonneg].
Qed.
Lemma sum_counted_nonneg t : 0 <= sum_counted m t (alpha m t).
Proof. apply nsum_nonneg. intros d Hd. apply nsum_nonneg. intros j Hj. destruct (counts m t d j); [apply alpha_nonneg|lra]. Qed.

Lemma sum_counted_dead t : (S t < n_T m)%nat -> sum_counted m t (alpha m t) = 0 -> sum_counted m (S t) (alpha m (S t)) = 0.
Proof.
  intros Ht E.
  assert (Z : forall d j, (d < D m - 1)%nat -> (j < n_S m)%nat -> alpha m t d j = 0).
  { intros d j Hd Hj.
    assert (C : counts m t d j = true).
    { unfold counts. replace (t <? n_T m - 1)%nat with true by (symmetry; apply Nat.ltb_lt; lia). reflexivity. }
    pose proof (nsum_zero_inv _ _ (fun d' _ => nsum_nonneg _ _ (fun j' _ =>
      match counts m t d' j' as c return 0 <= (if c then alpha m t d' j' else 0) with true => alpha_nonneg t d' j' | false => Rle_refl 0 end)) E d Hd) as E1.
    cbv beta in E1.
    pose proof (nsum_zero_inv _ _ (fun j' _ =>
      match counts m t d j' as c return 0 <= (if c then alpha m t d j' else 0) with true => alpha_nonneg t d j' | false => Rle_refl 0 end) E1 j Hj) as E2.
    cbv beta in E2. rewrite C in E2. exact E2. }
  unfold sum_counted, dj_sum. apply nsum_zero. intros d Hd. apply nsum_zero. intros j Hj. destruct (counts _ _ _ _); [|reflexivity].
  cbn [alpha]. destruct (in_range m (S t) d) eqn:R; [|unfold raw_cell; rewrite R; reflexivity]. rewrite raw_cell_eq by exact R.
  rewrite nsum_zero.
  - destruct (Nat.leb_spec (d + 1) (D m - 2)); [rewrite Z by lia; ring|ring].
  - intros i Hi. destruct (i =? j)%nat; [reflexivity|]. rewrite Z by lia. ring.
Qed.

Lemma dead_forward t k : (t + k < n_T m)%nat -> sum_counted m t (alpha m t) = 0 -> sum_counted m (t + k) (alpha m (t + k)) = 0.
Proof.
  induction k as [|k IH]; intros H E; [rewrite Nat.add_0_r; exact E|]. rewrite Nat.add_succ_r. apply sum_counted_dead; [lia|].
  apply IH; [lia|exact E].
Qed.

Lemma alive_sum u : (0 < n_T m)%nat -> total_weight <> 0 -> (u < n_T m)%nat -> sum_counted m u (alpha m u) > 0.
Proof.
  intros Hn Ht Hu. destruct (sum_counted_nonneg u) as [H|H]; [exact H|]. exfalso. apply Ht. rewrite <- total_alpha by exact Hn.
  replace (n_T m - 1)%nat with (u + (n_T m - 1 - u))%nat by lia. apply dead_forward; [lia|]. symmetry. exact H.
Qed.

Lemma alive t : (0 < n_T m)%nat -> total_weight <> 0 -> (t < n_T m)%nat -> Lam m t > 0.
Proof.
  intros Hn Ht. pose proof (fun u => alive_sum u Hn Ht) as P.
  assert (Q : forall t, (t < n_T m)%nat -> scaling t > 0 /\ Lam m t > 0 /\ forall u, (u < t)%nat -> Lam m u > 0).
  { clear t. induction t as [|t IH]; intros Hlt.
    - split; [cbn; lra|]. split; [|lia].
      assert (E : scaling 1 = sum_counted m 0 (alpha m 0)) by (apply scaling_sum; lia). cbn [scaling] in E. pose proof (P 0%nat Hlt). lra.
    - destruct (IH ltac:(lia)) as (S1 & S2 & S3).
      assert (HL : forall u, (u < S t)%nat -> Lam m u > 0) by (intros u Hu; destruct (Nat.eq_dec u t); [subst; exact S2|apply S3; lia]).
      assert (Sc : scaling (S t) > 0) by (cbn; apply Rmult_lt_0_compat; assumption). split; [exact Sc|]. split; [|exact HL].
      assert (E : scaling (S (S t)) = sum_counted m (S t) (alpha m (S t))) by (apply scaling_sum; intros u Hu; specialize (HL u Hu); lra).
      cbn [scaling] in E, Sc. pose proof (P (S t) Hlt). rewrite <- E in H. 
      apply Rnot_le_gt. intros L. assert (scaling t * Lam m t * Lam m (S t) <= 0).
      { rewrite <- (Rmult_0_r (scaling t * Lam m t)). apply Rmult_le_compat_l; lra. } lra. }
  intros Hlt. apply Q. exact Hlt.
Qed.

Lemma ln_scaling t : (forall u, (u < t)%nat -> Lam m u > 0) -> scaling t > 0 /\ ln (scaling t) = nsum t (fun u => ln (Lam m u)).
Proof.
  induction t as [|t IH]; intros H; [cbn; split; [lra|apply ln_1]|].
  destruct IH as [P E]; [intros; apply H; lia|]. cbn [scaling]. pose proof (H t ltac:(lia)).
  split; [apply Rmult_lt_0_compat; assumption|]. rewrite ln_mult by assumption. rewrite E, nsum_S. reflexivity.
Qed.

Lemma llk_value : (0 < n_T m)%nat -> 
  (total_weight > 0 /\ llk m = Fin (ln total_weight)) \/ (total_weight = 0 /\ (llk m = MInf \/ llk m = NaN)).
Proof.
  intros Hn. assert (N : 0 <= total_weight) by (rewrite <- total_alpha by exact Hn; apply sum_counted_nonneg).
  destruct (Req_EM_T total_weight 0) as [Z|Z].
  - right. split; [exact Z|]. unfold llk.
    destruct (forallb _ _) eqn:F; [|right; reflexivity]. destruct (Req_EM_T (Lam m (n_T m - 1)) 0) as [L|L]; [left; reflexivity|]. exfalso.
    rewrite forallb_forall in F.
    assert (HL : forall u, (u < n_T m - 1)%nat -> Lam m u <> 0).
    { intros u Hu. specialize (F u). cbv beta in F. destruct (Req_EM_T (Lam m u) 0); [|assumption].
      assert (false = true) by (apply F; apply in_seq; lia). discriminate. }
    pose proof (scaling_sum _ HL) as E. rewrite total_alpha in E by exact Hn. cbn [scaling] in E.
    pose proof (scaling_nonzero _ HL). rewrite Z in E. apply Rmult_integral in E. tauto.
  - left. split; [lra|]. pose proof (fun t => alive t Hn Z) as A. unfold llk.
    replace (forallb _ _) with true.
    + destruct (Req_EM_T (Lam m (n_T m - 1)) 0) as [L|L]; [pose proof (A (n_T m - 1)%nat ltac:(lia)); lra|]. f_equal.
      destruct (ln_scaling (n_T m)) as [_ E]; [intros; apply A; lia|]. rewrite <- E. f_equal.
      replace (n_T m) with (S (n_T m - 1)) at 1 by lia. rewrite scaling_sum; [apply total_alpha; exact Hn|].
      intros u Hu. pose proof (A u ltac:(lia)). lra.
    + symmetry. apply forallb_forall. intros u Hu. apply in_seq in Hu. destruct (Req_EM_T (Lam m u) 0) as [L|L]; [|reflexivity].
      pose proof (A u ltac:(lia)). lra.
Qed.
End Forward.

Lemma same_elements_sum A (l r : list A) (f : A -> R) : NoDup l -> NoDup r -> (forall x, In x l <-> In x r) -> lsum l f = lsum r f.
Proof. intros H1 H2 H. apply lsum_perm. apply NoDup_Permutation; assumption. Qed.
