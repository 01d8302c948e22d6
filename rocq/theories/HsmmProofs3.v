(** Backward sampling draws from the posterior. *)

From Coq Require Import List Bool Arith Reals Lia Lra Permutation.
From Verif Require Import Ext HsmmModel HsmmSpec HsmmProofs HsmmProofs2.
Import ListNotations.
Local Open Scope R_scope.

Lemma nsum_swap n k f : nsum n (fun i => nsum k (fun j => f i j)) = nsum k (fun j => nsum n (fun i => f i j)).
Proof.
  induction n as [|n IH]; [symmetry; apply nsum_zero; reflexivity|]. rewrite nsum_S, IH.
  assert (E : nsum k (fun j => nsum n (fun i => f i j)) + nsum k (fun j => f n j) = nsum k (fun j => nsum n (fun i => f i j) + f n j)).
  { clear. induction k as [|k IH]; [cbn; ring|]. rewrite !nsum_S, <- IH. ring. }
  rewrite E. apply nsum_ext. intros j _. rewrite nsum_S. reflexivity.
Qed.
Lemma nsum_single n f i : (i < n)%nat -> (forall k, (k < n)%nat -> k <> i -> f k = 0) -> nsum n f = f i.
Proof.
  induction n as [|n IH]; intros Hi H; [lia|]. rewrite nsum_S. destruct (Nat.eq_dec i n) as [->|N].
  - rewrite nsum_zero; [ring|]. intros k Hk. apply H; lia.
  - rewrite IH, (H n) by (lia || (intros; apply H; lia)). ring.
Qed.
Lemma nsum_plus n f g : nsum n (fun i => f i + g i) = nsum n f + nsum n g.
Proof. induction n as [|n IH]; [cbn; ring|]. rewrite !nsum_S, IH. ring. Qed.
Lemma lsum_ge A (l : list A) f a : (forall a, In a l -> 0 <= f a) -> In a l -> f a <= lsum l f.
Proof.
  induction l as [|c l IH]; intros H Ha; [destruct Ha|]. rewrite lsum_cons. pose proof (H c (or_introl eq_refl)).
  assert (0 <= lsum l f) by (apply lsum_nonneg; intros; apply H; right; assumption).
  destruct Ha as [<-|Ha]; [lra|]. assert (f a <= lsum l f) by (apply IH; auto; intros; apply H; right; assumption). lra.
Qed.

(** States of a segmentation. *)
Lemma path_length s : length (path s) = span s.
Proof. unfold path. induction s as [|g s IH]; [reflexivity|]. cbn [flat_map]. rewrite app_length, repeat_length, IH. reflexivity. Qed.
Lemma path_app s r : path (s ++ r) = path s ++ path r.
Proof. unfold path. apply flat_map_app. Qed.
Lemma state_at_last j e r u : (span r <= u < span ((j, e) :: r))%nat -> state_at (rev ((j, e) :: r)) u = j.
Proof.
  intros H. unfold state_at. cbn [rev]. rewrite path_app. rewrite app_nth2 by (rewrite path_length, span_rev; lia).
  rewrite path_length, span_rev. cbn [path flat_map]. rewrite app_nil_r. 
  cbn [fst snd]. rewrite span_cons in H. cbn [snd] in H.
  assert (G : forall n k, (k < n)%nat -> nth k (repeat j n) 0%nat = j).
  { clear. induction n as [|n IH]; intros k Hk; [lia|]. destruct k; [reflexivity|]. cbn. apply IH. lia. }
  apply G. lia.
Qed.
Lemma state_at_before g r u : (u < span r)%nat -> state_at (rev (g :: r)) u = state_at (rev r) u.
Proof. intros H. unfold state_at. cbn [rev]. rewrite path_app. apply app_nth1. rewrite path_length, span_rev. exact H. Qed.

Section Sampling.
Variable m : tables R.
Hypothesis Hb : fixed_bumps 0 m.
Hypothesis Hpos : nonnegative m.
Hypothesis Hplain : plain_flats m.
Hypothesis Htv : tvdtpi m = false.
Hypothesis Hn : (0 < n_T m)%nat.
Hypothesis Htot : total_weight m <> 0.

Lemma ds_time d j t t' : ds m d j t = ds m d j t'.
Proof. unfold ds. rewrite Htv. reflexivity. Qed.

Let A t := sum_counted m t (alpha m t).

Lemma A_pos t : (t < n_T m)%nat -> A t > 0.
Proof. intros H. apply alive_sum; assumption. Qed.

Lemma sb_values t : (t < n_T m)%nat ->
  (forall d j, (d < D m - 1)%nat -> (j < n_S m)%nat -> sb_scaled m t d j = alpha m t d j / A t) /\
  exists c, c <> 0 /\ (forall d j, (d < D m - 1)%nat -> (j < n_S m)%nat -> sb_raw m t d j = alpha m t d j / c) /\ sb_L m t = A t / c.
Proof.
  induction t as [|t IH]; intros Ht.
  - split; [reflexivity|]. exists 1. split; [lra|]. split; [intros; unfold sb_raw; cbn; field|]. unfold sb_L, A. cbn. field.
  - destruct (IH ltac:(lia)) as [Hs _]. unfold sb_scaled, sb_raw, sb_L in *. cbn [sb_lam].
    destruct (sb_lam m t) as [[raw prev] L]. cbn [fst snd] in *. pose proof (A_pos t ltac:(lia)) as P. pose proof (A_pos (S t) Ht) as P'.
    assert (R : forall d j, (d < D m - 1)%nat -> (j < n_S m)%nat -> raw_cell m (S t) prev d j = alpha m (S t) d j / A t).
    { intros d j Hd Hj. cbn [alpha]. apply raw_cell_scal; assumption. }
    assert (E : sum_counted m (S t) (raw_cell m (S t) prev) = A (S t) / A t).
    { rewrite (sum_counted_ext m (S t) _ _ R). apply sum_counted_scal. }
    split.
    + intros d j Hd Hj. rewrite R, E by assumption. field. split; lra.
    + exists (A t). split; [lra|]. split; [exact R|exact E].
Qed.

Lemma wr_nonneg n s : 0 <= W m n s.
Proof.
  destruct Hpos as (H1 & _ & _ & H4).
  induction s as [|g r IH]; cbn [wr]; [lra|]. apply Rmult_le_pos; [exact IH|]. apply Rmult_le_pos.
  - unfold enter. to_model. destruct (from_of r); apply Rmult_le_pos; try apply ds_nonneg; try apply T_nonneg; auto.
  - unfold observations. induction (filter _ _) as [|k l IHl]; cbn; [lra|]. apply Rmult_le_pos; [|exact IHl].
    unfold observation. destruct (hmp m); [destruct (Nat.odd _); [apply H1|]|apply H1].
    destruct (_ && _); apply H1.
Qed.

Lemma bump_entry t d j : (j < n_S m)%nat -> b_first m t j * ds m d (later m j) t = bc m t d j * ds m d (later m j) t.
Proof.
  intros Hj. unfold b_first, bc, b_cont. destruct (hmp m) eqn:Hh; [|reflexivity].
  rewrite <- Nat.negb_odd. destruct (Nat.odd j) eqn:Ho; cbn [negb].
  - destruct (Hb Hh) as [Hw H]. to_model. destruct (Nat.eq_dec d (event_width m - 1)) as [->|N].
    + rewrite Nat.leb_refl. rewrite Nat.sub_diag. reflexivity.
    + destruct (H d j t Hj Ho N) as [_ E]. rewrite E. ring.
  - rewrite (Hplain Hh t j); [reflexivity|]. rewrite <- Nat.negb_odd, Ho. reflexivity.
Qed.

Lemma alpha_weights t d j : (S t < n_T m)%nat -> (d < D m - 1)%nat -> (j < n_S m)%nat -> in_range m (S t) d = true ->
  alpha m (S t) d j = A t * nsum (n_S m) (state_probs m (S t) j d) * bc m (S t) d j.
Proof.
  intros Ht Hd Hj Hr. cbn [alpha]. rewrite raw_cell_eq by exact Hr. rewrite bump_entry by exact Hj.
  destruct (sb_values t ltac:(lia)) as [Hs _]. pose proof (A_pos t ltac:(lia)) as P.
  set (cont := if (d + 1 <=? D m - 2)%nat then alpha m t (d + 1) j else 0).
  set (ent := fun i => if (i =? j)%nat then 0 else alpha m t 0 i * T m i j t * ds m d (later m j) (S t)).
  assert (E : nsum (n_S m) (state_probs m (S t) j d) = cont / A t + nsum (n_S m) ent / A t).
  { transitivity (nsum (n_S m) (fun i => (if (i =? j)%nat then cont / A t else 0) + ent i * / A t)).
    - apply nsum_ext. intros i Hi. unfold state_probs, ent, cont. replace (S t - 1)%nat with t by lia.
      destruct (Nat.eqb_spec i j) as [->|N].
      + destruct (Nat.leb_spec (d + 1) (D m - 2)); [rewrite Hs by lia; field; lra|unfold Rdiv; ring].
      + rewrite Hs by lia. rewrite (ds_time d (later m j) t (S t)). field. lra.
    - rewrite nsum_plus, nsum_scal_r. f_equal. rewrite (nsum_single _ _ j Hj); [rewrite Nat.eqb_refl; reflexivity|].
      intros k _ N. destruct (Nat.eqb_spec k j); [contradiction|reflexivity]. }
  rewrite E. replace (S t - 1)%nat with t by lia.
  assert (E2 : nsum (n_S m) (fun i => if (i =? j)%nat then 0 else alpha m t 0 i * T m i j t) * (bc m (S t) d j * ds m d (later m j) (S t))
               = nsum (n_S m) ent * bc m (S t) d j).
  { rewrite <- !nsum_scal_r. apply nsum_ext. intros i _. unfold ent. destruct (i =? j)%nat; ring. }
  rewrite E2. unfold cont. destruct (_ <=? _)%nat; field; lra.
Qed.

Lemma sb_back_posterior t : forall d j s st, (t < n_T m)%nat -> (d < D m - 1)%nat -> (j < n_S m)%nat -> in_range m t d = true ->
  prefix R m t d j s -> W m (S t) s > 0 -> (forall u, (u <= t)%nat -> st u = state_at (rev s) u) ->
  sb_back m st t d = W m (S t) s / alpha m t d j /\ alpha m t d j > 0.
Proof.
  induction t as [|t IH]; intros d j s st Ht Hd Hj Hr Hp Hw Hst.
  - assert (E : s = [(j, d)]).
    { apply (enum_spec R m 0 d j s Hd Hj) in Hp. destruct Hp as [<-|[]]. reflexivity. }
    subst. rewrite (alpha_enum m Hb 0 d j Hd Hj Hr). cbn [enum]. rewrite lsum_cons, lsum_nil, Rplus_0_r. cbn [sb_back].
    split; [field; lra|exact Hw].
  - pose proof (alpha_weights t d j Ht Hd Hj Hr) as EA.
    destruct (in_range_prev m _ _ Hr) as [R1 R0].
    destruct (sb_values t ltac:(lia)) as [Hs _]. pose proof (A_pos t ltac:(lia)) as P.
    assert (Pa : alpha m (S t) d j > 0).
    { rewrite (alpha_enum m Hb (S t) d j Hd Hj Hr). apply Rlt_le_trans with (W m (S (S t)) s); [exact Hw|].
      apply (lsum_ge _ (enum R m (S t) d j) (W m (S (S t)))); [intros; apply wr_nonneg|]. apply enum_spec; assumption. }
    split; [|exact Pa].
    assert (NZ : nsum (n_S m) (state_probs m (S t) j d) <> 0).
    { intros Z. rewrite Z in EA. rewrite Rmult_0_r, Rmult_0_l in EA. lra. }
    assert (NB : bc m (S t) d j <> 0).
    { intros Z. rewrite Z in EA. rewrite Rmult_0_r in EA. lra. }
    destruct Hp as (e & r & -> & F & Al & E & B). rewrite span_cons in E. cbn [snd] in E.
    inversion F as [|? ? [_ He] F']; subst. cbn [snd] in He.
    assert (S1 : st (S t) = j). { rewrite Hst by lia. apply state_at_last. rewrite span_cons. cbn [snd]. lia. }
    cbn [sb_back]. rewrite S1. unfold draw.
    destruct (Nat.eq_dec (span r) (S t)) as [Er|Er].
    + assert (e = d) by lia. subst e. destruct r as [|[i e'] r]; [cbn in Er; lia|].
      destruct (Forall_inv F') as [Hi He']. cbn [fst snd] in Hi, He'. destruct Al as [Al1 Al2]. cbn [fst] in Al1.
      assert (Pr : prefix R m t 0 i ((i, e') :: r)).
      { exists e', r. split; [reflexivity|]. split; [exact F'|]. split; [exact Al2|]. split; [lia|].
        rewrite span_cons in Er. cbn [snd] in Er. lia. }
      pose proof (W_enter m t d j i ((i, e') :: r) Pr) as Ew.
      assert (Hwr : W m (S t) ((i, e') :: r) > 0).
      { destruct (wr_nonneg (S t) ((i, e') :: r)) as [H|H]; [exact H|]. rewrite <- H in Ew. rewrite Ew in Hw. lra. }
      assert (S0 : st t = i).
      { rewrite Hst by lia. rewrite state_at_before by lia. apply state_at_last. rewrite span_cons in *. cbn [snd] in *. lia. }
      assert (D0 : (0 < D m - 1)%nat) by lia.
      destruct (IH 0%nat i ((i, e') :: r) st ltac:(lia) D0 Hi R0 Pr Hwr) as [IHe IHp].
      { intros u Hu. rewrite Hst by lia. apply state_at_before. lia. }
      rewrite S0. destruct (Nat.eqb_spec i j); [congruence|]. rewrite IHe.
      assert (Es : state_probs m (S t) j d i = alpha m t 0 i * T m i j t * ds m d (later m j) (S t) / A t).
      { unfold state_probs. replace (S t - 1)%nat with t by lia. destruct (Nat.eqb_spec i j); [congruence|]. rewrite Hs by assumption.
        rewrite (ds_time d (later m j) t (S t)). field. lra. }
      rewrite Es, Ew, EA. rewrite bump_entry by exact Hj. field. repeat split; try assumption; lra.
    + assert (Hd1 : (d + 1 < D m - 1)%nat) by lia.
      assert (Pr : prefix R m t (d + 1) j ((j, e) :: r)).
      { exists e, r. split; [reflexivity|]. split; [exact F|]. split; [exact Al|]. rewrite span_cons. cbn [snd]. lia. }
      pose proof (W_cont m Hb t d j ((j, e) :: r) Hd1 Hj Pr) as Ew.
      assert (Hwr : W m (S t) ((j, e) :: r) > 0).
      { destruct (wr_nonneg (S t) ((j, e) :: r)) as [H|H]; [exact H|]. rewrite <- H in Ew. rewrite Ew in Hw. lra. }
      assert (S0 : st t = j).
      { rewrite Hst by lia. apply state_at_last. rewrite span_cons. cbn [snd]. lia. }
      destruct (IH (d + 1)%nat j ((j, e) :: r) st ltac:(lia) Hd1 Hj R1 Pr Hwr) as [IHe IHp].
      { intros u Hu. apply Hst. lia. }
      rewrite S0, Nat.eqb_refl. replace (S d) with (d + 1)%nat by lia. rewrite IHe.
      assert (Es : state_probs m (S t) j d j = alpha m t (d + 1) j / A t).
      { unfold state_probs. replace (S t - 1)%nat with t by lia. rewrite Nat.eqb_refl.
        destruct (Nat.leb_spec (d + 1) (D m - 2)); [|lia]. apply Hs; assumption. }
      rewrite Es, Ew, EA. field. repeat split; try assumption; lra.
Qed.

Lemma sample_posterior s : segmentation m s -> weight R 1 Rmult m s > 0 ->
  sample_prob m (state_at s) (excess m s) = weight R 1 Rmult m s / total_weight m.
Proof.
  intros Hseg Hw. pose proof Hseg as (Hne & F & Al & [B1 B2] & C1 & C2).
  destruct (rev s) as [|[j e] r] eqn:ER; [apply (f_equal (@rev segment)) in ER; rewrite rev_involutive in ER; cbn in ER; congruence|].
  assert (Es : s = rev ((j, e) :: r)) by (rewrite <- ER, rev_involutive; reflexivity).
  destruct (removelast_rev _ _ _ Es) as [R1 R2]. rewrite R1, span_rev in B1. rewrite R2 in C2. cbn [fst] in C2.
  assert (F' : Forall (fun g => (fst g < n_S m /\ snd g < D m - 1)%nat) ((j, e) :: r)) by (rewrite <- ER; apply Forall_rev; exact F).
  assert (Hsp : span s = (S e + span r)%nat) by (rewrite Es, span_rev; reflexivity).
  inversion F' as [|? ? [Hj He] _]; subst. cbn [fst snd] in Hj, He.
  set (s := rev ((j, e) :: r)) in *. set (n := (n_T m - 1)%nat).
  set (d := excess m s). assert (Ed : d = (S e + span r - n_T m)%nat) by (unfold d, excess; lia).
  assert (Hd : (d < D m - 1)%nat) by lia.
  assert (Hc : counts m n d j = true).
  { apply counts_last; [lia|lia|]. split; [intros H; specialize (C1 H); lia|exact C2]. }
  assert (Hr : in_range m n d = true).
  { unfold in_range. apply counts_last in Hc; [|lia|lia]. destruct (ends_with_last m); [|apply orb_true_r].
    destruct Hc as [Hc _]. rewrite (Hc eq_refl). apply orb_true_iff. left. apply Nat.ltb_lt. unfold n. lia. }
  assert (Pr : prefix R m n d j ((j, e) :: r)).
  { exists e, r. split; [reflexivity|]. split; [exact F'|]. split; [rewrite <- ER; apply alternates_rev; exact Al|].
    rewrite span_cons. cbn [snd]. unfold n. lia. }
  assert (Ew : weight R 1 Rmult m s = W m (S n) ((j, e) :: r)).
  { unfold weight, s. rewrite weight_rev by (intros; ring). f_equal. unfold n. lia. }
  rewrite Ew in *.
  assert (Sn : state_at s n = j). { unfold s. apply state_at_last. rewrite span_cons. cbn [snd]. unfold n. lia. }
  destruct (sb_back_posterior n d j ((j, e) :: r) (state_at s)) as [Eb Pb]; auto; [unfold n; lia|].
  destruct (sb_values n ltac:(unfold n; lia)) as [_ (c & Hc0 & Hraw & HL)].
  assert (PA : A n > 0) by (apply A_pos; unfold n; lia).
  assert (EA : A n = total_weight m) by (apply total_alpha; assumption).
  unfold sample_prob. fold n. rewrite Sn, Eb.
  set (g d' j' := if counts m n d' j' then alpha m n d' j' else 0).
  assert (Eg : forall d' j', (d' < D m - 1)%nat -> (j' < n_S m)%nat ->
            (if counts m n d' j' then sb_raw m n d' j' else 0) / sb_L m n = g d' j' / A n).
  { intros d' j' Hd' Hj'. unfold g. rewrite HL. destruct (counts m n d' j'); [rewrite Hraw by assumption|]; field; (split; lra || assumption) || lra. }
  assert (Est : forall j', (j' < n_S m)%nat -> state_probsT m j' = nsum (D m - 1) (fun d' => g d' j') / A n).
  { intros j' Hj'. unfold state_probsT. fold n. unfold Rdiv. rewrite <- !nsum_scal_r. apply nsum_ext. intros d' Hd'. apply Eg; assumption. }
  assert (Sum1 : nsum (n_S m) (state_probsT m) = 1).
  { rewrite (nsum_ext _ _ (fun j' => nsum (D m - 1) (fun d' => g d' j') * / A n)) by (intros; apply Est; assumption).
    rewrite nsum_scal_r, <- nsum_swap. change (nsum (D m - 1) (fun i => nsum (n_S m) (fun j0 => g i j0))) with (A n). field. lra. }
  assert (Pg : nsum (D m - 1) (fun d' => g d' j) > 0).
  { apply Rlt_le_trans with (g d j); [unfold g; rewrite Hc; exact Pb|].
    apply (lsum_ge _ (seq 0 (D m - 1)) (fun d' => g d' j)); [|apply in_seq; lia].
    intros d' _. unfold g. destruct (counts m n d' j); [apply alpha_nonneg; exact Hpos|lra]. }
  assert (Ps : state_probsT m j > 0). { rewrite Est by exact Hj. apply Rdiv_lt_0_compat; assumption. }
  assert (Edu : forall d', (d' < D m - 1)%nat -> dur_probs m j d' = g d' j / A n / state_probsT m j).
  { intros d' Hd'. unfold dur_probs. fold n. rewrite Eg by assumption. reflexivity. }
  assert (Sum2 : nsum (D m - 1) (dur_probs m j) = 1).
  { rewrite (nsum_ext _ _ (fun d' => g d' j * (/ A n * / state_probsT m j))).
    - rewrite nsum_scal_r, Est by exact Hj. field. split; lra.
    - intros d' Hd'. rewrite Edu by exact Hd'. field. split; lra. }
  unfold draw. rewrite Sum1, Sum2, Edu by exact Hd. unfold g. rewrite Hc. rewrite <- EA. field. repeat split; lra.
Qed.
End Sampling.
