(** C107-C109: residuals of hidden semi-Markov models. *)

From Coq Require Import List Bool Arith Reals Lia Lra.
From Verif Require Import HsmmModel HsmmSpec HsmmProofs HsmmProofs2 HsmmProofs5 HsmmProps ResidModel ResidSpec ResidProofs ResidProofs2.
From Verif Require Import DurModel DurSpec DurProofs.
Import ListNotations.
Local Open Scope R_scope.

(** A series of [n] time points with two states; durations 1, ..., k are equally likely. *)
Definition series (k n : nat) (ends last : bool) : tables R :=
  Tables false 0 n (S k) 2 true ends last false
    (fun t _ j => if (j =? 0)%nat then 1 / 2 else 1 / 4) (fun d j t => / INR k) (fun i j t => 1) (fun j => 1 / 2).
Lemma series_nonnegative k n e l : (0 < k)%nat -> nonnegative (series k n e l).
Proof.
  intros H. repeat split; intros; cbn; try lra; [destruct (j =? 0)%nat; lra|].
  apply Rlt_le, Rinv_0_lt_compat, lt_0_INR. exact H.
Qed.
Lemma nsum_const n x : nsum n (fun _ => x) = INR n * x.
Proof. induction n as [|n IH]; [unfold nsum; cbn; ring|]. rewrite nsum_S, IH, S_INR. ring. Qed.
Lemma series_normalised k n e l : (0 < k)%nat -> normalised (series k n e l).
Proof.
  intros H. assert (INR k <> 0) by (apply not_0_INR; lia). split; [|split].
  - intros j t Hj. unfold duration, later_column. cbn [series dur tvdtpi starts_with_first D]. replace (S k - 1)%nat with k by lia.
    rewrite nsum_const. split; field; assumption.
  - intros i t Hi. cbn in Hi. unfold nsum, transition. cbn. destruct i as [|[|i]]; [cbn; lra|cbn; lra|lia].
  - unfold nsum. cbn. lra.
Qed.
Lemma series_bumps k n e l : fixed_bumps 0 (series k n e l). Proof. discriminate. Qed.
Lemma lists_all (m : tables R) : (0 < n_T m)%nat -> lists_segmentations m (all R m).
Proof. intros H. split; [apply all_NoDup; exact H|]. intros s. apply all_spec. exact H. Qed.

(** ** C107: forward residuals *)

(** At time t, for distribution functions [c] of the observations given the state, the residual is the probability of a
    smaller observation given all earlier observations, as long as the end of the series is not restricted (in the last
    state: not at the last time point). *)
Theorem C107_forward : forall (m : tables R) (c : nat -> nat -> nat -> R) t, (t < n_T m)%nat ->
  nonnegative m -> fixed_bumps 0 m -> ends_with_last m = false -> ((t < n_T m - 1)%nat \/ ends_in_last m = false) ->
  given_past m t (c t) (forward_resid m c t).
Proof. intros m c t Ht Hp Hb E1 E2. apply forward_given; try assumption. split; assumption. Qed.
Print Assumptions C107_forward.

(** It is a distribution function: it does not decrease with [c], lies between 0 and 1 and is 0 or 1 if [c] is. *)
Theorem C107_range : forall (m : tables R) (c c' : nat -> nat -> nat -> R) t, (t < n_T m)%nat ->
  nonnegative m -> fixed_bumps 0 m -> normalised m -> ends_with_last m = false -> ((t < n_T m - 1)%nat \/ ends_in_last m = false) ->
  ((0 < t)%nat -> exists past, lists_segmentations (until m t) past /\ lsum past (weight R 1 Rmult (until m t)) > 0) ->
  ((forall u k j, c u k j <= c' u k j) -> forward_resid m c t <= forward_resid m c' t) /\
  ((forall u k j, 0 <= c u k j <= 1) -> 0 <= forward_resid m c t <= 1) /\
  forward_resid m (fun _ _ _ => 0) t = 0 /\ forward_resid m (fun _ _ _ => 1) t = 1.
Proof.
  intros m c c' t Ht Hp Hb Hn E1 E2 P.
  assert (O : open_end m t) by (split; assumption).
  assert (Hr : reachable m t).
  { destruct t as [|t]; [exact I|]. destruct (P ltac:(lia)) as (past & L & W). cbn [reachable]. rewrite past_sum in W by assumption. exact W. }
  assert (Z : forward_resid m (fun _ _ _ => 0) t = 0) by (apply forward_zero; assumption).
  assert (U : forward_resid m (fun _ _ _ => 1) t = 1) by (apply forward_one; assumption).
  split; [intros H; apply forward_mono; assumption|]. split; [|split; assumption].
  intros H. split.
  - rewrite <- Z. apply forward_mono; try assumption. intros. apply H.
  - rewrite <- U. apply forward_mono; try assumption. intros. apply H.
Qed.
Print Assumptions C107_range.

(** Second of three observations; the states have different distribution functions. *)
Example C107_case : let m := series 2 3 false false in let c := fun (_ _ j : nat) => if (j =? 0)%nat then 1 / 3 else 2 / 3 in
  (1 < n_T m)%nat /\ nonnegative m /\ fixed_bumps 0 m /\ normalised m /\
  (exists past, lists_segmentations (until m 1) past /\ lsum past (weight R 1 Rmult (until m 1)) > 0) /\ forward_resid m c 1 = 1 / 2.
Proof.
  cbv zeta. split; [cbn; lia|]. split; [apply series_nonnegative; lia|]. split; [apply series_bumps|]. split; [apply series_normalised; lia|].
  split.
  - exists (all R (until (series 2 3 false false) 1)). split; [apply lists_all; cbn; lia|]. cbv -[Rplus Rmult Rdiv IZR Rinv Rgt]. lra.
  - cbv -[Rplus Rmult Rdiv IZR Rinv]. field.
Qed.

(** If the series must end in the last state, the last residual misses the other states and is not divided by the
    probability of the last state: it stays below 1 however large the observation is. *)
Theorem C107_last_refuted : exists (m : tables R) t, (t < n_T m)%nat /\ nonnegative m /\ fixed_bumps 0 m /\ normalised m /\
  ends_with_last m = false /\ ends_in_last m = true /\
  (exists past, lists_segmentations (until m t) past /\ lsum past (weight R 1 Rmult (until m t)) > 0) /\
  forward_resid m (fun _ _ _ => 1) t = 1 / 2.
Proof.
  exists (series 1 3 false true), 2%nat. split; [cbn; lia|]. split; [apply series_nonnegative; lia|]. split; [apply series_bumps|].
  split; [apply series_normalised; lia|]. split; [reflexivity|]. split; [reflexivity|]. split.
  - exists (all R (until (series 1 3 false true) 2)). split; [apply lists_all; cbn; lia|]. cbv -[Rplus Rmult Rdiv IZR Rinv Rgt]. lra.
  - cbv -[Rplus Rmult Rdiv IZR Rinv]. field.
Qed.
Print Assumptions C107_last_refuted.

(** If the last state must end with the series, durations that are too long are left out before the last time point as well. *)
Theorem C107_earlier_refuted : exists (m : tables R) t, (t < n_T m - 1)%nat /\ nonnegative m /\ fixed_bumps 0 m /\ normalised m /\
  ends_with_last m = true /\ ends_in_last m = false /\
  (exists past, lists_segmentations (until m t) past /\ lsum past (weight R 1 Rmult (until m t)) > 0) /\
  forward_resid m (fun _ _ _ => 1) t = 8 / 9.
Proof.
  exists (series 3 3 true false), 1%nat. split; [cbn; lia|]. split; [apply series_nonnegative; lia|]. split; [apply series_bumps|].
  split; [apply series_normalised; lia|]. split; [reflexivity|]. split; [reflexivity|]. split.
  - exists (all R (until (series 3 3 true false) 1)). split; [apply lists_all; cbn; lia|]. cbv -[Rplus Rmult Rdiv IZR Rinv Rgt]. lra.
  - cbv -[Rplus Rmult Rdiv IZR Rinv]. field.
Qed.
Print Assumptions C107_earlier_refuted.

(** ** C108: predictive residuals *)

(** Expected observations are means given all earlier observations: for models of bumps and flats, and otherwise for a single
    signal.  With an autoregressive model the first flat is never entered again. *)
Theorem C108_expected : forall (m : tables R) (g : signals) t, (t < n_T m)%nat ->
  nonnegative m -> fixed_bumps 0 m -> ends_with_last m = false -> ((t < n_T m - 1)%nat \/ ends_in_last m = false) ->
  (hmp m = false -> n_M g = 1%nat /\ channel g = 0%nat) ->
  (hmp m = true -> ar g <> None -> forall i u, transition m i 0 u = 0) ->
  given_past m t (mean_of m g t) (expected m g t).
Proof. intros m g t Ht Hp Hb E1 E2 H1 H2. apply expected_given; try assumption. split; assumption. Qed.
Print Assumptions C108_expected.

(** From the second time point on a residual is the sum of the prediction errors divided by the root of the sum of their
    squares; it is at most the root of the number of time points. *)
Theorem C108_standardised : forall (m : tables R) (g : signals) n, (0 < n)%nat ->
  let error t := y g t - expected m g t in
  predictive_resid m g n = nsum (S n) error / sqrt (nsum (S n) (fun t => error t * error t)) /\
  (nsum (S n) (fun t => error t * error t) > 0 -> Rabs (predictive_resid m g n) <= sqrt (INR (S n))).
Proof.
  intros m g n Hn error.
  assert (E : predictive_resid m g n = nsum (S n) error / sqrt (nsum (S n) (fun t => error t * error t))).
  { destruct n as [|n]; [lia|]. cbn [predictive_resid]. rewrite cumulated_sum, sd_sum. unfold Rdiv. f_equal. f_equal. f_equal.
    apply nsum_ext. intros t _. unfold error. ring. }
  split; [exact E|]. intros P. rewrite E. unfold Rdiv. rewrite Rabs_mult.
  assert (S0 : sqrt (nsum (S n) (fun t => error t * error t)) > 0) by (apply sqrt_lt_R0; exact P).
  rewrite (Rabs_right (/ _)) by (apply Rle_ge, Rlt_le, Rinv_0_lt_compat; exact S0).
  apply (Rmult_le_reg_r (sqrt (nsum (S n) (fun t => error t * error t)))); [exact S0|]. rewrite Rmult_assoc, Rinv_l by lra. rewrite Rmult_1_r.
  rewrite <- sqrt_mult; [|apply pos_INR|lra]. rewrite <- sqrt_Rsqr_abs. apply sqrt_le_1_alt. unfold Rsqr.
  pose proof (cauchy (S n) error) as C. 
  rewrite (nsum_ext _ (fun i => error i ^ 2) (fun t => error t * error t)) in C by (intros; ring).
  replace (nsum (S n) error * nsum (S n) error) with (nsum (S n) error ^ 2) by ring. exact C.
Qed.
Print Assumptions C108_standardised.

(** Two signals, of which the first has means 0 and 1 and the second has means 8 and 9 in the two states. *)
Definition two_signals (channel n : nat) : signals :=
  Signals n channel (fun t => 1) (fun t s j => if (s =? 0)%nat then INR j else INR (8 + j)) (fun _ => 0) None (fun _ => 0).
Example C108_case : let m := series 1 2 false false in let g := two_signals 0 1 in
  (1 < n_T m)%nat /\ nonnegative m /\ fixed_bumps 0 m /\ n_M g = 1%nat /\ channel g = 0%nat /\ expected m g 1 = 2 / 3 /\
  nsum 2 (fun t => (y g t - expected m g t) * (y g t - expected m g t)) > 0 /\ predictive_resid m g 1 = (5 / 6) / sqrt (13 / 36).
Proof.
  cbv zeta. split; [cbn; lia|]. split; [apply series_nonnegative; lia|]. split; [apply series_bumps|]. do 2 (split; [reflexivity|]).
  assert (E0 : expected (series 1 2 false false) (two_signals 0 1) 0 = 1 / 2) by (cbv -[Rplus Rmult Rdiv IZR Rinv]; field).
  assert (E1 : expected (series 1 2 false false) (two_signals 0 1) 1 = 2 / 3) by (cbv -[Rplus Rmult Rdiv IZR Rinv]; field).
  split; [exact E1|]. split.
  - unfold nsum. cbn [seq map fold_right]. rewrite E0, E1. cbn [two_signals y]. lra.
  - unfold predictive_resid. cbn [resid_sd cumulated]. rewrite E0, E1. cbn [two_signals y].
    replace (1 - 1 / 2 + (1 - 2 / 3)) with (5 / 6) by field. f_equal. f_equal. field.
Qed.

(** A bump of two time points with autoregressive noise: the bump starts at the second time point with probability 1/2. *)
Example C108_bump_case : let g := Signals 2 1 (fun _ => 1) (fun t s j => INR s * 2) (fun k => INR (S k)) (Some (3 / 5)) (fun _ => 7) in
  (1 < n_T bump_ex)%nat /\ nonnegative bump_ex /\ fixed_bumps 0 bump_ex /\ hmp bump_ex = true /\ ends_with_last bump_ex = false /\
  (forall i u, transition bump_ex i 0 u = 0) /\ expected bump_ex g 1 = 5 / 4.
Proof.
  cbv zeta. split; [cbn; lia|]. split; [apply bump_ex_ok|]. split; [apply bump_ex_ok|]. do 2 (split; [reflexivity|]). split; [reflexivity|].
  assert (Q : / sqrt (1 - (3 / 5) ^ 2) = 5 / 4).
  { replace (1 - (3 / 5) ^ 2) with ((4 / 5) * (4 / 5)) by field. rewrite sqrt_square by lra. field. }
  unfold Rdiv in Q. cbn in Q. 
  cbv -[Rplus Rmult Rdiv IZR Rinv Ropp Rminus sqrt]. unfold Rdiv. cbv -[Rplus Rmult Rdiv IZR Rinv Ropp Rminus sqrt] in Q. rewrite ?Q. field.
Qed.

(** With two signals the means are read from the wrong places when a state is entered (mus(t,j) instead of mus(t,m,j)). *)
Theorem C108_signals_refuted : exists (m : tables R) (g : signals) t, (t < n_T m)%nat /\ nonnegative m /\ fixed_bumps 0 m /\ normalised m /\
  ends_with_last m = false /\ ends_in_last m = false /\ hmp m = false /\ n_M g = 2%nat /\ (channel g < n_M g)%nat /\
  (forall u, Rabs (mus g u (channel g) 0) <= 1 /\ Rabs (mus g u (channel g) 1) <= 1) /\
  expected m g t = 16 / 3 /\ ~ given_past m t (mean_of m g t) (expected m g t).
Proof.
  exists (series 1 2 false false), (two_signals 0 2), 1%nat. split; [cbn; lia|]. split; [apply series_nonnegative; lia|].
  split; [apply series_bumps|]. split; [apply series_normalised; lia|]. do 4 (split; [reflexivity|]). split; [cbn; lia|].
  assert (E1 : expected (series 1 2 false false) (two_signals 0 2) 1 = 16 / 3) by (cbv -[Rplus Rmult Rdiv IZR Rinv]; field).
  split; [intros u; cbn; rewrite Rabs_R0, Rabs_R1; lra|]. split; [exact E1|].
  intros H. rewrite E1 in H.
  specialize (H (all R (until (series 1 2 false false) 2)) (all R (until (series 1 2 false false) 1))
    (lists_all (until (series 1 2 false false) 2) Nat.lt_0_2) (lists_all (until (series 1 2 false false) 1) Nat.lt_0_1)). cbv zeta in H.
  assert (A : lsum (all R (until (series 1 2 false false) 1)) (weight R 1 Rmult (until (series 1 2 false false) 1)) = 3 / 8)
    by (cbv -[Rplus Rmult Rdiv IZR Rinv]; field).
  assert (B : lsum (all R (until (series 1 2 false false) 2))
    (weight R 1 Rmult (replaced (until (series 1 2 false false) 2) 1 (mean_of (series 1 2 false false) (two_signals 0 2) 1))) = 1 / 4)
    by (cbv -[Rplus Rmult Rdiv IZR Rinv]; field).
  rewrite A, B in H. specialize (H ltac:(lra)). lra.
Qed.
Print Assumptions C108_signals_refuted.

(** The first residual is not divided by anything. *)
Theorem C108_first_refuted : exists (m : tables R) (g : signals), nonnegative m /\ fixed_bumps 0 m /\ normalised m /\
  ends_with_last m = false /\ ends_in_last m = false /\ n_M g = 1%nat /\
  let error t := y g t - expected m g t in error 0%nat > 0 /\
  predictive_resid m g 0 <> nsum 1 error / sqrt (nsum 1 (fun t => error t * error t)).
Proof.
  exists (series 1 2 false false), (two_signals 0 1). split; [apply series_nonnegative; lia|]. split; [apply series_bumps|].
  split; [apply series_normalised; lia|]. do 3 (split; [reflexivity|]). cbv zeta.
  assert (E0 : expected (series 1 2 false false) (two_signals 0 1) 0 = 1 / 2) by (cbv -[Rplus Rmult Rdiv IZR Rinv]; field).
  unfold nsum, predictive_resid. cbn [seq map fold_right cumulated]. rewrite E0. cbn [two_signals y]. split; [lra|].
  replace ((1 - 1 / 2) * (1 - 1 / 2) + 0) with ((1 / 2) * (1 / 2)) by field. rewrite sqrt_square by lra. lra.
Qed.
Print Assumptions C108_first_refuted.

(** If the series must end in the last state, the last expectation is not that of a distribution. *)
Theorem C108_last_refuted : exists (m : tables R) (g : signals) t, (t < n_T m)%nat /\ nonnegative m /\ fixed_bumps 0 m /\ normalised m /\
  ends_with_last m = false /\ ends_in_last m = true /\ n_M g = 1%nat /\ channel g = 0%nat /\
  (forall k j, mean_of m g t k j = 1) /\ expected m g t < 1.
Proof.
  exists (series 1 2 false true), (Signals 1 0 (fun _ => 1) (fun _ _ _ => 1) (fun _ => 0) None (fun _ => 0)), 1%nat.
  split; [cbn; lia|]. split; [apply series_nonnegative; lia|]. split; [apply series_bumps|]. split; [apply series_normalised; lia|].
  do 4 (split; [reflexivity|]). split; [reflexivity|].
  assert (E : expected (series 1 2 false true) (Signals 1 0 (fun _ => 1) (fun _ _ _ => 1) (fun _ => 0) None (fun _ => 0)) 1 = 2 / 3) by (cbv -[Rplus Rmult Rdiv IZR Rinv]; field).
  rewrite E. lra.
Qed.
Print Assumptions C108_last_refuted.

(** ** C109: residuals of durations *)

(** Distributions that do not change over time, and at least two segments if the first segment has its own distribution:
    the residual of a state is the average over all its segments. *)
Theorem C109_durations_partial : forall (a : durations) (s : list segment), s <> [] -> alternates s ->
  (forall j, has a (j + n_states a) = has a j) -> varying a = false -> (first_starts a = true \/ (2 <= length s)%nat) ->
  exists res, compute_dur_res a (path s) = Some res /\
    forall j, average (res j) = if has a j then mean (segment_residuals a j 0 true s) else None.
Proof.
  intros a s Hs A Hc Hv H. exists (fill a (fun _ => Some []) true s). split; [apply dur_fill; assumption|].
  intros j. destruct (has a j) eqn:E.
  - rewrite (fill_value a Hc Hv s _ true j 0 E) by discriminate. cbn [app]. destruct (segment_residuals _ _ _ _ _); reflexivity.
  - destruct (fill_none a Hc s (fun _ => Some []) true j E (or_intror eq_refl)) as [Z|Z]; rewrite Z; reflexivity.
Qed.
Print Assumptions C109_durations_partial.

(** Residuals that show which column, duration and row they belong to. *)
Definition shown (starts var : bool) : durations :=
  Durations 2 starts var (fun _ => true) (fun col d row => INR (100 * col + 10 * d + row)).
Example C109_case : let a := shown false false in let s := [(0, 1); (1, 0); (0, 2)]%nat in
  alternates s /\ path s = [0; 0; 1; 0; 0; 0]%nat /\ mean (segment_residuals a 0 0 true s) = Some 125 /\
  mean (segment_residuals a 1 0 true s) = Some 310.
Proof. cbv zeta. split; [cbn; auto|]. split; [reflexivity|]. cbn. split; f_equal; field. Qed.

(** Durations that change over time: the distribution of the time point after the segment is used. *)
Theorem C109_time_refuted : exists (a : durations) (s : list segment), s <> [] /\ alternates s /\ (forall j, has a j = true) /\
  first_starts a = true /\ (2 <= length s)%nat /\
  exists res, compute_dur_res a (path s) = Some res /\ average (res 0%nat) = Some 22 /\ mean (segment_residuals a 0 0 true s) = Some 20.
Proof.
  exists (shown true true), [(0, 1); (1, 0)]%nat. split; [discriminate|]. split; [cbn; auto|]. do 2 (split; [reflexivity|]). split; [cbn; lia|].
  eexists. split; [reflexivity|]. split; cbn; f_equal; field.
Qed.
Print Assumptions C109_time_refuted.

(** A series that stays in one state: the distribution of later segments is used for its first segment. *)
Theorem C109_single_refuted : exists (a : durations) (s : list segment), s <> [] /\ alternates s /\ (forall j, has a j = true) /\ varying a = false /\
  exists res, compute_dur_res a (path s) = Some res /\ average (res 0%nat) = Some 220 /\ mean (segment_residuals a 0 0 true s) = Some 20.
Proof.
  exists (shown false false), [(0, 1)]%nat. split; [discriminate|]. split; [exact I|]. do 2 (split; [reflexivity|]).
  eexists. split; [reflexivity|]. split; cbn; f_equal; field.
Qed.
Print Assumptions C109_single_refuted.

(** The decoded states of a series are those [decode_viterbi] returns for it, if all series share their transition and
    initial probabilities and there is no autoregressive model or more than one series. *)
Theorem C109_states : forall TP (decode : TP -> list R -> list nat) (tables : nat -> TP) whiten ar ys series,
  (forall k, tables k = tables 0%nat) -> (forall l, map (@length R) (whiten l) = map (@length R) l) -> (series < length ys)%nat ->
  ar = false \/ length (nth series ys []) <> length (concat ys) ->
  resid_states TP decode tables whiten ar (length (concat ys)) ys series =
  nth series (decode_viterbi TP decode tables whiten ar (length (concat ys)) ys) [].
Proof.
  intros TP decode tables whiten ar ys series HT Hw Hs H. unfold resid_states, decode_viterbi, split_matrices. rewrite Nat.eqb_refl, andb_true_r.
  assert (Hl : length (nth series (if ar then whiten ys else ys) []) = length (nth series ys [])).
  { destruct ar; [|reflexivity]. rewrite <- (map_nth (@length R) (whiten ys)), <- (map_nth (@length R) ys), Hw. reflexivity. }
  assert (Hy : length (if ar then whiten ys else ys) = length ys).
  { destruct ar; [|reflexivity]. rewrite <- (map_length (@length R) (whiten ys)), Hw. apply map_length. }
  assert (F : ar && (length (concat [nth series (if ar then whiten ys else ys) []]) =? length (concat ys))%nat = false).
  { destruct H as [->|H]; [reflexivity|]. destruct ar; [|reflexivity]. cbn [concat andb]. rewrite app_nil_r, Hl. apply Nat.eqb_neq. exact H. }
  rewrite F. cbn [length seq map nth]. rewrite Hy.
  rewrite (nth_indep _ _ (decode (tables 0%nat) (nth 0 (if ar then whiten ys else ys) []))) by (rewrite map_length, seq_length; exact Hs).
  rewrite (map_nth (fun k => decode (tables k) (nth k (if ar then whiten ys else ys) [])) (seq 0 (length ys)) 0%nat series).
  rewrite seq_nth by exact Hs. cbn [Nat.add]. rewrite (HT series). reflexivity.
Qed.
Print Assumptions C109_states.
Example C109_states_case : length (nth 1 [[1]; [2; 3]] []) <> length (concat [[1]; [2; 3]]).
Proof. cbn. lia. Qed.

(** Transition probabilities per series: every series is decoded with those of the first. *)
Theorem C109_tables_refuted : exists TP (decode : TP -> list R -> list nat) (tables : nat -> TP) whiten ys series, (series < length ys)%nat /\
  resid_states TP decode tables whiten false (length (concat ys)) ys series <>
  nth series (decode_viterbi TP decode tables whiten false (length (concat ys)) ys) [].
Proof. exists nat, (fun k _ => [k]), (fun k => k), (fun l => l), [[1]; [2; 3]], 1%nat. split; [cbn; lia|discriminate]. Qed.
Print Assumptions C109_tables_refuted.

(** One series and an autoregressive model: the observations are transformed twice. *)
Theorem C109_transform_refuted : exists (decode : unit -> list R -> list nat) (whiten : list (list R) -> list (list R)) ys,
  (forall l, map (@length R) (whiten l) = map (@length R) l) /\ length ys = 1%nat /\
  (forall x, whiten [x] = [map (Rmult (1 / 2)) x]) /\
  resid_states unit decode (fun _ => tt) whiten true (length (concat ys)) ys 0 <>
  nth 0 (decode_viterbi unit decode (fun _ => tt) whiten true (length (concat ys)) ys) [].
Proof.
  exists (fun _ x => match x with v :: _ => if Rle_dec (1 / 2) v then [1%nat] else [0%nat] | [] => [] end), (map (map (Rmult (1 / 2)))), [[1]].
  split; [intros l; rewrite map_map; apply map_ext; intros x; apply map_length|]. split; [reflexivity|]. split; [reflexivity|].
  cbn. destruct (Rle_dec (1 / 2) (1 / 2 * (1 / 2 * 1))); [lra|]. destruct (Rle_dec (1 / 2) (1 / 2 * 1)); [discriminate|lra].
Qed.
Print Assumptions C109_transform_refuted.
