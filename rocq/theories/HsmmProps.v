(** Properties of hidden semi-Markov models: forward pass, decoding, sampling, transition matrices. *)

From Coq Require Import List Bool Arith Reals Lia Lra.
From Verif Require Import Ext HsmmModel HsmmSpec HsmmProofs HsmmProofs2 HsmmProofs3 HsmmProofs4 HsmmProofs5.
Import ListNotations.
Local Open Scope R_scope.

(** ** C40: the forward pass sums over all segmentations *)

(** One series: the log-likelihood is the logarithm of the sum of the weights of all segmentations. *)
Theorem C40_forward : forall (m : tables R) (L : list (list segment)),
  (0 < n_T m)%nat -> nonnegative m -> fixed_bumps 0 m -> lists_segmentations m L ->
  let total := lsum L (weight R 1 Rmult m) in
  (total > 0 -> llk m = Fin (ln total)) /\ (total = 0 -> llk m = MInf \/ llk m = NaN).
Proof.
  intros m L Hn Hp Hb HL total. unfold total. rewrite (total_any m L Hn HL).
  destruct (llk_value m Hb Hp Hn) as [[H E]|[H E]]; split; intros H'; try assumption; lra.
Qed.

(** All series: the sum of the logarithms, or -inf if some series cannot be explained. *)
Theorem C40_all_series : forall (xs : list (tables R * list (list segment))) (llc : R),
  Forall (fun x => (0 < n_T (fst x))%nat /\ nonnegative (fst x) /\ fixed_bumps 0 (fst x) /\ lists_segmentations (fst x) (snd x)) xs ->
  let p x := lsum (snd x) (weight R 1 Rmult (fst x)) in
  ((forall x, In x xs -> p x > 0) -> joint_llk (map fst xs) llc = Fin (lsum xs (fun x => ln (p x)) - llc)) /\
  ((exists x, In x xs /\ p x = 0) -> joint_llk (map fst xs) llc = MInf).
Proof.
  intros xs llc F p. pose proof (joint_sum xs F (Fin 0)) as J. unfold joint_llk.
  destruct (fold_left _ _ _) as [v| | |].
  - destruct J as (a & Ea & H1 & ->). injection Ea as <-. split.
    + intros _. f_equal. unfold p, prob. ring.
    + intros (x & Hx & Z). specialize (H1 x Hx). unfold prob in H1. unfold p in Z. lra.
  - discriminate.
  - destruct J as [J|(x & Hx & Z)]; [discriminate|]. split; [|reflexivity]. intros H. specialize (H x Hx). unfold p in H. unfold prob in Z. lra.
  - destruct J as [J|[J|(x & Hx & Z)]]; try discriminate. split; [|reflexivity]. intros H. specialize (H x Hx). unfold p in H. unfold prob in Z. lra.
Qed.

Definition series_ex : tables R :=
  Tables false 0 3 3 2 true false false false
    (fun t k j => if (t =? 0)%nat && (j =? 0)%nat then 1 / 2 else 1 / 4) (fun d j t => 1 / 2) (fun i j t => 1) (fun j => 1 / 2).
Lemma series_ex_ok : (0 < n_T series_ex)%nat /\ nonnegative series_ex /\ fixed_bumps 0 series_ex /\
  lists_segmentations series_ex (all R series_ex).
Proof.
  split; [cbn; lia|]. split.
  - repeat split; intros; cbn; try destruct (_ && _); lra.
  - split; [discriminate|]. split; [apply all_NoDup; cbn; lia|]. intros s. apply all_spec. cbn. lia.
Qed.
Example C40_ex : length (all R series_ex) = 10%nat /\ llk series_ex = Fin (ln (3 / 128)).
Proof.
  split; [reflexivity|]. destruct series_ex_ok as (H1 & H2 & H3 & H4).
  destruct (C40_forward series_ex (all R series_ex) H1 H2 H3 H4) as [C _].
  assert (E : lsum (all R series_ex) (weight R 1 Rmult series_ex) = 3 / 128) by (cbv -[Rplus Rmult Rdiv IZR]; lra).
  cbv zeta in C. rewrite E in C. apply C. lra.
Qed.
(** A model with a bump of two time points that ends in the last state. *)
Definition bump_ex : tables R :=
  Tables true 2 3 3 3 true false false false
    (fun t k j => if (t =? 0)%nat then 1 / 2 else INR (S k) / 4)
    (fun d j t => if Nat.odd j then (if (d =? 1)%nat then 1 else 0) else 1 / 2)
    (fun i j t => if (j =? S i)%nat then 1 else 0) (fun j => if (j =? 0)%nat then 1 else 0).
Lemma bump_ex_ok : (0 < n_T bump_ex)%nat /\ nonnegative bump_ex /\ fixed_bumps 0 bump_ex /\ lists_segmentations bump_ex (all R bump_ex).
Proof.
  split; [cbn; lia|]. split.
  - repeat split; intros.
    + cbn -[INR]. destruct (t =? 0)%nat; [lra|]. apply Rlt_le, Rdiv_lt_0_compat; [apply lt_0_INR; lia|lra].
    + cbn. destruct (Nat.odd j); [destruct (d =? 1)%nat|]; lra.
    + cbn. destruct (j =? S i)%nat; lra.
    + cbn. destruct (j =? 0)%nat; lra.
  - split.
    + intros _. split; [cbn; lia|]. intros d j t _ Ho Hd. unfold duration, later_column. cbn. rewrite Ho.
      destruct (Nat.eqb_spec d 1); [contradiction|]. auto.
    + split; [apply all_NoDup; cbn; lia|]. intros s. apply all_spec. cbn. lia.
Qed.
Example C40_bump_ex : llk bump_ex = Fin (ln (3 / 64)).
Proof.
  destruct bump_ex_ok as (H1 & H2 & H3 & H4).
  destruct (C40_forward bump_ex (all R bump_ex) H1 H2 H3 H4) as [C _].
  assert (E : lsum (all R bump_ex) (weight R 1 Rmult bump_ex) = 3 / 64) by (cbv -[Rplus Rmult Rdiv IZR]; lra).
  cbv zeta in C. rewrite E in C. apply C. lra.
Qed.
Example C40_all_ex : joint_llk [series_ex; bump_ex] 1 = Fin (ln (3 / 128) + ln (3 / 64) - 1).
Proof. unfold joint_llk. cbn [fold_left]. rewrite (proj2 C40_ex), C40_bump_ex. cbn [esum2]. f_equal. ring. Qed.

(** ** C41: decoding finds a most probable segmentation *)

(** If the series can be explained at all, the result is a segmentation of maximal weight: its states at all
    time points and what is left of its last state. *)
Theorem C41_viterbi : forall (m : tables lnum) s0,
  @fixed_bumps lnum None m -> segmentation m s0 -> weight lnum (Some 0) ladd m s0 <> None ->
  exists s, segmentation m s /\
    viterbi m = Some (excess m s, map (fun t => Some (state_at s t)) (seq 0 (n_T m))) /\
    forall s', segmentation m s' -> lle (weight lnum (Some 0) ladd m s') (weight lnum (Some 0) ladd m s).
Proof. intros m s0 Hb. apply viterbi_optimal. exact Hb. Qed.

(** The result stands for one segmentation only. *)
Theorem C41_identified : forall K (m : tables K) s s', segmentation m s -> segmentation m s' ->
  (forall t, (t < n_T m)%nat -> state_at s t = state_at s' t) -> excess m s = excess m s' -> s = s'.
Proof. exact segmentation_identified. Qed.

Definition log_ex : tables lnum :=
  Tables false 0 3 3 2 true true false false
    (fun t k j => Some (if (t =? 0)%nat && (j =? 1)%nat then 1 else 0)) (fun d j t => if (d =? 0)%nat then Some (-1) else Some 0)
    (fun i j t => Some (-1)) (fun j => Some (-1)).
Example C41_ex : segmentation log_ex [(1%nat, 1%nat); (0%nat, 0%nat)] /\
  weight lnum (Some 0) ladd log_ex [(1%nat, 1%nat); (0%nat, 0%nat)] <> None /\
  @fixed_bumps lnum None log_ex /\
  segmentation log_ex [(0%nat, 0%nat); (1%nat, 1%nat)].
Proof.
  split; [|split; [cbv; discriminate|split; [discriminate|]]];
  (split; [discriminate|]; split; [repeat constructor|]; split; [split; [discriminate|exact I]|]; split; [cbn; lia|];
   split; [reflexivity|discriminate]).
Qed.

(** ** C83: a series that cannot be explained *)

(** Two time points, but the last of three states in a row must be reached: psi is read at state -1. *)
Definition short_ex : tables lnum :=
  Tables false 0 2 3 3 true false true false
    (fun t k j => Some 0) (fun d j t => Some 0) (fun i j t => if (j =? S i)%nat then Some 0 else None)
    (fun j => if (j =? 0)%nat then Some 0 else None).
Theorem C83_impossible_refuted : exists m : tables lnum,
  @fixed_bumps lnum None m /\ (exists s, segmentation m s) /\
  (forall s, segmentation m s -> weight lnum (Some 0) ladd m s = None) /\ viterbi m = None.
Proof.
  exists short_ex. split; [discriminate|]. split; [|split].
  - exists [(2%nat, 1%nat)]. split; [discriminate|]. split; [repeat constructor|]. split; [exact I|]. split; [cbn; lia|]. split; [discriminate|reflexivity].
  - intros s Hs.
    assert (A : forall s, In s (all lnum short_ex) -> weight lnum (Some 0) ladd short_ex s = None).
    { intros s' H. cbv in H. repeat (destruct H as [<-|H]; [reflexivity|]). destruct H. }
    apply A, all_spec; [cbn; lia|exact Hs].
  - reflexivity.
Qed.

(** ** C42: backward sampling *)

(** The probability of a sample is its posterior probability, if durations do not vary with time and the first
    observations of flats are like the others. *)
Theorem C42_posterior : forall (m : tables R) (L : list (list segment)) s,
  (0 < n_T m)%nat -> nonnegative m -> fixed_bumps 0 m -> plain_flats m -> tvdtpi m = false ->
  lists_segmentations m L -> segmentation m s -> weight R 1 Rmult m s > 0 ->
  sample_prob m (state_at s) (excess m s) = weight R 1 Rmult m s / lsum L (weight R 1 Rmult m).
Proof.
  intros m L s Hn Hp Hb Hf Htv HL Hs Hw. rewrite (total_any m L Hn HL). apply sample_posterior; auto.
  rewrite <- (total_any m L Hn HL). destruct HL as [_ HL]. apply HL in Hs.
  assert (weight R 1 Rmult m s <= lsum L (weight R 1 Rmult m)); [|lra].
  apply (lsum_ge _ L); [|exact Hs]. intros s' _. unfold weight. rewrite <- (rev_involutive s').
  rewrite weight_rev by (intros; ring). apply wr_nonneg. exact Hp.
Qed.
Example C42_ex : segmentation series_ex [(0%nat, 1%nat); (1%nat, 1%nat)] /\
  sample_prob series_ex (state_at [(0%nat, 1%nat); (1%nat, 1%nat)]) (excess series_ex [(0%nat, 1%nat); (1%nat, 1%nat)]) = (1 / 256) / (3 / 128).
Proof.
  assert (S : segmentation series_ex [(0%nat, 1%nat); (1%nat, 1%nat)]).
  { split; [discriminate|]. split; [repeat constructor|]. split; [split; [discriminate|exact I]|]. split; [cbn; lia|]. split; [discriminate|discriminate]. }
  split; [exact S|]. destruct series_ex_ok as (H1 & H2 & H3 & H4).
  assert (W : weight R 1 Rmult series_ex [(0%nat, 1%nat); (1%nat, 1%nat)] = 1 / 256) by (cbv -[Rplus Rmult Rdiv IZR]; lra).
  rewrite (C42_posterior series_ex (all R series_ex) _ H1 H2 H3); auto; [|discriminate|rewrite W; lra].
  rewrite W. f_equal. cbv -[Rplus Rmult Rdiv IZR]; lra.
Qed.

(** Durations that vary with time: the sampler uses the probabilities of the time point before. *)
Definition tv_ex : tables R :=
  Tables false 0 2 3 2 true false false true (fun t k j => 1)
    (fun d j t => if (t =? 0)%nat then 1 / 2 else if (d =? 0)%nat then 1 / 4 else 3 / 4) (fun i j t => 1) (fun j => 1 / 2).
Theorem C42_tv_refuted : exists (m : tables R) L s,
  (0 < n_T m)%nat /\ nonnegative m /\ fixed_bumps 0 m /\ plain_flats m /\ lists_segmentations m L /\ segmentation m s /\
  weight R 1 Rmult m s > 0 /\ sample_prob m (state_at s) (excess m s) <> weight R 1 Rmult m s / lsum L (weight R 1 Rmult m).
Proof.
  exists tv_ex, (all R tv_ex), [(0%nat, 1%nat)].
  assert (W : weight R 1 Rmult tv_ex [(0%nat, 1%nat)] = 1 / 4) by (cbv -[Rplus Rmult Rdiv IZR]; lra).
  assert (Tt : lsum (all R tv_ex) (weight R 1 Rmult tv_ex) = 1) by (cbv -[Rplus Rmult Rdiv IZR]; lra).
  split; [cbn; lia|]. split.
  { repeat split; intros; cbn; try destruct (t =? 0)%nat; try destruct (d =? 0)%nat; lra. }
  split; [discriminate|]. split; [discriminate|].
  split; [split; [apply all_NoDup; cbn; lia|intros s; apply all_spec; cbn; lia]|].
  split; [split; [discriminate|]; split; [repeat constructor|]; split; [exact I|]; split; [cbn; lia|]; split; discriminate|].
  split; [rewrite W; lra|]. rewrite W, Tt. intros E.
  assert (V : sample_prob tv_ex (state_at [(0%nat, 1%nat)]) (excess tv_ex [(0%nat, 1%nat)]) = 5 / 24).
  { cbv -[Rplus Rmult Rdiv IZR]. field. }
  lra.
Qed.

(** First observation of a flat with its own probability (AR model): the sampler ignores it when it chooses
    between a flat that goes on and one that begins. *)
Definition ar_ex : tables R :=
  Tables true 2 3 4 3 true false false false (fun t k j => if (k =? 1)%nat && (j =? 2)%nat then 2 else 1)
    (fun d j t => if Nat.odd j then (if (d =? 1)%nat then 1 else 0) else 1 / 3)
    (fun i j t => if (j =? (if (i =? 2)%nat then 0 else S i))%nat then 1 else 0) (fun j => if (j =? 0)%nat then 0 else 1 / 2).
Theorem C42_ar_refuted : exists (m : tables R) L s,
  (0 < n_T m)%nat /\ nonnegative m /\ fixed_bumps 0 m /\ tvdtpi m = false /\ lists_segmentations m L /\ segmentation m s /\
  weight R 1 Rmult m s > 0 /\ sample_prob m (state_at s) (excess m s) <> weight R 1 Rmult m s / lsum L (weight R 1 Rmult m).
Proof.
  exists ar_ex, (all R ar_ex), [(2%nat, 2%nat)].
  assert (W : weight R 1 Rmult ar_ex [(2%nat, 2%nat)] = 1 / 6) by (cbv -[Rplus Rmult Rdiv IZR]; lra).
  assert (Tt : lsum (all R ar_ex) (weight R 1 Rmult ar_ex) = 3 / 2) by (cbv -[Rplus Rmult Rdiv IZR]; lra).
  assert (Hn : (0 < n_T ar_ex)%nat) by (cbn; lia).
  assert (Hp : nonnegative ar_ex).
  { repeat split; intros; cbn; try destruct (_ && _); try destruct (Nat.odd j); try destruct (d =? 1)%nat; try destruct (i =? 2)%nat;
    try destruct (j =? _)%nat; lra. }
  assert (Hb : fixed_bumps 0 ar_ex).
  { intros _. split; [cbn; lia|]. intros d j t _ Ho Hd. unfold duration, later_column. cbn. rewrite Ho.
    destruct (Nat.eqb_spec d 1); [contradiction|]. auto. }
  split; [exact Hn|]. split; [exact Hp|]. split; [exact Hb|]. split; [reflexivity|].
  split; [split; [apply all_NoDup; exact Hn|intros s; apply all_spec; exact Hn]|].
  split; [split; [discriminate|]; split; [repeat constructor|]; split; [exact I|]; split; [cbn; lia|]; split; discriminate|].
  split; [rewrite W; lra|]. rewrite W, Tt. intros E.
  assert (Ht : total_weight ar_ex <> 0) by (change (total_weight ar_ex) with (lsum (all R ar_ex) (weight R 1 Rmult ar_ex)); lra).
  destruct (sb_values ar_ex Hb Hp Hn Ht 2 ltac:(cbn; lia)) as [_ (c & Hc & Hr & HL)].
  destruct (sb_values ar_ex Hb Hp Hn Ht 1 ltac:(cbn; lia)) as [H1 _].
  destruct (sb_values ar_ex Hb Hp Hn Ht 0 ltac:(cbn; lia)) as [H0 _].
  change (D ar_ex - 1)%nat with 3%nat in *. change (n_S ar_ex) with 3%nat in *.
  assert (A0 : sum_counted ar_ex 0 (alpha ar_ex 0) = 1) by (cbv -[Rplus Rmult Rdiv IZR]; lra).
  assert (A1 : sum_counted ar_ex 1 (alpha ar_ex 1) = 1) by (cbv -[Rplus Rmult Rdiv IZR]; lra).
  assert (A2 : sum_counted ar_ex 2 (alpha ar_ex 2) = 3 / 2) by (cbv -[Rplus Rmult Rdiv IZR]; lra).
  rewrite A0 in H0. rewrite A1 in H1. rewrite A2 in HL.
  assert (P2 : forall i, state_probs ar_ex 2 2 0 i
     = if (i =? 2)%nat then sb_scaled ar_ex 1 1 i else sb_scaled ar_ex 1 0 i * T ar_ex i 2 1 * ds ar_ex 0 2 1) by reflexivity.
  assert (P1 : forall i, state_probs ar_ex 1 2 1 i
     = if (i =? 2)%nat then sb_scaled ar_ex 0 2 i else sb_scaled ar_ex 0 0 i * T ar_ex i 2 0 * ds ar_ex 1 2 0) by reflexivity.
  assert (D2 : draw 3 (state_probs ar_ex 2 2 0) 2 = 1 / 2).
  { unfold draw, nsum. cbn [map seq fold_right]. rewrite !P2. cbn [Nat.eqb]. rewrite !H1 by lia. cbv -[Rplus Rmult Rdiv IZR]. field. }
  assert (D1 : draw 3 (state_probs ar_ex 1 2 1) 2 = 1).
  { unfold draw, nsum. cbn [map seq fold_right]. rewrite !P1. cbn [Nat.eqb]. rewrite !H0 by lia. cbv -[Rplus Rmult Rdiv IZR]. field. }
  assert (C2 : forall d j, counts ar_ex 2 d j = true) by reflexivity.
  assert (AV : alpha ar_ex 2 0 2 = 1 / 2 /\ alpha ar_ex 2 1 2 = 1 / 3 /\ alpha ar_ex 2 2 2 = 1 / 3 /\
    alpha ar_ex 2 0 1 + alpha ar_ex 2 1 1 + alpha ar_ex 2 2 1 = 1 / 18 /\
    alpha ar_ex 2 0 0 + alpha ar_ex 2 1 0 + alpha ar_ex 2 2 0 = 5 / 18).
  { repeat split; cbv -[Rplus Rmult Rdiv IZR]; lra. }
  destruct AV as (AV0 & AV1 & AV2 & AVb & AVc).
  assert (SP : forall j, (j < 3)%nat -> state_probsT ar_ex j = (alpha ar_ex 2 0 j + alpha ar_ex 2 1 j + alpha ar_ex 2 2 j) / (3 / 2)).
  { intros j Hj. unfold state_probsT, nsum. cbn [map seq fold_right n_T D ar_ex Nat.sub]. rewrite !C2, HL, !Hr by lia. field. exact Hc. }
  assert (SD : draw 3 (state_probsT ar_ex) 2 = 7 / 9).
  { unfold draw, nsum. cbn [map seq fold_right]. rewrite !SP by lia. rewrite AV0, AV1, AV2, AVb, AVc. field. }
  assert (DP : forall d, (d < 3)%nat -> dur_probs ar_ex 2 d = alpha ar_ex 2 d 2 / (3 / 2) / (7 / 9)).
  { intros d Hd. unfold dur_probs. rewrite SP, AV0, AV1, AV2 by lia. cbn [n_T ar_ex Nat.sub]. rewrite C2, HL, Hr by lia. field. exact Hc. }
  assert (DD : draw 3 (dur_probs ar_ex 2) 0 = 3 / 7).
  { unfold draw, nsum. cbn [map seq fold_right]. rewrite !DP by lia. rewrite AV0, AV1, AV2. field. }
  assert (V : sample_prob ar_ex (state_at [(2%nat, 2%nat)]) (excess ar_ex [(2%nat, 2%nat)])
    = draw 3 (state_probsT ar_ex) 2 * draw 3 (dur_probs ar_ex 2) 0 * (draw 3 (state_probs ar_ex 2 2 0) 2 * (draw 3 (state_probs ar_ex 1 2 1) 2 * 1)))
    by reflexivity.
  rewrite V, SD, DD, D2, D1 in E. lra.
Qed.

(** ** C43: transition and initial probabilities *)

(** Positive means give probabilities without self-transitions. *)
Theorem C43_probabilities : forall n_S (mu : nat -> nat -> R) (mu0 : nat -> R),
  (2 <= n_S)%nat -> (forall j p, 0 < mu j p) -> (forall p, 0 < mu0 p) ->
  (forall j, (j < n_S)%nat ->
     T_entry n_S mu j j = 0 /\ (forall i, 0 <= T_entry n_S mu j i) /\ nsum n_S (T_entry n_S mu j) = 1) /\
  (forall j, 0 <= pi_entry n_S mu0 j) /\ nsum n_S (pi_entry n_S mu0) = 1.
Proof.
  intros n_S mu mu0 Hn H1 H2. split; [intros j Hj; apply T_row; auto|]. apply pi_sum; [lia|exact H2].
Qed.
Example C43_ex : T_entry 3 (fun j p => 3) 1 0 = 1 / 4 /\ T_entry 3 (fun j p => 3) 1 2 = 3 / 4 /\ pi_entry 3 (fun p => INR (S p)) 2 = 1 / 2.
Proof. split; [|split]; cbv -[Rplus Rmult Rdiv IZR]; field. Qed.

(** Dimensions of the transition matrices. *)
Theorem C43_shape : forall n_S n_T tv, (3 <= n_S)%nat \/ tv = false ->
  T_shape n_S n_T tv = if tv then [n_S; n_S; n_T] else [n_S; n_S].
Proof.
  intros n_S n_T tv H. unfold T_shape. destruct (Nat.ltb_spec 2 n_S); [reflexivity|]. destruct H as [H|H]; [lia|subst tv; reflexivity].
Qed.
Theorem C43_two_states_refuted : exists n_S n_T, (2 <= n_S)%nat /\ T_shape n_S n_T true <> [n_S; n_S; n_T].
Proof. exists 2%nat, 5%nat. split; [lia|discriminate]. Qed.

(** In parallel, series k gets the k-th matrices, however they are given. *)
Theorem C43_parallel : forall A B fx (computed : nat -> A * B) T p n,
  (fx = true -> match T, p with Several Ts, Several ps => (n <= length Ts)%nat /\ (n <= length ps)%nat | _, _ => True end) ->
  exists l, parallel_Tpi A B fx computed T p n = Some l /\ length l = n /\
    forall k, (k < n)%nat ->
      nth_error l k =
      if fx then match T, p with
                 | Several Ts, Several ps => match nth_error Ts k, nth_error ps k with Some x, Some y => Some (One x, One y) | _, _ => None end
                 | _, _ => Some (T, p)
                 end
      else Some (One (fst (computed k)), One (snd (computed k))).
Proof.
  intros A B fx computed T p n H. destruct (parallel_total A B fx computed T p n) as [l E].
  - intros k Hk. unfold series_Tpi. destruct fx; [|discriminate]. specialize (H eq_refl). destruct T as [x|Ts], p as [y|ps]; try discriminate.
    destruct H as [H1 H2]. destruct (nth_error Ts k) eqn:E1; [|apply nth_error_None in E1; lia].
    destruct (nth_error ps k) eqn:E2; [discriminate|apply nth_error_None in E2; lia].
  - exists l. split; [exact E|]. exact (parallel_spec A B fx computed T p n l E).
Qed.
(** In a loop this is so unless lists are given. *)
Theorem C43_serial : forall A B fx (computed : nat -> A * B) T p n,
  (fx = true -> match T, p with Several _, Several _ => False | _, _ => True end) ->
  serial_Tpi A B fx computed T p n = parallel_Tpi A B fx computed T p n.
Proof.
  intros A B fx computed T p n H. apply serial_parallel. unfold series_Tpi. destruct fx; [|reflexivity].
  specialize (H eq_refl). intros k T' p' E k'. destruct T as [x|Ts], p as [y|ps]; try contradiction; injection E as <- <-; reflexivity.
Qed.
(** With lists, all series get the matrices of the first. *)
Theorem C43_serial_refuted : exists (T p : given nat) (l l' : list (given nat * given nat)),
  serial_Tpi nat nat true (fun _ => (0%nat, 0%nat)) T p 2 = Some l /\
  parallel_Tpi nat nat true (fun _ => (0%nat, 0%nat)) T p 2 = Some l' /\ l <> l' /\
  nth_error l 1 = nth_error l 0.
Proof.
  exists (Several [1%nat; 2%nat]), (Several [3%nat; 4%nat]). do 2 eexists. split; [reflexivity|]. split; [reflexivity|]. split; [discriminate|reflexivity].
Qed.

Print Assumptions C40_forward.
Print Assumptions C40_all_series.
Print Assumptions C41_viterbi.
Print Assumptions C41_identified.
Print Assumptions C83_impossible_refuted.
Print Assumptions C42_posterior.
Print Assumptions C42_tv_refuted.
Print Assumptions C42_ar_refuted.
Print Assumptions C43_probabilities.
Print Assumptions C43_parallel.
Print Assumptions C43_serial.
Print Assumptions C43_serial_refuted.
