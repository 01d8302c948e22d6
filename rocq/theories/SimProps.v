(** Simulated series: states, bumps, samples and series. *)

From Coq Require Import List Bool Arith ZArith Reals Lia Lra.
From Verif Require Import HsmmModel HsmmSpec HsmmProofs HsmmProofs2 HsmmProofs5 SimModel SimSpec SimProofs SimProofs2.
Import ListNotations.
Local Open Scope R_scope.

(** ** States *)

(** The states of simulated series follow the semi-Markov model in which every state lasts one time point longer and
    transitions take place as they would one time point later. *)
Theorem C128_law : forall (m : tables R) L l, (0 < n_T m)%nat -> (1 <= D m)%nat -> hmp m = false -> (forall i t, tr m i i t = 0) ->
  ends_with_last m = false -> ends_in_last m = false -> lists_segmentations (ahead (longer m)) L ->
  prob (simulate m) (fun tr => same_states (states tr) l) = law (ahead (longer m)) L l.
Proof.
  intros m L l hn hD hh hs he hi [nd hL]. rewrite <- (law_divisions m hh hs l hn). unfold prior_law, law.
  apply same_elements_sum; [apply divisions_NoDup|exact nd|]. intros s. rewrite hL, (divisions_spec m) by lia.
  unfold covers, segmentation. cbn [n_S D n_T ends_with_last ends_in_last ahead longer]. rewrite he, hi. cbn [Nat.sub].
  replace (D m - 0)%nat with (D m) by lia. split.
  - intros (fa & al & _ & em & sp). specialize (sp hn). repeat split; try discriminate; auto; try lia.
    intros e; apply em in e; lia.
  - intros (ne & fa & al & sp & _). repeat split; auto; try lia. intros e; contradiction.
Qed.

(** The transitions of models that do not vary over time are the model's. *)
Theorem C128_constant : forall m : tables R, tvdtpi m = false -> forall i j t, transition (ahead (longer m)) i j t = transition m i j t.
Proof. intros m h i j t. unfold transition. cbn [tr ahead longer tvdtpi]. rewrite h. reflexivity. Qed.

Lemma sequences_ok m : (0 < n_T m)%nat -> lists_segmentations m (all R m).
Proof. intros h. split; [exact (all_NoDup R m h)|intros s; exact (all_spec R m s h)]. Qed.

(** A case: two states, durations of one or two time points, four time points. *)
Definition coin : tables R :=
  Tables false 0 4 3 2 true false false false (fun _ _ _ => 1) (fun _ _ _ => 1 / 2) (fun i j _ => if (i =? j)%nat then 0 else 1)
         (fun j => match j with O => 1 | _ => 0 end).
Example coin_ok : (0 < n_T coin)%nat /\ (1 <= D coin)%nat /\ hmp coin = false /\ (forall i t, tr coin i i t = 0) /\
  ends_with_last coin = false /\ ends_in_last coin = false /\ lists_segmentations (ahead (longer coin)) (all R (ahead (longer coin))) /\
  prob (simulate coin) (fun tr => same_states (states tr) [0; 0; 1; 1]%nat) = 1 / 2.
Proof.
  split; [cbn; lia|]. split; [cbn; lia|]. split; [reflexivity|]. split; [intros i t; cbn; now rewrite Nat.eqb_refl|].
  split; [reflexivity|]. split; [reflexivity|]. split; [apply sequences_ok; cbn; lia|].
  cbv -[Rplus Rmult Rdiv IZR Rinv]. field.
Qed.

(** A state that always lasts one time point lasts two in simulations. *)
Theorem C128_duration_refuted : exists (m : tables R) L l, (0 < n_T m)%nat /\ hmp m = false /\ tvdtpi m = false /\
  (forall i t, tr m i i t = 0) /\ nonnegative m /\
  ends_with_last m = false /\ ends_in_last m = false /\ lists_segmentations m L /\
  law m L l = 1 /\ prob (simulate m) (fun tr => same_states (states tr) l) = 0.
Proof.
  pose (m := Tables false 0 2 2 2 true false false false (fun _ _ _ => 1) (fun _ _ _ => 1) (fun i j _ => if (i =? j)%nat then 0 else 1)
         (fun j => match j with O => 1 | _ => 0 end) : tables R).
  exists m, (all R m), [0; 1]%nat. split; [cbn; lia|]. split; [reflexivity|]. split; [reflexivity|].
  split; [intros i t; cbn; now rewrite Nat.eqb_refl|]. split.
  { repeat split; cbn; intros; try lra; [destruct (i =? j)%nat; lra|destruct j; lra]. }
  split; [reflexivity|]. split; [reflexivity|]. split; [apply sequences_ok; cbn; lia|].
  split; cbv -[Rplus Rmult Rdiv IZR Rinv]; ring.
Qed.

(** Tables that vary over time: apart from the durations, the transition is that of the wrong time point. *)
Theorem C128_transition_refuted : exists (m : tables R) L l, (0 < n_T m)%nat /\ hmp m = false /\
  (forall i t, tr m i i t = 0) /\ nonnegative m /\
  ends_with_last m = false /\ ends_in_last m = false /\ lists_segmentations (longer m) L /\
  law (longer m) L l = 1 /\ prob (simulate m) (fun tr => same_states (states tr) l) = 0.
Proof.
  pose (m := Tables false 0 3 2 3 true false false true (fun _ _ _ => 1) (fun _ _ _ => 1)
         (fun i j t => match i, j, t with O, 1%nat, 1%nat | O, 2%nat, 2%nat => 1 | _, _, _ => 0 end)
         (fun j => match j with O => 1 | _ => 0 end) : tables R).
  exists m, (all R (longer m)), [0; 0; 1]%nat. split; [cbn; lia|]. split; [reflexivity|].
  split; [intros [|[|i]] t; reflexivity|]. split.
  { repeat split; cbn; intros; try lra; [|destruct j; lra]. destruct i as [|i], j as [|[|[|j]]], t as [|[|[|t]]]; lra. }
  split; [reflexivity|]. split; [reflexivity|]. split; [apply sequences_ok; cbn; lia|].
  split; cbv -[Rplus Rmult Rdiv IZR Rinv]; ring.
Qed.

(** ** Bumps *)

(** What is simulated as a bump: one time point more than the template has; first the last value of the template, then
    all of them. *)
Theorem C129_bumps : forall (m : tables R) template mu, hmp m = true -> fixed_bumps 0 m -> Nat.odd (n_S m - 1) = false ->
  length template = event_width m ->
  always (simulate m) (fun tr => forall t s, begins (states tr) t s -> Nat.odd s = true ->
    forall k, (k <= event_width m)%nat -> (t + k < n_T m)%nat ->
    nth_error (states tr) (t + k) = Some s /\
    nth_error (bumps m template mu tr) (t + k) =
      Some (match k with O => nth (event_width m - 1) template 0 | S k' => nth k' template 0 end * mu (t + k)%nat s)).
Proof.
  intros m template mu hh fx lf hl. eapply always_impl; [|exact (simulate_chain m hh fx lf)].
  intros tr (len & hc & hst) t s hb o k hk ht. pose proof (chain_begins m tr t s hc hst hb o) as e.
  pose proof (chain_down m tr hc k t s _ e ltac:(lia) ltac:(lia)) as ek. split.
  - unfold states. rewrite nth_error_map, ek. reflexivity.
  - unfold bumps. rewrite nth_error_map, (nth_combine _ _ _ ek). cbn [option_map]. unfold bump. rewrite hh, o. cbn [andb].
    do 2 f_equal. unfold py_index. destruct (fx hh) as [e1 _]. destruct k as [|k].
    + replace (Z.of_nat (event_width m) - 1 - (Z.of_nat (event_width m) - Z.of_nat 0) <? 0)%Z with true by (symmetry; apply Z.ltb_lt; lia).
      f_equal. rewrite hl. lia.
    + replace (Z.of_nat (event_width m) - 1 - (Z.of_nat (event_width m) - Z.of_nat (S k)) <? 0)%Z with false by (symmetry; apply Z.ltb_ge; lia).
      f_equal. lia.
Qed.

(** A flat of one time point, a bump of two, a flat. *)
Definition pulse : tables R :=
  Tables true 2 4 3 3 true false false false (fun _ _ _ => 1)
         (fun d j _ => match d, j with O, O | 1%nat, 1%nat | O, 2%nat => 1 | _, _ => 0 end)
         (fun i j _ => if (j =? S i)%nat then 1 else 0) (fun j => match j with O => 1 | _ => 0 end).
Example pulse_ok : hmp pulse = true /\ fixed_bumps 0 pulse /\ Nat.odd (n_S pulse - 1) = false /\
  prob (simulate pulse) (fun tr => same_states (states tr) [0; 0; 1; 1]%nat) = 1.
Proof.
  split; [reflexivity|]. split.
  { intros _. split; [cbn; lia|]. intros d j t hj ho hd. cbn in hj, hd.
    assert (j = 1)%nat as -> by (destruct j as [|[|[|j]]]; try discriminate; try reflexivity; lia).
    destruct d as [|[|d]]; try (exfalso; apply hd; reflexivity); split; reflexivity. }
  split; [reflexivity|]. cbv -[Rplus Rmult Rdiv IZR Rinv]. ring.
Qed.

(** Bumps of simulated series are not those of the model. *)
Theorem C129_bumps_refuted : exists (m : tables R) template mu, hmp m = true /\ fixed_bumps 0 m /\ Nat.odd (n_S m - 1) = false /\
  length template = event_width m /\ always (simulate m) (fun tr => ~ proper_bumps template mu (states tr) (bumps m template mu tr)).
Proof.
  exists pulse, [1; 2], (fun _ _ => 1). destruct pulse_ok as (h1 & h2 & h3 & _). split; [exact h1|]. split; [exact h2|]. split; [exact h3|].
  split; [reflexivity|]. cbn. intros [|s] hs hp; [|destruct s; lra]. intros [|[|i]] hi hd; [|lra|lia]. cbn.
  intros [|[|[|s]]] hs' hp'; cbn in hp'; try lra; try lia. intros [|[|i]] hi' hd'; cbn in hd'; try lra; try lia. cbn. intros pb.
  destruct (pb 2%nat 1%nat) as [v _]; [split; [reflexivity|intros t' e; injection e; intros <-; cbn; discriminate]|reflexivity|].
  destruct (v 0%nat) as [_ v0]; [cbn; lia|cbn; lia|]. cbn in v0. injection v0; intros e. lra.
Qed.

(** ** Samples and series *)

(** The samples of one series are independent of each other. *)
Theorem C130_samples : forall (m : tables R) (es : list (list (nat * Z) -> bool)),
  prob (simulate_n m (length es)) (all_of es) = fold_right Rmult 1 (map (prob (simulate m)) es).
Proof.
  intros m es. induction es as [|e es ih]; [reflexivity|]. cbn [length map fold_right]. rewrite <- ih. cbn [simulate_n]. apply prob_pair.
Qed.

(** What is simulated for a series does not depend on the number of processes nor on the other series. *)
Theorem C130_cores : forall n_cores gen seed n_samples ms i m, nth_error ms i = Some m ->
  nth_error (predict n_cores gen seed n_samples ms) i = nth_error (predict 2 gen seed n_samples [m]) 0.
Proof.
  intros n_cores gen seed n_samples ms i m h.
  assert (go : forall acc, predict_loop gen seed n_samples ms acc = acc ++ map (predict_series gen seed n_samples) ms).
  { clear h. induction ms as [|x ms ih]; intros acc; cbn; [now rewrite app_nil_r|]. rewrite ih, <- app_assoc. reflexivity. }
  unfold predict. cbn [Nat.eqb]. destruct (n_cores =? 1)%nat; [rewrite go; cbn [app]|]; rewrite nth_error_map, h; reflexivity.
Qed.

(** Different series of the same model are copies of each other, whatever the generator and the seed. *)
Theorem C130_series_refuted : exists m : tables R,
  (exists u u' : nat -> R, states (run (simulate m) u 0) <> states (run (simulate m) u' 0)) /\
  forall n_cores gen seed n_samples, let r := predict n_cores gen seed n_samples [m; m] in
  length r = 2%nat /\ nth_error r 0 = nth_error r 1.
Proof.
  exists coin. split.
  - exists (fun i => match i with 2%nat => 1 / 4 | _ => 1 / 4 end), (fun _ => 3 / 4). cbn.
    repeat (destruct Rlt_dec as [?|?]; try lra; cbn). discriminate.
  - intros n_cores gen seed n_samples. cbn zeta. unfold predict. destruct (n_cores =? 1)%nat; split; reflexivity.
Qed.

Print Assumptions C128_law.
Print Assumptions C128_constant.
Print Assumptions C128_duration_refuted.
Print Assumptions C128_transition_refuted.
Print Assumptions C129_bumps.
Print Assumptions C129_bumps_refuted.
Print Assumptions C130_samples.
Print Assumptions C130_cores.
Print Assumptions C130_series_refuted.
