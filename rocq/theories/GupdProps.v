(** C159-C161: coefficients of general models and the pairs of quasi-Newton fits. *)
From Coq Require Import String.
From Coq Require Import List Bool Arith ZArith Reals Lia Lra.
From Verif Require Import Ext StepModel StepSpec StepProofs AsmModel UpdModel UpdSpec UpdProofs UpdProofs3 SampModel SampProofs GupdModel GupdSpec GupdProofs.
Import ListNotations.
Local Open Scope R_scope.

(** C159: what is returned belongs to the coefficients returned, those dropped are zero, and coefficients outside of the
    formulas are not dropped. *)
Theorem C159_belongs : forall llk grad llk_check newton (S : nat -> nat -> R) rvs close identify extra grad_only identifies outer min_inner max_inner
    n fuel coef l keep_drop u,
  (forall m s, length (rvs m s) = m) -> (forall kp c, length (fst (newton kp c)) = length c) -> zero_is_absent n llk ->
  length coef = n -> (forall keep drop, keep_drop = Some (keep, drop) -> keep = remaining n drop) ->
  update_coef_gen_smooth llk grad llk_check newton S rvs close identify extra grad_only identifies outer min_inner max_inner fuel coef l keep_drop = GDone u ->
  length (gu_coef u) = n /\ gu_llk u = llk None (gu_coef u) /\
  gu_pen u = eadd (gu_llk u) (- (1 / 2 * penalty S (gu_coef u))) /\
  forall keep drop, gu_kd u = Some (keep, drop) -> keep = remaining n drop /\ (forall k, In k drop -> nth k (gu_coef u) 0 = 0) /\
    forall e, keep_drop = None -> extra = Some e -> forall k, In k drop -> (k < n - e)%nat.
Proof.
  intros llk grad llk_check newton S rvs close identify extra grad_only identifies outer min_inner max_inner n fuel coef l kd u H1 H2 Z Hc K E.
  assert (KF : kd_fits n kd).
  { destruct kd as [[keep drop]|]; [|exact I]. cbn. rewrite <- remaining_keep. now apply (K keep drop). }
  destruct (update_fits llk grad llk_check newton S rvs close identify extra grad_only identifies outer min_inner max_inner H1 H2 n fuel coef l kd u Hc KF Z E)
    as (G1 & G2 & G3 & G4 & G5 & G6).
  split; [exact G1|]. split; [exact G2|]. split; [exact G3|]. intros keep drop Hk. rewrite Hk in *. split; [|split].
  - rewrite remaining_keep. exact G4.
  - intros k. exact (G5 keep drop k eq_refl).
  - intros e H -> k I. specialize (G6 H). cbn in G6. exact (proj1 (Forall_forall _ _) G6 k I).
Qed.
Theorem C159_terminates : forall llk grad llk_check newton S rvs close identify extra grad_only identifies outer min_inner max_inner fuel coef l keep_drop,
  (2 * max_inner + 1 < fuel)%nat ->
  update_coef_gen_smooth llk grad llk_check newton S rvs close identify extra grad_only identifies outer min_inner max_inner fuel coef l keep_drop <> GOutOfFuel.
Proof. intros. now apply gen_update_terminates. Qed.

(** One coefficient b, value -(b - 3)^2 - 1 for the sum of the coefficients present, in a model with two equal columns. *)
Definition total (c : list R) : R := fold_right Rplus 0 c.
Definition peak (_ : option (list nat)) (c : list R) : ext := Fin (- ((total c - 3) * (total c - 3)) - 1).
Lemma total_kept : forall m a full (drop : list nat), (forall k, In k drop -> (a <= k)%nat -> nth (k - a) full 0 = 0) -> length full = m ->
  total (map (fun k => nth (k - a) full 0) (filter (fun k => if in_dec Nat.eq_dec k drop then false else true) (seq a m))) = total full.
Proof.
  induction m as [|m IH]; intros a [|x full] drop H L; try discriminate; [reflexivity|]. cbn [seq filter].
  assert (R0 : map (fun k => nth (k - a) (x :: full) 0) (filter (fun k => if in_dec Nat.eq_dec k drop then false else true) (seq (Datatypes.S a) m)) =
    map (fun k => nth (k - Datatypes.S a) full 0) (filter (fun k => if in_dec Nat.eq_dec k drop then false else true) (seq (Datatypes.S a) m))).
  { apply map_ext_in. intros k I. apply filter_In in I as [I _]. apply in_seq in I. replace (k - a)%nat with (Datatypes.S (k - Datatypes.S a)) by lia. reflexivity. }
  assert (IH' := IH (Datatypes.S a) full drop). destruct (in_dec Nat.eq_dec a drop) as [D|D].
  - rewrite R0, IH'; [|intros k I1 I2; specialize (H k I1 ltac:(lia)); replace (k - a)%nat with (Datatypes.S (k - Datatypes.S a)) in H by lia; exact H|cbn in L; lia].
    specialize (H a D ltac:(lia)). rewrite Nat.sub_diag in H. cbn [nth] in H. change (total (x :: full)) with (x + total full). lra.
  - cbn [map]. rewrite R0. cbn [total fold_right]. fold (total full). fold (total (map (fun k => nth (k - Datatypes.S a) full 0) (filter (fun k => if in_dec Nat.eq_dec k drop then false else true) (seq (Datatypes.S a) m)))).
    rewrite IH'; [|intros k I1 I2; specialize (H k I1 ltac:(lia)); replace (k - a)%nat with (Datatypes.S (k - Datatypes.S a)) in H by lia; exact H|cbn in L; lia].
    now rewrite Nat.sub_diag.
Qed.
Example C159_contract : zero_is_absent 2 peak.
Proof.
  intros drop full L H. unfold peak, kept_of, remaining. rewrite <- L.
  assert (E : map (fun k => nth k full 0) (filter (fun k => if in_dec Nat.eq_dec k drop then false else true) (seq 0 (length full))) =
    map (fun k => nth (k - 0) full 0) (filter (fun k => if in_dec Nat.eq_dec k drop then false else true) (seq 0 (length full)))).
  { apply map_ext. intros k. now rewrite Nat.sub_0_r. }
  assert (T : total (map (fun k => nth k full 0) (remaining (length full) drop)) = total full).
  { unfold remaining. etransitivity; [|apply (total_kept (length full) 0 full drop); [intros k I _; rewrite Nat.sub_0_r; now apply H|reflexivity]].
    f_equal. exact E. }
  unfold remaining in T. now rewrite T.
Qed.

(** C160: Newton steps do not lead to worse coefficients if each step proposed has a log-likelihood. *)
Theorem C160_not_worse : forall llk grad llk_check newton S rvs close identify extra identifies outer min_inner max_inner fuel coef u,
  (forall m s, length (rvs m s) = m) -> (forall kp c, length (fst (newton kp c)) = length c) ->
  (forall c, number (llk None (fst (newton None c)))) ->
  update_coef_gen_smooth llk grad llk_check newton S rvs close identify extra false identifies outer min_inner max_inner fuel coef (llk None coef) None = GDone u ->
  gu_kd u = None ->
  let pen c := eadd (llk None c) (- (1 / 2 * penalty S c)) in
  llk_not_worse (pen coef) (pen (gu_coef u)) \/ gu_coef u = coef.
Proof.
  intros llk grad llk_check newton S rvs close identify extra identifies outer min_inner max_inner fuel coef u H1 H2 H3 E K pen.
  pose proof (gen_update_better llk grad llk_check newton S rvs close identify extra false identifies outer min_inner max_inner H1 H2 eq_refl H3 fuel coef u E K) as B.
  unfold not_below, GupdModel.pen_at, quad_at in B. rewrite !quad_penalty in B. exact B.
Qed.

(** Undefined between 2 and 4, low from 4 on. *)
Definition gap (_ : option (list nat)) (c : list R) : ext :=
  match c with [x] => if rleb 4 x then Fin (-5) else if rleb 2 x then NaN else Fin (-1) | _ => NaN end.
Lemma gap_low kp x : x < 2 -> gap kp [x] = Fin (-1).
Proof. intros H. cbn. assert (rleb 4 x = false) as -> by (apply rleb_false; lra). assert (rleb 2 x = false) as -> by (apply rleb_false; lra). reflexivity. Qed.
Lemma gap_nan kp x : 2 <= x < 4 -> gap kp [x] = NaN.
Proof. intros H. cbn. assert (rleb 4 x = false) as -> by (apply rleb_false; lra). assert (rleb 2 x = true) as -> by (apply rleb_true; lra). reflexivity. Qed.
Lemma gap_high kp x : 4 <= x -> gap kp [x] = Fin (-5).
Proof. intros H. cbn. assert (rleb 4 x = true) as -> by (apply rleb_true; lra). reflexivity. Qed.

Lemma no_pen c e : eadd e (- (1 / 2 * quad_at no_penalty None c)) = e.
Proof. apply eadd_zero. Qed.
Lemma gap_step a : correct_coef_step_gen_smooth (gap None) (quad_at no_penalty None) [0] [2] (Fin (-1)) a =
  (([(0 + 2) / 2], Fin (-1), Fin (-1)), adapt_a 1 a).
Proof.
  assert (E1 : gen_eval (gap None) (quad_at no_penalty None) [2] = ([2], NaN, NaN)).
  { unfold gen_eval. rewrite no_pen, gap_nan by lra. reflexivity. }
  assert (E2 : gen_eval (gap None) (quad_at no_penalty None) [(0 + 2) / 2] = ([(0 + 2) / 2], Fin (-1), Fin (-1))).
  { unfold gen_eval. rewrite no_pen, gap_low by lra. reflexivity. }
  unfold correct_coef_step_gen_smooth. rewrite no_pen, E1. change 32%nat with (S (S 30)). cbn [gen_loop eleb isinf isnan negb andb].
  change (30 <? 0)%nat with false. cbv iota. change (vmid [0] [2]) with [(0 + 2) / 2]. rewrite E2. cbn [isinf isnan negb andb].
  assert (Q : rleb (-1) (-1) = true) by (apply rleb_true; lra). rewrite Q. reflexivity.
Qed.
Definition mixed : R := (1 - 1 / 2) * ((0 + 2) / 2) + 1 / 2 * 7.
Lemma mixed_four : mixed = 4.
Proof. unfold mixed. lra. Qed.
Lemma gap_restart outer : exists e, restart_coef (gap None) (quad_at no_penalty None) (fun _ => [7]) [(0 + 2) / 2] NaN NaN outer 0 = ([mixed], e, e) \/ (10 < outer)%nat.
Proof.
  destruct (Nat.leb_spec outer 10) as [G|G]; [|exists NaN; now right]. eexists. left.
  unfold restart_coef, res_scale. rewrite (proj2 (Nat.leb_le _ _) G). change 30%nat with (S 29). cbn [restart_loop].
  match goal with |- context [isinf (eadd (gap None ?c) _)] => change c with [mixed] end.
  rewrite no_pen, gap_high by (rewrite mixed_four; lra). reflexivity.
Qed.
Lemma gap_gen_step tol a : 0 < tol <= / 10 ->
  gen_step gap no_penalty (fun m _ => repeat 7 m) (within tol) false 0 0 None ([0], Fin (-1), NaN) a [2] = (([mixed], Fin (-5), Fin (-5)), 1 / 10).
Proof.
  intros T. unfold gen_step. cbn [g_coef g_llk fst snd]. rewrite gap_step. unfold GupdModel.pen_at. rewrite !no_pen. cbn [g_pen snd Nat.leb].
  rewrite within_same by lra. rewrite (gap_nan None 2) by lra. cbn [andb orb bad isnan isinf g_coef fst length repeat].
  destruct (gap_restart 0) as [e [-> | G]]; [|lia]. cbn [fst]. rewrite gap_high by (rewrite mixed_four; lra). reflexivity.
Qed.

(** A Newton step without a log-likelihood at convergence: the coefficients are replaced by a mixture with random
    numbers, which may be much worse. *)
Theorem C160_restart_refuted : forall tol, 0 < tol <= / 10 -> exists llk newton rvs coef u,
  (forall m s, length (rvs m s) = m) /\ (forall kp c, length (fst (newton kp c)) = length c) /\
  update_coef_gen_smooth llk (fun _ c => c) (fun _ _ => NaN) newton no_penalty rvs (within tol) (fun _ => []) None false false 0 1 1 4 coef (llk None coef) None = GDone u /\
  gu_kd u = None /\ llk None coef = Fin (-1) /\ gu_llk u = Fin (-5).
Proof.
  intros tol T. exists gap, (fun _ c => (map (fun _ => 2) c, 0)), (fun m _ => repeat 7 m), [0], (GenUpdated [mixed] (Fin (-5)) (Fin (-5)) None).
  split; [intros; apply repeat_length|]. split; [intros; apply map_length|]. split; [|split; [reflexivity|split; [apply gap_low; lra|reflexivity]]].
  unfold update_coef_gen_smooth. rewrite (gap_low None 0) by lra.
  change 4%nat with (S (S 2)). cbn [gen_loop_inner Nat.leb option_map proposed g_coef g_llk fst snd map].
  rewrite gap_gen_step by exact T. unfold GupdModel.pen_at. rewrite no_pen. cbn [g_pen snd].
  rewrite within_not by (try lra; rewrite !Rabs_left by lra; lra).
  cbn [andb]. destruct (stop_now 0 1 0 (Z.of_nat 0)); reflexivity.
Qed.
Lemma peak_step a : gen_step peak no_penalty (fun m _ => repeat 7 m) (fun _ _ => true) false 0 0 None ([0], peak None [0], NaN) a [3] =
  (([3], peak None [3], peak None [3]), adapt_a 0 a).
Proof.
  unfold gen_step. cbn [g_coef g_llk fst snd].
  assert (E1 : correct_coef_step_gen_smooth (peak None) (quad_at no_penalty None) [0] [3] (peak None [0]) a = (([3], peak None [3], peak None [3]), adapt_a 0 a)).
  { unfold correct_coef_step_gen_smooth. rewrite no_pen. assert (E : gen_eval (peak None) (quad_at no_penalty None) [3] = ([3], peak None [3], peak None [3])).
    { unfold gen_eval. now rewrite no_pen. }
    rewrite E. change 32%nat with (S 31). cbn [gen_loop].
    assert (Q : eleb (peak None [0]) (peak None [3]) = true) by (apply rleb_true; unfold total; cbn [fold_right]; lra). rewrite Q. reflexivity. }
  rewrite E1. reflexivity.
Qed.
Example C160_case : (forall c, number (peak None (fst ((fun (_ : option (list nat)) (c : list R) => (map (fun _ => 3) c, 0)) None c)))) /\
  exists u, update_coef_gen_smooth peak (fun _ c => c) (fun _ _ => NaN) (fun _ c => (map (fun _ => 3) c, 0)) no_penalty (fun m _ => repeat 7 m)
     (fun _ _ => true) (fun _ => []) None false true 0 1 1 4 [0] (peak None [0]) None = GDone u /\ gu_coef u = [3] /\ gu_kd u = None.
Proof.
  split; [intros c; exact I|]. exists (GenUpdated [3] (peak None [3]) (peak None [3]) None). split; [|split; reflexivity].
  unfold update_coef_gen_smooth. change 4%nat with (S (S 2)). cbn [gen_loop_inner Nat.leb option_map proposed g_coef g_llk fst snd map].
  rewrite peak_step. reflexivity.
Qed.

(** ** C161 *)
(** A fit calls the update once per proposal of smoothing parameters: the penalty at that point, and the pairs left by
    L-BFGS-B. *)
Fixpoint stored (opts : list (string * nat)) (st : store) (calls : list ((list R -> list R) * list (list R * list R))) : option store :=
  match calls with
  | [] => Some st
  | (P, pairs) :: r =>
      match store_pairs P opts st (map fst pairs) (map snd pairs) with None => None | Some st' => stored opts st' r end
  end.

Lemma cleaned S pairs : combine (map fst pairs) (remove_penalty S (map fst pairs) (map snd pairs)) = map (without_penalty S) pairs.
Proof.
  unfold remove_penalty. induction pairs as [|p pairs IH]; [reflexivity|]. cbn [map combine fst snd].
  rewrite vsub_minus. unfold without_penalty at 1. f_equal. exact IH.
Qed.
Lemma removed_length S s y : length s = length y -> length (remove_penalty S s y) = length s.
Proof. intros H. unfold remove_penalty. rewrite map_length, combine_length. lia. Qed.

Lemma store_step S opts m old pairs : lookup "maxcor" opts = Some m -> (1 <= m)%nat -> (length pairs <= m)%nat ->
  length (o_s old) = length (o_y old) -> (o_init old = true -> (length (o_s old) <= m)%nat) ->
  exists st, store_pairs S opts old (map fst pairs) (map snd pairs) = Some st /\ o_init st = true /\
    length (o_s st) = length (o_y st) /\ (length (o_s st) <= m)%nat /\
    combine (o_s st) (o_y st) = newest m ((if o_init old then combine (o_s old) (o_y old) else []) ++ map (without_penalty S) pairs).
Proof.
  intros Ho M L H I. unfold store_pairs. rewrite Ho, map_length.
  assert (Hall : newest m (map (without_penalty S) pairs) = map (without_penalty S) pairs).
  { unfold newest. rewrite map_length. replace (length pairs - m)%nat with 0%nat by lia. reflexivity. }
  assert (RL : length (remove_penalty S (map fst pairs) (map snd pairs)) = length pairs) by (rewrite removed_length; now rewrite !map_length).
  destruct (o_init old) eqn:Oi.
  - destruct (Nat.ltb_spec (length pairs) m) as [G|G]; cbn [andb].
    + rewrite cleaned. pose proof (merge_spec m (map (without_penalty S) pairs) (o_s old) (o_y old) H (I eq_refl) M) as MS.
      destruct (merge _ _ _ _) as [s' y']. destruct MS as [M1 M2].
      eexists. split; [reflexivity|]. cbn [o_init o_s o_y]. split; [reflexivity|]. split; [exact M1|]. split; [|exact M2].
      apply (f_equal (@length _)) in M2. rewrite combine_length in M2. unfold newest in M2. rewrite skipn_length in M2. lia.
    + eexists. split; [reflexivity|]. cbn [o_init o_s o_y]. split; [reflexivity|]. split; [now rewrite map_length, RL|]. split; [now rewrite map_length|].
      rewrite cleaned. unfold newest. rewrite skipn_app, skipn_all2 by (rewrite app_length, map_length; lia).
      rewrite app_length, map_length. replace (_ - _ - _)%nat with 0%nat by lia. reflexivity.
  - rewrite andb_false_r. eexists. split; [reflexivity|]. cbn [o_init o_s o_y]. split; [reflexivity|]. split; [now rewrite map_length, RL|]. split; [now rewrite map_length|].
    rewrite cleaned. cbn [app]. now rewrite Hall.
Qed.

Lemma stored_all opts m : lookup "maxcor" opts = Some m -> (1 <= m)%nat -> forall calls old acc,
  Forall (fun c => (length (snd c) <= m)%nat) calls -> length (o_s old) = length (o_y old) -> (o_init old = true -> (length (o_s old) <= m)%nat) ->
  (if o_init old then combine (o_s old) (o_y old) else []) = newest m acc ->
  exists st, stored opts old calls = Some st /\ length (o_s st) = length (o_y st) /\
    (calls <> [] -> o_init st = true) /\ (o_init st = true -> (length (o_s st) <= m)%nat) /\
    (if o_init st then combine (o_s st) (o_y st) else []) = newest m (acc ++ concat (map (fun c => map (without_penalty (fst c)) (snd c)) calls)).
Proof.
  intros Ho M. induction calls as [|[P pairs] calls IH]; intros old acc F H I A; cbn [stored].
  - exists old. cbn. rewrite app_nil_r. split; [reflexivity|]. split; [exact H|]. split; [intros N; now contradiction N|]. split; [exact I|exact A].
  - inversion F as [|? ? F1 F2]; subst. cbn [snd] in F1.
    destruct (store_step P opts m old pairs Ho M F1 H I) as (st & E & S1 & S2 & S3 & S4). rewrite E.
    destruct (IH st (acc ++ map (without_penalty P) pairs) F2 S2 (fun _ => S3)) as (st' & E' & T1 & T2 & T3 & T4).
    { rewrite S1, S4, A. apply newest_app. }
    exists st'. split; [exact E'|]. split; [exact T1|]. split.
    { intros _. destruct calls as [|c calls]; [injection E' as <-; exact S1|]. apply T2. discriminate. }
    split; [exact T3|]. rewrite T4. cbn [map concat fst snd]. now rewrite <- app_assoc.
Qed.

(** C161: whatever the penalties were, the pairs stored are the newest ones, at most as many as asked for, and each is the
    change of the gradient of the log-likelihood along a step. *)
Theorem C161_pairs : forall n grad pre post m calls,
  Forall (fun o => fst o <> "maxcor"%string) pre -> (1 <= m)%nat -> calls <> [] ->
  (forall x, length x = n -> length (grad x) = n) ->
  Forall (fun c => linear n (fst c) /\ (length (snd c) <= m)%nat /\ Forall (bfgs_pair n grad (fst c)) (snd c)) calls ->
  exists st, stored (pre ++ ("maxcor"%string, m) :: post) init_store calls = Some st /\
    length (o_s st) = length (o_y st) /\ (length (o_s st) <= m)%nat /\
    combine (o_s st) (o_y st) = newest m (concat (map (fun c => map (without_penalty (fst c)) (snd c)) calls)) /\
    Forall (llk_pair n grad) (combine (o_s st) (o_y st)).
Proof.
  intros n grad pre post m calls Hp M N G F.
  assert (Ho : lookup "maxcor" (pre ++ ("maxcor"%string, m) :: post) = Some m).
  { clear -Hp. unfold lookup. induction Hp as [|[k v] pre Hk Hp IH]; cbn [app find fst].
    - rewrite String.eqb_refl. reflexivity.
    - destruct (String.eqb_spec k "maxcor"%string) as [->|_]; [now contradiction Hk|exact IH]. }
  destruct (stored_all _ m Ho M calls init_store []) as (st & E & T1 & T2 & T3 & T4).
  - eapply Forall_impl; [|exact F]. now intros c (_ & ? & _).
  - reflexivity.
  - discriminate.
  - reflexivity.
  - exists st. specialize (T2 N). rewrite T2 in T4. cbn [app] in T4. split; [exact E|]. split; [exact T1|]. split; [now apply T3|]. split; [exact T4|].
    rewrite T4. unfold newest. apply Forall_forall. intros p Hin.
    assert (Hin' : In p (concat (map (fun c => map (without_penalty (fst c)) (snd c)) calls))).
    { rewrite <- (firstn_skipn (length (concat (map (fun c => map (without_penalty (fst c)) (snd c)) calls)) - m)). apply in_or_app. now right. }
    clear Hin. apply in_concat in Hin' as (l & L1 & L2). apply in_map_iff in L1 as (c & <- & C). apply in_map_iff in L2 as (q & <- & Q).
    destruct (proj1 (Forall_forall _ _) F c C) as ([Sl Sm] & _ & B). destruct (proj1 (Forall_forall _ _) B q Q) as (x & x' & X1 & X2 & X3 & X4).
    exists x, x'. unfold without_penalty. cbn [fst snd]. split; [exact X1|]. split; [exact X2|]. split; [exact X3|].
    rewrite X4, X3, Sm by assumption. apply (pair_algebra [] _ _ _ _ n eq_refl); auto.
Qed.

(** Options without "maxcor" are refused, after the coefficients have been estimated. *)
Theorem C161_options_refuted : exists opts : list (string * nat), opts <> [] /\
  forall S old sks yks, store_pairs S opts old sks yks = None.
Proof. exists [("maxls"%string, 100%nat)]. split; [discriminate|]. reflexivity. Qed.

Example C161_case :
  let S1 v := times_vec 2 v in let S2 v := times_vec 3 v in let g x := times_vec (-1) x in
  linear 1 S1 /\ linear 1 S2 /\ Forall (bfgs_pair 1 g S1) [([1 - 0], [2 * 1 - -1 * 1 - (2 * 0 - -1 * 0)])] /\
  stored [("maxcor"%string, 1%nat)] init_store [(S1, [([1 - 0], [3])]); (S2, [([2 - 0], [8])])] = Some (mkStore true [[2 - 0]] [[8 - 3 * (2 - 0)]]).
Proof.
  cbv zeta. assert (Lin : forall k, linear 1 (fun v => times_vec k v)).
  { intros k. split; [intros [|x [|? ?]]; cbn; intros; try discriminate; reflexivity|].
    intros [|x [|? ?]] [|y [|? ?]]; cbn; intros; try discriminate. f_equal. ring. }
  split; [apply Lin|]. split; [apply Lin|]. split; [|reflexivity].
  constructor; [|constructor]. exists [0], [1]. repeat split.
Qed.

Print Assumptions C159_belongs.
Print Assumptions C159_terminates.
Print Assumptions C160_not_worse.
Print Assumptions C160_restart_refuted.
Print Assumptions C161_pairs.
Print Assumptions C161_options_refuted.
