(** C120, C121: smoothing parameters of models with several parameters and of general smooth models. *)

From Coq Require Import List Arith Bool Reals Lra Lia.
From Verif Require Import Ext LamModel LamSpec LamProofs GlamModel GlamSpec GlamProofs.
Import ListNotations.
Local Open Scope R_scope.

(** ** C120 *)

(** The stored fit was estimated with [r_fitted].  If the fit has converged and steps are not extended, the stored smoothing
    parameters are less than 1e-7 away from these; they are equal to them if control_lambda is less than 2. *)
Theorem C120_converged : forall F refit obs pen_llk eps_of general control extend meth converged remaining fuel start lams r,
  (forall f k ls, length (obs (refit f k ls)) = length ls) ->
  List.Forall (fun x => in_range (fst x)) lams ->
  solve_gammlss F refit obs pen_llk eps_of general control extend meth converged remaining fuel start lams = Some r ->
  (exists last outer, r_fit F r = refit last outer (r_fitted F r)) /\
  (extend = false -> r_conv F r = true ->
    closer (/ 10000000) (map lam (r_pens F r)) (r_fitted F r) /\ ((control < 2)%nat -> map lam (r_pens F r) = r_fitted F r)).
Proof.
  intros F refit obs pen_llk eps_of general control extend meth converged remaining fuel start lams r Ho Hl E.
  pose proof (start_ok extend lams Hl) as OK. split.
  - apply (outer_spec F refit obs Ho pen_llk eps_of general control extend meth converged _ _ _ _ _ _ _ _ OK E).
  - intros Ee C. exact (outer_close F refit obs Ho pen_llk eps_of general control extend meth converged Ee _ _ _ _ _ _ _ _ OK E C).
Qed.
Print Assumptions C120_converged.

(** Every fit ends. *)
Theorem C120_terminates : forall F refit obs pen_llk eps_of general control extend meth converged remaining start lams,
  exists fuel r, solve_gammlss F refit obs pen_llk eps_of general control extend meth converged remaining fuel start lams = Some r.
Proof. intros. apply outer_ends. Qed.
Print Assumptions C120_terminates.

(** One smoothing parameter; the fit is represented by it.  The Fellner-Schall step is always [d]. *)
Definition climb (d : R) (ls : list R) : list (R * R * R) := map (fun l => (1 + d / l, 0, 1)) ls.

Section Climb.
Variables (d : R) (general : bool) (control : nat).
Hypothesis Hd : 1 / 100 <= d.
Notation step := (correct_lambda_step_gamlss (list R) (fun _ _ ls => ls) (climb d) (fun _ => 0) (fun _ => 0) general control false Nesterov).
Notation loop := (outer_loop (list R) (fun _ _ ls => ls) (climb d) (fun _ => 0) (fun _ => 0) general control false Nesterov (fun _ _ _ _ => false)).

Lemma climb_once outer last l : 1 <= l -> l + d <= hi ->
  step 1 outer last 0 [mkPen l false (if (outer =? 0)%nat then 0 else d) 1 0 false] = Some ([l], [l], [mkPen l false d 1 0 false]).
Proof.
  intros H1 H2. unfold correct_lambda_step_gamlss.
  set (x := if (outer =? 0)%nat then 0 else d).
  assert (Hx : 0 <= x) by (unfold x; destruct (outer =? 0)%nat; lra).
  assert (EL : lam_loop (list R) (fun _ _ ls => ls) (climb d) (fun _ => 0) general control false 1 outer last [mkPen l false x 1 0 false] =
    Some ([l], [l], [mkPen l false x 1 0 false])).
  { cbn [lam_loop map lam]. destruct (unchecked _ _ _); [reflexivity|]. unfold climb. cbn [map delta]. unfold dotl. cbn [combine map fold_right fst snd].
    rewrite (proj2 (rltb_false _ _)); [reflexivity|]. unfold grad_lambda. rewrite Rabs_R0.
    assert (0 < d / l) by (apply Rdiv_lt_0_compat; lra). nra. }
  rewrite EL. unfold damping. cbn [map delta].
  assert (EN : (100 <? outer)%nat && rltb (norm [x]) (5 / 1000) = false).
  { destruct (100 <? outer)%nat eqn:E; [|reflexivity]. apply Nat.ltb_lt in E. cbn [andb]. apply rltb_false.
    unfold x. destruct outer as [|o]; [lia|]. cbn [Nat.eqb]. unfold norm. cbn [map fold_right]. rewrite Rplus_0_r, sqrt_square by lra. lra. }
  rewrite EN. rewrite (proj2 (rltb_false 0 (Rmax 0 0))) by (rewrite Rmax_left; lra). cbn [andb orb].
  unfold climb. cbn [map combine fst snd]. unfold next_pen. cbn [andb lam frozen delta prev acc was].
  assert (EP : plain_step (1 + d / l, 0, 1) (mkPen l false x 1 0 false) = d).
  { unfold plain_step. cbn [lam frozen]. assert (P : 0 < d / l) by (apply Rdiv_lt_0_compat; lra).
    rewrite (proj2 (rltb_false (1 + d / l - 0) 0)) by lra. unfold step_fellner_schall.
    rewrite !(Rmax_right 0) by lra. rewrite (proj2 (rleb_false 1 0)) by lra.
    replace (1 * ((1 + d / l - 0) / 1) * l) with (l + d) by (field; lra). unfold lo, hi in *. rewrite Rmax_left by lra. rewrite Rmin_left by lra. ring. }
  rewrite EP. reflexivity.
Qed.

Lemma climb_all : forall remaining outer last hist l, 1 <= l -> l + INR (S remaining) * d <= hi ->
  exists a b, loop remaining 1 outer last 0 hist [mkPen l false (if (outer =? 0)%nat then 0 else d) 1 0 false] =
    Some (Solved (list R) [a] [a] [b] false) /\ lam b = a + d.
Proof.
  induction remaining as [|remaining IH]; intros outer last hist l H1 H2; cbn [outer_loop].
  - rewrite climb_once by (cbn [INR] in H2; lra). rewrite andb_false_r. cbn [map apply_step]. exists l. eexists. split; [reflexivity|reflexivity].
  - rewrite S_INR in H2. pose proof (pos_INR (S remaining)) as HP.
    assert (0 <= INR (S remaining) * d) by (apply Rmult_le_pos; lra).
    rewrite climb_once by lra. rewrite andb_false_r. cbn [map apply_step lam frozen delta prev acc was].
    destruct (IH (S outer) [l] (([l], [mkPen l false d 1 0 false]) :: hist) (l + d)) as (a & b & E & Eb); [lra|lra|].
    exists a, b. split; [exact E|exact Eb].
Qed.
End Climb.

(** Any number of iterations and any distance d: when max_outer is reached the last step is still added to the smoothing parameter
    with which coefficients, penalty and degrees of freedom were computed. *)
Theorem C120_stopped_refuted : forall general control remaining d, 1 / 100 <= d -> INR (S remaining) * d <= 1000000 ->
  exists F refit obs pen_llk eps_of start lams r a b,
  (forall f k ls, length (obs (refit f k ls)) = length ls) /\ List.Forall (fun x => in_range (fst x)) lams /\
  solve_gammlss F refit obs pen_llk eps_of general control false Nesterov (fun _ _ _ _ => false) remaining 1 start lams = Some r /\
  r_fit F r = refit start 0%nat [a] /\ r_fitted F r = [a] /\ map lam (r_pens F r) = [b] /\ b - a = d.
Proof.
  intros general control remaining d H1 H2.
  destruct (climb_all d general control H1 remaining 0 [] [] 1) as (a & b & E & Eb); [lra|unfold hi; lra|].
  exists (list R), (fun _ _ ls => ls), (climb d), (fun _ => 0), (fun _ => 0), [], [(1, false)]. eexists. exists a, (a + d).
  split; [intros; apply map_length|]. split; [constructor; [unfold in_range, lo, hi; cbn; lra|constructor]|].
  split; [exact E|]. cbn [r_fit r_fitted r_pens map]. rewrite Eb. repeat split. ring.
Qed.
Print Assumptions C120_stopped_refuted.

(** Steps of 2^-52 and 2^-25, the second extended to 4 + 2^-25; that step is rejected. *)
Definition overshoot (ls : list R) : list (R * R * R) :=
  map (fun l => if rleb l 1 then (1 + / 2 ^ 52, 0, 1) else if rltb l 2 then (1 + / 2 ^ 25 / l, 0, 1) else (0, 0, 1)) ls.


Section Overshoot.
Variables (general : bool) (control : nat).
Hypothesis Hc : (0 < control)%nat.
Notation step := (correct_lambda_step_gamlss (list R) (fun _ _ ls => ls) overshoot (fun _ => 0) (fun _ => 0) general control true Nesterov).
Notation lloop := (lam_loop (list R) (fun _ _ ls => ls) overshoot (fun _ => 0) general control true).

Lemma fs_up l x : 0 < l -> 0 < x -> lo <= l + x -> l + x <= hi -> step_fellner_schall (1 + x / l) 0 1 l 1 = x.
Proof.
  intros H1 H2 H3 H4. assert (P : 0 < x / l) by (apply Rdiv_lt_0_compat; lra). unfold step_fellner_schall.
  rewrite !(Rmax_right 0) by lra. rewrite (proj2 (rleb_false 1 0)) by lra.
  replace (1 * ((1 + x / l - 0) / 1) * l) with (l + x) by (field; lra). rewrite Rmax_left by lra. rewrite Rmin_left by lra. ring.
Qed.

Lemma plain_up l x dl pr ac w : 0 < l -> 0 < x -> lo <= l + x -> l + x <= hi -> plain_step (1 + x / l, 0, 1) (mkPen l false dl pr ac w) = x.
Proof.
  intros H1 H2 H3 H4. assert (P : 0 < x / l) by (apply Rdiv_lt_0_compat; lra). unfold plain_step. cbn [lam frozen].
  rewrite (proj2 (rltb_false (1 + x / l - 0) 0)) by lra. now apply fs_up.
Qed.

Lemma no_damping outer ps : (outer < 50)%nat -> damping outer ps 0 0 = None.
Proof.
  intros H. unfold damping. rewrite (proj2 (Nat.ltb_ge 100 outer)), (proj2 (Nat.ltb_ge 50 outer)) by lia. cbn [andb orb]. now rewrite andb_false_r.
Qed.

Let e := / 2 ^ 52.
Let u := / 2 ^ 25.

Lemma eu : 0 < e /\ e <= / 4 * (u * u) /\ u * u <= 4 * e /\ 0 < u /\ u < lo.
Proof.
  assert (E52 : 2 ^ 52 = 4 * (2 ^ 25 * 2 ^ 25)) by ring. assert (Ht : 2 ^ 25 = 33554432) by lra.
  unfold e, u, lo. rewrite E52, Ht. repeat split; lra.
Qed.

Lemma over0 : step 1 0 [] 0 [mkPen 1 false 0 1 0 false] = Some ([1], [1], [mkPen 1 false e 1 0 false]).
Proof.
  pose proof eu as (E1 & E2 & E3 & E4 & E5). pose proof lo_hi. assert (HL : lo < / 10 /\ 10 < hi) by (unfold lo, hi; lra).
  assert (Eo : overshoot [1] = [(1 + e / 1, 0, 1)]).
  { unfold overshoot. cbn [map]. rewrite (proj2 (rleb_true 1 1)) by lra. fold e. now replace (e / 1) with e by field. }
  unfold correct_lambda_step_gamlss. cbn [lam_loop map lam]. unfold unchecked. cbn [Nat.eqb orb].
  rewrite Eo, no_damping by lia. cbn [combine map fst snd]. unfold next_pen. cbn [frozen negb andb].
  rewrite plain_up by nra. unfold extend_lambda_step, acceleration. cbn [lam prev].
  rewrite Rminus_diag_eq, sign_zero, (sign_pos e) by (lra || reflexivity). destruct (Req_EM_T 1 0); [lra|].
  rewrite (proj2 (rltb_false 0 (Rabs 0))) by (rewrite Rabs_R0; lra). rewrite andb_false_r. reflexivity.
Qed.

Lemma over1 : step 1 1 [1] 0 [mkPen (1 + e) false e 1 0 false] = Some ([1 + e], [1 + e], [mkPen (1 + e) false (u + 4) (1 + e) 4 true]).
Proof.
  pose proof eu as (E1 & E2 & E3 & E4 & E5). pose proof lo_hi. assert (HL : lo < / 10 /\ 10 < hi) by (unfold lo, hi; lra).
  assert (Eo : overshoot [1 + e] = [(1 + u / (1 + e), 0, 1)]).
  { unfold overshoot. cbn [map]. rewrite (proj2 (rleb_false (1 + e) 1)) by lra. rewrite (proj2 (rltb_true (1 + e) 2)) by nra. reflexivity. }
  assert (P : 0 < u / (1 + e)) by (apply Rdiv_lt_0_compat; lra).
  assert (EL : lloop 1 1 [1] [mkPen (1 + e) false e 1 0 false] = Some ([1 + e], [1 + e], [mkPen (1 + e) false e 1 0 false])).
  { cbn [lam_loop map lam]. destruct (unchecked _ _ _); [reflexivity|]. rewrite Eo. cbn [map delta]. unfold dotl. cbn [combine map fold_right fst snd].
    rewrite (proj2 (rltb_false _ _)); [reflexivity|]. unfold grad_lambda. rewrite Rabs_R0. nra. }
  unfold correct_lambda_step_gamlss. rewrite EL, Eo, no_damping by lia. cbn [combine map fst snd]. unfold next_pen. cbn [frozen negb andb].
  rewrite plain_up by nra.
  assert (Hacc : acceleration Nesterov (1 + e - 1) u 1 = 4).
  { unfold acceleration. replace (1 + e - 1) with e by ring. rewrite !sign_pos by lra. destruct (Req_EM_T 1 1); [|congruence].
    rewrite (proj2 (rltb_false 1 u)) by lra. cbn [andb]. rewrite Rabs_right by lra. change eps with e. rewrite Rmax_left by lra.
    assert (u * u = 4 * e) by lra. rewrite H0. field. lra. }
  unfold extend_lambda_step. cbn [lam prev frozen delta]. rewrite Hacc.
  rewrite (proj2 (rltb_true _ hi)) by nra. rewrite (proj2 (rltb_true lo _)) by nra.
  rewrite (proj2 (rltb_true 0 _)) by (rewrite Rabs_right; lra). reflexivity.
Qed.

Lemma over2 : exists q, step 1 2 [1 + e] 0 [mkPen (1 + e + (u + 4)) false (u + 4) (1 + e) 4 true] =
  Some ([1 + e + (u + 4)], [1 + e + (u + 4)], [q]) /\ lam q = 1 + e + (u + 4) - 4.
Proof.
  pose proof eu as (E1 & E2 & E3 & E4 & E5). pose proof lo_hi.
  assert (Eo : overshoot [1 + e + (u + 4)] = [(0, 0, 1)]).
  { unfold overshoot. cbn [map]. rewrite (proj2 (rleb_false _ 1)) by lra. rewrite (proj2 (rltb_false _ 2)) by lra. reflexivity. }
  set (p := mkPen (1 + e + (u + 4)) false (u + 4) (1 + e) 4 true).
  assert (EL : lloop 1 2 [1 + e] [p] = Some ([1 + e + (u + 4)], [1 + e + (u + 4)], [undo_extension p])).
  { cbn [lam_loop map]. unfold p at 1 2 3 4. cbn [lam]. unfold unchecked. cbn [Nat.eqb orb negb andb].
    rewrite (proj2 (Nat.ltb_ge control 1)) by lia. rewrite Eo. cbn [map]. unfold p at 1. cbn [delta]. unfold dotl. cbn [combine map fold_right fst snd].
    rewrite (proj2 (rltb_true _ _)); [|unfold grad_lambda; rewrite Rabs_R0; lra].
    unfold or_self, reduce_step. cbn [existsb p was andb is_some orb negb].
    rewrite (proj2 (rltb_true (norm _) lo)); [reflexivity|].
    unfold undo_extension. cbn [map delta acc]. unfold norm. cbn [map fold_right].
    change (delta p) with (u + 4). change (acc p) with 4.
    replace ((u + 4 - 4) * (u + 4 - 4) + 0) with (u * u) by ring. rewrite sqrt_square by lra. exact E5. }
  unfold correct_lambda_step_gamlss. fold p. rewrite EL, Eo. cbn [combine map fst snd]. eexists. split; [reflexivity|].
  destruct (next_pen_lam true Nesterov 2 (damping 2 [undo_extension p] 0 0) (0, 0, 1) (undo_extension p)) as [-> _]. reflexivity.
Qed.

Lemma over_all : exists q, solve_gammlss (list R) (fun _ _ ls => ls) overshoot (fun _ => 0) (fun _ => 0) general control true Nesterov
    (fun outer _ _ _ => (outer =? 2)%nat) 9 1 [] [(1, false)] =
    Some (Solved (list R) [1 + e + (u + 4)] [1 + e + (u + 4)] [q] true) /\ lam q = 1 + e + (u + 4) - 4.
Proof.
  destruct over2 as (q & E & Eq). exists q. split; [|exact Eq]. unfold solve_gammlss. cbn [map fst snd]. unfold initialize_extension.
  rewrite outer_S, over0. cbn [Nat.ltb Nat.leb andb map apply_step lam frozen delta prev acc was].
  unfold apply_step at 1. cbn [lam frozen delta prev acc was]. rewrite outer_S, over1. cbn [Nat.eqb Nat.ltb Nat.leb andb map apply_step lam frozen delta prev acc was].
  unfold apply_step at 1. cbn [lam frozen delta prev acc was]. rewrite outer_S, E. reflexivity.
Qed.
End Overshoot.

(** With extended steps a fit may also converge with a smoothing parameter that it was not estimated with: undoing an extension
    leaves a step smaller than 1e-7, and nothing is estimated again. *)
Theorem C120_extension_refuted : forall general control, (0 < control)%nat ->
  exists F refit obs pen_llk eps_of start lams r a b,
  (forall f k ls, length (obs (refit f k ls)) = length ls) /\ List.Forall (fun x => in_range (fst x)) lams /\
  solve_gammlss F refit obs pen_llk eps_of general control true Nesterov (fun outer _ _ _ => (outer =? 2)%nat) 9 1 start lams = Some r /\
  r_conv F r = true /\ r_fitted F r = [a] /\ map lam (r_pens F r) = [b] /\ a - b = 4.
Proof.
  intros general control Hc. destruct (over_all general control Hc) as (q & E & Eq).
  exists (list R), (fun _ _ ls => ls), overshoot, (fun _ => 0), (fun _ => 0), [], [(1, false)]. eexists. do 2 eexists.
  split; [intros; apply map_length|]. split; [constructor; [unfold in_range, lo, hi; cbn; lra|constructor]|].
  split; [exact E|]. cbn [r_conv r_fitted r_pens map]. rewrite Eq. repeat split. ring.
Qed.
Print Assumptions C120_extension_refuted.

(** A fit that converges in the third iteration: 1, 2, 3. *)
Example C120_case : exists r, solve_gammlss (list R) (fun _ _ ls => ls) (climb 1) (fun _ => 0) (fun _ => 0) false 1 false Nesterov
    (fun outer _ _ _ => (outer =? 2)%nat) 9 1 [] [(1, false)] = Some r /\ r_conv _ r = true /\ r_fitted _ r = [1 + 1 + 1] /\
  (forall (f : list R) (k : nat) ls, length (climb 1 ((fun _ _ ls => ls) f k ls)) = length ls).
Proof.
  unfold solve_gammlss. cbn [map fst snd]. unfold initialize_extension.
  rewrite outer_S, (climb_once 1 false 1 ltac:(lra) 0) by (unfold hi; lra).
  cbn [Nat.ltb Nat.leb andb map apply_step lam frozen delta prev acc was].
  unfold apply_step at 1. cbn [lam frozen delta prev acc was]. rewrite outer_S, (climb_once 1 false 1 ltac:(lra) 1) by (unfold hi; lra).
  cbn [Nat.eqb Nat.ltb Nat.leb andb map apply_step lam frozen delta prev acc was].
  unfold apply_step at 1. cbn [lam frozen delta prev acc was]. rewrite outer_S, (climb_once 1 false 1 ltac:(lra) 2) by (unfold hi; lra).
  cbn [Nat.eqb Nat.ltb Nat.leb andb]. eexists. split; [reflexivity|]. split; [reflexivity|]. split; [reflexivity|]. intros. apply map_length.
Qed.

(** ** C121 *)

(** All smoothing parameters stay between 1e-7 and 1e7, and those held fixed keep their value: for every number of iterations,
    whatever the fits return, with extended or rejected or damped steps. *)
Theorem C121_range : forall F refit obs pen_llk eps_of general control extend meth converged remaining fuel start lams r,
  (forall f k ls, length (obs (refit f k ls)) = length ls) ->
  List.Forall (fun x => / 10000000 <= fst x <= 10000000) lams ->
  solve_gammlss F refit obs pen_llk eps_of general control extend meth converged remaining fuel start lams = Some r ->
  List.Forall (fun l => / 10000000 <= l <= 10000000) (map lam (r_pens F r)) /\ fixed_kept lams (map lam (r_pens F r)).
Proof.
  intros F refit obs pen_llk eps_of general control extend meth converged remaining fuel start lams r Ho Hl E.
  destruct (outer_spec F refit obs Ho pen_llk eps_of general control extend meth converged _ _ _ _ _ _ _ _ (start_ok extend lams Hl) E) as (H1 & H2 & _).
  split; [|now apply start_fixed]. apply Forall_forall. intros l I. apply in_map_iff in I as (p & <- & Ip). exact (H1 p Ip).
Qed.
Print Assumptions C121_range.

(** Three iterations that end without convergence: 1, 2, 3 and then 4. *)
Example C121_case : exists r, solve_gammlss (list R) (fun _ _ ls => ls) (climb 1) (fun _ => 0) (fun _ => 0) false 2 false Nesterov
    (fun _ _ _ _ => false) 2 1 [] [(1, false)] = Some r /\ exists a, r_fitted _ r = [a] /\ map lam (r_pens _ r) = [a + 1] /\
  List.Forall (fun x : R * bool => / 10000000 <= fst x <= 10000000) [(1, false)].
Proof.
  destruct (climb_all 1 false 2 ltac:(lra) 2 0 [] [] 1) as (a & b & E & Eb); [lra|cbn [INR]; unfold hi; lra|].
  eexists. split; [exact E|]. exists a. cbn [r_fitted r_pens map]. rewrite Eb. repeat split. constructor; [cbn; lra|constructor].
Qed.

