(** Properties C07-C09, C14 and C65: smoothing parameter updates. *)

From Coq Require Import List Arith Bool Reals Lra Lia.
From Verif Require Import Ext LamModel LamSpec LamProofs StepProps.
Import ListNotations.
Local Open Scope R_scope.

(** ** C07 *)

(** One update, for all inputs. *)
Theorem C07_step_in_range : forall lgdet ldet bSb l scale,
  in_range (l + step_fellner_schall lgdet ldet bSb l scale).
Proof. exact fs_in_bounds. Qed.
Print Assumptions C07_step_in_range.

(** All states of a fit: every smoothing parameter is in range, also after the next step. *)
Theorem C07_always_in_range : forall extend waiting ps p,
  fit_state extend waiting ps -> In p ps ->
  in_range (lam p) /\ (waiting = true -> in_range (lam p + delta p)).
Proof.
  intros extend waiting ps p H Hp. pose proof (fit_state_ok _ _ _ H p Hp) as Ho.
  destruct waiting; destruct Ho as (H1 & H2 & _); split; auto. discriminate.
Qed.
Print Assumptions C07_always_in_range.

(** A fit that starts at 1 with a step to 3, which is applied. *)
Example C07_case : exists ps, fit_state true false ps /\ map lam ps = [3].
Proof.
  set (p0 := mkPen 1 false (step_fellner_schall 4 1 1 1 1) 1 0 false).
  assert (E : step_fellner_schall 4 1 1 1 1 = 2).
  { rewrite fs_unclipped; unfold raw, lo, hi; lra. }
  exists (map apply_step [p0]). split.
  - apply fs_apply. apply fs_start. intros p [<-|[]]. simpl.
    split; [unfold in_range; lra|]. repeat split. now exists 4, 1, 1, 1.
  - simpl. rewrite E. replace (1 + 2) with 3 by lra. reflexivity.
Qed.

(** ** C08 *)

(** Unclipped steps have the sign of the gradient. *)
Theorem C08_direction : forall lgdet ldet bSb l scale,
  0 < bSb -> 0 < scale -> in_range l -> 0 <= lgdet - ldet ->
  in_range (scale * ((lgdet - ldet) / bSb) * l) ->
  same_sign (step_fellner_schall lgdet ldet bSb l scale) (grad_lambda lgdet ldet bSb scale).
Proof. exact fs_direction. Qed.
Print Assumptions C08_direction.

(** Clipped or not, and also for a negative trace difference, a step is never against the
    gradient. *)
Theorem C08_never_against : forall lgdet ldet bSb l scale,
  0 < bSb -> 0 < scale -> in_range l ->
  0 <= step_fellner_schall lgdet ldet bSb l scale * grad_lambda lgdet ldet bSb scale.
Proof. exact fs_not_against. Qed.
Print Assumptions C08_never_against.

(** A vanishing quadratic form: the step goes up to the bound, and the gradient is not negative. *)
Theorem C08_no_penalty : forall lgdet ldet l scale,
  0 < scale -> in_range l -> 0 <= lgdet - ldet ->
  0 <= step_fellner_schall lgdet ldet 0 l scale /\ 0 <= grad_lambda lgdet ldet 0 scale.
Proof.
  intros a b l s Hs Hl Hab. unfold step_fellner_schall, grad_lambda.
  rewrite (proj2 (rleb_true _ _)) by (rewrite Rmax_left; lra).
  unfold in_range in Hl. unfold hi, lo. replace (0 / (2 * s)) with 0 by (field; lra). lra.
Qed.
Print Assumptions C08_no_penalty.

Example C08_case : in_range 1 /\ in_range (1 * ((4 - 1) / 1) * 1) /\
  step_fellner_schall 4 1 1 1 1 = 2 /\ grad_lambda 4 1 1 1 = 1.
Proof.
  split; [unfold in_range; lra|]. split; [unfold in_range; lra|].
  split; [rewrite fs_unclipped; unfold raw, lo, hi; lra|unfold grad_lambda; lra].
Qed.

(** ** C09 *)

(** For every method, iteration, step and stored state: the smoothing parameter is untouched;
    either the step is lengthened in its own direction, to a value in range, or it is unchanged. *)
Theorem C09_extension : forall m iter d p,
  let (d', q) := extend_lambda_step m iter d p in
  lam q = lam p /\ frozen q = frozen p /\ prev q = lam p /\
  ((was q = true /\ in_range (lam p + d') /\ ((0 < d /\ d < d') \/ (d < 0 /\ d' < d)))
   \/ (was q = false /\ d' = d)).
Proof.
  intros m iter d p. pose proof (extend_cases m iter d p) as H.
  destruct (extend_lambda_step m iter d p) as [d' q]. intuition.
Qed.
Print Assumptions C09_extension.

(** Undoing an extension after the step has been applied gives the parameter and step that the
    step without extension would have given. *)
Theorem C09_undo : forall m iter d p,
  let (d', q) := extend_lambda_step m iter d p in
  was q = true ->
  let applied := apply_step (mkPen (lam q) (frozen q) d' (prev q) (acc q) (was q)) in
  lam (undo_extension applied) = lam p + d /\ delta (undo_extension applied) = d /\
  was (undo_extension applied) = false /\ acc (undo_extension applied) = 0.
Proof.
  intros m iter d p. pose proof (extend_cases m iter d p) as H.
  destruct (extend_lambda_step m iter d p) as [d' q]. intros W.
  destruct H as (H1 & _ & _ & _ & [(_ & H2 & _)|(H2 & _)]); [|congruence].
  simpl. rewrite H1, H2. repeat split; lra.
Qed.
Print Assumptions C09_undo.

(** A step of 1/2 after a step of 1, extended by 1/4. *)
Example C09_case :
  extend_lambda_step Nesterov 3 (1 / 2) (mkPen 2 false 1 1 0 false)
  = (1 / 2 + 1 * (1 / 2 * (1 / 2) / 1), mkPen 2 false 1 2 (1 * (1 / 2 * (1 / 2) / 1)) true).
Proof.
  unfold extend_lambda_step, acceleration. cbn [lam prev frozen delta acc was].
  replace (2 - 1) with 1 by lra. rewrite !sign_pos by lra.
  destruct (Req_EM_T 1 1); [|congruence]. 
  rewrite (proj2 (rltb_false 1 (1 / 2))) by lra. cbn [andb].
  rewrite (Rabs_right 1) by lra.
  assert (He : eps <= 1).
  { unfold eps. rewrite <- Rinv_1. apply Rinv_le_contravar; [lra|]. apply pow_R1_Rle. lra. }
  rewrite Rmax_right by assumption.
  rewrite (proj2 (rltb_true (2 + 1 / 2 + 1 * (1 / 2 * (1 / 2) / 1)) hi)) by (unfold hi; lra).
  rewrite (proj2 (rltb_true lo _)) by (unfold lo; lra).
  rewrite (Rabs_right (1 * (1 / 2 * (1 / 2) / 1))) by lra.
  rewrite (proj2 (rltb_true 0 _)) by lra. reflexivity.
Qed.

(** ** C14 *)

Section C14.
Variables (refit : nat -> list R -> list (R * R * R) * R) (gauss_id : bool) (control : nat)
  (extend exclude : bool) (meth : method) (o_iter : nat) (pd : R).
Hypothesis Hone : one_each refit.

(** The loop ends, whatever the refits return. *)
Theorem C14_terminates : forall ps, exists fuel r,
  correct_lambda_step refit gauss_id control extend exclude meth o_iter pd fuel ps = Some r.
Proof. intros. apply loop_ends. exact Hone. Qed.

(** A rejected step: parameter minus step stays what it was, and steps shrink to one half or
    lose their extension. *)
Theorem C14_rejected_pass : forall k ps ps',
  control_pass refit gauss_id control extend exclude meth o_iter pd k ps = (ps', false) ->
  Forall2 (fun p p' => lam p' - delta p' = lam p - delta p /\
     (delta p' = delta p / 2 \/ delta p' = delta p - acc p \/ p' = p)) ps ps'.
Proof.
  intros k ps ps' E. destruct (pass_cases _ _ _ _ _ _ _ _ Hone k ps ps' false E) as (ps1 & _ & H & _).
  destruct (H eq_refl) as (-> & -> & _). clear. induction ps as [|p ps IH]; simpl; constructor; [|assumption].
  unfold or_self, reduce_step. destruct (extend && was p); simpl; [split; [lra|auto]|].
  destruct (gauss_id || (control =? 2)%nat); simpl; split; auto; lra.
Qed.

(** The result: every parameter is at the previous accepted value plus a fraction of the step. *)
Theorem C14_result : forall fuel ps r fitted n,
  correct_lambda_step refit gauss_id control extend exclude meth o_iter pd fuel ps = Some (r, fitted, n) ->
  Forall2 (toward extend) ps r.
Proof.
  intros. eapply loop_along; [exact Hone| |eassumption]. apply Forall2_same.
  intros. apply along_refl.
Qed.

(** Fixed (frozen) smoothing parameters never change. *)
Theorem C14_frozen : forall fuel ps r fitted n,
  fit_state extend false ps ->
  correct_lambda_step refit gauss_id control extend exclude meth o_iter pd fuel ps = Some (r, fitted, n) ->
  Forall2 (fun p p' => frozen p = true -> lam p' = lam p) ps r.
Proof.
  intros fuel ps r fitted n Hs H. pose proof (fit_state_ok _ _ _ Hs) as Hok. simpl in Hok.
  pose proof (C14_result _ _ _ _ _ H) as HF. clear -HF Hok.
  induction HF as [|p p' l l' Hp HF IH]; constructor.
  - intros Hf. destruct (Hok p (or_introl eq_refl)) as (_ & _ & _ & Hz & _).
    destruct (Hz Hf) as [Hd Hw]. destruct Hp as (_ & j & [E|(_ & E & _)]); [|congruence].
    rewrite E, Hd. unfold Rdiv. ring.
  - apply IH. intros q Hq. apply Hok. now right.
Qed.
End C14.
Print Assumptions C14_terminates.
Print Assumptions C14_rejected_pass.
Print Assumptions C14_result.
Print Assumptions C14_frozen.

(** A step from 1 to 3 is rejected and halved. *)
Example C14_case :
  let rf := fun (_ : nat) (ls : list R) => (map (fun _ => (0, 0, 1)) ls, 1) in
  one_each rf /\
  control_pass rf true 1 true true Nesterov 6 0 0 [mkPen 3 false 2 1 0 false]
  = ([mkPen (3 - 2 / 2) false (2 / 2) 1 0 false], false).
Proof.
  split; [intros k ls; simpl; apply map_length|].
  unfold control_pass, dotl. cbn [map fst snd lam delta was combine fold_right negb andb orb existsb].
  assert (Hg : grad_lambda 0 0 1 1 = - (1 / 2)) by (unfold grad_lambda; lra).
  rewrite (proj2 (rltb_true (grad_lambda 0 0 1 1 * 2 + 0) 0)) by (rewrite Hg; lra).
  unfold or_self, reduce_step, norm.
  cbn [was andb orb negb is_some Nat.ltb Nat.leb map fold_right lam frozen delta prev acc Nat.eqb].
  rewrite (proj2 (rltb_false (sqrt _) lo)); [reflexivity|].
  replace (2 / 2 * (2 / 2) + 0) with 1 by field. rewrite sqrt_1. unfold lo. lra.
Qed.

(** ** C65 *)

(** Without extended steps, the returned smoothing parameters differ by less than 1e-7 from the
    ones the returned model was fitted with. *)
Theorem C65_fitted_at_returned : forall refit gauss_id control extend exclude meth o_iter pd fuel ps r fitted n,
  one_each refit -> (forall p, In p ps -> extend && was p = false) ->
  correct_lambda_step refit gauss_id control extend exclude meth o_iter pd fuel ps = Some (r, fitted, n) ->
  Forall2 (fun p f => Rabs (lam p - f) < / 10000000) r fitted.
Proof. intros. eapply loop_fitted; eassumption. Qed.
Print Assumptions C65_fitted_at_returned.

(** With extended steps this fails: the extension of a small step can be large; when it is undone
    the remaining step is so small that the loop accepts at once, and the model returned is the
    one fitted with the extended smoothing parameter.  In the witness the parameter 1 (reached by
    a step of 2^-52) gets a step of 2^-25 that is extended by 4.  Step control returns the
    parameter 1 + 2^-25 together with a model fitted at 5 + 2^-25. *)
Definition ex65 : pen := mkPen 1 false 0 (1 - / 2 ^ 52) 0 false.
Theorem C65_extension_refuted :
  exists d' q r,
    extend_lambda_step Nesterov 5 (/ 2 ^ 25) ex65 = (d', q) /\ was q = true /\
    (forall rf, rf = (fun (_ : nat) (ls : list R) => (map (fun _ => (0, 0, 1)) ls, 1)) ->
     correct_lambda_step rf true 1 true true Nesterov 6 0 1
       [apply_step (mkPen (lam q) (frozen q) d' (prev q) (acc q) (was q))] = Some ([r], [5 + / 2 ^ 25], 1%nat)) /\
    lam r = 1 + / 2 ^ 25.
Proof.
  assert (E52 : 2 ^ 52 = 4 * (2 ^ 25 * 2 ^ 25)) by ring.
  set (t := 2 ^ 25) in *.
  assert (Ht : t = 33554432) by (unfold t; lra).
  assert (Hacc : acceleration Nesterov (lam ex65 - prev ex65) (/ t) 5 = 4).
  { unfold acceleration, ex65, eps. cbn [lam prev]. rewrite E52.
    replace (1 - (1 - / (4 * (t * t)))) with (/ (4 * (t * t))) by ring.
    rewrite !sign_pos by (apply Rinv_0_lt_compat; rewrite Ht; lra).
    destruct (Req_EM_T 1 1); [|congruence].
    rewrite (proj2 (rltb_false 1 (/ t))) by (rewrite Ht; lra). cbn [andb].
    rewrite Rabs_right by (left; apply Rinv_0_lt_compat; rewrite Ht; lra).
    rewrite Rmax_left by lra. field. rewrite Ht. lra. }
  assert (Hext : extend_lambda_step Nesterov 5 (/ t) ex65 = (/ t + 4, mkPen 1 false 0 1 4 true)).
  { unfold extend_lambda_step. rewrite Hacc. unfold ex65. cbn [lam frozen delta].
    rewrite (proj2 (rltb_true _ hi)) by (unfold hi; rewrite Ht; lra).
    rewrite (proj2 (rltb_true lo _)) by (unfold lo; rewrite Ht; lra).
    rewrite (proj2 (rltb_true 0 _)) by (rewrite Rabs_right; lra). reflexivity. }
  set (undone := mkPen (1 + (/ t + 4) - 4) false (/ t + 4 - 4) 1 0 false).
  exists (/ t + 4), (mkPen 1 false 0 1 4 true), (next_step true true Nesterov 6 (0, 0, 1) (grad_lambda 0 0 1 1) 1 undone).
  split; [exact Hext|]. split; [reflexivity|]. split.
  - intros rf ->. unfold correct_lambda_step, control_loop, control_pass, apply_step.
    cbn [map fst snd lam frozen delta prev acc was].
    unfold dotl. cbn [combine map fold_right fst snd negb andb orb].
    assert (Hg : grad_lambda 0 0 1 1 = - (1 / 2)) by (unfold grad_lambda; lra).
    rewrite (proj2 (rltb_true (grad_lambda 0 0 1 1 * (/ t + 4) + 0) 0)) by (rewrite Hg, Ht; lra).
    cbn [negb andb orb Nat.ltb Nat.leb existsb map]. unfold or_self, reduce_step. cbn [was andb is_some orb negb].
    unfold undo_extension. cbn [lam frozen delta prev acc]. fold undone.
    cbn [map]. unfold norm. cbn [map fold_right]. 
    rewrite (proj2 (rltb_true (sqrt _) lo)).
    + cbn [Nat.eqb orb combine map fst snd]. replace (1 + (/ t + 4)) with (5 + / t) by ring. reflexivity.
    + unfold undone. cbn [delta]. replace ((/ t + 4 - 4) * (/ t + 4 - 4) + 0) with (/ t * / t) by ring.
      rewrite sqrt_square by (left; apply Rinv_0_lt_compat; rewrite Ht; lra).
      unfold lo. rewrite Ht. lra.
  - unfold next_step. 
    destruct ((negb (rltb 100000 (lam undone) && rltb (grad_lambda 0 0 1 1 * grad_lambda 0 0 1 1 / lam undone) (/ 100000000)) ||
      negb true) && negb (frozen undone)).
    + pose proof (extend_cases Nesterov 6 (step_fellner_schall 0 0 1 (lam undone) 1) undone) as Hx.
      destruct (extend_lambda_step Nesterov 6 (step_fellner_schall 0 0 1 (lam undone) 1) undone) as [d2 q2].
      cbn [lam]. destruct Hx as (-> & _). unfold undone. cbn [lam]. lra.
    + cbn [lam]. unfold undone. cbn [lam]. lra.
Qed.
Print Assumptions C65_extension_refuted.
