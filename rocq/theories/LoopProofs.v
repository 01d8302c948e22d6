(** Proofs for LoopProps. *)

From Coq Require Import List Arith Bool Reals Lra Lia.
From Verif Require Import Ext StepModel StepSpec StepProofs LamModel LoopModel LoopSpec.
Import ListNotations.
Local Open Scope R_scope.

Lemma partway_length k : forall a b, length a = length b -> length (partway k a b) = length a.
Proof.
  induction a as [|x a IH]; intros [|z b] E; try discriminate; [reflexivity|].
  simpl. f_equal. apply IH. now injection E.
Qed.

Section Loop.
Variable W : Type.
Variable lin : list R -> list R.
Variable fi : R -> ext.
Variable gauss_id : bool.
Variable deviance : list R -> list ext -> ext.
Variable quad_S : list R -> list R -> R.
Variable n_pen : nat.
Variable y : list R.
Variable pirls : list ext -> list R -> W.
Variable solve : W -> list R -> list R.
Variable measure : W -> W -> list R -> list R -> list R -> list (R * R * R) * R.
Variables max_outer max_inner control_lambda : nat.
Variable conv_tol : R.
Variables extend_lambda exclude_lambda : bool.
Variable meth : method.
Variable p : nat.
Hypothesis solve_length : forall w l, length (solve w l) = p.

Notation at_coef := (at_coef lin fi gauss_id deviance quad_S n_pen y).
Notation step_to := (step_to lin fi gauss_id deviance quad_S n_pen y).
Notation inner := (inner W lin fi gauss_id deviance quad_S n_pen y pirls solve max_inner).
Notation refit_pass := (refit_pass W lin fi gauss_id deviance quad_S n_pen y pirls solve max_inner).
Notation control := (control W lin fi gauss_id deviance quad_S n_pen y pirls solve measure max_inner control_lambda
  extend_lambda exclude_lambda meth).
Notation settle := (settle W lin fi gauss_id deviance quad_S n_pen y pirls max_inner).
Notation advance := (advance W lin fi gauss_id deviance quad_S n_pen y pirls solve measure max_inner control_lambda
  extend_lambda exclude_lambda meth).
Notation outer := (outer W lin fi gauss_id deviance quad_S n_pen y pirls solve measure max_inner control_lambda conv_tol
  extend_lambda exclude_lambda meth).
Notation solve_gamm := (solve_gamm W lin fi gauss_id deviance quad_S n_pen y pirls solve measure max_outer max_inner
  control_lambda conv_tol extend_lambda exclude_lambda meth).
Notation rejected := (rejected gauss_id control_lambda extend_lambda).

Definition inv_link : R -> ext := if gauss_id then Fin else fi.
Definition good (f : gfit) : Prop := belongs lin inv_link (f_coef f) (f_eta f) (f_mu f) /\ length (f_coef f) = p.
Notation fits lams := (fits lin fi gauss_id deviance (quad_S lams) n_pen y).

Lemma fits_belongs lams f : fits lams f -> belongs lin inv_link (f_coef f) (f_eta f) (f_mu f).
Proof.
  intros (H1 & H2 & _). split; [assumption|]. rewrite H2. unfold inv_link. destruct gauss_id; reflexivity.
Qed.

Lemma at_coef_fits lams c : fits lams (at_coef lams c).
Proof. apply eval_fits. Qed.

Lemma step_good lams coef cand prev st :
  length coef = p -> length (f_coef cand) = p -> fits lams cand ->
  step_to lams coef cand prev = Some st -> fits lams st /\ length (f_coef st) = p.
Proof.
  intros L1 L2 F E.
  destruct (gamm_step_control lin fi gauss_id deviance (quad_S lams) n_pen y coef (f_coef cand)
              (f_dev cand) (f_pen cand) prev (f_eta cand) (f_mu cand)) as (r & Er & Fr & _ & Hr).
  - congruence.
  - exact F.
  - unfold LoopModel.step_to in E. rewrite Er in E. injection E as <-. split; [exact Fr|].
    destruct Hr as [-> | (k & _ & ->)]; [assumption|]. rewrite partway_length; congruence.
Qed.

(** Inner iterations end with a break if there are at least two. *)
Lemma inner_good lams : (3 <= max_inner)%nat ->
  forall rem i coef cand prev w wl st w' wl',
  (rem + i = max_inner - 1)%nat -> (0 < rem)%nat ->
  length coef = p -> length (f_coef cand) = p -> fits lams cand ->
  inner rem i lams coef cand prev w wl = Some (st, w', wl') -> fits lams st /\ length (f_coef st) = p.
Proof.
  intros Hm. induction rem as [|rem IH]; intros i coef cand prev w wl st w' wl' Hi Hr L1 L2 F E; [lia|].
  cbn [LoopModel.inner] in E.
  destruct (step_to lams coef cand prev) as [s|] eqn:Es; [|discriminate].
  destruct (step_good lams coef cand prev s L1 L2 F Es) as [Fs Ls].
  destruct ((0 <? i)%nat && _) eqn:Eb.
  - injection E as <- <- <-. auto.
  - destruct rem as [|rem].
    + exfalso. apply andb_false_iff in Eb as [Eb|Eb].
      * apply Nat.ltb_ge in Eb. lia.
      * apply orb_false_iff in Eb as [_ Eb]. apply Nat.eqb_neq in Eb. lia.
    + eapply IH; [| | | | |exact E]; try lia; auto using at_coef_fits.
      apply solve_length.
Qed.

Lemma refit_good lams coef dev w st w' wl : max_inner <> 2%nat -> length coef = p ->
  refit_pass lams coef dev w = Some (st, w', wl) -> good st.
Proof.
  intros Hm L E. unfold LoopModel.refit_pass in E. destruct (use_inner gauss_id max_inner) eqn:U.
  - apply andb_true_iff in U as [U _]. apply Nat.ltb_lt in U.
    assert (H : fits lams st /\ length (f_coef st) = p).
    { eapply inner_good; [| | | | | |exact E]; try lia; auto using at_coef_fits. apply solve_length. }
    destruct H as [H1 H2]. split; [eapply fits_belongs; eassumption|assumption].
  - injection E as <- <- <-. split; [eapply fits_belongs; apply at_coef_fits|]. apply solve_length.
Qed.

Lemma control_good : max_inner <> 2%nat ->
  forall fuel k o_iter pdc coef dev w ps c, length coef = p ->
  control fuel k o_iter pdc coef dev w ps = Some c ->
  length (f_coef (c_fit W c)) = p /\
  ((use_inner gauss_id max_inner && c_rejected W c = false) -> good (c_fit W c)).
Proof.
  intros Hm. induction fuel as [|fuel IH]; intros k o_iter pdc coef dev w ps c L E; [discriminate|].
  cbn [LoopModel.control] in E.
  destruct (refit_pass (map lam ps) coef dev w) as [[[st w1] wl]|] eqn:Er; [|discriminate].
  destruct (control_pass _ _ _ _ _ _ _ _ _ _) as [ps' last].
  destruct last.
  - injection E as <-. cbn [c_fit c_rejected] in *.
    destruct (refit_good _ _ _ _ _ _ _ Hm L Er) as [B Ls]. split.
    + destruct (_ && _); exact Ls.
    + intros Hr. rewrite andb_comm in Hr. rewrite Hr. split; assumption.
  - eapply IH; eassumption.
Qed.

(** Between passes of the main loop. *)
Definition ready (v : vars W) : Prop :=
  length (v_coef W v) = p /\ length (f_coef (v_fit W v)) = p /\
  (use_inner gauss_id max_inner && v_rej W v = false -> good (v_fit W v)).

Lemma advance_ready fuel o v v' : max_inner <> 2%nat -> length (v_coef W v) = p ->
  advance fuel o v = Some v' -> ready v'.
Proof.
  intros Hm L E. unfold LoopModel.advance in E. destruct (n_pen =? 0)%nat.
  - injection E as <-. unfold ready. cbn [v_coef v_fit v_rej]. split; [assumption|]. split; [apply solve_length|].
    intros _. split; [|apply solve_length]. eapply fits_belongs. apply at_coef_fits.
  - destruct (control _ _ _ _ _ _ _ _) as [c|] eqn:Ec; [|discriminate].
    injection E as <-. unfold ready. cbn [v_coef v_fit v_rej]. split; [assumption|].
    eapply control_good; eassumption.
Qed.

Definition settled (v : vars W) : Prop :=
  use_inner gauss_id max_inner && v_rej W v = false ->
  belongs lin inv_link (v_coef W v) (f_eta (v_fit W v)) (f_mu (v_fit W v)).

Lemma settle_settled v v' : ready v -> settle v = Some v' -> length (v_coef W v') = p /\ settled v'.
Proof.
  intros (L1 & L2 & Hg) E. unfold LoopModel.settle in E.
  assert (U : (max_inner <=? 1)%nat || gauss_id = negb (use_inner gauss_id max_inner)).
  { unfold use_inner. rewrite negb_andb, negb_involutive. f_equal.
    destruct (Nat.leb_spec max_inner 1), (Nat.ltb_spec 1 max_inner); try reflexivity; lia. }
  rewrite U in E. destruct (use_inner gauss_id max_inner) eqn:Eu; cbn [negb] in E.
  - injection E as <-. cbn [v_coef]. split; [assumption|]. unfold settled. cbn [v_coef v_fit v_rej].
    intros Hr. rewrite Eu in Hr. apply Hg in Hr. apply Hr.
  - destruct (step_to _ _ _ _) as [st|] eqn:Es; [|discriminate]. injection E as <-. cbn [v_coef].
    destruct (Hg eq_refl) as [[B1 B2] _].
    assert (F : fits (v_lams W v) (mkFit
        (deviance (keep_valid (map isnan (f_mu (v_fit W v))) y)
           (keep_valid (map isnan (f_mu (v_fit W v))) (f_mu (v_fit W v))))
        (match n_pen with
         | O => deviance (keep_valid (map isnan (f_mu (v_fit W v))) y)
                  (keep_valid (map isnan (f_mu (v_fit W v))) (f_mu (v_fit W v)))
         | _ => eadd (deviance (keep_valid (map isnan (f_mu (v_fit W v))) y)
                  (keep_valid (map isnan (f_mu (v_fit W v))) (f_mu (v_fit W v))))
                  (quad_S (v_lams W v) (f_coef (v_fit W v)))
         end) (f_mu (v_fit W v)) (f_eta (v_fit W v)) (f_coef (v_fit W v)))).
    { unfold StepProofs.fits, gamm_fit_of. cbn [f_coef f_eta f_mu f_dev f_pen].
      split; [assumption|]. split; [rewrite B2; unfold inv_link; destruct gauss_id; reflexivity|].
      rewrite !keep_valid_rows. split; [reflexivity|]. destruct n_pen; reflexivity. }
    pose proof (fun a b c => step_good _ _ _ _ _ a b c Es) as G. destruct (G L1 L2 F) as [Fs Ls].
    split; [assumption|]. unfold settled. cbn [v_coef v_fit]. intros _. eapply fits_belongs. exact Fs.
Qed.

Lemma outer_settled : max_inner <> 2%nat ->
  forall fuel rem o v r, ((0 < o)%nat -> ready v) -> length (v_coef W v) = p ->
  outer fuel rem o v = Some r -> r_conv r = true ->
  use_inner gauss_id max_inner && r_rejected r = false ->
  belongs lin inv_link (r_coef r) (r_eta r) (r_mu r).
Proof.
  intros Hm fuel. induction rem as [|rem IH]; intros o v r Hv L E C Hr; cbn [LoopModel.outer] in E.
  - injection E as <-. discriminate.
  - destruct (Nat.eqb_spec o 0) as [->|Ho].
    + cbn [negb andb] in E. destruct (advance fuel 0 v) as [v2|] eqn:Ea; [|discriminate].
      pose proof (advance_ready _ _ _ _ Hm ltac:(eassumption) Ea) as Hv2. exact (IH _ _ _ (fun _ => Hv2) (proj1 Hv2) E C Hr).
    + destruct (settle v) as [v1|] eqn:Es; [|discriminate].
      destruct (settle_settled v v1 (Hv ltac:(lia)) Es) as [L1 S1].
      destruct (negb false && _).
      * injection E as <-. cbn [result r_coef r_eta r_mu r_rejected] in *. apply S1, Hr.
      * destruct (advance fuel o v1) as [v2|] eqn:Ea; [|discriminate].
        pose proof (advance_ready _ _ _ _ Hm ltac:(eassumption) Ea) as Hv2. exact (IH _ _ _ (fun _ => Hv2) (proj1 Hv2) E C Hr).
Qed.

Lemma converged_belongs fuel w0 ps r : max_inner <> 2%nat ->
  solve_gamm fuel w0 ps = Some r -> r_conv r = true ->
  (gauss_id = true \/ (max_inner <= 1)%nat \/ r_rejected r = false) ->
  belongs lin inv_link (r_coef r) (r_eta r) (r_mu r).
Proof.
  intros Hm E C H. unfold LoopModel.solve_gamm in E.
  eapply outer_settled; [assumption| | |exact E|exact C|].
  - intros H0. inversion H0.
  - cbn [v_coef]. apply solve_length.
  - unfold use_inner. destruct H as [->|[H|H]].
    + now rewrite andb_false_r.
    + destruct (Nat.ltb_spec 1 max_inner); [lia|reflexivity].
    + now rewrite H, andb_false_r.
Qed.

(** Settings under which no proposal is rejected. *)
Lemma never_rejected o pdc os ps :
  control_lambda = 0%nat \/ (gauss_id = false /\ control_lambda = 1%nat /\ extend_lambda = false) ->
  rejected o pdc os ps = false.
Proof.
  unfold LoopModel.rejected. intros [->|(-> & -> & ->)].
  - replace (0 <? 0)%nat with false by reflexivity. now rewrite andb_false_r.
  - replace (1 <? 2)%nat with true by reflexivity. replace (0 <? 1)%nat with true by reflexivity.
    cbn [negb andb orb]. rewrite !andb_true_r.
    generalize (if (0 <? o)%nat then lo * - Rabs pdc else 0). intros crit.
    generalize (dotl (map (fun '(a, b, c) => grad_lambda a b c (snd os)) (fst os)) (map delta ps)). intros ch.
    destruct (rltb ch crit) eqn:E; [|exact E].
    unfold rltb. destruct (Rlt_dec (crit + 1) crit); [lra|reflexivity].
Qed.

Lemma control_never : forall fuel k o pdc coef dev w ps c,
  control_lambda = 0%nat \/ (gauss_id = false /\ control_lambda = 1%nat /\ extend_lambda = false) ->
  control fuel k o pdc coef dev w ps = Some c -> c_rejected W c = false.
Proof.
  induction fuel as [|fuel IH]; intros k o pdc coef dev w ps c H E; [discriminate|].
  cbn [LoopModel.control] in E.
  destruct (refit_pass _ coef dev w) as [[[st w1] wl]|]; [|discriminate].
  destruct (control_pass _ _ _ _ _ _ _ _ _ _) as [ps' last]. destruct last.
  - injection E as <-. cbn [c_rejected]. now apply never_rejected.
  - eapply IH; eassumption.
Qed.

Lemma outer_never : control_lambda = 0%nat \/ (gauss_id = false /\ control_lambda = 1%nat /\ extend_lambda = false) ->
  forall fuel rem o v r, v_rej W v = false -> outer fuel rem o v = Some r -> r_rejected r = false.
Proof.
  intros H fuel. induction rem as [|rem IH]; intros o v r Hv E; cbn [LoopModel.outer] in E.
  - injection E as <-. exact Hv.
  - destruct (if (o =? 0)%nat then Some v else settle v) as [v1|] eqn:E1; [|discriminate].
    assert (H1 : v_rej W v1 = false).
    { destruct (o =? 0)%nat; [now injection E1 as <-|]. unfold LoopModel.settle in E1.
      destruct ((max_inner <=? 1)%nat || gauss_id).
      - destruct (step_to _ _ _ _); [|discriminate]. now injection E1 as <-.
      - now injection E1 as <-. }
    destruct (_ && _).
    + injection E as <-. exact H1.
    + destruct (advance fuel o v1) as [v2|] eqn:Ea; [|discriminate]. eapply IH; [|exact E].
      unfold LoopModel.advance in Ea. destruct (n_pen =? 0)%nat; [now injection Ea as <-|].
      destruct (control _ _ _ _ _ _ _ _) as [c|] eqn:Ec; [|discriminate]. injection Ea as <-. cbn [v_rej].
      eapply control_never; eassumption.
Qed.

Lemma settings_belongs fuel w0 ps r : max_inner <> 2%nat ->
  control_lambda = 0%nat \/ (gauss_id = false /\ control_lambda = 1%nat /\ extend_lambda = false) ->
  solve_gamm fuel w0 ps = Some r -> r_conv r = true ->
  belongs lin inv_link (r_coef r) (r_eta r) (r_mu r).
Proof.
  intros Hm H E C. eapply converged_belongs; try eassumption. right. right.
  eapply outer_never; [exact H| |exact E]. reflexivity.
Qed.
End Loop.
