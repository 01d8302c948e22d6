(** A small model for LoopProps: Gaussian responses 1/2 and 3/2, mean 1 / c for one coefficient c. *)

From Coq Require Import List Arith Bool Reals Lra Lia.
From Verif Require Import Ext StepModel LamModel LoopModel.
Import ListNotations.
Local Open Scope R_scope.

Definition lin2 (c : list R) : list R := [nth 0 c 0; nth 0 c 0].
Definition inverse (e : R) : ext := Fin (/ e).
Fixpoint squares (y : list R) (mu : list ext) : ext :=
  match y, mu with
  | a :: y', Fin m :: mu' => eadd (squares y' mu') ((a - m) ^ 2)
  | _, _ => Fin 0
  end.
Definition y2 : list R := [/ 2; 3 / 2].
Definition no_pen (_ _ : list R) : R := 0.
(** The mean of the working data; their weights are equal. *)
Definition pirls2 (mu : list ext) (eta : list R) : R :=
  match mu, eta with Fin m :: _, e :: _ => e - (1 - m) / m ^ 2 | _, _ => 0 end.
Definition solve2 (w : R) (_ : list R) : list R := [w].
Definition measure2 (_ _ : R) (_ _ _ : list R) : list (R * R * R) * R := ([(0, 1, 0)], 1).

Definition D (c : R) : R := 0 + (3 / 2 - / c) ^ 2 + (/ 2 - / c) ^ 2.
Definition fit2 (n : nat) (c : R) : gfit :=
  mkFit (Fin (D c)) (match n with O => Fin (D c) | _ => Fin (D c + 0) end) [Fin (/ c); Fin (/ c)] [c; c] [c].

Lemma at_fit n lams c : at_coef lin2 inverse false squares no_pen n y2 lams [c] = fit2 n c.
Proof. destruct n; reflexivity. Qed.

Lemma at_solve n lams w l : at_coef lin2 inverse false squares no_pen n y2 lams (solve2 w l) = fit2 n w.
Proof. apply at_fit. Qed.

Lemma newton n c : c <> 0 -> pirls2 (f_mu (fit2 n c)) (f_eta (fit2 n c)) = 1 - (1 - c) ^ 2.
Proof. intros H. simpl. field. assumption. Qed.

Lemma D_val c : c <> 0 -> D c = 2 * ((1 - c) / c) ^ 2 + / 2.
Proof. intros H. unfold D. field. assumption. Qed.

Lemma D_le s t : 0 <= s <= t -> t < 1 -> D (1 - s) <= D (1 - t).
Proof.
  intros H1 H2. rewrite !D_val by lra.
  replace (1 - (1 - s)) with s by ring. replace (1 - (1 - t)) with t by ring.
  apply Rplus_le_compat_r, Rmult_le_compat_l; [lra|]. apply pow_incr. split.
  - apply Rmult_le_pos; [lra|]. apply Rlt_le, Rinv_0_lt_compat. lra.
  - apply Rmult_le_compat; try lra.
    + apply Rlt_le, Rinv_0_lt_compat. lra.
    + apply Rinv_le_contravar; lra.
Qed.

Lemma D_ge c : c <> 0 -> / 2 <= D c.
Proof. intros H. rewrite D_val by assumption. generalize (pow2_ge_0 ((1 - c) / c)). lra. Qed.

Lemma D_near t : 0 <= t <= / 2 -> D (1 - t) <= / 2 + 8 * t ^ 2.
Proof.
  intros H. rewrite D_val by lra. replace (1 - (1 - t)) with t by ring.
  assert (t / (1 - t) <= 2 * t).
  { apply (Rmult_le_reg_r (1 - t)); [lra|]. unfold Rdiv. rewrite Rmult_assoc, Rinv_l by lra. nra. }
  assert (0 <= t / (1 - t)).
  { apply Rmult_le_pos; [lra|]. apply Rlt_le, Rinv_0_lt_compat. lra. }
  generalize (pow_incr _ _ 2 (conj H1 H0)). simpl. lra.
Qed.

Lemma accept n lams coef c prev : (n <> 0)%nat -> D c <= prev ->
  step_to lin2 inverse false squares no_pen n y2 lams coef (fit2 n c) (Fin prev) = Some (fit2 n c).
Proof.
  intros Hn H. unfold step_to, correct_coef_step. cbn [coef_loop]. destruct n as [|n]; [congruence|].
  cbn [fit2 f_pen f_dev f_mu f_eta f_coef eltb isinf isnan orb].
  replace (rltb prev (D c + 0)) with false; [reflexivity|]. symmetry. apply rltb_false. lra.
Qed.

Section Run.
Variables (mi cl : nat) (tol t : R) (d : R).
Hypothesis Ht : 0 < t <= / 40.

Notation inner2 := (inner R lin2 inverse false squares no_pen 1 y2 pirls2 solve2).
Definition ps2 : list pen := [mkPen 1 false d 1 0 false].

Lemma t2 : 0 < t ^ 2 <= t.
Proof. simpl. nra. Qed.
Lemma t4 : 0 < (t ^ 2) ^ 2 <= t ^ 2.
Proof. generalize t2. intros H. simpl in *. nra. Qed.
Lemma step1 : 1 - (1 - (1 - t)) ^ 2 = 1 - t ^ 2.
Proof. ring. Qed.
Lemma step2 : 1 - (1 - (1 - t ^ 2)) ^ 2 = 1 - (t ^ 2) ^ 2.
Proof. ring. Qed.

(** One inner iteration. *)
Lemma inner_once lams :
  inner2 2%nat 1 0 lams [1 - t] (fit2 1 (1 - t ^ 2)) (Fin (D (1 - t) + 0)) (1 - t ^ 2) (1 - t ^ 2)
  = Some (mkFit (Fin (D (1 - (t ^ 2) ^ 2))) (Fin (D (1 - (t ^ 2) ^ 2) + 0))
            (f_mu (fit2 1 (1 - (t ^ 2) ^ 2))) (f_eta (fit2 1 (1 - (t ^ 2) ^ 2))) [1 - t ^ 2],
          1 - (t ^ 2) ^ 2, 1 - (t ^ 2) ^ 2).
Proof.
  generalize t2. intros H. cbn [inner].
  rewrite accept; [|discriminate|].
  - cbn [Nat.ltb Nat.leb andb]. rewrite newton, step2 by lra. rewrite at_solve. reflexivity.
  - rewrite Rplus_0_r. apply D_le; lra.
Qed.

(** Several: the deviance has settled at the second. *)
Lemma inner_twice lams k : t <= / 1000 ->
  inner2 (S (S (S k))) (S (S k)) 0 lams [1 - t] (fit2 1 (1 - t ^ 2)) (Fin (D (1 - t) + 0)) (1 - t ^ 2) (1 - t ^ 2)
  = Some (fit2 1 (1 - (t ^ 2) ^ 2), 1 - ((t ^ 2) ^ 2) ^ 2, 1 - (t ^ 2) ^ 2).
Proof.
  intros Hs. generalize t2 t4. intros H H4. cbn [inner].
  rewrite accept; [|discriminate|rewrite Rplus_0_r; apply D_le; lra].
  cbn [Nat.ltb Nat.leb andb]. rewrite newton, step2 by lra. rewrite at_solve.
  change (f_pen (fit2 1 (1 - t ^ 2))) with (Fin (D (1 - t ^ 2) + 0)).
  rewrite accept; [|discriminate|rewrite Rplus_0_r; apply D_le; lra].
  replace (close (/ 1000000000) (f_pen (fit2 1 (1 - (t ^ 2) ^ 2))) (Fin (D (1 - t ^ 2) + 0))) with true.
  - cbn [Nat.ltb Nat.leb andb orb]. rewrite newton by lra. do 3 f_equal. ring.
  - symmetry. cbn [fit2 f_pen close]. apply rltb_true.
    assert (A : D (1 - (t ^ 2) ^ 2) <= D (1 - t ^ 2)) by (apply D_le; lra).
    assert (B : / 2 <= D (1 - (t ^ 2) ^ 2)) by (apply D_ge; lra).
    assert (C : D (1 - t ^ 2) <= / 2 + 8 * (t ^ 2) ^ 2) by (apply D_near; lra).
    assert (E : (t ^ 2) ^ 2 <= / 1000000000000).
    { replace (/ 1000000000000) with ((/ 1000) ^ 2 * (/ 1000) ^ 2) by field.
      replace ((t ^ 2) ^ 2) with (t ^ 2 * t ^ 2) by ring.
      assert (t ^ 2 <= (/ 1000) ^ 2) by (apply pow_incr; lra). apply Rmult_le_compat; lra. }
    rewrite Rabs_left1; lra.
Qed.

Notation run := (solve_gamm R lin2 inverse false squares no_pen).

(** One outer iteration without penalties. *)
Lemma run_stop fuel el xl m :
  exists r, run 0%nat y2 pirls2 solve2 measure2 1%nat 1%nat cl tol el xl m fuel (1 - t) [] = Some r /\
    r_coef r = [1 - t] /\ r_eta r = [1 - t ^ 2; 1 - t ^ 2] /\ r_conv r = false.
Proof.
  unfold solve_gamm. cbn [map]. rewrite at_solve, newton, step1 by lra.
  cbn [outer Nat.eqb negb andb]. unfold advance. cbn [Nat.eqb v_lams v_w].
  rewrite at_solve. eexists. split; [reflexivity|]. repeat split.
Qed.

Lemma settle_inner v n c : n = 1%nat -> (2 <= mi)%nat -> f_mu (v_fit R v) = [Fin (/ c); Fin (/ c)] ->
  settle R lin2 inverse false squares no_pen n y2 pirls2 mi v
  = Some (mkVars R (f_coef (v_fit R v)) (v_fit R v) (v_w R v) (v_ps R v) (v_lams R v) (v_scale R v)
            (Fin (D c)) (Fin (D c + 0)) (v_rej R v)).
Proof.
  intros -> Hm E. unfold settle. rewrite E. replace (mi <=? 1)%nat with false by (symmetry; apply Nat.leb_gt; lia).
  reflexivity.
Qed.
End Run.

Lemma pass_uncontrolled rf g e x m o pdc k ps : snd (control_pass rf g 0%nat e x m o pdc k ps) = true.
Proof.
  unfold control_pass. destruct (rf k (map lam ps)) as [os sc]. cbn [Nat.eqb]. rewrite orb_true_r. reflexivity.
Qed.

Section Runs.
Variables (tol t : R).
Hypothesis Ht : 0 < t <= / 40.
Notation run := (solve_gamm R lin2 inverse false squares no_pen).

(** max_inner = 2, smoothing parameters not controlled. *)
Lemma run_two fuel k el xl m : 0 < tol -> t <= tol / 20 ->
  exists r, run 1%nat y2 pirls2 solve2 measure2 (S (S k)) 2%nat 0%nat tol el xl m (S fuel) (1 - t) (ps2 0) = Some r /\
    r_coef r = [1 - t ^ 2] /\ r_eta r = [1 - (t ^ 2) ^ 2; 1 - (t ^ 2) ^ 2] /\ r_conv r = true.
Proof.
  intros H0 H1. generalize (t2 t Ht) (t4 t Ht). intros H2 H4.
  unfold solve_gamm. rewrite at_solve, newton, step1 by lra.
  cbn [outer Nat.eqb negb andb]. unfold advance. cbn [Nat.eqb v_lams v_w v_coef v_dev v_ps control].
  unfold refit_pass. cbn [use_inner Nat.ltb Nat.leb andb negb fit2 f_coef f_dev f_pen Nat.sub].
  rewrite at_solve.
  change (eadd (Fin (D (1 - t))) (no_pen (map lam (map apply_step (ps2 0))) [1 - t])) with (Fin (D (1 - t) + 0)).
  rewrite (inner_once t Ht). cbn [f_coef f_eta f_mu f_dev f_pen].
  match goal with |- context [control_pass ?a ?b ?c ?d ?e ?f ?g ?h ?i ?j] =>
    assert (HL : snd (control_pass a b c d e f g h i j) = true) by apply pass_uncontrolled;
    destruct (control_pass a b c d e f g h i j) as [ps' last]; cbn [snd] in HL; rewrite HL end.
  match goal with |- context [rejected ?a ?b ?c ?d ?e ?f ?g] => replace (rejected a b c d e f g) with false end.
  2: { symmetry. unfold rejected. apply andb_false_r. }
  cbn [andb].
  rewrite (settle_inner 2 _ _ (1 - (t ^ 2) ^ 2)); [|reflexivity|lia|reflexivity].
  cbn [v_pen fit2 f_pen].
  match goal with |- context [close tol ?a ?b] => replace (close tol a b) with true end.
  { cbn [negb andb]. eexists. split; [reflexivity|]. repeat split. }
  symmetry. cbn [close].
  apply rltb_true.
  assert (A : D (1 - (t ^ 2) ^ 2) <= D (1 - t)) by (apply D_le; lra).
  assert (B : / 2 <= D (1 - (t ^ 2) ^ 2)) by (apply D_ge; lra).
  assert (C : D (1 - t) <= / 2 + 8 * t ^ 2) by (apply D_near; lra).
  assert (E : t ^ 2 <= tol / 800) by (simpl; nra).
  rewrite Rabs_left1 by lra.
  assert (tol * / 2 <= tol * (D (1 - (t ^ 2) ^ 2) + 0)) by (apply Rmult_le_compat_l; lra).
  lra.
Qed.

(** control_lambda = 2 and max_inner > 2 (the defaults are 2 and 500): the proposal is rejected and halved, the rest of the step is
    too small for another attempt. *)
Lemma run_give_up fuel k i xl m d : 0 < tol -> t <= / 1000 -> 0 < d <= lo ->
  exists r, run 1%nat y2 pirls2 solve2 measure2 (S (S k)) (S (S (S i))) 2%nat tol false xl m (S fuel) (1 - t)
              (ps2 d) = Some r /\
    r_coef r = [1 - (t ^ 2) ^ 2] /\ r_eta r = [1 - t; 1 - t] /\ r_conv r = true.
Proof.
  intros H0 H1 Hd. generalize (t2 t Ht) (t4 t Ht). intros H2 H4.
  unfold solve_gamm. rewrite at_solve, newton, step1 by lra.
  cbn [outer Nat.eqb negb andb]. unfold advance. cbn [Nat.eqb v_lams v_w v_coef v_dev v_ps control].
  unfold refit_pass. rewrite at_solve.
  replace (use_inner false (S (S (S i)))) with true by reflexivity.
  replace (S (S (S i)) - 1)%nat with (S (S i)) by lia. cbn [fit2 f_coef f_dev f_pen].
  change (eadd (Fin (D (1 - t))) (no_pen (map lam (map apply_step (ps2 d))) [1 - t]))
    with (Fin (D (1 - t) + 0)).
  change (mkFit (Fin (D (1 - t ^ 2))) (Fin (D (1 - t ^ 2) + 0)) [Fin (/ (1 - t ^ 2)); Fin (/ (1 - t ^ 2))]
            [1 - t ^ 2; 1 - t ^ 2] [1 - t ^ 2]) with (fit2 1 (1 - t ^ 2)).
  rewrite (inner_twice t Ht) by assumption. rewrite at_fit.
  match goal with |- context [control_pass ?a ?b ?c ?d ?e ?f ?g ?h ?i ?j] =>
    assert (HL : snd (control_pass a b c d e f g h i j) = true);
    [|destruct (control_pass a b c d e f g h i j) as [ps' last]; cbn [snd] in HL; rewrite HL] end.
  { unfold control_pass, measure2. cbn [map ps2 apply_step delta lam frozen prev acc was].
    cbn [negb andb orb Nat.ltb Nat.leb Nat.eqb existsb].
    unfold reduce_step. cbn [was orb andb Nat.eqb is_some].
    replace (rltb (dotl [grad_lambda 0 1 0 1] [d]) 0) with true.
    2: { symmetry. apply rltb_true. unfold dotl, grad_lambda. cbn [combine map fold_right fst snd]. lra. }
    cbn [negb andb orb].
    match goal with |- context [rltb ?a lo] => replace (rltb a lo) with true; [reflexivity|] end.
    symmetry. apply rltb_true. unfold norm, or_self, reduce_step.
    cbn [map was delta lam frozen prev acc andb orb Nat.eqb fold_right].
    change (sqrt (d / 2 * (d / 2) + 0) < lo). rewrite Rplus_0_r.
    rewrite sqrt_square by lra. lra. }
  match goal with |- context [rejected ?a ?b ?c ?d ?e ?f ?g] => replace (rejected a b c d e f g) with true end.
  2: { symmetry. unfold rejected, measure2, ps2. cbn [fst snd map apply_step delta was existsb Nat.ltb Nat.leb negb andb].
       rewrite andb_true_r. apply rltb_true. unfold dotl, grad_lambda. cbn [combine map fold_right fst snd]. lra. }
  cbn [andb].
  rewrite (settle_inner (S (S (S i))) _ _ (1 - t)); [|reflexivity|lia|reflexivity].
  cbn [v_pen fit2 f_pen].
  match goal with |- context [close tol ?a ?b] => replace (close tol a b) with true end.
  { cbn [negb andb]. eexists. split; [reflexivity|]. repeat split. }
  symmetry. cbn [close]. apply rltb_true.
  assert (B : / 2 <= D (1 - t)) by (apply D_ge; lra).
  replace (D (1 - t) + 0 - (D (1 - t) + 0)) with 0 by ring. rewrite Rabs_R0.
  apply Rmult_lt_0_compat; lra.
Qed.

(** max_inner > 2, smoothing parameters not controlled. *)
Lemma run_three fuel k i el xl m : 0 < tol -> t <= tol / 20 -> t <= / 1000 ->
  exists r, run 1%nat y2 pirls2 solve2 measure2 (S (S k)) (S (S (S i))) 0%nat tol el xl m (S fuel) (1 - t) (ps2 0)
            = Some r /\
    r_coef r = [1 - (t ^ 2) ^ 2] /\ r_conv r = true.
Proof.
  intros H0 H1 Hs. generalize (t2 t Ht) (t4 t Ht). intros H2 H4.
  unfold solve_gamm. rewrite at_solve, newton, step1 by lra.
  cbn [outer Nat.eqb negb andb]. unfold advance. cbn [Nat.eqb v_lams v_w v_coef v_dev v_ps control].
  unfold refit_pass. rewrite at_solve.
  replace (use_inner false (S (S (S i)))) with true by reflexivity.
  replace (S (S (S i)) - 1)%nat with (S (S i)) by lia. cbn [fit2 f_coef f_dev f_pen].
  change (eadd (Fin (D (1 - t))) (no_pen (map lam (map apply_step (ps2 0))) [1 - t])) with (Fin (D (1 - t) + 0)).
  change (mkFit (Fin (D (1 - t ^ 2))) (Fin (D (1 - t ^ 2) + 0)) [Fin (/ (1 - t ^ 2)); Fin (/ (1 - t ^ 2))]
            [1 - t ^ 2; 1 - t ^ 2] [1 - t ^ 2]) with (fit2 1 (1 - t ^ 2)).
  rewrite (inner_twice t Ht) by assumption.
  match goal with |- context [control_pass ?a ?b ?c ?d ?e ?f ?g ?h ?i ?j] =>
    assert (HL : snd (control_pass a b c d e f g h i j) = true) by apply pass_uncontrolled;
    destruct (control_pass a b c d e f g h i j) as [ps' last]; cbn [snd] in HL; rewrite HL end.
  match goal with |- context [rejected ?a ?b ?c ?d ?e ?f ?g] => replace (rejected a b c d e f g) with false end.
  2: { symmetry. unfold rejected. apply andb_false_r. }
  cbn [andb].
  rewrite (settle_inner (S (S (S i))) _ _ (1 - (t ^ 2) ^ 2)); [|reflexivity|lia|reflexivity].
  cbn [v_pen fit2 f_pen].
  match goal with |- context [close tol ?a ?b] => replace (close tol a b) with true end.
  { cbn [negb andb]. eexists. split; [reflexivity|]. repeat split. }
  symmetry. cbn [close].
  apply rltb_true.
  assert (A : D (1 - (t ^ 2) ^ 2) <= D (1 - t)) by (apply D_le; lra).
  assert (B : / 2 <= D (1 - (t ^ 2) ^ 2)) by (apply D_ge; lra).
  assert (C : D (1 - t) <= / 2 + 8 * t ^ 2) by (apply D_near; lra).
  assert (E : t ^ 2 <= tol / 800) by (simpl; nra).
  rewrite Rabs_left1 by lra.
  assert (tol * / 2 <= tol * (D (1 - (t ^ 2) ^ 2) + 0)) by (apply Rmult_le_compat_l; lra).
  lra.
Qed.
End Runs.
