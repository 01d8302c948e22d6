(** C116: the linear predictor and means stored by GAMM.fit are those of the stored coefficients. *)

From Coq Require Import List Arith Bool Reals Lra Lia.
From Verif Require Import Ext StepModel LamModel LoopModel LoopSpec LoopProofs LoopProofs2.
Import ListNotations.
Local Open Scope R_scope.

(** If the loop reports convergence, max_inner is not 2, and the model is Gaussian with identity link, or max_inner is at most 1,
    or the last proposal for smoothing parameters was not rejected: predictor and means are those of the coefficients. *)
Theorem C116_converged W lin fi gauss_id deviance quad_S n_pen y (pirls : list ext -> list R -> W) solve measure
    max_outer max_inner control_lambda conv_tol extend_lambda exclude_lambda meth p fuel w0 ps r :
  (forall w l, length (solve w l) = p) -> max_inner <> 2%nat ->
  solve_gamm W lin fi gauss_id deviance quad_S n_pen y pirls solve measure max_outer max_inner control_lambda conv_tol
    extend_lambda exclude_lambda meth fuel w0 ps = Some r ->
  r_conv r = true ->
  (gauss_id = true \/ (max_inner <= 1)%nat \/ r_rejected r = false) ->
  belongs lin (if gauss_id then Fin else fi) (r_coef r) (r_eta r) (r_mu r).
Proof. intros Hl Hm E C H. eapply converged_belongs; eassumption. Qed.

(** No proposal is rejected without control of smoothing parameters, nor for other families with control_lambda = 1 without
    extended steps. *)
Theorem C116_settings W lin fi gauss_id deviance quad_S n_pen y (pirls : list ext -> list R -> W) solve measure
    max_outer max_inner control_lambda conv_tol extend_lambda exclude_lambda meth p fuel w0 ps r :
  (forall w l, length (solve w l) = p) -> max_inner <> 2%nat ->
  control_lambda = 0%nat \/ (gauss_id = false /\ control_lambda = 1%nat /\ extend_lambda = false) ->
  solve_gamm W lin fi gauss_id deviance quad_S n_pen y pirls solve measure max_outer max_inner control_lambda conv_tol
    extend_lambda exclude_lambda meth fuel w0 ps = Some r ->
  r_conv r = true ->
  belongs lin (if gauss_id then Fin else fi) (r_coef r) (r_eta r) (r_mu r).
Proof. intros Hl Hm H E C. eapply settings_belongs; eassumption. Qed.

(** A run that converges with the default tolerance and number of iterations; responses 1/2 and 3/2, mean 1/c, starting from
    c = 1 - 1/10^9. *)
Example C116_case : forall el xl m,
  (forall w l, length (solve2 w l) = 1%nat) /\
  exists r, solve_gamm R lin2 inverse false squares no_pen 1 y2 pirls2 solve2 measure2 200 500 0 (/ 10000000) el xl m 1
              (1 - / 1000000000) (ps2 0) = Some r /\ r_conv r = true /\
            r_coef r = [1 - ((/ 1000000000) ^ 2) ^ 2].
Proof.
  intros el xl m. split; [reflexivity|].
  destruct (run_three (/ 10000000) (/ 1000000000) ltac:(lra) 0 198 497 el xl m) as (r & E & E1 & E2); try lra.
  exists r. repeat split; assumption.
Qed.

(** max_outer iterations without convergence: predictor and means are those of the next coefficients, which are not returned. *)
Theorem C116_stopped_refuted :
  forall conv_tol extend_lambda exclude_lambda meth,
  exists W lin fi deviance quad_S y (pirls : list ext -> list R -> W) solve measure p w0 r,
    (forall w l, length (solve w l) = p) /\
    solve_gamm W lin fi false deviance quad_S 0 y pirls solve measure 1 1 2 conv_tol
      extend_lambda exclude_lambda meth 1 w0 [] = Some r /\
    r_eta r <> lin (r_coef r).
Proof.
  intros tol el xl m.
  exists R, lin2, inverse, squares, no_pen, y2, pirls2, solve2, measure2, 1%nat, (1 - / 40).
  destruct (run_stop 2 tol (/ 40) ltac:(lra) 1 el xl m) as (r & E & E1 & E2 & _).
  exists r. split; [reflexivity|]. split; [exact E|].
  rewrite E1, E2. simpl. intros F. injection F as F _. lra.
Qed.

(** max_inner = 2, converged: the inner loop ends before its candidate is accepted. *)
Theorem C116_two_refuted :
  forall conv_tol extend_lambda exclude_lambda meth, 0 < conv_tol ->
  exists W lin fi deviance quad_S y (pirls : list ext -> list R -> W) solve measure p w0 ps r,
    (forall w l, length (solve w l) = p) /\
    solve_gamm W lin fi false deviance quad_S 1 y pirls solve measure 200 2 0 conv_tol
      extend_lambda exclude_lambda meth 1 w0 ps = Some r /\
    r_conv r = true /\ r_eta r <> lin (r_coef r).
Proof.
  intros tol el xl m Ht.
  set (t := Rmin (/ 40) (tol / 20)).
  assert (T1 : t <= / 40) by apply Rmin_l. assert (T2 : t <= tol / 20) by apply Rmin_r.
  assert (T0 : 0 < t) by (apply Rmin_glb_lt; lra).
  exists R, lin2, inverse, squares, no_pen, y2, pirls2, solve2, measure2, 1%nat, (1 - t), (ps2 0).
  destruct (run_two tol t (conj T0 T1) 0 198 el xl m Ht T2) as (r & E & E1 & E2 & E3).
  exists r. split; [reflexivity|]. split; [exact E|]. split; [exact E3|].
  rewrite E1, E2. simpl. intros F. injection F as F _.
  assert (t ^ 2 = (t ^ 2) ^ 2) by (simpl in *; lra).
  assert (0 < t ^ 2 <= t) by (simpl; nra). nra.
Qed.

(** Default settings, converged: the last proposal for smoothing parameters is rejected and not replaced; predictor and means are
    those of the previous coefficients. *)
Theorem C116_rejected_refuted :
  forall conv_tol exclude_lambda meth, 0 < conv_tol ->
  exists W lin fi deviance quad_S y (pirls : list ext -> list R -> W) solve measure p w0 ps r,
    (forall w l, length (solve w l) = p) /\
    solve_gamm W lin fi false deviance quad_S 1 y pirls solve measure 200 500 2 conv_tol
      false exclude_lambda meth 1 w0 ps = Some r /\
    r_conv r = true /\ r_eta r <> lin (r_coef r).
Proof.
  intros tol xl m Ht.
  assert (L : 0 < lo <= lo) by (unfold lo; lra).
  exists R, lin2, inverse, squares, no_pen, y2, pirls2, solve2, measure2, 1%nat, (1 - / 1000), (ps2 lo).
  destruct (run_give_up tol (/ 1000) ltac:(lra) 0 198 497 xl m lo Ht ltac:(lra) L) as (r & E & E1 & E2 & E3).
  exists r. split; [reflexivity|]. split; [exact E|]. split; [exact E3|].
  rewrite E1, E2. simpl. intros F. injection F as F _. lra.
Qed.

Print Assumptions C116_converged.
Print Assumptions C116_settings.
Print Assumptions C116_stopped_refuted.
Print Assumptions C116_two_refuted.
Print Assumptions C116_rejected_refuted.
