(** Properties C10-C13, C15 and C64: step control, line search, quasi-Newton memory. *)

From Coq Require Import List Arith Bool Reals Lra Lia.
From Verif Require Import Ext StepModel StepSpec StepProofs.
Import ListNotations.
Local Open Scope R_scope.

(** Decide comparisons of concrete reals. *)
Ltac rdec := repeat match goal with
  | |- context [rltb ?a ?b] =>
      first [ rewrite (proj2 (rltb_true a b)) by lra | rewrite (proj2 (rltb_false a b)) by lra ]
  | |- context [rleb ?a ?b] =>
      first [ rewrite (proj2 (rleb_true a b)) by lra | rewrite (proj2 (rleb_false a b)) by lra ]
  end.

(** ** C10 *)

(** For every model, every previous deviance and every proposal the loop ends within 34 passes
    (32 evaluations of the model); the returned values belong to the returned coefficients; the
    penalised deviance is not worse, or the coefficients are the old ones; and the coefficients
    lie a power of one half of the way from the old to the proposed ones. *)
Theorem C10_gamm_step_control :
  forall (lin : list R -> list R) (fi : R -> ext) (gauss_id : bool)
    (deviance : list R -> list ext -> ext) (quad_S : list R -> R) (n_pen : nat) (y : list R)
    (coef n_coef : list R) (dev pen_dev prev : ext) (eta : list R) (mu : list ext),
  length coef = length n_coef ->
  gamm_fit_of lin fi gauss_id deviance quad_S (0 <? n_pen)%nat y n_coef dev pen_dev mu eta ->
  exists r,
    correct_coef_step lin fi gauss_id deviance quad_S n_pen y 34 coef n_coef dev pen_dev prev eta mu = Some r /\
    gamm_fit_of lin fi gauss_id deviance quad_S (0 <? n_pen)%nat y
      (f_coef r) (f_dev r) (f_pen r) (f_mu r) (f_eta r) /\
    (dev_not_worse prev (f_pen r) \/ f_coef r = coef) /\
    (f_coef r = coef \/ exists k, (k <= 31)%nat /\ f_coef r = partway k coef n_coef).
Proof. exact gamm_step_control. Qed.
Print Assumptions C10_gamm_step_control.

(** One coefficient, deviance (mu - 1)^2: from 0 towards 8 the step is halved twice. *)
Definition ex_dev (y : list R) (mu : list ext) : ext :=
  match mu with [Fin m] => Fin ((m - 1) * (m - 1)) | _ => NaN end.
Example C10_case :
  exists r, correct_coef_step (fun c => c) Fin false ex_dev (fun _ => 0) 0 [1] 34
     [0] [8] (Fin 49) (Fin 49) (Fin 1) [8] [Fin 8] = Some r /\
    f_pen r = Fin 1 /\ f_coef r = [2].
Proof.
  unfold correct_coef_step. cbn -[Rlt_dec rltb]. rdec. cbn -[rltb]. rdec. cbn -[rltb]. rdec.
  cbn -[rltb]. eexists. split; [reflexivity|]. cbn. split; [f_equal; lra|repeat f_equal; lra].
Qed.

(** ** C11 *)

Theorem C11_gammlss_step_control :
  forall (Xmul : nat -> list R -> list R) (fi : nat -> R -> ext)
    (llk : list R -> list (list ext) -> ext) (quad_S : list R -> R) (sizes : list nat) (y : list R),
  sizes <> [] -> (forall i b, length (Xmul i b) = length y) ->
  forall coef n_coef c_llk a,
  length coef = length n_coef -> length coef = fold_right Nat.add 0%nat sizes ->
  let prev := eadd c_llk (- (1 / 2 * quad_S coef)) in
  let (r, a') := correct_coef_step_gammlss Xmul fi llk quad_S (length sizes) (cuts 0 sizes) y
                   coef n_coef c_llk a in
    gammlss_fit_of Xmul fi llk quad_S sizes y
      (l_coef r) (l_split r) (l_mus r) (l_etas r) (l_llk r) (l_pen r) /\
    (llk_not_worse prev (l_pen r) \/ l_coef r = coef) /\
    (l_coef r = coef \/ exists k, (k <= 31)%nat /\ l_coef r = partway k coef n_coef).
Proof. exact gammlss_step_control. Qed.
Print Assumptions C11_gammlss_step_control.

Theorem C11_general_smooth_step_control :
  forall (llk : list R -> ext) (quad_S : list R -> R) coef n_coef c_llk a,
  length coef = length n_coef ->
  let prev := eadd c_llk (- (1 / 2 * quad_S coef)) in
  let '((c, l, pen), a') := correct_coef_step_gen_smooth llk quad_S coef n_coef c_llk a in
    gen_fit_of llk quad_S c l pen /\ (llk_not_worse prev pen \/ c = coef) /\
    (c = coef \/ exists k, (k <= 31)%nat /\ c = partway k coef n_coef).
Proof. exact gen_step_control. Qed.
Print Assumptions C11_general_smooth_step_control.

(** The step length remembered for the next iteration stays positive. *)
Theorem C11_step_length_positive : forall n a, 0 < a <= 1 -> 0 < adapt_a n a <= 2.
Proof. exact adapt_a_bounds. Qed.
Print Assumptions C11_step_length_positive.

(** Two parameters with one and two coefficients. *)
Example C11_case : cuts 0 [1; 2]%nat = [1]%nat /\ pieces [1; 2]%nat [5; 6; 7] = [[5]; [6; 7]] /\
  length [5; 6; 7] = fold_right Nat.add 0%nat [1; 2]%nat.
Proof. repeat split. Qed.

(** Log-likelihood -(c-1)^2: from 0 towards 8, two halvings; the step length is halved. *)
Example C11_general_case :
  correct_coef_step_gen_smooth
    (fun c => match c with [x] => Fin (- ((x - 1) * (x - 1))) | _ => NaN end) (fun _ => 0)
    [0] [8] (Fin (-1)) 1
  = (([(0 + (0 + 8) / 2) / 2],
      Fin (- (((0 + (0 + 8) / 2) / 2 - 1) * ((0 + (0 + 8) / 2) / 2 - 1))),
      Fin (- (((0 + (0 + 8) / 2) / 2 - 1) * ((0 + (0 + 8) / 2) / 2 - 1)) + - (1 / 2 * 0))), 1 / 2).
Proof.
  unfold correct_coef_step_gen_smooth. cbn -[rleb adapt_a]. rdec. cbn -[rleb adapt_a]. rdec.
  cbn -[rleb adapt_a]. rdec. cbn -[rleb adapt_a]. unfold adapt_a. cbn -[rltb]. rdec. reflexivity.
Qed.

(** ** C12 *)

(** For every log-likelihood, every stopping test and every proposal rule. *)
Theorem C12_theta_never_worse :
  forall (llk : list R -> ext) (grad_small : list R -> ext -> bool) (proposal : list R -> list R)
    (theta : list R),
  let r := updateTheta llk grad_small proposal theta in
  r = theta \/ llk_better (llk theta) (llk r).
Proof. intros. now apply theta_loop_spec. Qed.
Print Assumptions C12_theta_never_worse.

(** An update that is accepted after one halving: llk = -(t-1)^2, proposal 0 -> 3. *)
Example C12_case :
  let llk := fun c => match c with [x] => Fin (- ((x - 1) * (x - 1))) | _ => NaN end in
  updateTheta llk (fun t _ => match t with [x] => rltb 0 x | _ => true end) (fun _ => [3]) [0]
  = [(0 + 3) / 2].
Proof.
  cbv zeta. unfold updateTheta.
  assert (E : forall n l g p t c, theta_loop l g p (S n) t c =
    if g t c then t else match theta_halve l 32 0 t (p t) c (l (p t)) with
                         | None => t | Some (t', c') => theta_loop l g p n t' c' end) by reflexivity.
  assert (F : forall n k l t u c d, theta_halve l (S n) k t u c d =
    if eltb c d && (negb (isinf d) && negb (isnan d)) then Some (u, d)
    else if (30 <? k)%nat then None
    else theta_halve l n (k + 1) t (vmid t u) c (l (vmid t u))) by reflexivity.
  rewrite E, (proj2 (rltb_false 0 0)) by lra. rewrite F. cbn [eltb].
  rewrite (proj2 (rltb_false _ _)) by lra. cbn [andb Nat.ltb Nat.leb].
  rewrite F. cbn [vmid combine map fst snd eltb].
  rewrite (proj2 (rltb_true _ _)) by lra. cbn [andb negb isinf isnan].
  rewrite E, (proj2 (rltb_true 0 _)) by lra. reflexivity.
Qed.

(** ** C13 *)

(** Either a step length that meets the condition, the first such among alpha_max/2^k, or
    nothing and none of the first [max_iter] candidates meets it. *)
Theorem C13_back_tracking :
  forall (obj_at : R -> ext) (obj0 : ext) (slope c1 alpha_max : R) (max_iter : nat),
  match back_track_alpha obj_at obj0 slope c1 alpha_max max_iter with
  | Some a => exists k, (k < max_iter)%nat /\ a = alpha_max / 2 ^ k /\
                sufficient obj_at obj0 slope c1 a /\
                forall j, (j < k)%nat -> ~ sufficient obj_at obj0 slope c1 (alpha_max / 2 ^ j)
  | None => forall j, (j < max_iter)%nat -> ~ sufficient obj_at obj0 slope c1 (alpha_max / 2 ^ j)
  end.
Proof. intros. apply bt_loop_spec. Qed.
Print Assumptions C13_back_tracking.

(** Objective (4a - 1)^2, slope -8: 1 and 1/2 fail or only just do, 1/4 is the minimum. *)
Example C13_case :
  back_track_alpha (fun a => Fin ((4 * a - 1) * (4 * a - 1))) (Fin 1) (-8) (1 / 10000) 1 100
  = Some (1 / 2 / 2).
Proof.
  unfold back_track_alpha.
  assert (E : forall l c s c1 n a, bt_loop l c s c1 (S n) a =
    if eleb (l a) (eadd c (a * c1 * s)) && (negb (isnan (l a)) && negb (isinf (l a)))
    then Some a else bt_loop l c s c1 n (a / 2)) by reflexivity.
  rewrite E. cbn [eleb eadd isnan isinf negb]. rewrite (proj2 (rleb_false _ _)) by lra. cbn [andb].
  rewrite E. cbn [eleb eadd isnan isinf negb]. rewrite (proj2 (rleb_false _ _)) by lra. cbn [andb].
  rewrite E. cbn [eleb eadd isnan isinf negb]. rewrite (proj2 (rleb_true _ _)) by lra. reflexivity.
Qed.

(** ** C15 *)

(** After any sequence of calls the memory is exactly the last [maxcor] accepted triples (step,
    gradient difference, 1/inner product), in order, never more than [maxcor]. *)
Theorem C15_memory_window :
  forall (test_SR1 : list R -> list R -> R -> list (list R) -> list (list R) -> list R -> bool)
    (maxcor : nat) (calls : list call),
  let '(m, accepted) := fold_left (run_call test_SR1 maxcor) calls (mkMem [] [] [], []) in
  memory_is maxcor accepted (m_s m) (m_y m) (m_rho m) /\
  (length (m_s m) <= maxcor)%nat /\ length (m_y m) = length (m_s m) /\
  length (m_rho m) = length (m_s m) /\
  (forall t, In t accepted -> inner (snd (fst t)) (fst (fst t)) <> 0 /\
     snd t = / inner (snd (fst t)) (fst (fst t))).
Proof.
  intros test maxcor calls.
  destruct (fold_left (run_call test maxcor) calls (mkMem [] [] [], [])) as [m acc] eqn:E.
  destruct (run_holds test maxcor calls (mkMem [] [] [], [])) as [H1 H2].
  - repeat split.
  - intros t [].
  - rewrite E in H1, H2. simpl in H1, H2. split; [assumption|]. destruct H1 as (Hs & Hy & Hr).
    rewrite Hs, Hy, Hr, !map_length. split; [apply last_n_length|]. auto.
Qed.
Print Assumptions C15_memory_window.

(** Three accepted pairs, limit two: the first one is gone. *)
Example C15_case :
  let c g := ([g], [0], [1], 1, false) : call in
  m_y (fst (fold_left (run_call (fun _ _ _ _ _ _ => false) 2) [c 1; c 2; c 3] (mkMem [] [] [], [])))
  = [[-1 * 0 - -1 * 2]; [-1 * 0 - -1 * 3]].
Proof.
  cbn. unfold update_ys_qefs, dot. cbn.
  repeat (match goal with |- context [Req_EM_T ?a 0] => destruct (Req_EM_T a 0); [exfalso; lra|] end; cbn).
  reflexivity.
Qed.

(** ** C64 *)

(** Step control accepts coefficients for which the mean of an observation is undefined: the
    observation is left out of the deviance, so the deviance looks smaller.  The witness is a
    binomial-like observation y = 0 whose inverse link overflows for a linear predictor above
    709, as exp(eta)/(1+exp(eta)) does; the proposed coefficient 800 is accepted although the
    only observation has no mean. *)
Definition overflow_link (eta : R) : ext := if rltb 709 eta then NaN else Fin (exp eta / (1 + exp eta)).
(** The binomial deviance of observations y = 0. *)
Definition binom_dev (y : list R) (mu : list ext) : ext :=
  fold_right (fun m acc => match m with Fin v => eadd acc (-2 * ln (1 - v)) | _ => NaN end) (Fin 0) mu.
Theorem C64_undefined_means_refuted :
  exists r, correct_coef_step (fun c => c) overflow_link false binom_dev (fun _ => 0) 0 [0] 34
     [0] [800] (Fin 0) (Fin 0) (binom_dev [0] [overflow_link 0]) [800] [overflow_link 800] = Some r /\
  gamm_fit_of (fun c => c) overflow_link false binom_dev (fun _ => 0) false [0]
     [800] (Fin 0) (Fin 0) [overflow_link 800] [800] /\
  f_coef r = [800] /\ f_mu r = [NaN] /\ f_dev r = Fin 0.
Proof.
  assert (E8 : overflow_link 800 = NaN) by (unfold overflow_link; rdec; reflexivity).
  assert (E0 : overflow_link 0 = Fin (1 / 2)).
  { unfold overflow_link. rdec. rewrite exp_0. replace (1 / (1 + 1)) with (1 / 2) by lra. reflexivity. }
  rewrite E8, E0. unfold correct_coef_step.
  exists (mkFit (Fin 0) (Fin 0) [NaN] [800] [800]). repeat split.
  - unfold binom_dev. simpl fold_right. cbn [coef_loop f_pen eltb eadd isinf isnan orb].
    rewrite (proj2 (rltb_false _ _)); [reflexivity|].
    assert (ln (1 - 1 / 2) < 0); [|lra]. rewrite <- ln_1. apply ln_increasing; lra.
  - simpl. now rewrite E8.
Qed.
Print Assumptions C64_undefined_means_refuted.

(** If the inverse link is defined everywhere (or the model is Gaussian with identity link), the accepted
    fit counts every observation. *)
Theorem C64_all_means_defined :
  forall (lin : list R -> list R) (fi : R -> ext) (gauss_id : bool)
    (deviance : list R -> list ext -> ext) (quad_S : list R -> R) (n_pen : nat) (y : list R)
    (coef n_coef : list R) (dev pen_dev prev : ext) (eta : list R) (mu : list ext),
  length coef = length n_coef ->
  gamm_fit_of lin fi gauss_id deviance quad_S (0 <? n_pen)%nat y n_coef dev pen_dev mu eta ->
  (forall c, length (lin c) = length y) -> (forall e, fi e <> NaN) ->
  exists r,
    correct_coef_step lin fi gauss_id deviance quad_S n_pen y 34 coef n_coef dev pen_dev prev eta mu = Some r /\
    f_dev r = deviance y (f_mu r).
Proof.
  intros lin fi gauss_id deviance quad_S n_pen y coef n_coef dev pen_dev prev eta mu Hl Hf Hlin Hfi.
  destruct (C10_gamm_step_control lin fi gauss_id deviance quad_S n_pen y coef n_coef dev pen_dev prev eta mu Hl Hf)
    as (r & E & (H1 & H2 & H3 & _) & _).
  exists r. split; [assumption|]. rewrite H3.
  assert (Hall : forall {A} (m : list ext) (l : list A), (forall e, In e m -> e <> NaN) ->
     length l = length m -> rows_defined m l = l).
  { intros A. induction m as [|e m IH]; intros [|x l] Hm HL; try discriminate; [reflexivity|].
    assert (rows_defined (e :: m) (x :: l) = x :: rows_defined m l) as ->.
    { destruct e; try reflexivity. exfalso. apply (Hm NaN); [now left|reflexivity]. }
    f_equal. apply IH; [intros; apply Hm; now right|simpl in HL; lia]. }
  assert (Hmu : forall e, In e (f_mu r) -> e <> NaN).
  { rewrite H2. intros e He. destruct gauss_id; apply in_map_iff in He as (x & <- & _); [discriminate|apply Hfi]. }
  assert (Hlm : length (f_mu r) = length y).
  { rewrite H2, H1. destruct gauss_id; rewrite map_length; apply Hlin. }
  now rewrite !Hall.
Qed.
Print Assumptions C64_all_means_defined.
