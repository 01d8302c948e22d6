(** Theorems about estimated condition numbers (C155-C156). *)
From Coq Require Import List Arith Bool Reals Lra Lia ClassicalDescription ClassicalEpsilon.
From Verif Require Import Ext StepSpec CondModel CondSpec CondProofs.
Import ListNotations.
Local Open Scope R_scope.

(** ** C155: the estimate *)

(** Two or more coefficients, one of the solvers works: the estimate is the condition number, the other values are the
    largest and smallest singular values, and the code is the level. *)
Theorem C155_estimate : forall arpack lobpcg n L Linv verbose,
  svds_like arpack -> svds_like lobpcg -> (2 <= n)%nat ->
  square n L -> square n Linv -> inverse_of n L Linv ->
  (arpack L <> None /\ arpack Linv <> None) \/ (lobpcg L <> None /\ lobpcg Linv <> None) ->
  let c := est_condition arpack lobpcg L Linv verbose in
  exists K a b, c_K c = Fin K /\ condition_number n L K /\ level K (c_code c) /\
    c_max c = Fin a /\ largest n L a /\ c_min c = Fin b /\ smallest n L b /\
    c_warned c = (verbose && (0 <? c_code c)%nat).
Proof.
  intros arpack lobpcg n L Linv verbose SA SL N QL QI I W c.
  assert (X : exists lo hi, largest n Linv lo /\ largest n L hi /\
     c = mkCond (Fin (hi * lo)) (Fin hi) (Fin (1 / lo))
           (if rltb (1 / unit_roundoff) (hi * lo) then 2 else if rltb (1 / sqrt unit_roundoff) (hi * lo) then 1 else 0)
           (verbose && (rltb (1 / sqrt unit_roundoff) (hi * lo) || rltb (1 / unit_roundoff) (hi * lo)))).
  { unfold c, est_condition.
    destruct (arpack Linv) as [lo|] eqn:E1; [destruct (arpack L) as [hi|] eqn:E2|].
    - exists lo, hi. destruct (SA n Linv QI) as [_ A1]. destruct (SA n L QL) as [_ A2]. auto.
    - destruct W as [[W _]|[W1 W2]]; [congruence|].
      destruct (lobpcg Linv) as [lo'|] eqn:E3; [|congruence]. destruct (lobpcg L) as [hi'|] eqn:E4; [|congruence].
      exists lo', hi'. destruct (SL n Linv QI) as [_ A1]. destruct (SL n L QL) as [_ A2]. auto.
    - destruct W as [[_ W]|[W1 W2]]; [congruence|].
      destruct (lobpcg Linv) as [lo'|] eqn:E3; [|congruence]. destruct (lobpcg L) as [hi'|] eqn:E4; [|congruence].
      exists lo', hi'. destruct (SL n Linv QI) as [_ A1]. destruct (SL n L QL) as [_ A2]. auto. }
  destruct X as (lo & hi & H1 & H2 & ->). cbn [c_K c_max c_min c_code c_warned].
  destruct (inverse_smallest n L Linv lo QL QI I H1) as [P S].
  assert (P1 : 0 < 1 / lo) by (apply Rdiv_lt_0_compat; lra).
  exists (hi * lo), hi, (1 / lo). split; [reflexivity|split; [|split; [apply code_level|split; [reflexivity|split; [exact H2|split; [reflexivity|split; [exact S|]]]]]]].
  - exists hi, (1 / lo). split; [exact H2|split; [exact S|split; [exact P1|]]]. field. lra.
  - f_equal. assert (T := code_level (hi * lo)). destruct thresholds as [T1 T2]. rewrite T1, T2 in *.
    assert (B := sqrt_below).
    destruct (rltb (2 ^ 53) (hi * lo)) eqn:Q2; destruct (rltb (sqrt (2 ^ 53)) (hi * lo)) eqn:Q1; try reflexivity.
Qed.
Print Assumptions C155_estimate.

(** Finding: one coefficient.  The condition number is 1, the estimate infinite with code 1 and a warning. *)
Theorem C155_one_refuted :
  exists L Linv, square 1 L /\ square 1 Linv /\ inverse_of 1 L Linv /\ condition_number 1 L 1 /\
    forall arpack lobpcg verbose, svds_like arpack -> svds_like lobpcg ->
      est_condition arpack lobpcg L Linv verbose = mkCond PInf PInf MInf 1 true.
Proof.
  exists [[2]], [[/ 2]]. 
  assert (Q1 : square 1 [[2]]) by (split; [reflexivity|intros row [<-|[]]; reflexivity]).
  assert (Q2 : square 1 [[/ 2]]) by (split; [reflexivity|intros row [<-|[]]; reflexivity]).
  split; [exact Q1|split; [exact Q2|split; [|split; [apply one_condition; lra|]]]].
  - intros v L. destruct v as [|x [|? ?]]; try discriminate. cbn. split; f_equal; field.
  - intros arpack lobpcg verbose SA SL. unfold est_condition.
    destruct (SA 1%nat _ Q2) as [A1 _]. destruct (SL 1%nat _ Q2) as [A2 _]. rewrite A1, A2 by lia. reflexivity.
Qed.
Print Assumptions C155_one_refuted.

(** A solver that meets the contract and works for every matrix that has a largest singular value. *)
Definition exact_svds (A : list (list R)) : option R :=
  if (2 <=? length A)%nat then
    match excluded_middle_informative (exists s, largest (length A) A s) with
    | left H => Some (proj1_sig (constructive_indefinite_description _ H))
    | right _ => None
    end
  else None.
Lemma exact_svds_like : svds_like exact_svds.
Proof.
  intros n A [L _]. split.
  - intros N. unfold exact_svds. rewrite L. destruct (Nat.leb_spec 2 n); [lia|reflexivity].
  - intros N s. unfold exact_svds. rewrite L. destruct (2 <=? n)%nat; [|discriminate].
    destruct (excluded_middle_informative _) as [H|]; [|discriminate]. intros E. injection E as <-.
    apply proj2_sig.
Qed.
Lemma exact_svds_works n A s : (2 <= n)%nat -> length A = n -> largest n A s -> exact_svds A = Some s.
Proof.
  intros N L H. unfold exact_svds. rewrite L. destruct (Nat.leb_spec 2 n); [|lia].
  destruct (excluded_middle_informative _) as [E|E]; [|exfalso; apply E; now exists s].
  f_equal. eapply largest_unique; [apply proj2_sig|exact H].
Qed.

(** diag(a, b): hypotheses of C155_estimate are met. *)
Lemma exact_diag a b verbose : 0 < b <= a ->
  exists K, K = a / b /\ c_K (est_condition exact_svds exact_svds (diag2 a b) (diag2 (/ a) (/ b)) verbose) = Fin K /\
    level K (c_code (est_condition exact_svds exact_svds (diag2 a b) (diag2 (/ a) (/ b)) verbose)) /\
    c_warned (est_condition exact_svds exact_svds (diag2 a b) (diag2 (/ a) (/ b)) verbose)
    = (verbose && (0 <? c_code (est_condition exact_svds exact_svds (diag2 a b) (diag2 (/ a) (/ b)) verbose))%nat).
Proof.
  intros H. assert (HA : 0 < / a) by (apply Rinv_0_lt_compat; lra).
  assert (HC : / a <= / b) by (apply Rinv_le_contravar; lra).
  destruct (C155_estimate exact_svds exact_svds 2 (diag2 a b) (diag2 (/ a) (/ b)) verbose exact_svds_like exact_svds_like)
    as (K & x & y & E1 & E2 & E3 & E4 & E5 & E6 & E7 & E8).
  - lia. - apply diag2_square. - apply diag2_square. - apply diag2_inverse; lra.
  - left. rewrite (exact_svds_works 2 (diag2 a b) a) by (try lia; try reflexivity; apply diag2_largest; lra).
    rewrite (exact_svds_works 2 (diag2 (/ a) (/ b)) (/ b)) by (try lia; try reflexivity; apply diag2_largest'; lra).
    split; discriminate.
  - exists K. split; [|auto]. destruct E2 as (p & q & P & Q & P0 & ->).
    rewrite (largest_unique 2 (diag2 a b) p a P (diag2_largest a b ltac:(lra))).
    now rewrite (smallest_unique 2 (diag2 a b) q b Q (diag2_smallest a b H)).
Qed.

Example C155_case : c_K (est_condition exact_svds exact_svds (diag2 6 2) (diag2 (/ 6) (/ 2)) true) = Fin 3.
Proof. destruct (exact_diag 6 2 true ltac:(lra)) as (K & -> & -> & _). f_equal. lra. Qed.

(** ** C156: what fits do *)

(** Well conditioned: nothing happens. *)
Theorem C156_fine : forall c chol code, c_code c = 0%nat -> c_warned c = false ->
  check_each chol c code = Goes code false /\ check_last chol c code = Goes code false /\
  check_general c code = Goes code false.
Proof.
  intros c chol code C W. unfold check_each, check_last, check_general. rewrite C, W.
  assert (X : (if (code =? 0)%nat then 0%nat else code) = code) by (destruct code; reflexivity). rewrite X.
  destruct chol; auto.
Qed.
Print Assumptions C156_fine.

(** Checks in each iteration: a Cholesky decomposition stops at level 1, others go on; others stop at level 2. *)
Theorem C156_each : forall c code,
  (c_code c = 1%nat -> check_each true c code = ArithmeticError /\ check_each false c code = Goes code (c_warned c)) /\
  (c_code c = 2%nat -> check_each false c code = ArithmeticError).
Proof. intros c code. unfold check_each. split; intros ->; [split|]; reflexivity. Qed.
Print Assumptions C156_each.

(** One check at the end: level 1 is warned about for a Cholesky decomposition only; either way it is the code of a fit
    that converged, and the code of one that did not is kept. *)
Theorem C156_last : forall c code, c_code c = 1%nat -> c_warned c = false ->
  exists code', check_last true c code = Goes code' true /\ check_last false c code = Goes code' false /\
    (code = 0%nat -> code' = 1%nat) /\ (code <> 0%nat -> code' = code).
Proof.
  intros c code C W. unfold check_last. rewrite C, W. cbn. eexists. split; [reflexivity|split; [reflexivity|split]].
  - intros ->. reflexivity.
  - intros N. destruct code; [lia|reflexivity].
Qed.
Print Assumptions C156_last.

(** Models other than additive ones: a warning exactly if the level is not zero, and the level is stored if the fit
    converged. *)
Theorem C156_general : forall c code, c_warned c = false ->
  exists code' w, check_general c code = Goes code' w /\ (w = true <-> c_code c <> 0%nat) /\
    (code = 0%nat -> code' = c_code c) /\ (code <> 0%nat -> code' = code).
Proof.
  intros c code W. unfold check_general. rewrite W. cbn [orb]. do 2 eexists. split; [reflexivity|split; [|split]].
  - rewrite Nat.ltb_lt. lia.
  - intros ->. reflexivity.
  - intros N. destruct code; [lia|reflexivity].
Qed.
Print Assumptions C156_general.

(** Finding: the worst level is ignored for Cholesky decompositions: condition number 2^60, no error, no warning. *)
Theorem C156_silent_refuted :
  exists n L Linv arpack lobpcg, svds_like arpack /\ svds_like lobpcg /\ square n L /\ inverse_of n L Linv /\
    condition_number n L (2 ^ 60) /\
    check_each true (est_condition arpack lobpcg L Linv false) 0 = Goes 0 false /\
    check_last true (est_condition arpack lobpcg L Linv false) 0 = Goes 2 false.
Proof.
  assert (P : 1 < 2 ^ 60) by (apply Rlt_pow_R1; [lra|lia]).
  assert (P' : 2 ^ 53 < 2 ^ 60) by (apply Rlt_pow; [lra|lia]).
  destruct (exact_diag (2 ^ 60) 1 false ltac:(lra)) as (K & EK & _ & LV & W).
  exists 2%nat, (diag2 (2 ^ 60) 1), (diag2 (/ 2 ^ 60) (/ 1)), exact_svds, exact_svds.
  split; [exact exact_svds_like|split; [exact exact_svds_like|split; [apply diag2_square|split; [apply diag2_inverse; lra|split]]]].
  - replace (2 ^ 60) with (2 ^ 60 / 1) at 2 by lra. apply diag2_condition. lra.
  - assert (C2 : c_code (est_condition exact_svds exact_svds (diag2 (2 ^ 60) 1) (diag2 (/ 2 ^ 60) (/ 1)) false) = 2%nat).
    { apply (level_unique K); [exact LV|]. right. right. split; [|reflexivity]. rewrite EK. lra. }
    unfold check_each, check_last. rewrite C2, W. cbn [andb negb Nat.eqb orb]. split; reflexivity.
Qed.
Print Assumptions C156_silent_refuted.

(** Finding: the warning for other decompositions at that level is an exception (the value None of warnings.warn is
    raised): the fit, which has converged, is lost. *)
Theorem C156_raise_refuted :
  exists n L Linv arpack lobpcg, svds_like arpack /\ svds_like lobpcg /\ square n L /\ inverse_of n L Linv /\
    condition_number n L (2 ^ 60) /\
    check_last false (est_condition arpack lobpcg L Linv false) 0 = TypeError.
Proof.
  assert (P : 1 < 2 ^ 60) by (apply Rlt_pow_R1; [lra|lia]).
  assert (P' : 2 ^ 53 < 2 ^ 60) by (apply Rlt_pow; [lra|lia]).
  destruct (exact_diag (2 ^ 60) 1 false ltac:(lra)) as (K & EK & _ & LV & W).
  exists 2%nat, (diag2 (2 ^ 60) 1), (diag2 (/ 2 ^ 60) (/ 1)), exact_svds, exact_svds.
  split; [exact exact_svds_like|split; [exact exact_svds_like|split; [apply diag2_square|split; [apply diag2_inverse; lra|split]]]].
  - replace (2 ^ 60) with (2 ^ 60 / 1) at 2 by lra. apply diag2_condition. lra.
  - assert (C2 : c_code (est_condition exact_svds exact_svds (diag2 (2 ^ 60) 1) (diag2 (/ 2 ^ 60) (/ 1)) false) = 2%nat).
    { apply (level_unique K); [exact LV|]. right. right. split; [|reflexivity]. rewrite EK. lra. }
    unfold check_last. rewrite C2. reflexivity.
Qed.
Print Assumptions C156_raise_refuted.

(** Finding: a model with one coefficient is perfectly conditioned; a Cholesky fit that checks each iteration stops, and
    a fit that converged gets code 1. *)
Theorem C156_one_refuted :
  exists L Linv, square 1 L /\ inverse_of 1 L Linv /\ condition_number 1 L 1 /\
    forall arpack lobpcg, svds_like arpack -> svds_like lobpcg ->
      check_each true (est_condition arpack lobpcg L Linv false) 0 = ArithmeticError /\
      check_last false (est_condition arpack lobpcg L Linv false) 0 = Goes 1 true /\
      check_general (est_condition arpack lobpcg L Linv false) 0 = Goes 1 true.
Proof.
  destruct C155_one_refuted as (L & Linv & Q1 & Q2 & I & C & H). exists L, Linv.
  split; [exact Q1|split; [exact I|split; [exact C|]]]. intros arpack lobpcg SA SL.
  rewrite (H arpack lobpcg false SA SL). repeat split.
Qed.
Print Assumptions C156_one_refuted.

Example C156_case : check_last true (mkCond (Fin 3) (Fin 6) (Fin 2) 0 false) 0 = Goes 0 false /\
  check_general (mkCond (Fin (2 ^ 60)) (Fin (2 ^ 60)) (Fin 1) 2 false) 0 = Goes 2 true.
Proof. split; reflexivity. Qed.
