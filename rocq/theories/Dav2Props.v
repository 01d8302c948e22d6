(** C191-C193: searches and integration in Davies' routine. *)
From Coq Require Import List Arith ZArith Reals Lra Lia.
From Coquelicot Require Import Coquelicot.
From Verif Require Import DavModel Dav2Model Dav2Spec Dav2Proofs.
Import ListNotations.
Local Open Scope R_scope.

(** ** C191 *)

(** If findu returns, truncation at the returned point is within the accuracy; if the bound does not increase, it is not
    within the accuracy at a point smaller by the factor 1.1 (the comment promises 1.2). *)
Theorem C191_findu : forall trunc_err lim fuel accx sigsq utx count u n, 0 < utx ->
  findu trunc_err lim fuel accx sigsq utx count = Done u n ->
  0 < u /\ trunc_err u 0 sigsq <= accx /\
  ((forall s t, 0 < s -> s <= t -> trunc_err t 0 sigsq <= trunc_err s 0 sigsq) ->
   forall d, 11 / 10 <= d -> accx < trunc_err (u / d) 0 sigsq).
Proof.
  intros trunc_err lim fuel accx sigsq utx count u n P E.
  set (ok := fun u => trunc_err u 0 sigsq <= accx).
  set (first := bind (call lim (trunc_err (utx / 4) 0 sigsq) count) (fun e c' =>
      if Rlt_dec accx e then grow trunc_err lim fuel accx sigsq utx c' else shrink trunc_err lim fuel accx sigsq (utx / 4) (utx / 4 / 4) c')).
  assert (F : holds (fun u => 0 < u /\ ok u /\ ~ ok (u / 4)) first).
  { eapply holds_bind; [apply holds_call|]. intros e c' ->. cbv beta. destruct (Rlt_dec _ _).
    - apply grow_ok; assumption.
    - apply shrink_ok; lra. }
  change (bind first (refine trunc_err lim [2; 14 / 10; 12 / 10; 11 / 10] accx sigsq) = Done u n) in E.
  assert (W : forall Q : R -> Prop, (forall v c, 0 < v -> ok v -> ~ ok (v / 4) ->
      holds Q (refine trunc_err lim [2; 14 / 10; 12 / 10; 11 / 10] accx sigsq v c)) -> Q u).
  { intros Q H. assert (G : holds Q (Done u n)); [|exact G]. rewrite <- E. eapply holds_bind; [exact F|].
    intros v c [A [B D]]. apply H; assumption. }
  assert (Pos : forall divs v c, 0 < v -> (forall d, In d divs -> 0 < d) -> holds (fun u => 0 < u) (refine trunc_err lim divs accx sigsq v c)).
  { induction divs as [|d r IH]; intros v c V H; cbn [refine]; [exact V|]. eapply holds_bind; [apply holds_call|]. intros b c' _. cbv beta.
    apply IH; [|intros; apply H; right; assumption]. destruct (Rle_dec _ _); [apply Rdiv_lt_0_compat; [exact V|apply H; left; reflexivity]|exact V]. }
  assert (PU : 0 < u).
  { apply W. intros v c V _ _. apply Pos; [exact V|]. cbn. intros d [<- | [<- | [<- | [<- | []]]]]; lra. }
  split; [exact PU|]. split.
  - apply (W (fun u => trunc_err u 0 sigsq <= accx)). intros v c _ B _. apply refine_ok. exact B.
  - intros anti.
    assert (L : ~ ok (u / (11 / 10))).
    { apply (W (fun u => ~ ok (u / (11 / 10)))). intros v c V B D.
      apply (step_lost trunc_err lim accx sigsq anti 2 4 2); try lra; try assumption. intros v1 c1 V1 B1 D1.
      apply (step_lost trunc_err lim accx sigsq anti (14 / 10) 2 (10 / 7)); try lra; try assumption. intros v2 c2 V2 B2 D2.
      apply (step_lost trunc_err lim accx sigsq anti (12 / 10) (10 / 7) (12 / 10)); try lra; try assumption. intros v3 c3 V3 B3 D3.
      apply (step_lost trunc_err lim accx sigsq anti (11 / 10) (12 / 10) (11 / 10)); try lra; try assumption. intros v4 c4 V4 B4 D4.
      exact D4. }
    intros d Hd. assert (L' : ~ ok (u / d)).
    { eapply lost_le; [exact anti| | |exact L]; [apply Rdiv_lt_0_compat; lra|]. unfold Rdiv at 1 2.
      apply Rmult_le_compat_l; [lra|]. apply Rinv_le_contravar; lra. }
    unfold ok in L'. lra.
Qed.
Example C191_findu_case : let step := fun u _ _ => if Rlt_dec u 1 then 1 else 0 in
  (forall s t, 0 < s -> s <= t -> step t 0 0 <= step s 0 0) /\ findu step 20 20 (/ 2) 0 4 0 = Done 1 6%nat.
Proof.
  cbv zeta. split.
  - intros s t _ L. destruct (Rlt_dec t 1), (Rlt_dec s 1); lra.
  - unfold findu. unfold call at 1. cbn [Nat.ltb Nat.leb bind]. replace (4 / 4) with 1 by field.
    destruct (Rlt_dec 1 1); [lra|]. destruct (Rlt_dec (/ 2) 0); [lra|].
    cbn [shrink]. unfold call at 1. cbn [Nat.ltb Nat.leb bind]. destruct (Rlt_dec (1 / 4) 1); [|lra]. destruct (Rle_dec 1 (/ 2)); [lra|].
    cbn [bind refine]. unfold call at 1. cbn [Nat.ltb Nat.leb bind]. destruct (Rlt_dec (1 / 2) 1); [|lra]. destruct (Rle_dec 1 (/ 2)); [lra|].
    unfold call at 1. cbn [Nat.ltb Nat.leb bind]. destruct (Rlt_dec (1 / (14 / 10)) 1); [|lra]. destruct (Rle_dec 1 (/ 2)); [lra|].
    unfold call at 1. cbn [Nat.ltb Nat.leb bind]. destruct (Rlt_dec (1 / (12 / 10)) 1); [|lra]. destruct (Rle_dec 1 (/ 2)); [lra|].
    unfold call at 1. cbn [Nat.ltb Nat.leb bind]. destruct (Rlt_dec (1 / (11 / 10)) 1); [|lra]. destruct (Rle_dec 1 (/ 2)); [lra|].
    reflexivity.
Qed.

(** If ctff returns, the cutoff is that of errbd at a point where the bound of the tail is within the accuracy; C186 says
    what bound and cutoff are. *)
Theorem C191_ctff : forall err_bound lim fuel accx sigsq lmin lmax mean upn count u c n,
  ctff err_bound lim fuel accx sigsq lmin lmax mean upn count = Done (u, c) n ->
  let t := u / (1 + u * (2 * if Rlt_dec 0 upn then lmax else lmin)) in
  fst (err_bound t sigsq) <= accx /\ snd (err_bound t sigsq) = c.
Proof.
  intros err_bound lim fuel accx sigsq lmin lmax mean upn count u c n E. cbv zeta. unfold ctff in E. cbv zeta in E.
  set (rb := 2 * _) in *.
  assert (G : holds (fun w => meets err_bound accx sigsq rb (fst w) (snd w)) (Done (u, c) n)); [|exact G].
  rewrite <- E. eapply holds_bind; [apply widen_ok|]. intros [[[u1 c1] u2] c2] c' H. apply narrow_ok. exact H.
Qed.
Example C191_ctff_case : ctff (fun u _ => if Rlt_dec u 1 then (1, 5) else (0, 5)) 9 9 (/ 2) 0 (-1) 0 0 1 0 = Done (1, 5) 2%nat.
Proof.
  unfold ctff. cbv zeta. destruct (Rlt_dec 0 1); [|lra]. rewrite Rmult_0_r. cbn [widen]. unfold call at 1. cbn [Nat.ltb Nat.leb bind].
  replace (1 / (1 + 1 * 0)) with 1 by field. destruct (Rlt_dec 1 1); [lra|]. cbn [fst snd]. destruct (Rlt_dec (/ 2) 0); [lra|].
  cbn [bind narrow]. destruct (Rlt_dec ((0 - 0) / (5 - 0)) (9 / 10)); [|lra].
  unfold call at 1. cbn [Nat.ltb Nat.leb bind]. replace ((0 + 1) / 2 / (1 + (0 + 1) / 2 * 0)) with (/ 2) by field.
  destruct (Rlt_dec (/ 2) 1) as [_|N]; [|lra]. cbn [fst snd]. destruct (Rlt_dec (/ 2) 1); [|lra].
  destruct (Rlt_dec ((5 - 0) / (5 - 0)) (9 / 10)); [lra|]. reflexivity.
Qed.

(** ** C192 *)

(** The sum that is added to intl is that of interv / pi times the imaginary part of E[exp(i u (Q - c))] over u at
    u = (k + 1/2) interv, k = 0, ..., nterm, times 1 - exp(-tausq u^2 / 2) in auxiliary integrations; numbers below
    exp(-50) count as zero. *)
Theorem C192_integral : forall vars sigsq c, exists E, is_root E (cf2 vars sigsq c) /\
  forall interv tausq mainx nterm intl ersm, 0 < interv ->
    fst (integrate vars interv tausq mainx sigsq c nterm intl ersm) =
    intl + sum_to nterm (fun k => let u := (INR k + / 2) * interv in
      interv / PI * (snd (ccut (E u)) / u) * (if mainx then 1 else 1 - cut (exp (- (tausq * (u * u) / 2))))).
Proof.
  intros vars sigsq c. exists (E_of vars sigsq c). split; [apply E_root|].
  intros interv tausq mainx nterm intl ersm Hi. rewrite integrate_sum. cbn [fst]. f_equal. apply sum_to_ext. intros k _.
  cbv zeta. set (u := (INR k + / 2) * interv).
  assert (Hu : 0 < u) by (apply Rmult_lt_0_compat; [pose proof (pos_INR k); lra|exact Hi]).
  unfold one_term, E_of. cbv zeta. fold u. rewrite ccut_sin. destruct (inner vars sigsq c u) as [[a b] d]. unfold s1, s3. cbn [fst snd].
  rewrite <- exp1_cut. replace (- (tausq * (u * u) / 2)) with (- / 2 * tausq * (u * u)) by field.
  destruct mainx; field; split; (pose proof PI_RGT_0; lra).
Qed.
(** The weight 1/2 with 2 degrees of freedom (exponential distribution with mean 1): the characteristic function is
    1 / (1 - i u), with imaginary part u / (1 + u^2). *)
Example C192_case : forall u, cf2 [(/ 2, 2%nat, 0)] 0 0 u = Cmult (Cinv (1, - u)) (Cinv (1, - u)) /\ snd (Cinv (1, - u)) = u / (1 + u * u).
Proof.
  intros u. pose proof (one_plus_sq u). split.
  - unfold cf2, chisq_cf2. cbn [fold_right cpow]. replace (2 * / 2 * u) with u by field.
    replace (2 * / 2 * 0 * u) with 0 by ring.
    assert (D : Cminus (RtoC 1) (Cmult Ci (RtoC u)) = (1, - u)) by (unfold Cminus, Cplus, Copp, Cmult, Ci, RtoC; cbn; f_equal; ring).
    rewrite D. replace (Cdiv (Cmult Ci (RtoC 0)) (1, - u)) with ((0, 0) : C).
    2:{ unfold Cdiv. replace (Cmult Ci (RtoC 0)) with (RtoC 0) by (unfold Cmult, Ci, RtoC; cbn; f_equal; ring). symmetry. apply Cmult_0_l. }
    replace ((- (0 * (u * u)), - (2 * u * 0)) : C) with ((0, 0) : C) by (f_equal; ring). rewrite cexp_zero. rewrite !Cmult_1_l, !Cmult_1_r. reflexivity.
  - unfold Cinv. cbn. field. nra.
Qed.

(** ** C193 *)

(** What integrate adds to ersm bounds what it adds to intl, so that the test for round-off compares with the size of the
    summands. *)
Theorem C193_size : forall vars interv tausq mainx sigsq c nterm intl ersm, 0 < interv -> 0 <= tausq ->
  let r := integrate vars interv tausq mainx sigsq c nterm intl ersm in
  Rabs (fst r - intl) <= snd r - ersm.
Proof.
  intros vars interv tausq mainx sigsq c nterm intl ersm Hi Ht. cbv zeta. rewrite integrate_sum. cbn [fst snd].
  replace (intl + _ - intl) with (sum_to nterm (fun k => fst (one_term vars interv tausq mainx sigsq c k))) by ring.
  replace (ersm + _ - ersm) with (sum_to nterm (fun k => snd (one_term vars interv tausq mainx sigsq c k))) by ring.
  apply sum_to_abs. intros k _. unfold one_term. cbv zeta. set (u := (INR k + / 2) * interv).
  assert (Hu : 0 < u) by (apply Rmult_lt_0_compat; [pose proof (pos_INR k); lra|exact Hi]).
  pose proof (inner_bound vars sigsq c u) as B. destruct (inner vars sigsq c u) as [[a b] d]. unfold s1, s2 in B. cbn [fst snd] in *.
  set (x := if mainx then _ else _).
  assert (X0 : 0 <= interv / PI * exp1 d / u).
  { pose proof PI_RGT_0. apply Rmult_le_pos; [apply Rmult_le_pos; [|apply exp1_pos]|left; apply Rinv_0_lt_compat; exact Hu].
    apply Rlt_le, Rdiv_lt_0_compat; assumption. }
  assert (X : 0 <= x).
  { unfold x. destruct mainx; [exact X0|]. apply Rmult_le_pos; [exact X0|].
    assert (exp1 (- / 2 * tausq * (u * u)) <= 1); [|lra]. apply exp1_le. assert (0 <= tausq * (u * u)) by (apply Rmult_le_pos; nra). lra. }
  rewrite Rabs_mult, (Rabs_right x) by lra. apply Rmult_le_compat_r; [exact X|].
  eapply Rle_trans; [apply sin_le|]. rewrite Rabs_mult, (Rabs_right (/ 2)) by lra. lra.
Qed.
Example C193_case : let r := integrate [(/ 2, 2%nat, 0)] 1 0 true 0 0 1 0 0 in Rabs (fst r) <= snd r.
Proof.
  cbv zeta. pose proof (C193_size [(/ 2, 2%nat, 0)] 1 0 true 0 0 1 0 0 ltac:(lra) ltac:(lra)) as H. cbv zeta in H. rewrite !Rminus_0_r in H. exact H.
Qed.

Print Assumptions C191_findu.
Print Assumptions C191_ctff.
Print Assumptions C192_integral.
Print Assumptions C193_size.
