(** Theorems about pairs kept for symmetric rank one updates (C153-C154). *)
From Coq Require Import List Arith Bool Reals Lra Lia ClassicalDescription.
From Verif Require Import Ext StepModel StepSpec StepProofs SampModel SampSpec SampProofs SroneModel SroneSpec SroneProofs.
Import ListNotations.
Local Open Scope R_scope.

(** ** C153: what is kept defines an update *)

(** Sampled pairs: whatever the gradient and the draws, the memory is empty or defines an update. *)
Theorem C153_sampled : forall invertible grad llk quad_S LVt z coef pearl maxcor kw m u,
  (forall M, invertible M = true <-> regular M) ->
  sample_ys_qefs grad llk quad_S LVt z (test_SR1 invertible) coef pearl maxcor 0 kw = Some (m, u) ->
  m_s m = [] \/ sr1_defined (m_s m) (m_y m).
Proof.
  intros invertible grad llk quad_S LVt z coef pearl maxcor kw m u C E. unfold sample_ys_qefs in E.
  injection E as E. 
  match type of E with sample_loop _ _ _ _ _ ?r ?mc ?n ?k ?m0 ?u0 = _ =>
    assert (G := sample_good invertible C grad LVt z coef r mc n k m0 u0) end.
  rewrite E in G. apply G.
  - split; [|now left]. split; [reflexivity|split; [reflexivity|]]. cbn. intros; lia.
  - apply Nat.le_refl.
Qed.
Print Assumptions C153_sampled.

(** A pair of the optimiser that is taken while the memory is not full leaves a memory that defines an update. *)
Theorem C153_not_full : forall invertible g g' step r maxcor m m',
  (forall M, invertible M = true <-> regular M) ->
  length (m_y m) = length (m_s m) ->
  m_rho m = map (fun sy => / inner (snd sy) (fst sy)) (combine (m_s m) (m_y m)) ->
  Forall2 (fun s y => inner y s <> 0) (m_s m) (m_y m) ->
  (length (m_s m) < maxcor)%nat ->
  update_ys_qefs (test_SR1 invertible) g g' step r false maxcor m = (m', false) ->
  m_s m' = m_s m ++ [times_vec r step] /\ m_y m' = m_y m ++ [minus_vec g g'] /\ sr1_defined (m_s m') (m_y m').
Proof.
  intros invertible g g' step r maxcor m m' C LY LR N L E. 
  assert (IF : inverse_factors (m_s m) (m_y m) (m_rho m)).
  { split; [exact LY|split; [rewrite LR, map_length, combine_length; lia|]]. intros i I.
    assert (NI : inner (nth i (m_y m) []) (nth i (m_s m) []) <> 0).
    { clear - N I. revert i I. induction N as [|s y ss yy H N IH]; intros [|i] I; cbn in *; try lia; auto. apply IH. lia. }
    split; [exact NI|]. rewrite LR.
    set (f := fun sy : list R * list R => / inner (snd sy) (fst sy)).
    rewrite (nth_indep _ 0 (f ([], []))) by (rewrite map_length, combine_length; lia).
    rewrite map_nth, combine_nth by (symmetry; exact LY). reflexivity. }
  revert E. unfold update_ys_qefs. rewrite vsub_neg, vscale_times, dot_inner.
  destruct (_ || _) eqn:T; [discriminate|]. intros E. injection E as <-.
  apply orb_false_iff in T as [T1 T]. apply orb_false_iff in T1 as [_ T1].
  destruct (Req_EM_T (inner (minus_vec g g') (times_vec r step)) 0) as [|NZ]; [discriminate|].
  rewrite mem_add_fits by (try exact L; try apply IF). cbn [m_s m_y].
  split; [reflexivity|split; [reflexivity|]]. apply (test_passed invertible C _ _ (m_rho m)); assumption.
Qed.
Print Assumptions C153_not_full.

(** Finding: a full memory is tested together with its oldest pair, which is removed afterwards.  Here the memory
    (limit one) holds ((1,0), (1,1)) and receives ((0,1), (0,2)): the two together define an update, what is kept does
    not. *)
Theorem C153_full_refuted :
  exists invertible g g' step r maxcor m m',
    (forall M, invertible M = true <-> regular M) /\
    length (m_s m) = maxcor /\ sr1_defined (m_s m) (m_y m) /\ 
    m_rho m = map (fun sy => / inner (snd sy) (fst sy)) (combine (m_s m) (m_y m)) /\
    update_ys_qefs (test_SR1 invertible) g g' step r false maxcor m = (m', false) /\
    m_s m' = [times_vec r step] /\ m_y m' = [minus_vec g g'] /\ ~ sr1_defined (m_s m') (m_y m').
Proof.
  set (inv := fun M => if excluded_middle_informative (regular M) then true else false).
  assert (C : forall M, inv M = true <-> regular M).
  { intros M. unfold inv. destruct (excluded_middle_informative (regular M)); split; intros; auto; discriminate. }
  set (m := mkMem [[1; 1]] [[1; 0]] [/ 1]).
  exists inv, [0; 2], [0; 0], [0; 1], 1, 1%nat, m, (mkMem [[0; 2]] [[0; 1]] [/ 2]).
  assert (Y : minus_vec [0; 2] [0; 0] = [0; 2]) by (cbn; repeat f_equal; lra).
  assert (S1 : times_vec 1 [0; 1] = [0; 1]) by (cbn; repeat f_equal; lra).
  assert (I2 : inner [0; 2] [0; 1] = 2) by (cbn; lra).
  split; [exact C|split; [reflexivity|split; [|split; [|split; [|split; [|split]]]]]].
  - apply defined_one. cbn. right. split.
    + replace ((1 * 1 + (1 * 1 + 0)) / (1 * 1 + (1 * 0 + 0))) with 2 by field. lra.
    + replace ((1 * 1 + (1 * 1 + 0)) / (1 * 1 + (1 * 0 + 0))) with 2 by field. lra.
  - cbn. repeat f_equal. lra.
  - unfold update_ys_qefs. rewrite vsub_neg, vscale_times, dot_inner, Y, S1, I2.
    destruct (Req_EM_T 2 0) as [E|_]; [lra|]. cbn [orb].
    assert (T : test_SR1 inv [0; 1] [0; 2] (/ 2) (m_s m) (m_y m) (m_rho m) = false).
    { replace (/ 2) with (/ inner [0; 2] [0; 1]) by (now rewrite I2). apply (test_passed inv C (m_s m) (m_y m) (m_rho m)).
      - split; [reflexivity|split; [reflexivity|]]. intros i I. assert (i = 0)%nat by (cbn in I; lia). subst i. cbn.
        split; [lra|f_equal; lra].
      - rewrite I2. lra.
      - exists 2, [[-1; 1]; [1; 0]]. cbn [m m_s m_y app last length]. 
        split; [|split; [reflexivity|split; [reflexivity|split; [|split]]]].
        + right. cbn. replace ((0 * 0 + (2 * 2 + 0)) / (0 * 0 + (2 * 1 + 0))) with 2 by field. lra.
        + intros i I. destruct i as [|[|i]]; [reflexivity|reflexivity|lia].
        + intros i j J I. destruct i as [|[|i]]; [| |lia]; destruct j as [|[|j]]; try lia; cbn; lra.
        + intros v LV H x IX. destruct v as [|a [|b [|? ?]]]; try discriminate.
          assert (H1 := H _ (or_introl eq_refl)). assert (H2 := H _ (or_intror (or_introl eq_refl))). cbn in H1, H2.
          destruct IX as [<-|[<-|[]]]; lra. }
    rewrite T. reflexivity.
  - now rewrite S1.
  - now rewrite Y.
  - cbn [m_s m_y]. replace [0; 2] with (times_vec 2 [0; 1]) by (cbn; repeat f_equal; lra).
    apply parallel_undefined; [lra|]. cbn. lra.
Qed.
Print Assumptions C153_full_refuted.

Example C153_case : sr1_defined [[1; 0]] [[1; 1]].
Proof.
  apply defined_one. cbn. right. replace ((1 * 1 + (1 * 1 + 0)) / (1 * 1 + (1 * 0 + 0))) with 2 by field. lra.
Qed.

(** ** C154: the first pair *)

(** An empty memory takes a pair with nonzero product exactly if the curvature is negative or step and difference are
    not parallel (equality in the inequality of Cauchy and Schwarz). *)
Theorem C154_first : forall invertible g g' step r maxcor,
  (forall M, invertible M = true <-> regular M) ->
  let s := times_vec r step in let y := minus_vec g g' in
  inner y s <> 0 ->
  snd (update_ys_qefs (test_SR1 invertible) g g' step r false maxcor (mkMem [] [] [])) = false <->
  (inner y s < 0 \/ inner y s * inner y s <> inner y y * inner s s).
Proof.
  intros invertible g g' step r maxcor C s y N. unfold update_ys_qefs. rewrite vsub_neg, vscale_times, dot_inner.
  fold s y. destruct (Req_EM_T (inner y s) 0) as [|_]; [contradiction|]. cbn [orb m_s m_y m_rho].
  assert (T := test_passed invertible C [] [] [] s y ltac:(split; [reflexivity|split; [reflexivity|cbn; intros; lia]]) N).
  cbn [app] in T. rewrite defined_one in T.
  assert (PY := inner_nonneg y). assert (PS := inner_nonneg s).
  assert (YN : inner y y <> 0 \/ inner y y = 0) by lra.
  assert (Q : ((inner y y / inner y s < 0 /\ inner y s - inner s s <> 0) \/
               (0 <= inner y y / inner y s /\ inner y s - inner y y / inner y s * inner s s <> 0)) <->
              (inner y s < 0 \/ inner y s * inner y s <> inner y y * inner s s)).
  { assert (F : inner y s * (inner y s - inner y y / inner y s * inner s s)
              = inner y s * inner y s - inner y y * inner s s) by (field; exact N).
    assert (D : 0 < inner y s \/ inner y s < 0) by lra. destruct D as [D|D].
    - assert (0 <= inner y y / inner y s).
      { unfold Rdiv. apply Rmult_le_pos; [exact PY|]. left. now apply Rinv_0_lt_compat. }
      split.
      + intros [[H1 _]|[_ H2]]; [lra|]. right. intros E. apply H2.
        assert (X : inner y s * (inner y s - inner y y / inner y s * inner s s) = 0) by lra.
        apply Rmult_integral in X as [X|X]; [contradiction|exact X].
      + intros [X|X]; [lra|]. right. split; [assumption|]. intros E. apply X. rewrite E in F. lra.
    - split; [now left|]. intros _.
      destruct PY as [PY|PY].
      + left. split; [|lra]. unfold Rdiv. assert (/ inner y s < 0) by now apply Rinv_lt_0_compat.
        assert (X := Rmult_lt_gt_compat_neg_l _ _ _ H PY). lra.
      + right. rewrite <- PY. unfold Rdiv. rewrite Rmult_0_l. split; [lra|lra]. }
  rewrite Q in T. destruct (test_SR1 invertible s y (/ inner y s) [] [] []); cbn [fst snd]; rewrite <- T; tauto.
Qed.
Print Assumptions C154_first.

(** If the curvature is the same positive number in all directions that are drawn, nothing is ever taken. *)
Theorem C154_isotropic : forall invertible grad llk quad_S LVt z coef pearl maxcor kw c,
  (forall M, invertible M = true <-> regular M) -> 0 < c ->
  quadratic (length coef) grad (times_vec c) ->
  (forall k, length (LVt (z k)) = length coef) ->
  sample_ys_qefs grad llk quad_S LVt z (test_SR1 invertible) coef pearl maxcor 0 kw = Some (mkMem [] [] [], 0%nat).
Proof.
  intros invertible grad llk quad_S LVt z coef pearl maxcor kw c C P Q L. unfold sample_ys_qefs. f_equal.
  apply (nothing_sampled invertible C grad LVt z coef c P). intros r k s. apply Q; [reflexivity|].
  unfold s. rewrite <- vscale_times. unfold vscale. now rewrite map_length.
Qed.
Print Assumptions C154_isotropic.

(** Finding: a model with one coefficient and log-likelihood -c x^2 / 2.  Every draw shows the curvature c, none is
    kept. *)
Theorem C154_one_refuted :
  exists grad coef, length coef = 1%nat /\ (forall x, grad [x] = [-3 * x]) /\
    forall invertible llk quad_S LVt z pearl maxcor kw,
      (forall M, invertible M = true <-> regular M) -> (forall k, exists x, LVt (z k) = [x] /\ x <> 0) ->
      sample_ys_qefs grad llk quad_S LVt z (test_SR1 invertible) coef pearl maxcor 0 kw = Some (mkMem [] [] [], 0%nat).
Proof.
  exists (times_vec (-3)), [0]. split; [reflexivity|split; [reflexivity|]].
  intros invertible llk quad_S LVt z pearl maxcor kw C D.
  apply (C154_isotropic invertible _ llk quad_S LVt z [0] pearl maxcor kw 3 C); [lra| |].
  - intros x d X Dl. destruct x as [|x [|? ?]]; try discriminate. destruct d as [|d [|? ?]]; try discriminate.
    cbn. f_equal. ring.
  - intros k. destruct (D k) as (x & -> & _). reflexivity.
Qed.
Print Assumptions C154_one_refuted.

Example C154_case :
  let s := [1; 0] in let y := [1; 1] in inner y s * inner y s <> inner y y * inner s s /\ inner y s <> 0.
Proof. cbn. lra. Qed.
