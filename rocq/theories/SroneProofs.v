(** Proofs for SroneModel. *)
From Coq Require Import List Arith Bool Reals Lra Lia Sorted.
From Verif Require Import Ext StepModel StepSpec StepProofs SampModel SampSpec SampProofs SroneModel SroneSpec.
Import ListNotations.
Local Open Scope R_scope.

Lemma inner_comm a b : inner a b = inner b a.
Proof. revert b. induction a as [|x a IH]; intros [|z b]; simpl; try reflexivity. rewrite IH. ring. Qed.

Lemma nth_map_seq {A} (f : nat -> A) n d i : (i < n)%nat -> nth i (map f (seq 0 n)) d = f i.
Proof.
  intros H. rewrite (nth_indep _ d (f 0%nat)) by (rewrite map_length, seq_length; exact H).
  rewrite map_nth, seq_nth by exact H. reflexivity.
Qed.

Definition inverse_factors (ss yy : list (list R)) (rr : list R) : Prop :=
  length yy = length ss /\ length rr = length ss /\
  forall i, (i < length ss)%nat -> inner (nth i yy []) (nth i ss []) <> 0 /\
                                   nth i rr 0 = / inner (nth i yy []) (nth i ss []).

Lemma middle_below w ss yy rr i j : inverse_factors ss yy rr -> (j <= i)%nat -> (i < length ss)%nat ->
  middle_entry w ss yy rr i j = inner (nth i ss []) (nth j yy []) - w * inner (nth i ss []) (nth j ss []) /\
  middle_entry w ss yy rr j i = inner (nth i ss []) (nth j yy []) - w * inner (nth i ss []) (nth j ss []).
Proof.
  intros (_ & _ & H) J I. unfold middle_entry, L_entry, R_entry. rewrite !dot_inner.
  destruct (Nat.eq_dec i j) as [->|N].
  - rewrite Nat.eqb_refl, Nat.ltb_irrefl. destruct (H j I) as [H1 H2].
    destruct j as [|j].
    + split; ring.
    + rewrite H2. rewrite (inner_comm (nth (S j) yy [])) in *.
      split; field; exact H1.
  - destruct (Nat.eqb_spec i j); [lia|]. destruct (Nat.eqb_spec j i); [lia|].
    destruct (Nat.ltb_spec i j); [lia|]. destruct (Nat.ltb_spec j i); [|lia].
    rewrite (inner_comm (nth j ss []) (nth i ss [])). split; ring.
Qed.

Lemma compute_omega_scaling yy ss : scaling (last ss []) (last yy []) (compute_omega yy ss).
Proof.
  unfold scaling, compute_omega. cbv zeta. rewrite !dot_inner.
  set (q := inner (last yy []) (last yy []) / inner (last yy []) (last ss [])).
  destruct (rltb q 0) eqn:E; [apply rltb_true in E; left|apply rltb_false in E; right]; auto.
Qed.

Section Contract.
Variable invertible : list (list R) -> bool.
Hypothesis inv_regular : forall M, invertible M = true <-> regular M.

Lemma invertible_defined ss yy rr : inverse_factors ss yy rr ->
  invertible (middle (compute_omega yy ss) ss yy rr) = true <-> sr1_defined ss yy.
Proof.
  intros H. assert (L : length yy = length ss) by apply H. rewrite inv_regular. split.
  - intros RG. exists (compute_omega yy ss), (middle (compute_omega yy ss) ss yy rr).
    split; [apply compute_omega_scaling|split; [congruence|split; [|split; [|split; [|exact RG]]]]].
    + unfold middle. now rewrite map_length, seq_length.
    + intros i I. unfold middle. rewrite nth_map_seq by lia. now rewrite map_length, seq_length.
    + intros i j J I e. unfold middle. rewrite !nth_map_seq by lia.
      apply middle_below; assumption.
  - intros (w & M & W & _ & LM & LR & E & RG).
    assert (w = compute_omega yy ss).
    { assert (W' := compute_omega_scaling yy ss). unfold scaling in *. cbv zeta in *. lra. }
    subst w. replace (middle (compute_omega yy ss) ss yy rr) with M; [exact RG|].
    apply (nth_ext _ _ [] []).
    { unfold middle. now rewrite map_length, seq_length, L. }
    intros i I. rewrite LM in I. unfold middle. rewrite nth_map_seq by lia.
    apply (nth_ext _ _ 0 0).
    { rewrite LR by exact I. now rewrite map_length, seq_length. }
    intros j J. rewrite LR in J by exact I. rewrite nth_map_seq by lia.
    destruct (le_lt_dec j i) as [C|C].
    + destruct (E i j C I) as [-> _]. symmetry. now apply middle_below.
    + destruct (E j i ltac:(lia) J) as [_ ->]. symmetry. apply middle_below; auto. lia.
Qed.

(** An accepted pair, before the oldest is removed. *)
Lemma inverse_factors_snoc ss yy rr s y : inverse_factors ss yy rr -> inner y s <> 0 ->
  inverse_factors (ss ++ [s]) (yy ++ [y]) (rr ++ [/ inner y s]).
Proof.
  intros (L1 & L2 & H) N. unfold inverse_factors. rewrite !app_length, L1, L2. split; [reflexivity|split; [reflexivity|]].
  intros i I. cbn [length] in I. destruct (lt_dec i (length ss)) as [C|C].
  - rewrite !app_nth1 by lia. now apply H.
  - assert (i = length ss) by lia. subst i. rewrite app_nth2 by lia. rewrite (app_nth2 ss), (app_nth2 rr) by lia.
    rewrite L1, L2, Nat.sub_diag. cbn. auto.
Qed.

Lemma test_passed ss yy rr s y : inverse_factors ss yy rr -> inner y s <> 0 ->
  test_SR1 invertible s y (/ inner y s) ss yy rr = false <-> sr1_defined (ss ++ [s]) (yy ++ [y]).
Proof.
  intros H N. unfold test_SR1.
  assert (E : negb (invertible (middle (compute_omega (yy ++ [y]) (ss ++ [s])) (ss ++ [s]) (yy ++ [y]) (rr ++ [/ inner y s]))) = false
              <-> sr1_defined (ss ++ [s]) (yy ++ [y])).
  { rewrite negb_false_iff. apply invertible_defined. now apply inverse_factors_snoc. }
  destruct ss as [|s0 ss].
  - destruct yy; [|destruct H as [H _]; discriminate]. destruct rr; [|destruct H as (_ & H & _); discriminate]. exact E.
  - exact E.
Qed.

Definition good (m : mem) : Prop :=
  inverse_factors (m_s m) (m_y m) (m_rho m) /\ (m_s m = [] \/ sr1_defined (m_s m) (m_y m)).

Lemma update_good g g' step r skip maxcor m : good m -> (length (m_s m) < maxcor)%nat ->
  good (fst (update_ys_qefs (test_SR1 invertible) g g' step r skip maxcor m)) /\
  (snd (update_ys_qefs (test_SR1 invertible) g g' step r skip maxcor m) = false ->
   length (m_s (fst (update_ys_qefs (test_SR1 invertible) g g' step r skip maxcor m))) = S (length (m_s m))) /\
  (snd (update_ys_qefs (test_SR1 invertible) g g' step r skip maxcor m) = true ->
   fst (update_ys_qefs (test_SR1 invertible) g g' step r skip maxcor m) = m).
Proof.
  intros [G1 G2] L. unfold update_ys_qefs. rewrite vsub_neg, vscale_times, dot_inner.
  set (y := minus_vec g g'). set (s := times_vec r step).
  destruct (_ || _) eqn:E; cbn [fst snd]; [split; [split; assumption|split; [discriminate|auto]]|].
  apply orb_false_iff in E as [E T]. apply orb_false_iff in E as [_ E].
  destruct (Req_EM_T (inner y s) 0) as [|N]; [discriminate|].
  rewrite mem_add_fits by (try exact L; apply G1).
  split; [split|split].
  - cbn [m_s m_y m_rho]. now apply inverse_factors_snoc.
  - right. cbn [m_s m_y]. apply (test_passed _ _ (m_rho m)); assumption.
  - intros _. cbn [m_s]. rewrite app_length. cbn. lia.
  - discriminate.
Qed.

Lemma sample_good grad LVt z coef r maxcor : forall n k m u, good m -> (length (m_s m) + n <= maxcor)%nat ->
  good (fst (sample_loop grad LVt z (test_SR1 invertible) coef r maxcor n k m u)).
Proof.
  induction n as [|n IH]; intros k m u G L; [exact G|]. cbn [sample_loop].
  destruct (update_good (grad (vsub coef (vscale r (LVt (z k))))) (grad coef) (LVt (z k)) r false maxcor m G ltac:(lia)) as (U1 & U2 & U3).
  destruct (update_ys_qefs _ _ _ _ _ _ _ _) as [m' skip]. cbn [fst snd] in *.
  apply IH; [exact U1|]. destruct skip; [rewrite U3 by reflexivity; lia|rewrite U2 by reflexivity; lia].
Qed.

(** One by one. *)
Lemma regular_one a : regular [[a]] <-> a <> 0.
Proof.
  split.
  - intros H E. subst a. assert (X : 1 = 0); [|lra].
    apply (H [1]); [reflexivity| |now left]. intros row [<-|[]]. cbn. ring.
  - intros N v L H x I. destruct v as [|b [|c v]]; try discriminate.
    destruct I as [<-|[]]. specialize (H [a] (or_introl eq_refl)). cbn in H.
    assert (a * b = 0) by lra. apply Rmult_integral in H0 as [|]; auto. contradiction.
Qed.

Lemma defined_one s y : sr1_defined [s] [y] <->
  (inner y y / inner y s < 0 /\ inner y s - inner s s <> 0) \/
  (0 <= inner y y / inner y s /\ inner y s - inner y y / inner y s * inner s s <> 0).
Proof.
  unfold sr1_defined. cbn [last length]. split.
  - intros (w & M & W & _ & LM & LR & E & RG).
    destruct M as [|row [|? ?]]; try discriminate. specialize (LR 0%nat ltac:(lia)). cbn in LR.
    destruct row as [|a [|? ?]]; try discriminate. destruct (E 0%nat 0%nat ltac:(lia) ltac:(lia)) as [EA _].
    cbn [nth] in EA. apply regular_one in RG. rewrite EA, (inner_comm s y) in RG.
    unfold scaling in W. cbv zeta in W. destruct W as [[Q ->]|[Q ->]]; [left|right]; split; auto; lra.
  - intros H. assert (X : exists w, scaling s y w /\ inner y s - w * inner s s <> 0).
    { unfold scaling. cbv zeta. destruct H as [[Q N]|[Q N]].
      - exists 1. split; [now left|lra].
      - exists (inner y y / inner y s). split; [now right|exact N]. }
    destruct X as (w & W & N). exists w, [[inner y s - w * inner s s]].
    split; [exact W|split; [reflexivity|split; [reflexivity|split; [|split]]]].
    + intros i I. assert (i = 0)%nat by lia. subst i. reflexivity.
    + intros i j J I. assert (i = 0)%nat by lia. assert (j = 0)%nat by lia. subst i j. cbn.
      rewrite (inner_comm s y). auto.
    + now apply regular_one.
Qed.
End Contract.

(** Parallel pairs. *)
Lemma inner_times_l c a b : inner (times_vec c a) b = c * inner a b.
Proof. revert b. induction a as [|x a IH]; intros [|z b]; simpl; try ring. rewrite IH. ring. Qed.
Lemma inner_times_r c a b : inner a (times_vec c b) = c * inner a b.
Proof. now rewrite inner_comm, inner_times_l, inner_comm. Qed.
Lemma inner_nonneg a : 0 <= inner a a.
Proof. induction a as [|x a IH]; simpl; [lra|]. assert (0 <= x * x) by apply Rle_0_sqr. lra. Qed.

Lemma parallel_undefined s c : 0 < c -> inner s s <> 0 -> ~ sr1_defined [s] [times_vec c s].
Proof.
  intros C N H. apply defined_one in H. rewrite !inner_times_l, !inner_times_r in H.
  assert (P := inner_nonneg s).
  assert (E : c * (c * inner s s) / (c * inner s s) = c) by (field; split; lra).
  rewrite E in H. lra.
Qed.

Section Parallel.
Variable invertible : list (list R) -> bool.
Hypothesis inv_regular : forall M, invertible M = true <-> regular M.
Variables (grad : list R -> list R) (LVt : list R -> list R) (z : nat -> list R) (coef : list R) (c : R).
Hypothesis c_pos : 0 < c.
Hypothesis isotropic : forall r k, let s := times_vec r (LVt (z k)) in
  minus_vec (grad (minus_vec coef s)) (grad coef) = times_vec c s.

Lemma nothing_sampled r maxcor : forall n k u,
  sample_loop grad LVt z (test_SR1 invertible) coef r maxcor n k (mkMem [] [] []) u = (mkMem [] [] [], u).
Proof.
  induction n as [|n IH]; intros k u; [reflexivity|]. cbn [sample_loop].
  unfold update_ys_qefs. rewrite vsub_neg, !vscale_times, vsub_minus, dot_inner.
  rewrite (isotropic r k). set (s := times_vec r (LVt (z k))).
  assert (E : test_SR1 invertible s (times_vec c s) (/ inner (times_vec c s) s) [] [] [] = true \/ inner (times_vec c s) s = 0).
  { destruct (Req_EM_T (inner (times_vec c s) s) 0) as [|N]; [now right|left].
    destruct (test_SR1 _ _ _ _ _ _ _) eqn:T; [reflexivity|exfalso].
    apply (test_passed invertible inv_regular [] [] []) in T; [|split; [reflexivity|split; [reflexivity|cbn; intros; lia]]|exact N].
    apply parallel_undefined in T; auto. intros Z. apply N. rewrite inner_times_l, Z. ring. }
  destruct (Req_EM_T (inner (times_vec c s) s) 0); cbn [orb]; [apply IH|].
  destruct E as [E|E]; [|contradiction]. cbn [m_s m_y m_rho]. rewrite E. apply IH.
Qed.
End Parallel.
