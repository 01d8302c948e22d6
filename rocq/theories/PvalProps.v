(** C89: p-value and statistic of a smooth term do not depend on the orientation of eigenvectors.
    C90: every smooth term is tested with, and shown next to, its own coefficients and degrees of freedom. *)

From Coq Require Import List Bool Arith Reals Lia Lra.
From Verif Require Import PvalModel PvalSpec PvalProofs.
Import ListNotations.
Local Open Scope R_scope.

(** ** C89 *)

(** Integer degrees of freedom, eigenvectors whose first entries are not zero: both versions of the statistic are the sum
    of squared components divided by eigenvalues. *)
Theorem C89_integer pval div n k s U b : (0 < k <= n)%nat -> (forall i, (i < k)%nat -> U 0%nat i <> 0) ->
  let t := sum_to k (fun i => along n U b i * along n U b i / s i) in
  smooth_test pval div n k 0 s U b = (pval k 0 t, if div then t / INR k else t).
Proof.
  intros K H t. unfold smooth_test. destruct (Nat.eqb_spec k 0); [lia|]. rewrite (integer_value n k s U b K H). fold t. f_equal; [lra|].
  destruct div; [|now rewrite Rmax_left by lra]. rewrite Rplus_0_r. now rewrite Rmax_left by lra.
Qed.

(** With integer degrees of freedom no orientation matters.  Otherwise the last two of the k + 1 eigenvectors have to be reversed
    together. *)
Theorem C89_orientation pval div n k v s U b flip : (v = 0 \/ flip (k - 1)%nat = flip k) ->
  smooth_test pval div n k v s (reversed U flip) b = smooth_test pval div n k v s U b.
Proof.
  intros F. unfold smooth_test. destruct (Nat.eqb_spec k 0); [easy|].
  pose proof (first_invariant n k v s U flip b ltac:(lia)) as A. pose proof (second_invariant n k v s U flip b ltac:(lia) F) as B.
  destruct (statistics n k v s (reversed U flip) b), (statistics n k v s U b). cbn in A, B. now subst.
Qed.

(** The first of the two statistics never depends on the orientation. *)
Theorem C89_first n k v s U b flip : (0 < k)%nat -> fst (statistics n k v s (reversed U flip) b) = fst (statistics n k v s U b).
Proof. apply first_invariant. Qed.

(** Degrees of freedom k + v with 0 < v < 1: the first k components count fully, the next one with weight v, and a product of the last two is added
    whose sign is that of the eigenvectors' first entries in the first statistic, and left to the eigen-solver in the second.  A term without
    degrees of freedom has p-value 1. *)
Theorem C89_general pval div n q v s U b : v <> 0 -> (forall i, (i <= S q)%nat -> 0 < s i /\ U 0%nat i <> 0) ->
  let a := along n U b in
  let base := sum_to (S q) (fun i => a i * a i / s i) + v * (a (S q) * a (S q)) / s (S q) in
  let cross := 2 * sqrt (v * (1 - v) / 2) * (a q * a (S q)) / (sqrt (s q) * sqrt (s (S q))) in
  let t1 := base + (if Rlt_dec (U 0%nat q * U 0%nat (S q)) 0 then - cross else cross) in
  let t2 := base + cross in
  smooth_test pval div n (S q) v s U b =
    ((pval (S q) v t1 + pval (S q) v t2) / 2, if div then Rmax (t1 / (INR (S q) + v)) (t2 / (INR (S q) + v)) else Rmax t1 t2) /\
  fst (smooth_test pval div n 0 v s U b) = 1.
Proof.
  intros Hv H a base cross t1 t2. split; [|reflexivity]. unfold smooth_test. destruct (Nat.eqb_spec (S q) 0); [lia|].
  pose proof (general_value n q v s U b Hv H) as G. cbv zeta in G. fold a base cross in G. rewrite G. fold t2.
  assert (E : base + sign (U 0%nat q) * sign (U 0%nat (S q)) * cross = t1).
  { unfold t1. f_equal. destruct (H q ltac:(lia)) as [_ A]. destruct (H (S q) ltac:(lia)) as [_ B]. unfold sign.
    destruct (Rlt_dec (U 0%nat q) 0), (Rlt_dec 0 (U 0%nat q)), (Rlt_dec (U 0%nat (S q)) 0), (Rlt_dec 0 (U 0%nat (S q))), (Rlt_dec (U 0%nat q * U 0%nat (S q)) 0); try lra; exfalso; nra. }
  rewrite E. destruct div; reflexivity.
Qed.

(** Eigenvectors (3/5, 4/5) and (-4/5, 3/5) with eigenvalues 4 and 1. *)
Definition rotation : nat -> nat -> R := fun r c =>
  match r, c with O, O => 3/5 | O, S O => -4/5 | S O, O => 4/5 | S O, S O => 3/5 | _, _ => 0 end.
Definition eigenvalues : nat -> R := fun i => match i with O => 4 | _ => 1 end.
Definition orthonormal (n : nat) (U : nat -> nat -> R) : Prop :=
  forall i j, (i < n)%nat -> (j < n)%nat -> sum_to n (fun r => U r i * U r j) = if (i =? j)%nat then 1 else 0.
Definition at_1 : nat -> R := fun r => match r with S O => 1 | _ => 0 end.

Lemma rotation_orthonormal : orthonormal 2 rotation.
Proof. intros [|[|i]] [|[|j]] Hi Hj; try lia; unfold sum_to; cbn; lra. Qed.

Example C89_integer_case : smooth_test (fun _ _ x => / (1 + x)) true 2 1 0 eigenvalues rotation at_1 = (/ (1 + 4/25), 4/25).
Proof.
  rewrite C89_integer; [|lia|intros [|i] H; [cbn; lra|lia]]. unfold along, sum_to. cbn. f_equal; [f_equal; lra|lra].
Qed.

Lemma sqrt_ninth : sqrt (1/3 * (1 - 1/3) / 2) = 1/3.
Proof. replace (1/3 * (1 - 1/3) / 2) with (1/3 * (1/3)) by lra. apply sqrt_square. lra. Qed.
Lemma sqrt_four : sqrt 4 = 2.
Proof. replace 4 with (2 * 2) by lra. apply sqrt_square. lra. Qed.
Lemma sign_neg x : x < 0 -> sign x = -1.
Proof. intros. unfold sign. destruct (Rlt_dec x 0); lra. Qed.
Lemma sign_pos x : 0 < x -> sign x = 1.
Proof. intros. unfold sign. destruct (Rlt_dec x 0), (Rlt_dec 0 x); lra. Qed.

Lemma rotation_statistics flip : flip 0%nat = false ->
  statistics 2 1 (1/3) eigenvalues (reversed rotation flip) at_1 = (4/25 + 3/25 - 4/25, if flip 1%nat then 4/25 + 3/25 - 4/25 else 4/25 + 3/25 + 4/25).
Proof.
  intros F. unfold statistics. destruct (Req_EM_T (1/3) 0); [lra|]. unfold quadratic, signed, reversed, S_real, sum_to, rotation, eigenvalues, at_1.
  cbn -[sqrt sign]. rewrite F, sqrt_ninth, sqrt_four, sqrt_1. destruct (flip 1%nat).
  - rewrite (sign_pos (3/5)), (sign_pos (- (-4/5))) by lra. f_equal; field.
  - rewrite (sign_pos (3/5)), (sign_neg (-4/5)) by lra. f_equal; field.
Qed.

Example C89_general_case pval : fst (smooth_test pval false 2 1 (1/3) eigenvalues rotation at_1) = (pval 1%nat (1/3) (3/25) + pval 1%nat (1/3) (11/25)) / 2.
Proof.
  change rotation with (reversed rotation (fun _ => false)). unfold smooth_test. cbn [Nat.eqb]. rewrite rotation_statistics by easy. cbn [fst].
  replace (4/25 + 3/25 - 4/25) with (3/25) by lra. now replace (4/25 + 3/25 + 4/25) with (11/25) by lra.
Qed.
(** For other degrees of freedom statistic and p-value change when the eigen-solver returns one eigenvector reversed. *)
Theorem C89_orientation_refuted : exists n k v s U b flip, orthonormal n U /\ (forall i, (i < n)%nat -> U 0%nat i <> 0) /\
  0 < v < 1 /\ (k < n)%nat /\ (forall i, (i < n)%nat -> 0 < s i) /\
  forall pval div, (forall x y, x < y -> pval k v y < pval k v x) ->
    fst (smooth_test pval div n k v s (reversed U flip) b) <> fst (smooth_test pval div n k v s U b) /\
    snd (smooth_test pval div n k v s (reversed U flip) b) <> snd (smooth_test pval div n k v s U b).
Proof.
  exists 2%nat, 1%nat, (1/3), eigenvalues, rotation, at_1, (fun c => c =? 1)%nat.
  split; [apply rotation_orthonormal|]. split; [intros [|[|i]] H; cbn; try lra; lia|]. split; [lra|]. split; [lia|].
  split; [intros [|i] _; cbn; lra|]. intros pval div D. unfold smooth_test. cbn [Nat.eqb].
  rewrite (rotation_statistics (fun c => c =? 1)%nat) by easy. cbn [Nat.eqb].
  change (statistics 2 1 (1/3) eigenvalues rotation at_1) with (statistics 2 1 (1/3) eigenvalues (reversed rotation (fun _ => false)) at_1).
  rewrite rotation_statistics by easy. cbn [fst snd].
  assert (L : 4/25 + 3/25 - 4/25 < 4/25 + 3/25 + 4/25) by lra. pose proof (D _ _ L) as P. split; [lra|].
  set (x := 4/25 + 3/25 - 4/25) in *. set (y := 4/25 + 3/25 + 4/25) in *. rewrite (Rmax_left _ _ (Rle_refl _)).
  destruct div.
  - cbn [INR]. assert (Q : x / (1 + 1/3) < y / (1 + 1/3)) by (unfold x, y; lra). rewrite Rmax_right by lra. lra.
  - rewrite Rmax_right by lra. lra.
Qed.

(** An eigenvector with first entry zero is dropped: here the second of two, which holds all of [b]. *)
Theorem C89_zero_entry_refuted : exists n k s U b, orthonormal n U /\ (0 < k <= n)%nat /\ (forall i, (i < n)%nat -> 0 < s i) /\
  let t := sum_to k (fun i => along n U b i * along n U b i / s i) in
  0 < t /\ forall pval div, smooth_test pval div n k 0 s U b = (pval k 0 0, 0).
Proof.
  exists 2%nat, 2%nat, eigenvalues, (fun r c => if (r =? c)%nat then 1 else 0), at_1.
  split; [intros [|[|i]] [|[|j]] Hi Hj; try lia; unfold sum_to; cbn; lra|]. split; [lia|].
  split; [intros [|i] _; cbn; lra|]. split; [unfold along, sum_to; cbn; lra|]. intros pval div. unfold smooth_test. cbn [Nat.eqb].
  assert (E : statistics 2 2 0 eigenvalues (fun r c => if (r =? c)%nat then 1 else 0) at_1 = (0, 0)).
  { unfold statistics. destruct (Req_EM_T 0 0); [|easy]. unfold quadratic, signed, S_int, sum_to, eigenvalues, at_1. cbn -[sign].
    rewrite sign_zero. f_equal; field. }
  rewrite E. f_equal; [lra|]. rewrite Rmax_left by (destruct div; lra). destruct div; [|easy]. field. cbn. lra.
Qed.

(** ** C90 *)
Local Close Scope R_scope.

Theorem C90_own f : proper f -> irfs f = [] -> Forall (fun t => t_unpen t = 0) (smooths f) ->
  approx_tests f = own_tests f /\ shown_edf f = own_shown f.
Proof.
  intros (HL & HR & HS) EI HU.
  assert (Z : list_sum (map edf_slots (linear f)) = 0).
  { apply lsum_zero. apply Forall_impl with (2 := HL). intros t Ht. unfold edf_slots, penalised. rewrite Ht. now destruct (t_coef t =? 0). }
  split.
  - pose proof (tests_own f (smooths f) [] eq_refl EI HL HS HU) as T. rewrite app_nil_r, Z in T. unfold own_tests. etransitivity; [|exact T]. unfold approx_tests. f_equal.
    unfold unpenalized_coef, all_terms. rewrite EI. cbn [app]. rewrite !map_app, !list_sum_app, (lsum_zero t_unpen (smooths f) HU), (lsum_zero t_unpen (randoms f)).
    + rewrite (lsum_same _ _ _ HL). lia.
    + apply Forall_impl with (2 := HR). now intros t [H _].
  - assert (A : Forall (fun t => 0 < t_coef t) (smooths f ++ randoms f)).
    { apply Forall_app. split; [apply Forall_impl with (2 := HS)|apply Forall_impl with (2 := HR)]; intros t; tauto. }
    assert (B : Forall (fun t => t_unpen t = 0) (smooths f ++ randoms f)).
    { apply Forall_app. split; [easy|]. apply Forall_impl with (2 := HR). intros t; tauto. }
    pose proof (shown_own f (smooths f ++ randoms f) [] eq_refl EI HL A B) as T. rewrite app_nil_r, Z in T. exact T.
Qed.

(** Intercept and slope, a smooth with 9 coefficients for each of two levels, a random smooth, a smooth with 9 coefficients, a random slope
    for 4 subjects. *)
Definition usual : form := Form [STerm 1 1 None false false; STerm 1 1 None false false] []
  [STerm 18 0 (Some 2) false false; STerm 40 0 (Some 4) true true; STerm 9 0 None false false] [STerm 4 0 None false false].
Example C90_usual : proper usual /\ irfs usual = [] /\ Forall (fun t => t_unpen t = 0) (smooths usual) /\
  approx_tests usual = [(2, 9, 0); (11, 9, 1); (60, 9, 3)] /\ shown_edf usual = [0; 1; 2; 3; 4].
Proof. unfold proper. repeat split; repeat constructor; cbn; lia. Qed.

(** Impulse response terms come before smooth terms, but neither their coefficients nor their entries are skipped: the smooth is
    tested with coefficients of the impulse response term. *)
Theorem C90_irf_refuted : exists f, proper f /\ Forall (fun t => t_unpen t = 0) (irfs f ++ smooths f) /\
  approx_tests f = [(1, 9, 0)] /\ own_tests f = [(11, 9, 1)] /\ shown_edf f = [0] /\ own_shown f = [1].
Proof.
  exists (Form [STerm 1 1 None false false] [STerm 10 0 None false false] [STerm 9 0 None false false] []).
  unfold proper. repeat split; repeat constructor; cbn; lia.
Qed.
(** Coefficients of an unpenalised smooth count as unpenalised, so that it is tested with the coefficients of the next smooth, and both are shown
    with the wrong degrees of freedom. *)
Theorem C90_unpenalised_refuted : exists f, proper f /\ irfs f = [] /\
  approx_tests f = [(6, 5, 0); (11, 9, 1)] /\ own_tests f = [(1, 5, 0); (6, 9, 0)] /\ list_sum (map edf_slots (all_terms f)) = 1 /\
  list_sum (map t_coef (all_terms f)) = 15.
Proof.
  exists (Form [STerm 1 1 None false false] [] [STerm 5 5 None false false; STerm 9 0 None false false] []).
  unfold proper. repeat split; repeat constructor; cbn; lia.
Qed.

Print Assumptions C89_integer.
Print Assumptions C89_orientation.
Print Assumptions C89_first.
Print Assumptions C89_general.
Print Assumptions C89_orientation_refuted.
Print Assumptions C89_zero_entry_refuted.
Print Assumptions C90_own.
Print Assumptions C90_irf_refuted.
Print Assumptions C90_unpenalised_refuted.
