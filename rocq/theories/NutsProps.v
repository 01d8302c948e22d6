(** The properties of the No-U-Turn sampler. *)

From Coq Require Import List ZArith Reals Bool Lra Lia FunctionalExtensionality.
From Coquelicot Require Import Coquelicot.
From Verif Require Import NutsModel NutsSpec NutsProofs NutsProofs2 NutsProofs3 NutsProofs4 NutsProofs5 NutsProofs6.
Import ListNotations.
Local Open Scope R_scope.

(** A leapfrog step with the opposite step size leads back to where it came from. *)
Theorem C92_reversible n Minv llk grad (eps : R) (x r x' g' r' : vec) (L' : R) :
  leap_frog n Minv llk grad x (grad x) r eps = (x', g', r', L') ->
  g' = grad x' /\ L' = llk x' /\
  leap_frog n Minv llk grad x' (grad x') r' (- eps) = (x, grad x, r, llk x).
Proof.
  intros H. split; [|split]; [| |exact (leap_back _ _ _ _ _ _ _ _ _ _ _ H)]; unfold leap_frog in H; injection H as <- <- <- <-; reflexivity.
Qed.

(** Every point lies on exactly one trajectory that is infinite in both directions. *)
Theorem C92_trajectory n Minv llk grad (eps : R) (x r : vec) :
  (exists st mo, path n Minv llk grad eps st mo /\ st 0%Z = x /\ mo 0%Z = r) /\
  (forall st mo st' mo', path n Minv llk grad eps st mo -> path n Minv llk grad eps st' mo' ->
     st 0%Z = st' 0%Z -> mo 0%Z = mo' 0%Z -> forall k, st k = st' k /\ mo k = mo' k).
Proof. split; [apply path_exists|apply path_unique]. Qed.

(** A leapfrog step preserves the areas spanned by displacements, hence volumes. *)
Theorem C92_area n Minv llk grad (hess : vec -> nat -> vec) (eps : R) :
  (forall x u, moves n x u -> moves n (fun t => grad (x t)) (mul n (hess (x 0)) u)) ->
  (forall x i j, (i < n)%nat -> (j < n)%nat -> hess x i j = hess x j i) ->
  (forall i j, (i < n)%nat -> (j < n)%nat -> Minv i j = Minv j i) ->
  forall x1 r1 u1 p1 x2 r2 u2 p2,
  x1 0 = x2 0 -> r1 0 = r2 0 -> moves n x1 u1 -> moves n r1 p1 -> moves n x2 u2 -> moves n r2 p2 ->
  exists u1' p1' u2' p2',
    moves n (fun t => fst (image n Minv llk grad eps (x1 t) (r1 t))) u1' /\
    moves n (fun t => snd (image n Minv llk grad eps (x1 t) (r1 t))) p1' /\
    moves n (fun t => fst (image n Minv llk grad eps (x2 t) (r2 t))) u2' /\
    moves n (fun t => snd (image n Minv llk grad eps (x2 t) (r2 t))) p2' /\
    area n u1' p1' u2' p2' = area n u1 p1 u2 p2.
Proof. intros G S M x1 r1 u1 p1 x2 r2 u2 p2. now apply (area_preserved n Minv llk grad hess). Qed.

(** A standard normal density in one dimension. *)
Definition one : nat -> vec := fun _ _ => 1.
Definition normal (x : vec) : R := - (x 0%nat * x 0%nat) / 2.
Definition normal_grad (x : vec) : vec := fun i => - x i.

Example C92_ex :
  image 1 one normal normal_grad 1 (fun _ => 1) (fun _ => 2) = (fun _ => 5 / 2, fun _ => 1 / 4) /\
  image 1 one normal normal_grad (-1) (fun _ => 5 / 2) (fun _ => 1 / 4) = (fun _ => 1, fun _ => 2).
Proof.
  split; unfold image, leap_frog, vadd, vscale, mul, dot, normal_grad, one; cbn [vsum]; f_equal;
    apply functional_extensionality; intro; lra.
Qed.

Example C92_area_ex :
  (forall x u, moves 1 x u -> moves 1 (fun t => normal_grad (x t)) (mul 1 (fun _ _ => -1) u)) /\
  moves 1 (fun t _ => 1 + t) (fun _ => 1) /\ moves 1 (fun _ _ => 2) (fun _ => 0) /\
  moves 1 (fun _ _ => 1) (fun _ => 0) /\ moves 1 (fun t _ => 2 + t) (fun _ => 1) /\
  area 1 (fun _ => 1) (fun _ => 0) (fun _ => 0) (fun _ => 1) = 1.
Proof.
  split; [|split; [|split; [|split; [|split]]]].
  - intros x u M i I. replace i with 0%nat by lia. unfold normal_grad, mul, dot. cbn [vsum].
    replace (0 + -1 * u 0%nat) with (- u 0%nat) by ring. apply (is_derive_opp (fun t => x t 0%nat)). apply M. lia.
  - intros i I. eapply derive_eq; [apply (derive_plus (fun _ => 1) (fun t => t)); [apply is_derive_const|apply is_derive_id]|]. apply Rplus_0_l.
  - intros i I. apply (is_derive_const 2).
  - intros i I. apply (is_derive_const 1).
  - intros i I. eapply derive_eq; [apply (derive_plus (fun _ => 2) (fun t => t)); [apply is_derive_const|apply is_derive_id]|]. apply Rplus_0_l.
  - unfold area, dot. cbn. ring.
Qed.

(** Whatever is drawn, one value is recorded per step, and it is the log joint density of the state recorded
    with it; the last recorded state and value are those the chain continues with. *)
Theorem C93_recorded n Minv llk grad Madapt max_j mu delta kappa gamma t0 junk draws c :
  curL c = llk (cur c) ->
  always (fun out => length (fst out) = length draws /\
                     List.Forall (fun p => fst p = llk (snd p)) (fst out) /\
                     (curL (snd out), cur (snd out)) = last (fst out) (curL c, cur c) /\
                     curL (snd out) = llk (cur (snd out)) /\
                     m (snd out) = (m c + length draws)%nat)
    (advance_chain n Minv llk grad Madapt max_j mu delta kappa gamma t0 junk draws c).
Proof. apply advance_sound. Qed.

(** Advancing a chain in several calls has the same distribution as advancing it in one call. *)
Theorem C93_calls n Minv llk grad Madapt max_j mu delta kappa gamma t0 junk d1 d2 c g :
  let adv := advance_chain n Minv llk grad Madapt max_j mu delta kappa gamma t0 junk in
  mean (adv (d1 ++ d2) c) g
  = mean (adv d1 c) (fun r1 => mean (adv d2 (snd r1)) (fun r2 => g (fst r1 ++ fst r2, snd r2))).
Proof. apply advance_app. Qed.

Example C93_ex : curL (Chain 0 (normal (fun _ => 1)) (fun _ => 1) 1 1 0) = normal (cur (Chain 0 (normal (fun _ => 1)) (fun _ => 1) 1 1 0)).
Proof. reflexivity. Qed.

(** A subtree over 2 ^ j consecutive points of the trajectory is complete or not, whatever is drawn and
    whether it is built forwards from the point before or backwards from the point after; a complete one
    counts its points in the slice and proposes each of them with the same probability. *)
Theorem C94_proposals n Minv llk grad (eps logu H0 : R) (st mo : Z -> vec) :
  path n Minv llk grad eps st mo ->
  exists complete : Z -> nat -> bool,
  forall (v : Z) (a : Z) (j : nat), v = 1%Z \/ v = (-1)%Z ->
  let from := if (v =? -1)%Z then (a + 2 ^ Z.of_nat j)%Z else (a - 1)%Z in
  let x := build_tree n Minv llk grad logu eps H0 (st from) (mo from) v j in
  let count := in_slice_count n Minv llk logu st mo a (2 ^ j) in
  always (fun t => sprime t = complete a j) x /\
  (complete a j = true ->
     always (fun t => nprime t = count /\ naprime t = (2 ^ j)%nat /\
                      statem t = st a /\ rm t = mo a /\
                      statep t = st (a + 2 ^ Z.of_nat j - 1)%Z /\ rp t = mo (a + 2 ^ Z.of_nat j - 1)%Z /\
                      (forall i, rsum t i = zsum a (2 ^ j) (fun k => mo k i))) x /\
     ((0 < count)%nat -> forall f,
        mean x (fun t => f (stateprime t))
        = zsum a (2 ^ j) (fun k => if Rle_dec logu (joint n Minv llk (st k) (mo k)) then / INR count * f (st k) else 0))).
Proof.
  intros P. exists (valid n Minv llk logu st mo). intros v a j Hv. cbv zeta.
  assert (E : Z.of_nat (2 ^ j) = (2 ^ Z.of_nat j)%Z) by (rewrite Nat2Z.inj_pow; reflexivity).
  rewrite <- E. pose proof (build_tree_behaves n Minv llk grad logu eps H0 st mo P v j Hv a) as [Tr Fa].
  unfold begin, sz in *.
  destruct (valid n Minv llk logu st mo a j).
  - destruct (Tr eq_refl) as [A (u & _ & U & M)]. split; [|intros _; split].
    + revert A. apply always_impl. intros t (k & _ & ->). reflexivity.
    + revert A. apply always_impl. intros t (k & _ & ->). cbn. repeat split; reflexivity.
    + intros C f. rewrite M. apply zsum_ext. intros k K. rewrite (U C k K). unfold slice. cbn [stateprime canon].
      destruct (Rle_dec _ _); ring.
  - split; [apply Fa; reflexivity|discriminate].
Qed.

(** The probability of moving from one point of a trajectory to another: it is the same in both directions,
    the next point lies in the slice and less than 2 ^ max_j steps away, and points drawn uniformly from the
    slice remain uniformly distributed. *)
Theorem C95_transitions n Minv llk grad (eps logu : R) (st mo : Z -> vec) (max_j : nat) :
  path n Minv llk grad eps st mo ->
  exists w : Z -> Z -> R,
  (forall i k, 0 <= w i k) /\
  (forall i k, in_slice n Minv llk logu (st i) (mo i) -> in_slice n Minv llk logu (st k) (mo k) -> w i k = w k i) /\
  (forall i k, in_slice n Minv llk logu (st i) (mo i) -> ~ in_slice n Minv llk logu (st k) (mo k) -> w i k = 0) /\
  (forall i k, (2 ^ Z.of_nat max_j <= Z.abs (k - i))%Z -> w i k = 0) /\
  (forall i, in_slice n Minv llk logu (st i) (mo i) -> forall f,
     mean (nuts_step n Minv llk grad max_j eps (st i) (llk (st i)) (mo i) (joint n Minv llk (st i) (mo i) - logu))
          (fun s => f (cstate s))
     = zsum (i - 2 ^ Z.of_nat max_j) (2 * 2 ^ max_j) (fun k => w i k * f (st k))) /\
  (forall k, in_slice n Minv llk logu (st k) (mo k) ->
     zsum (k - 2 ^ Z.of_nat max_j) (2 * 2 ^ max_j)
       (fun i => if Rle_dec logu (joint n Minv llk (st i) (mo i)) then w i k else 0) = 1).
Proof.
  intros P. exists (kernel n Minv llk logu st mo max_j).
  assert (E : Z.of_nat (sz max_j) = (2 ^ Z.of_nat max_j)%Z) by (unfold sz; rewrite Nat2Z.inj_pow; reflexivity).
  assert (D : (2 * 2 ^ max_j)%nat = (sz max_j + sz max_j)%nat) by (unfold sz; lia).
  rewrite <- E, D.
  assert (Sl : forall k, in_slice n Minv llk logu (st k) (mo k) -> slice n Minv llk logu st mo k = true).
  { intros k K. unfold slice. destruct (Rle_dec _ _) as [|N]; [reflexivity|]. contradiction. }
  assert (Sn : forall k, ~ in_slice n Minv llk logu (st k) (mo k) -> slice n Minv llk logu st mo k = false).
  { intros k K. unfold slice. destruct (Rle_dec _ _) as [N|]; [contradiction|reflexivity]. }
  assert (Step : forall i, in_slice n Minv llk logu (st i) (mo i) -> forall f,
     mean (nuts_step n Minv llk grad max_j eps (st i) (llk (st i)) (mo i) (joint n Minv llk (st i) (mo i) - logu))
          (fun s => f (cstate s))
     = zsum (i - Z.of_nat (sz max_j)) (sz max_j + sz max_j) (fun k => kernel n Minv llk logu st mo max_j i k * f (st k))).
  { intros i Hi f. rewrite <- (value_kernel n Minv llk logu st mo max_j (fun k => f (st k)) i (Sl i Hi)).
    assert (C : in_slice_count n Minv llk logu st mo i 1 = 1%nat).
    { cbn. unfold in_slice in Hi. destruct (Rle_dec _ _); [reflexivity|contradiction]. }
    rewrite <- (doubling_value n Minv llk grad logu eps (joint n Minv llk (st i) (mo i)) st mo P (fun k => f (st k)) f max_j 0 i i None).
    - unfold nuts_step.
      change (llk (st i) - compute_energy n Minv (mo i)) with (joint n Minv llk (st i) (mo i)).
      replace (joint n Minv llk (st i) (mo i) - (joint n Minv llk (st i) (mo i) - logu)) with logu by ring.
      unfold covers. change (sz 0) with 1%nat. rewrite C, momenta_one.
      replace (i + Z.of_nat 1 - 1)%Z with i by lia. reflexivity.
    - reflexivity.
    - change (sz 0) with 1%nat. rewrite C. lia. }
  split; [intros; apply kernel_pos|]. split; [intros; apply kernel_sym; auto|].
  split; [intros; apply kernel_slice; auto|]. split; [intros; now apply kernel_far|].
  split; [exact Step|].
  intros k K. transitivity (zsum (k - Z.of_nat (sz max_j)) (sz max_j + sz max_j) (fun i => kernel n Minv llk logu st mo max_j k i * 1)).
  - apply zsum_ext. intros i _. destruct (Rle_dec logu _) as [I|I].
    + rewrite Rmult_1_r. apply kernel_sym; apply Sl; [exact I|exact K].
    + rewrite (kernel_slice n Minv llk logu st mo max_j k i); [ring|now apply Sl|now apply Sn].
  - rewrite <- (Step k K (fun _ => 1)). apply mean_const.
Qed.

(** A constant density: the trajectory of momentum 1 is the integers. *)
Definition flat (x : vec) : R := 0.
Definition flat_grad (x : vec) : vec := fun _ => 0.

Example C95_ex :
  path 1 one flat flat_grad 1 (fun k _ => IZR k) (fun _ _ => 1) /\
  (forall k, in_slice 1 one flat (-1) (fun _ => IZR k) (fun _ => 1)) /\
  mean (nuts_step 1 one flat flat_grad 1 1 (fun _ => IZR 5) 0 (fun _ => 1) (1 / 2)) (fun s => cstate s 0%nat * cstate s 0%nat)
  = 1 / 2 * 16 + 1 / 2 * 36.
Proof.
  split; [|split].
  - intros k. unfold leap_frog, vadd, vscale, mul, dot, flat_grad, one. cbn [vsum]. unfold flat.
    repeat apply (f_equal2 pair); try reflexivity; apply functional_extensionality; intro; rewrite ?plus_IZR; ring.
  - intros k. unfold in_slice, joint, compute_energy, dot, mul, dot, flat, one. cbn [vsum]. lra.
  - unfold nuts_step. cbn [doubling build_tree]. cbn [mean]. rewrite chance_half.
    unfold leaf, leap_frog, compute_energy, dot, mul, dot, flat, one, vadd, vscale, flat_grad. cbn [vsum Z.eqb Pos.eqb tm tp trm trp trsum tn cstate cL].
    repeat match goal with |- context [Rle_dec ?a ?b] => destruct (Rle_dec a b); [|exfalso; lra] end.
    unfold DeltaMax. repeat match goal with |- context [Rlt_dec ?a ?b] => destruct (Rlt_dec a b); try (exfalso; lra) end.
    all: cbn [bind sprime mean stateprime Lprime nprime tn cstate fst snd andb];
      replace (chance (INR 1 / INR 1)) with 1 by (cbn; rewrite chance_in; lra);
      repeat match goal with |- context [if ?c then _ else _] => destruct c end; cbn [mean cstate]; field.
Qed.

(** The acceptance statistic that tunes the step size is a mean of acceptance probabilities. *)
Theorem C96_statistic n Minv llk grad max_j (eps : R) (x r : vec) (e : R) : (0 < max_j)%nat ->
  always (fun s => exists a na, stat s = Some (a, na) /\ 0 <= a / INR na <= 1)
    (nuts_step n Minv llk grad max_j eps x (llk x) r e).
Proof.
  intros H. generalize (nuts_step_sound n Minv llk grad max_j eps x r e). apply always_impl.
  intros s [[_ S] N]. specialize (N H). destruct (stat s) as [[a na]|]; [|congruence]. exists a, na. split; [reflexivity|].
  destruct S as [A L]. assert (0 < INR na) by (apply lt_0_INR; lia). split.
  - apply Rmult_le_pos; [lra|]. left. apply Rinv_0_lt_compat. lra.
  - apply (Rmult_le_reg_r (INR na)); [lra|]. unfold Rdiv. rewrite Rmult_assoc, Rinv_l by lra. lra.
Qed.

(** The step size stays positive, and no longer changes when the tuning is over. *)
Theorem C96_step_size n Minv llk grad Madapt max_j mu delta kappa gamma t0 junk draws c :
  0 < eps c -> 0 < epsbar c ->
  let x := advance_chain n Minv llk grad Madapt max_j mu delta kappa gamma t0 junk draws c in
  always (fun out => 0 < eps (snd out) /\ 0 < epsbar (snd out)) x /\
  ((Madapt <= m c + 1)%nat -> eps c = epsbar c ->
   always (fun out => eps (snd out) = eps c /\ epsbar (snd out) = epsbar c) x).
Proof.
  intros P1 P2. cbv zeta. split; [now apply advance_positive|]. intros M E.
  generalize (advance_frozen n Minv llk grad Madapt max_j mu delta kappa gamma t0 junk draws c M E).
  apply always_impl. tauto.
Qed.

(** The first step size is positive, and the acceptance ratio of one step crosses one half there. *)
Theorem C96_first_step_size n Minv llk grad fuel (x r : vec) (e : R) :
  find_reasonable_epsilon n Minv llk grad fuel x r (llk x) = Some e ->
  let ratio := ratio n Minv llk grad x r in
  0 < e /\ ((ratio e <= 1 / 2 < ratio (e / 2)) \/ (1 / 2 <= ratio e /\ (ratio (2 * e) < 1 / 2 \/ e = 1 / 10 /\ ratio e = 1 / 2))).
Proof.
  intros H. cbv zeta. unfold find_reasonable_epsilon in H.
  assert (L : forall s, log_ratio n Minv llk grad x r (llk x) s
      = joint n Minv llk (fst (image n Minv llk grad s x r)) (snd (image n Minv llk grad s x r)) - joint n Minv llk x r).
  { reflexivity. }
  assert (Hf : 1 / 2 = exp (- ln 2)) by (rewrite exp_Ropp, exp_ln; lra).
  assert (Hl : ln (1 / 2) = - ln 2) by (rewrite Hf, ln_exp; reflexivity).
  assert (Le : forall s, log_ratio n Minv llk grad x r (llk x) s <= - ln 2 -> ratio n Minv llk grad x r s <= 1 / 2).
  { intros s Q. unfold ratio. rewrite <- L, Hf. destruct Q as [Q| ->]; [left; now apply exp_increasing|lra]. }
  assert (Ge : forall s, - ln 2 <= log_ratio n Minv llk grad x r (llk x) s -> 1 / 2 <= ratio n Minv llk grad x r s).
  { intros s Q. unfold ratio. rewrite <- L, Hf. destruct Q as [Q| <-]; [left; now apply exp_increasing|lra]. }
  assert (Lt : forall s, log_ratio n Minv llk grad x r (llk x) s < - ln 2 -> ratio n Minv llk grad x r s < 1 / 2).
  { intros s Q. unfold ratio. rewrite <- L, Hf. now apply exp_increasing. }
  assert (Gt : forall s, - ln 2 < log_ratio n Minv llk grad x r (llk x) s -> 1 / 2 < ratio n Minv llk grad x r s).
  { intros s Q. unfold ratio. rewrite <- L, Hf. now apply exp_increasing. }
  rewrite Hl in H. destruct (Rlt_dec _ _) as [C|C].
  - apply search_up in H; [|lra]. destruct H as (P & Q & D). split; [exact P|]. left. split; [now apply Le|].
    destruct D as [-> |D]; [lra|now apply Gt].
  - apply search_down in H; [|lra]. destruct H as (P & Q & D). split; [exact P|]. right. split; [now apply Ge|].
    destruct D as [-> |D]; [right; split; [reflexivity|]|left; now apply Lt].
    apply Rle_antisym; [apply Le; lra|apply Ge; lra].
Qed.

(** A density that decreases by a factor of exp 10 per unit: the first step size is halved once. *)
Definition steep (x : vec) : R := -10 * x 0%nat.

Example C96_ex : find_reasonable_epsilon 1 one steep flat_grad 1 (fun _ => 0) (fun _ => 1) (steep (fun _ => 0)) = Some (1 / 10 * / 2).
Proof.
  assert (L1 : / 2 < ln 2) by apply ln_lt_2.
  assert (L2 : ln 2 < 1).
  { rewrite <- (ln_exp 1). apply ln_increasing; [lra|]. pose proof (exp_ineq1 1 ltac:(lra)). lra. }
  assert (H : ln (1 / 2) = - ln 2) by (replace (1 / 2) with (/ 2) by field; apply ln_Rinv; lra).
  assert (R2 : Rpower 2 (-1) = / 2).
  { replace (-1) with (- (1)) by ring. rewrite Rpower_Ropp, Rpower_1; lra. }
  assert (E : forall e, log_ratio 1 one steep flat_grad (fun _ => 0) (fun _ => 1) (steep (fun _ => 0)) e = -10 * e).
  { intros e. unfold log_ratio, leap_frog, compute_energy, mul, dot, steep, flat_grad, one, vadd, vscale. cbn [vsum]. field. }
  unfold find_reasonable_epsilon. rewrite H, E. destruct (Rlt_dec _ _) as [C|_]; [lra|].
  cbn [search]. rewrite !E, R2.
  destruct (Rlt_dec _ _) as [_|C]; [|lra]. destruct (Rlt_dec _ _) as [C|_]; [lra|reflexivity].
Qed.

Print Assumptions C92_reversible.
Print Assumptions C92_trajectory.
Print Assumptions C92_area.
Print Assumptions C93_recorded.
Print Assumptions C93_calls.
Print Assumptions C94_proposals.
Print Assumptions C95_transitions.
Print Assumptions C96_statistic.
Print Assumptions C96_step_size.
Print Assumptions C96_first_step_size.
