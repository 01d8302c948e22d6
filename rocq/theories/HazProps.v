(** Theorems about the proportional hazards family: C30, C31, C32, C71, C72, C73 and C74. *)

From Coq Require Import Reals List Lra Lia Arith ZArith Bool FunctionalExtensionality.
From Coquelicot Require Import Coquelicot.
From Verif Require Import GlsModel GlsSpec GlsProofs GlsProofs2 MvnModel MvnSpec MvnProofs HazModel HazSpec HazProofs.
Import ListNotations.
Local Open Scope R_scope.

(** ** C30 *)

Theorem C30_partial_likelihood : forall n p X delta time r ut coef,
  table n time r ut ->
  haz_llk n p X delta r ut coef = Some (partial_loglik n p X delta time coef).
Proof. intros. now apply llk_spec. Qed.
Print Assumptions C30_partial_likelihood.

(** ** C31 *)

Theorem C31_gradient : forall n p X delta time r ut coef,
  table n time r ut ->
  exists g, haz_gradient n p X delta r ut coef = Some g /\ length g = p /\
  forall a, (a < p)%nat -> exists d, nth_error g a = Some d /\
                           partial (partial_loglik n p X delta time) a coef d.
Proof.
  intros n p X delta time r ut coef T. eexists. split; [apply (gradient_spec n p X delta time r ut T)|].
  split; [now rewrite map_length, seq_length|]. intros a Ha. eexists. split.
  - rewrite nth_error_map, (nth_error_nth' _ 0%nat) by now rewrite seq_length. rewrite seq_nth by assumption. reflexivity.
  - now apply (pl_derive n p X delta time r ut T).
Qed.
Print Assumptions C31_gradient.

(** ** C72: the Hessian *)

Theorem C72_hessian : forall n p X delta time r ut coef,
  table n time r ut ->
  exists H, haz_hessian n p X delta r ut coef = Some H /\ length H = p /\
  forall a, (a < p)%nat -> exists row, nth_error H a = Some row /\ length row = p /\
  forall b, (b < p)%nat -> exists h, nth_error row b = Some h /\
                           second (partial_loglik n p X delta time) a b coef h.
Proof.
  intros n p X delta time r ut coef T. eexists. split; [apply (hessian_spec n p X delta time r ut T)|].
  split; [now rewrite map_length, seq_length|]. intros a Ha. eexists. split.
  { rewrite nth_error_map, (nth_error_nth' _ 0%nat) by now rewrite seq_length. rewrite seq_nth by assumption. reflexivity. }
  split; [now rewrite map_length, seq_length|]. intros b Hb. eexists. split.
  { rewrite nth_error_map, (nth_error_nth' _ 0%nat) by now rewrite seq_length. rewrite seq_nth by assumption. reflexivity. }
  now apply (pl_second n p X delta time r ut T).
Qed.
Print Assumptions C72_hessian.

(** ** C32 *)

Lemma breslow_nonneg n p X delta time r ut coef t : table n time r ut ->
  (forall i, (i < n)%nat -> 0 <= delta i) -> 0 <= breslow n p X delta time coef t.
Proof.
  intros T Hd. unfold breslow. apply sumf_nonneg. intros i Hi. destruct (time i <=? t)%Z; [|lra].
  pose proof (risk_pos n p X time r ut T coef i Hi). apply Rmult_le_pos; [now apply Hd|].
  left. now apply Rinv_0_lt_compat.
Qed.

Lemma breslow_mono n p X delta time r ut coef s t : table n time r ut ->
  (forall i, (i < n)%nat -> 0 <= delta i) -> (s <= t)%Z ->
  breslow n p X delta time coef s <= breslow n p X delta time coef t.
Proof.
  intros T Hd Hst. unfold breslow.
  assert (G : forall a b m, (forall k, (k < m)%nat -> a k <= b k) -> sumf m a <= sumf m b).
  { intros a b m. induction m as [|m IH]; intros H; simpl; [lra|].
    assert (a m <= b m) by (apply H; lia). assert (sumf m a <= sumf m b) by (apply IH; intros; apply H; lia). lra. }
  apply G. intros i Hi.
  pose proof (risk_pos n p X time r ut T coef i Hi) as HR.
  assert (0 <= delta i / risk n p X time coef (time i)).
  { apply Rmult_le_pos; [now apply Hd|]. left. now apply Rinv_0_lt_compat. }
  destruct (Z.leb_spec (time i) s), (Z.leb_spec (time i) t); try lia; lra.
Qed.

(** On a fresh object the returned cumulative hazard is Breslow's estimate at every event time; it
    is non-negative and does not decrease with time. *)
Theorem C32_baseline_hazard : forall n p X delta time r ut coef,
  table n time r ut -> (0 < length ut)%nat -> (forall i, (i < n)%nat -> 0 <= delta i) ->
  exists hs, fst (get_baseline_hazard n p X delta r ut None coef) = Some hs /\
    length hs = length ut /\
    (forall j u, nth_error ut j = Some u -> nth_error hs j = Some (breslow n p X delta time coef u)) /\
    (forall j h, nth_error hs j = Some h -> 0 <= h) /\
    (forall j k tj tk hj hk, nth_error ut j = Some tj -> nth_error ut k = Some tk ->
       nth_error hs j = Some hj -> nth_error hs k = Some hk -> (tj <= tk)%Z -> hj <= hk).
Proof.
  intros n p X delta time r ut coef T Hn Hd. unfold get_baseline_hazard, haz_table.
  rewrite (prepare_eq n p X delta time r ut T) by assumption. cbn [fst]. eexists. split; [reflexivity|].
  assert (E : forall j, nth_error (map (fun e => fst (fst e)) (map (entry n p X delta time coef) ut)) j
              = option_map (breslow n p X delta time coef) (nth_error ut j)).
  { intros j. rewrite map_map, nth_error_map. reflexivity. }
  split; [now rewrite !map_length|]. split; [|split].
  - intros j u H. now rewrite E, H.
  - intros j h H. rewrite E in H. destruct (nth_error ut j); [|discriminate]. injection H as <-.
    now apply (breslow_nonneg n p X delta time r ut).
  - intros j k tj tk hj hk Hj Hk Ej Ek L. rewrite E, Hj in Ej. rewrite E, Hk in Ek.
    injection Ej as <-. injection Ek as <-. now apply (breslow_mono n p X delta time r ut).
Qed.
Print Assumptions C32_baseline_hazard.

(** Survival at a time in the table. *)
Theorem C32_survival_at_event_times : forall n p X delta time r ut coef t x V,
  table n time r ut -> In t ut ->
  exists se, fst (get_survival n p X delta r ut None coef t x V)
             = Some (exp (- (breslow n p X delta time coef t * exp (lin p x coef))), se).
Proof.
  intros n p X delta time r ut coef t x V T Ht. rewrite (survival_at n p X delta time r ut T) by assumption.
  eexists. cbn [fst]. do 2 f_equal. unfold survival. f_equal. ring.
Qed.
Print Assumptions C32_survival_at_event_times.

Definition two_times (i : nat) : Z := if (i =? 0)%nat then 3%Z else 1%Z.
Definition two_idx (i : nat) : nat := if (i =? 0)%nat then 0%nat else 1%nat.

Lemma two_table : table 2 two_times two_idx [3; 1]%Z.
Proof.
  constructor.
  - intros i j u v H Hi Hj.
    assert (Lj : (j < length [3; 1]%Z)%nat) by (apply nth_error_Some; congruence). simpl in Lj.
    assert (i = 0%nat) as -> by lia. assert (j = 1%nat) as -> by lia.
    injection Hi as <-. injection Hj as <-. reflexivity.
  - intros i H. destruct i as [|[|i]]; reflexivity.
  - intros j H. simpl in H. destruct j as [|[|j]]; [exists 0%nat|exists 1%nat|lia]; split; try lia; reflexivity.
Qed.

Lemma exp_no_coef x coef : exp (lin 0 x coef) = 1.
Proof. unfold lin. simpl. apply exp_0. Qed.

(** Between two event times the entry of the later one is used: two subjects, both with events, at
    1 and 3, no covariates.  At time 2 Breslow's estimate is 1/2, the code uses 3/2. *)
Theorem C32_between_refuted : exists n p X delta time r ut coef t x s,
  table n time r ut /\ (forall i, (i < n)%nat -> delta i = 1) /\
  fst (get_survival n p X delta r ut None coef t x None) = Some (s, None) /\
  s <> survival n p X delta time coef t x.
Proof.
  exists 2%nat, 0%nat, (fun _ _ => 0), (fun _ => 1), two_times, two_idx, [3; 1]%Z, (fun _ => 0), 2%Z, (fun _ => 0).
  exists (survival 2 0 (fun _ _ => 0) (fun _ => 1) two_times (fun _ => 0) 3 (fun _ => 0)).
  split; [apply two_table|]. split; [reflexivity|].
  pose proof (survival_at 2 0 (fun _ _ => 0) (fun _ => 1) two_times two_idx _ two_table (fun _ => 0) 3 (fun _ => 0) None
    ltac:(now left)) as E. split.
  - transitivity (fst (get_survival 2 0 (fun _ _ => 0) (fun _ => 1) two_idx [3; 1]%Z None (fun _ => 0) 3 (fun _ => 0) None));
      [reflexivity|]. rewrite E. reflexivity.
  - clear E. unfold survival. rewrite exp_no_coef. intros Q. apply exp_inv in Q. revert Q.
    unfold breslow, risk. simpl. rewrite !exp_no_coef. lra.
Qed.
Print Assumptions C32_between_refuted.

(** After the last event time there is no result at all (ValueError: min of an empty array). *)
Theorem C32_after_last_refuted : exists n p X delta time r ut coef t x,
  table n time r ut /\ (forall i, (i < n)%nat -> (time i <= t)%Z) /\
  fst (get_survival n p X delta r ut None coef t x None) = None.
Proof.
  exists 2%nat, 0%nat, (fun _ _ => 0), (fun _ => 1), two_times, two_idx, [3; 1]%Z, (fun _ => 0), 4%Z, (fun _ => 0).
  split; [apply two_table|]. split.
  - intros i Hi. unfold two_times. destruct (i =? 0)%nat; lia.
  - unfold get_survival, surv_time. simpl.
    destruct (prepare 2 0 (fun _ _ => 0) (fun _ => 1) two_idx [3; 1]%Z (fun _ => 0)); reflexivity.
Qed.
Print Assumptions C32_after_last_refuted.

(** ** C71: predictions belong to the coefficients they are asked for *)

(** The table is computed once; a second call with other coefficients returns the first hazards. *)
Theorem C71_stale_refuted : exists n p X delta time r ut c1 c2 h1 h2,
  table n time r ut /\
  let obj := snd (get_baseline_hazard n p X delta r ut None c1) in
  fst (get_baseline_hazard n p X delta r ut obj c2) = Some h1 /\
  fst (get_baseline_hazard n p X delta r ut None c2) = Some h2 /\ h1 <> h2.
Proof.
  exists 2%nat, 1%nat, (fun _ _ => 1), (fun _ => 1), two_times, two_idx, [3; 1]%Z, (fun _ => 0), (fun _ => 1).
  pose proof (prepare_eq 2 1 (fun _ _ => 1) (fun _ => 1) two_times two_idx _ two_table (fun _ => 0) ltac:(simpl; lia)) as E1.
  pose proof (prepare_eq 2 1 (fun _ _ => 1) (fun _ => 1) two_times two_idx _ two_table (fun _ => 1) ltac:(simpl; lia)) as E2.
  eexists. eexists. split; [apply two_table|]. cbv zeta.
  unfold get_baseline_hazard, haz_table. rewrite E1, E2. cbn [fst snd].
  split; [reflexivity|]. split; [reflexivity|].
  cbn [map entry fst]. intros Q. injection Q as _ Q. revert Q. unfold entry, breslow, risk, lin. simpl.
  replace (0 + 1 * 0) with 0 by ring. replace (0 + 1 * 1) with 1 by ring. rewrite exp_0.
  pose proof (exp_ineq1 1 ltac:(lra)) as He. intros Q.
  assert (Q' : 1 / 2 = 1 / (2 * exp 1)).
  { replace (1 / 2) with (0 + 0 + 1 / (0 + 1 + 1)) by field.
    replace (1 / (2 * exp 1)) with (0 + 0 + 1 / (0 + exp 1 + exp 1)) by (field; lra). exact Q. }
  assert (exp 1 = 1); [|lra]. apply Rmult_eq_reg_l with (1 / 2); [|lra]. rewrite Q' at 1. field. lra.
Qed.
Print Assumptions C71_stale_refuted.

(** On a fresh object, and on an object last used with the same coefficients, predictions belong to
    the coefficients. *)
Theorem C71_fresh : forall n p X delta time r ut coef t x V t' x' V',
  table n time r ut -> In t ut -> In t' ut ->
  let '(res1, obj) := get_survival n p X delta r ut None coef t x V in
  (exists se, res1 = Some (survival n p X delta time coef t x, se)) /\
  fst (get_survival n p X delta r ut obj coef t' x' V')
  = fst (get_survival n p X delta r ut None coef t' x' V').
Proof.
  intros n p X delta time r ut coef t x V t' x' V' T Ht Ht'.
  rewrite (survival_at n p X delta time r ut T) by assumption. split; [eexists; reflexivity|].
  unfold get_survival, haz_table. cbn [fst].
  assert (Hn : (0 < length ut)%nat) by (destruct ut; [contradiction|simpl; lia]).
  rewrite (prepare_eq n p X delta time r ut T) by assumption. reflexivity.
Qed.
Print Assumptions C71_fresh.

(** ** C73: Martingale residuals *)

Theorem C73_martingale : forall n p X delta time r ut coef,
  table n time r ut ->
  get_resid n p X delta r ut None coef
  = map (fun i => Some (delta i - breslow n p X delta time coef (time i) * exp (lin p (X i) coef))) (seq 0 n) /\
  sumf n (fun i => delta i - breslow n p X delta time coef (time i) * exp (lin p (X i) coef)) = 0.
Proof.
  intros n p X delta time r ut coef T. split.
  - rewrite (get_resid_eq n p X delta time r ut T). reflexivity.
  - exact (martingale_sum n p X delta time r ut T coef).
Qed.
Print Assumptions C73_martingale.

(** ** C74: standard errors of the survival estimate *)

(** The returned standard error is the delta-method one: the variance of the cumulative hazard for
    known coefficients plus the quadratic form of the gradient of the survival estimate in the
    covariance matrix of the coefficients. *)
Theorem C74_delta_method : forall n p X delta time r ut coef t x W,
  table n time r ut -> In t ut ->
  exists s se grad,
    fst (get_survival n p X delta r ut None coef t x (Some W)) = Some (s, Some se) /\
    (forall a, (a < p)%nat -> partial (fun c => survival n p X delta time c t x) a coef (grad a)) /\
    (0 <= breslow_var n p X delta time coef t ->
     0 <= sumf p (fun b => sumf p (fun c => grad c * W c b) * grad b) ->
     0 <= se /\
     se ^ 2 = (s * exp (lin p x coef)) ^ 2 * breslow_var n p X delta time coef t
              + sumf p (fun b => sumf p (fun c => grad c * W c b) * grad b)).
Proof.
  intros n p X delta time r ut coef t x W T Ht.
  rewrite (survival_at n p X delta time r ut T) by assumption. cbn [fst].
  set (e := exp (lin p x coef)). set (s := survival n p X delta time coef t x).
  set (v := fun c => - breslow n p X delta time coef t * x c + breslow1 n p X delta time coef t c).
  eexists. eexists. exists (fun a => e * s * v a). split; [reflexivity|]. split.
  - intros a Ha. now apply (survival_derive n p X delta time r ut T).
  - intros Hq HW.
    assert (He : 0 < e) by apply exp_pos. assert (Hs : 0 < s) by apply exp_pos.
    assert (E : sumf p (fun b => sumf p (fun c => e * s * v c * W c b) * (e * s * v b))
                = (e * s) ^ 2 * sumf p (fun b => sumf p (fun c => v c * W c b) * v b)).
    { rewrite <- sumf_scal. apply sumf_ext. intros b _.
      rewrite (sumf_ext p _ (fun c => (e * s) * (v c * W c b))) by (intros; ring). rewrite sumf_scal. ring. }
    rewrite E in HW |- *.
    rewrite nsum_sumf. rewrite (sumf_ext p _ (fun b => sumf p (fun c => v c * W c b) * v b))
      by (intros; now rewrite nsum_sumf).
    assert (Hes : 0 < (e * s) ^ 2) by (apply pow_lt; now apply Rmult_lt_0_compat).
    set (Q := sumf p (fun b => sumf p (fun c => v c * W c b) * v b)) in *.
    assert (HQ : 0 <= Q).
    { destruct (Rle_lt_dec 0 Q) as [|L]; [assumption|]. exfalso.
      pose proof (Rmult_lt_gt_compat_neg_l). nra. }
    split.
    + apply Rmult_le_pos; [nra|apply sqrt_pos].
    + rewrite Rpow_mult_distr, pow2_sqrt by lra. ring.
Qed.
Print Assumptions C74_delta_method.

(** ** A concrete case: three subjects with times 5, 5 and 2, the first censored, one covariate. *)

Definition ex_time (i : nat) : Z := if (i =? 2)%nat then 2%Z else 5%Z.
Definition ex_r (i : nat) : nat := if (i =? 2)%nat then 1%nat else 0%nat.
Definition ex_delta (i : nat) : R := if (i =? 0)%nat then 0 else 1.

Example haz_table_case : table 3 ex_time ex_r [5; 2]%Z.
Proof.
  constructor.
  - intros i j u v H Hi Hj.
    assert (Lj : (j < length [5; 2]%Z)%nat) by (apply nth_error_Some; congruence). simpl in Lj.
    assert (i = 0%nat) as -> by lia. assert (j = 1%nat) as -> by lia.
    injection Hi as <-. injection Hj as <-. reflexivity.
  - intros i H. destruct i as [|[|[|i]]]; try reflexivity; lia.
  - intros j H. simpl in H. destruct j as [|[|j]]; [exists 0%nat|exists 2%nat|lia]; split; try lia; reflexivity.
Qed.

(** At coefficient 0: -ln 2 - ln 3; hazards 1/3 at time 2 and 1/3 + 1/2 at time 5. *)
Example haz_values_case :
  haz_llk 3 1 (fun i _ => INR i) ex_delta ex_r [5; 2]%Z (fun _ => 0) = Some (- ln 2 - ln 3) /\
  haz_gradient 3 1 (fun i _ => INR i) ex_delta ex_r [5; 2]%Z (fun _ => 0) = Some [3 / 2] /\
  fst (get_baseline_hazard 3 1 (fun i _ => INR i) ex_delta ex_r [5; 2]%Z None (fun _ => 0)) = Some [5 / 6; 1 / 3] /\
  breslow_var 3 1 (fun i _ => INR i) ex_delta ex_time (fun _ => 0) 5 = 1 / 4 + 1 / 9.
Proof.
  assert (L : forall i, exp (lin 1 (fun _ => INR i) (fun _ => 0)) = 1).
  { intros i. unfold lin. simpl. replace (0 + INR i * 0) with 0 by ring. apply exp_0. }
  split; [|split; [|split]].
  - rewrite (llk_spec 3 1 _ ex_delta ex_time ex_r _ haz_table_case). f_equal.
    unfold partial_loglik, risk. cbn [sumf]. rewrite !L. unfold lin, ex_time, ex_delta. simpl.
    replace (0 + 1 + 1 + 0) with 2 by ring. replace (0 + 1 + 1 + 1) with 3 by ring. ring.
  - rewrite (gradient_spec 3 1 _ ex_delta ex_time ex_r _ haz_table_case). cbn [seq map]. do 2 f_equal.
    unfold grad_spec, risk1, risk, gam. cbn [sumf]. rewrite !L. unfold ex_time, ex_delta. simpl. field.
  - unfold get_baseline_hazard, haz_table.
    rewrite (prepare_eq 3 1 _ ex_delta ex_time ex_r _ haz_table_case) by (simpl; lia). cbn [map entry fst].
    unfold entry, breslow, risk. cbn [sumf fst]. rewrite !L. unfold ex_time, ex_delta. simpl. f_equal. f_equal; [field|f_equal; field].
  - unfold breslow_var, risk. cbn [sumf]. rewrite !L. unfold ex_time, ex_delta. simpl. field.
Qed.
