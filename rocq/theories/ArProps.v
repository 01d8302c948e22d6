(** Properties C16-C18 and C66: AR(1) residuals. *)

From Coq Require Import List Arith Bool Reals Lra Lia.
From Verif Require Import ArModel ArSpec ArProofs ArProofs2.
Import ListNotations.
Local Open Scope R_scope.

Lemma last_start s r : In 0%nat s -> exists s0, In s0 s /\ (s0 <= r)%nat /\ forall s1, In s1 s -> ~ (s0 < s1 <= r)%nat.
Proof.
  intros H0. induction r as [|r (s0 & H1 & H2 & H3)].
  - exists 0%nat. repeat split; auto. intros; lia.
  - destruct (in_dec Nat.eq_dec (S r) s) as [Hi|Hi].
    + exists (S r). repeat split; auto. intros; lia.
    + exists s0. repeat split; auto. intros s1 Hs1 Hr.
      destruct (Nat.eq_dec s1 (S r)) as [->|]; [auto|]. apply (H3 s1 Hs1). lia.
Qed.

Lemma nothing_missing n sid : (forall s, sid = Some s -> In 0%nat s) -> starts_remain (repeat true n) sid.
Proof.
  intros H. destruct sid as [s|]; [|exact I]. intros r Hr.
  destruct (last_start s r (H s eq_refl)) as (s0 & H1 & H2 & H3). exists s0. repeat split; auto.
  destruct (Nat.lt_ge_cases r n) as [Hl|Hl].
  - apply nth_repeat_lt. lia.
  - rewrite nth_overflow in Hr by (rewrite repeat_length; lia). discriminate.
Qed.

Lemma kept_all n : kept (repeat true n) = seq 0 n.
Proof.
  unfold kept. rewrite repeat_length. rewrite (filter_ext_in _ (fun _ => true)).
  - induction (seq 0 n) as [|x l IH]; simpl; [reflexivity|]. now rewrite IH.
  - intros a Ha. apply in_seq in Ha. apply nth_repeat_lt. lia.
Qed.

(** ** C17 *)

(** Rows may be missing.  If the start row of the series of every remaining row remains, residuals
    of an AR(1) process, independent between series, become uncorrelated with variance one. *)
Theorem C17_whitens_remaining_rows : forall not_na sid rho d0 d1 llc i j,
  -1 < rho < 1 -> starts_remain not_na sid ->
  computeAr1Chol not_na sid rho = Some (d0, d1, llc) ->
  let n := length (kept not_na) in
  (i < n)%nat -> (j < n)%nat ->
  cov_after n (banded d0 d1) (ar1_cor rho (series_at not_na sid)) i j = if (i =? j)%nat then 1 else 0.
Proof.
  intros not_na sid rho d0 d1 llc i j Hr Hs E n Hi Hj.
  destruct (chol_entries not_na sid rho Hs d0 d1 llc E) as (H0 & Hl & Hd0 & Hd1 & _).
  apply (whitens n rho (series_at not_na sid) (flag not_na sid)); auto.
  - apply res_mono.
  - now apply res_b0.
  - intros k Hk. now apply res_b.
Qed.
Print Assumptions C17_whitens_remaining_rows.

(** A middle row and a whole series missing. *)
Example C17_case : starts_remain [true; true; false; true; false; false; true] (Some [0; 4; 6]%nat) /\
  kept [true; true; false; true; false; false; true] = [0; 1; 3; 6]%nat /\
  map (series_at [true; true; false; true; false; false; true] (Some [0; 4; 6]%nat)) [0; 1; 2; 3]%nat = [1; 1; 1; 3]%nat.
Proof.
  split; [|split; reflexivity]. intros r Hr.
  do 7 (destruct r as [|r]; [try discriminate;
    first [exists 6%nat; repeat split; simpl; [tauto|lia|intros; lia]
          |exists 0%nat; repeat split; simpl; [tauto|lia|intros; lia]]|]).
  destruct r; discriminate.
Qed.

(** If the start row of a series is missing the series is glued to the one before: rows 1 and 2
    belong to different series, row 0, the start of the first, is missing. *)
Theorem C17_missing_start_refuted : exists d0 d1 llc,
  computeAr1Chol [false; true; true] (Some [0; 2]%nat) (3 / 5) = Some (d0, d1, llc) /\
  series_at [false; true; true] (Some [0; 2]%nat) 0 <> series_at [false; true; true] (Some [0; 2]%nat) 1 /\
  cov_after 2 (banded d0 d1) (ar1_cor (3 / 5) (series_at [false; true; true] (Some [0; 2]%nat))) 0 1 <> 0 /\
  cov_after 2 (banded d0 d1) (ar1_cor (3 / 5) (series_at [false; true; true] (Some [0; 2]%nat))) 0 0 <> 1.
Proof.
  assert (Es : sqrt (1 - 3 / 5 * (3 / 5)) = 4 / 5).
  { replace (1 - 3 / 5 * (3 / 5)) with (4 / 5 * (4 / 5)) by field. apply sqrt_square. lra. }
  eexists _, _, _. split; [reflexivity|]. split; [discriminate|].
  unfold cov_after, put, banded, ar1_cor, ar_w. simpl. rewrite Es.
  split; lra.
Qed.
Print Assumptions C17_missing_start_refuted.

(** ** C16 *)

(** No missing rows, series start anywhere (the first at row 0): residuals of a stationary AR(1)
    process within series become uncorrelated with equal variance, ... *)
Theorem C16_whitens : forall n sid rho d0 d1 llc i j,
  -1 < rho < 1 -> (forall s, sid = Some s -> In 0%nat s) ->
  computeAr1Chol (repeat true n) sid rho = Some (d0, d1, llc) ->
  (i < n)%nat -> (j < n)%nat ->
  cov_after n (banded d0 d1) (ar1_cor rho (series_of sid)) i j = if (i =? j)%nat then 1 else 0.
Proof.
  intros n sid rho d0 d1 llc i j Hr H0 E Hi Hj.
  pose proof (C17_whitens_remaining_rows _ _ _ _ _ _ i j Hr (nothing_missing n sid H0) E) as H.
  cbv zeta in H. rewrite kept_all, seq_length in H. rewrite <- H by assumption. unfold cov_after.
  apply rsum_ext. intros k Hk. apply rsum_ext. intros l Hl. unfold ar1_cor, series_at.
  rewrite kept_all, !seq_nth by assumption. reflexivity.
Qed.
Print Assumptions C16_whitens.

(** ... the transform recovers the innovations of the process, ... *)
Theorem C16_innovations : forall not_na sid rho d0 d1 llc u e i,
  -1 < rho < 1 -> starts_remain not_na sid ->
  computeAr1Chol not_na sid rho = Some (d0, d1, llc) ->
  let n := length (kept not_na) in
  ar1_process n rho (series_at not_na sid) u e -> (i < n)%nat ->
  transformed n (banded d0 d1) e i = u i.
Proof.
  intros not_na sid rho d0 d1 llc u e i Hr Hs E n Hp Hi.
  destruct (chol_entries not_na sid rho Hs d0 d1 llc E) as (H0 & Hl & Hd0 & Hd1 & _).
  apply (innovations n rho (series_at not_na sid) (flag not_na sid)); auto.
  - apply res_mono.
  - now apply res_b0.
  - intros k Hk. now apply res_b.
Qed.
Print Assumptions C16_innovations.

(** ... and the correction is the log-determinant of the transform. *)
Theorem C16_log_determinant : forall not_na sid rho d0 d1 llc,
  -1 < rho < 1 -> starts_remain not_na sid ->
  computeAr1Chol not_na sid rho = Some (d0, d1, llc) ->
  llc = ln (det (length (kept not_na)) (banded d0 d1)).
Proof.
  intros not_na sid rho d0 d1 llc Hr Hs E.
  destruct (chol_entries not_na sid rho Hs d0 d1 llc E) as (H0 & Hl & Hd0 & Hd1 & ->).
  symmetry. apply logdet; auto.
Qed.
Print Assumptions C16_log_determinant.

(** Two series of two rows each; d0 and d1 for rho = 3/5. *)
Example C16_case : (forall s, Some [0; 2]%nat = Some s -> In 0%nat s) /\
  exists d0 d1 llc, computeAr1Chol (repeat true 4) (Some [0; 2]%nat) (3 / 5) = Some (d0, d1, llc) /\
  d0 = [1; 1 / sqrt (1 - 3 / 5 * (3 / 5)); 1; 1 / sqrt (1 - 3 / 5 * (3 / 5))] /\
  d1 = [- (3 / 5) / sqrt (1 - 3 / 5 * (3 / 5)); 0; - (3 / 5) / sqrt (1 - 3 / 5 * (3 / 5))].
Proof.
  split; [intros s [= <-]; simpl; auto|].
  eexists _, _, _. split; [reflexivity|]. split; reflexivity.
Qed.

(** ** C18 *)

(** The log-likelihood of an additive model with AR(1) residuals r is the sum of the log
    densities of each row given the previous one, minus the penalty. *)
Theorem C18_gamm_llk : forall not_na sid rho d0 d1 llc r scale pen,
  -1 < rho < 1 -> 0 < scale -> starts_remain not_na sid ->
  computeAr1Chol not_na sid rho = Some (d0, d1, llc) ->
  let n := length (kept not_na) in
  exists logdens,
    gamm_get_llk n (transformed n (banded d0 d1) r) scale pen llc = rsum n logdens - pen /\
    forall k, (k < n)%nat ->
      (opens_series (series_at not_na sid) k -> logdens k = log_normal_density (r k) 0 scale) /\
      (~ opens_series (series_at not_na sid) k ->
         logdens k = log_normal_density (r k) (rho * r (k - 1)%nat) ((1 - rho * rho) * scale)).
Proof.
  intros not_na sid rho d0 d1 llc r scale pen Hr Hsc Hs E n.
  destruct (chol_entries not_na sid rho Hs d0 d1 llc E) as (H0 & Hl & Hd0 & Hd1 & ->).
  set (b := flag not_na sid) in *. fold n in H0, Hl, Hd0, Hd1 |- *.
  assert (Ho : forall k, (k < n)%nat -> b k = true <-> opens_series (series_at not_na sid) k).
  { intros k Hk. apply (opens n); auto.
    - apply res_mono.
    - now apply res_b0.
    - intros j Hj. now apply res_b. }
  exists (fun k => if b k then log_normal_density (r k) 0 scale
                   else log_normal_density (r k) (rho * r (k - 1)%nat) ((1 - rho * rho) * scale)).
  split.
  - unfold gamm_get_llk, gaussian_llk. rewrite <- rsum_fold.
    assert (forall a c d, a + c = d -> a - (pen - c) = d - pen) as Hx by (intros; lra). apply Hx. clear Hx.
    rewrite <- rsum_plus. apply rsum_ext. intros k Hk. unfold transformed.
    rewrite banded_sum by assumption. symmetry.
    rewrite <- (density_row n rho b d0 d1 Hr (res_b0 not_na sid Hs H0) Hd0 Hd1 r scale k Hk Hsc). reflexivity.
  - intros k Hk. split; intros H.
    + apply Ho in H; [|assumption]. now rewrite H.
    + destruct (b k) eqn:Eb; [|reflexivity]. exfalso. apply H. now apply Ho.
Qed.
Print Assumptions C18_gamm_llk.

(** Hidden semi-Markov models subtract the log-determinant instead of adding it. *)
Lemma hsmm_llc_det not_na sid rho d0 d1 llc : -1 < rho < 1 -> starts_remain not_na sid ->
  computeAr1Chol not_na sid rho = Some (d0, d1, llc) -> hsmm_llc d0 = llc.
Proof.
  intros Hr Hs E. destruct (chol_entries not_na sid rho Hs d0 d1 llc E) as (H0 & Hl & Hd0 & Hd1 & ->).
  unfold hsmm_llc. set (n := length (kept not_na)) in *.
  transitivity (rsum n (fun i => if Req_EM_T (nth i d0 0) 1 then 0 else ln (nth i d0 0))).
  - rewrite rsum_fold. f_equal. rewrite <- Hl. clear.
    induction d0 as [|x d IH]; [reflexivity|]. cbn [length seq map nth]. f_equal.
    rewrite IH, <- seq_shift, map_map. reflexivity.
  - apply rsum_ext. intros i Hi. rewrite Hd0 by assumption. destruct (flag not_na sid i).
    + destruct (Req_EM_T 1 1); [reflexivity|congruence].
    + destruct (Req_EM_T (ar_w rho) 1) as [E1|_]; [rewrite E1; now rewrite ln_1|reflexivity].
Qed.

Theorem C18_hsmm_sign_refuted : exists rho d0 d1 llc,
  -1 < rho < 1 /\ computeAr1Chol (repeat true 2) (Some [0%nat]) rho = Some (d0, d1, llc) /\
  forall forward, hsmm_llk forward d0 <> forward + ln (det 2 (banded d0 d1)).
Proof.
  exists (3 / 5). eexists _, _, _. split; [lra|]. split; [reflexivity|]. intros forward.
  assert (Es : sqrt (1 - 3 / 5 * (3 / 5)) = 4 / 5).
  { replace (1 - 3 / 5 * (3 / 5)) with (4 / 5 * (4 / 5)) by field. apply sqrt_square. lra. }
  unfold hsmm_llk, hsmm_llc, put, banded, ar_w, det, minor. simpl. rewrite Es.
  destruct (Req_EM_T 1 1); [|congruence].
  destruct (Req_EM_T (1 / (4 / 5)) 1) as [E|_]; [exfalso; lra|].
  match goal with |- _ <> _ + ln ?x => replace x with (5 / 4) by field end.
  replace (1 / (4 / 5)) with (5 / 4) by field.
  assert (0 < ln (5 / 4)) by (rewrite <- ln_1; apply ln_increasing; lra). lra.
Qed.
Print Assumptions C18_hsmm_sign_refuted.

(** What they do compute, for every series layout. *)
Theorem C18_hsmm_llk_partial : forall not_na sid rho d0 d1 llc forward,
  -1 < rho < 1 -> starts_remain not_na sid ->
  computeAr1Chol not_na sid rho = Some (d0, d1, llc) ->
  hsmm_llk forward d0 = forward - ln (det (length (kept not_na)) (banded d0 d1)).
Proof.
  intros not_na sid rho d0 d1 llc forward Hr Hs E. unfold hsmm_llk.
  rewrite (hsmm_llc_det _ _ _ _ _ _ Hr Hs E). f_equal.
  now apply (C16_log_determinant _ _ _ _ _ _ Hr Hs E).
Qed.
Print Assumptions C18_hsmm_llk_partial.

(** ** C66 *)

(** For non-negative rho the expected value of the transformed series inside a bump is the
    transform of the expected values of the series. *)
Theorem C66_bump_means : forall not_na sid rho d0 d1 llc template mu m d t,
  0 <= rho < 1 -> starts_remain not_na sid ->
  computeAr1Chol not_na sid rho = Some (d0, d1, llc) ->
  let n := length (kept not_na) in
  (1 < n)%nat -> ~ opens_series (series_at not_na sid) 1 ->
  (S t < n)%nat -> ~ opens_series (series_at not_na sid) (S t) ->
  m (S t) = nth d template 0 * mu (S t) ->
  m t = match d with O => 0 | S d' => nth d' template 0 * mu t end ->
  bump_mean (hsmm_rho d0) template mu d (S t) = transformed n (banded d0 d1) m (S t).
Proof.
  intros not_na sid rho d0 d1 llc template mu m d t Hr Hs E n Hn H1 Ht Hot Em1 Em0.
  destruct (chol_entries not_na sid rho Hs d0 d1 llc E) as (H0 & Hl & Hd0 & Hd1 & _). fold n in H0, Hl, Hd0, Hd1 |- *.
  set (b := flag not_na sid) in *.
  assert (Ho : forall k, (k < n)%nat -> b k = true <-> opens_series (series_at not_na sid) k).
  { intros k Hk. apply (opens n); auto.
    - apply res_mono.
    - now apply res_b0.
    - intros j Hj. now apply res_b. }
  assert (Eb1 : b 1%nat = false). { destruct (b 1%nat) eqn:Eb; [|reflexivity]. apply Ho in Eb; tauto. }
  assert (Ebt : b (S t) = false). { destruct (b (S t)) eqn:Eb; [|reflexivity]. apply Ho in Eb; tauto. }
  assert (Hrho : hsmm_rho d0 = rho).
  { unfold hsmm_rho. rewrite Hd0 by lia. rewrite Eb1. unfold ar_w.
    assert (Hp : 0 < sqrt (1 - rho * rho)) by (apply sqrt_lt_R0; nra).
    assert (Hq : sqrt (1 - rho * rho) * sqrt (1 - rho * rho) = 1 - rho * rho) by (apply sqrt_sqrt; nra).
    replace (-1 * (1 / (1 / sqrt (1 - rho * rho)) * (1 / (1 / sqrt (1 - rho * rho))) - 1)) with (rho * rho).
    - apply sqrt_square. lra.
    - replace (1 / (1 / sqrt (1 - rho * rho))) with (sqrt (1 - rho * rho)) by (field; lra). lra. }
  rewrite Hrho. unfold transformed. rewrite banded_sum by assumption. simpl apply_tr.
  rewrite Hd0, Hd1, Ebt, Em0, Em1 by lia. unfold bump_mean, ar_w. destruct d as [|d]; unfold Rdiv; ring.
Qed.
Print Assumptions C66_bump_means.

Example C66_case : ~ opens_series (series_at (repeat true 3) (Some [0%nat])) 1 /\
  ~ opens_series (series_at (repeat true 3) (Some [0%nat])) 2.
Proof. split; intros H; apply (H 0%nat); auto; lia. Qed.

(** For negative rho its sign is lost. *)
Theorem C66_negative_rho_refuted : exists rho d0 d1 llc template mu m,
  -1 < rho < 1 /\ computeAr1Chol (repeat true 3) (Some [0%nat]) rho = Some (d0, d1, llc) /\
  m 2%nat = nth 1 template 0 * mu 2%nat /\ m 1%nat = nth 0 template 0 * mu 1%nat /\
  bump_mean (hsmm_rho d0) template mu 1 2 <> transformed 3 (banded d0 d1) m 2.
Proof.
  exists (- (3 / 5)). eexists _, _, _. exists [1; 1], (fun _ => 1), (fun _ => 1).
  split; [lra|]. split; [reflexivity|]. split; [simpl; ring|]. split; [simpl; ring|].
  assert (Es : sqrt (1 - - (3 / 5) * - (3 / 5)) = 4 / 5).
  { replace (1 - - (3 / 5) * - (3 / 5)) with (4 / 5 * (4 / 5)) by field. apply sqrt_square. lra. }
  assert (Er : hsmm_rho (put (repeat (ar_w (- (3 / 5))) 3) (where_true (start_flags (repeat true 3) [0%nat])) 1) = 3 / 5).
  { unfold hsmm_rho. cbn. unfold ar_w. rewrite Es.
    replace (-1 * (1 / (1 / (4 / 5)) * (1 / (1 / (4 / 5))) - 1)) with (3 / 5 * (3 / 5)) by field.
    apply sqrt_square. lra. }
  rewrite Er. unfold bump_mean, transformed, banded. cbn. unfold ar_w. rewrite Es.
  assert (Es' : sqrt (1 - 3 / 5 * (3 / 5)) = 4 / 5).
  { replace (1 - 3 / 5 * (3 / 5)) with (4 / 5 * (4 / 5)) by field. apply sqrt_square. lra. }
  rewrite Es'. lra.
Qed.
Print Assumptions C66_negative_rho_refuted.
