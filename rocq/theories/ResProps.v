(** Residuals and simulated observations: C174 to C176. *)

From Coq Require Import Reals List Bool Arith ZArith Lia Lra.
From Verif Require Import FamModel FamSpec FamProofs FamProps GlsModel GlsSpec GlsProofs GlsProps MvnModel MvnSpec MvnProofs MvnProps
  HazModel HazSpec HazProofs HazProps ResModel ResSpec ResProofs.
Import ListNotations.
Local Open Scope R_scope.

(** ** C174: residuals of a GAMM *)

(** For a fitted model: Pearson and ar1 residuals are those stored, ar1 residuals need rho, and deviance residuals lie on
    the side of the mean the response is on and have the model's deviance as sum of squares. *)
Theorem C174_resid f l res eta rho ar y :
  length y = length eta ->
  Forall2 (fun yi e => mean_ok f (link_fi l e) /\ resp_ok f yi) y eta ->
  let m := {| f_res := Some res; f_eta := Some eta; f_rho := rho; f_res_ar := ar; f_y := y |} in
  gamm_get_resid f l m TPearson = Array res /\
  (forall v, rho <> None -> ar = Some v -> gamm_get_resid f l m TAr1 = Array v) /\
  (rho = None -> gamm_get_resid f l m TAr1 = Raises) /\
  gamm_get_resid f l m TOther = Raises /\
  exists v, gamm_get_resid f l m TDeviance = Array v /\ length v = length y /\
    (forall i, (i < length y)%nat -> same_side (nth i v 0) (nth i y 0 - link_fi l (nth i eta 0)) /\
               (nth i v 0) ^ 2 = fam_D f (nth i y 0) (link_fi l (nth i eta 0))) /\
    sum_sq v = sumf (length y) (fun i => fam_D f (nth i y 0) (link_fi l (nth i eta 0))).
Proof.
  intros Hl Hok m. split; [reflexivity|]. split; [|split; [|split; [reflexivity|]]].
  - intros v Hr ->. unfold gamm_get_resid, m. cbn. destruct rho; [reflexivity|congruence].
  - intros ->. reflexivity.
  - unfold gamm_get_resid, m. cbn [f_res f_eta f_y]. eexists. split; [reflexivity|]. rewrite general_mu.
    set (mu := map (link_fi l) eta). assert (Hm : length mu = length y) by (unfold mu; rewrite map_length; congruence).
    split; [rewrite map_length, combine_length; lia|].
    assert (P : forall i, (i < length y)%nat ->
      nth i (map (fun p => deviance_resid f (fst p) (snd p)) (combine y mu)) 0
      = deviance_resid f (nth i y 0) (link_fi l (nth i eta 0)) /\
      mean_ok f (link_fi l (nth i eta 0)) /\ resp_ok f (nth i y 0)).
    { intros i Hi. split.
      - rewrite (nth_indep _ 0 (deviance_resid f (fst (0, link_fi l 0)) (snd (0, link_fi l 0))))
          by (rewrite map_length, combine_length; lia).
        rewrite (map_nth (fun p => deviance_resid f (fst p) (snd p))), combine_nth by congruence. cbn [fst snd].
        unfold mu. now rewrite map_nth.
      - clear - Hok Hi. revert i Hi. induction Hok as [|a b y eta H Hok IH]; intros i Hi; [cbn in Hi; lia|].
        destruct i as [|i]; [exact H|]. cbn [nth]. apply IH. cbn in Hi. lia. }
    split.
    + intros i Hi. destruct (P i Hi) as (-> & A & B). now apply deviance_resid_ok.
    + rewrite <- sum_list_seq.
      assert (E : map (fun p => deviance_resid f (fst p) (snd p)) (combine y mu)
                  = map (fun i => deviance_resid f (nth i y 0) (link_fi l (nth i eta 0))) (seq 0 (length y))).
      { apply (nth_ext _ _ 0 0); [rewrite !map_length, combine_length, seq_length; lia|].
        intros i Hi. rewrite map_length, combine_length in Hi. destruct (P i ltac:(lia)) as (-> & _).
        now rewrite (nth_map_seq (fun i => deviance_resid f (nth i y 0) (link_fi l (nth i eta 0)))) by lia. }
      rewrite E. apply sum_sq_map. intros i Hi. apply in_seq in Hi. destruct (P i ltac:(lia)) as (_ & A & B).
      now apply deviance_resid_ok.
Qed.
Print Assumptions C174_resid.

(** Before fitting every type is refused. *)
Theorem C174_unfitted f l rho ar y t :
  gamm_get_resid f l {| f_res := None; f_eta := None; f_rho := rho; f_res_ar := ar; f_y := y |} t = Raises.
Proof. reflexivity. Qed.
Print Assumptions C174_unfitted.

(** Counts 3 and 0 with means 1 and 2: residuals on both sides. *)
Example C174_case :
  Forall2 (fun yi e => mean_ok Poisson (link_fi LOG e) /\ resp_ok Poisson yi) [3; 0] [0; ln 2] /\
  deviance_resid Poisson 0 2 = - 2.
Proof.
  split.
  - constructor; [|constructor; [|constructor]]; cbn [link_fi mean_ok resp_ok].
    + split; [apply exp_pos|]. exists 3%nat. simpl. ring.
    + split; [apply exp_pos|]. exists 0%nat. reflexivity.
  - unfold deviance_resid. destruct (sign_cases (0 - 2)) as [[_ ->]|[[H _]|[H _]]]; try lra.
    rewrite poisson_D by lra. destruct (Req_EM_T 0 0); [|congruence].
    match goal with |- _ * sqrt ?e = _ => replace e with (2 * 2) by ring end.
    rewrite sqrt_square by lra. ring.
Qed.

(** REFUTED: every type that passes the check of the argument gives residuals.  For type="family" of a fitted model the
    method returns None. *)
Theorem C174_family_refuted : exists f l m, f_res m <> None /\ f_eta m <> None /\
  gamm_get_resid f l m TFamily <> Raises /\ forall v, gamm_get_resid f l m TFamily <> Array v.
Proof.
  exists Gaussian, Identity, {| f_res := Some [0]; f_eta := Some [1]; f_rho := None; f_res_ar := None; f_y := [1] |}.
  repeat split; intros; discriminate.
Qed.
Print Assumptions C174_family_refuted.

(** ** C175: residuals of families with several parameters *)

(** The residual lies on the side of the mean the response is on and its square is twice the log-likelihood lost against
    a mean equal to the response. *)
Theorem C175_location_scale gammaln y mu s : 0 < s ->
  (same_side (gaumlss_resid y mu s) (y - mu) /\
   (gaumlss_resid y mu s) ^ 2 = 2 * (gaumlss_lp y y s - gaumlss_lp y mu s)) /\
  (0 < y -> 0 < mu ->
   same_side (gammals_resid y mu s) (y - mu) /\
   (gammals_resid y mu s) ^ 2 = 2 * (gammals_lp gammaln y y s - gammals_lp gammaln y mu s)).
Proof.
  intros Hs. split.
  - split.
    + unfold gaumlss_resid, same_side. pose proof (Rinv_0_lt_compat s Hs) as Hi. unfold Rdiv. split; split; intros H; nra.
    + unfold gaumlss_resid, gaumlss_lp, norm_logpdf. replace (y - y) with 0 by ring. field. lra.
  - intros Hy Hm. destruct (C21_deviance gammaln Gamma y mu s Hm Hy Hs) as (A & B & E).
    assert (E' : fam_D Gamma y mu / s = 2 * (gammals_lp gammaln y y s - gammals_lp gammaln y mu s)).
    { rewrite E. change (fam_lp gammaln Gamma) with (gammals_lp gammaln). field. lra. }
    assert (A' : 0 <= fam_D Gamma y mu / s) by (apply Rmult_le_pos; [exact A|left; now apply Rinv_0_lt_compat]).
    unfold gammals_resid. destruct (signed_root (y - mu) (fam_D Gamma y mu / s) A') as [S1 S2].
    { intros Z. apply (Rmult_eq_compat_r s) in Z. unfold Rdiv in Z. rewrite Rmult_assoc, Rinv_l, Rmult_1_r, Rmult_0_l in Z by lra.
      apply B in Z. lra. }
    split; [exact S1|]. rewrite S2, <- E'. destruct (Req_EM_T (y - mu) 0) as [Z|Z]; [|reflexivity].
    assert (fam_D Gamma y mu = 0) as -> by (apply B; lra). unfold Rdiv. ring.
Qed.
Print Assumptions C175_location_scale.

(** Multivariate residuals: the entries of R (y - mu); half the sum of their squares is the part of the log-likelihood
    lost against means equal to the responses; choosing a mean gives its column. *)
Theorem C175_multivariate m n p X links y coef :
  let M := fst (getR m (fun q => coef (length (columns p m) + q)%nat)) in
  let mu := fun i k => link_fi (links k)
              (sumf (p k) (fun a => X k i a * coef (length (columns p k) + a)%nat)) in
  (forall i, length (mvn_resid m p X links y coef None i) = m) /\
  (forall i r, (r < m)%nat ->
     nth r (mvn_resid m p X links y coef None i) 0 = sumf m (fun c => M r c * (y i c - mu i c)) /\
     mvn_resid m p X links y coef (Some r) i = [nth r (mvn_resid m p X links y coef None i) 0]) /\
  mvn_llk m n p X links mu coef - mvn_llk m n p X links y coef
  = / 2 * sumf n (fun i => sum_sq (mvn_resid m p X links y coef None i)).
Proof.
  intros M mu.
  assert (N : forall i r, (r < m)%nat ->
     nth r (mvn_resid m p X links y coef None i) 0 = sumf m (fun c => M r c * (y i c - mu i c))).
  { intros i r Hr. unfold mvn_resid.
    rewrite (nth_map_seq (fun r => mvn_yR m p X links y coef i r)) by assumption.
    unfold mvn_yR. rewrite nsum_sumf. apply sumf_ext_lt. intros c _. unfold mvn_ymu, mvn_mu, M, mu.
    rewrite nsum_sumf, !columns_length. unfold mvn_theta. ring. }
  assert (Len : forall i, length (mvn_resid m p X links y coef None i) = m)
    by (intros; unfold mvn_resid; now rewrite map_length, seq_length).
  split; [exact Len|]. split; [intros i r Hr; split; [now apply N|reflexivity]|].
  assert (A : forall y, mvn_llk m n p X links y coef = INR n * ln (det m M)
    - / 2 * sumf n (fun i => sumf m (fun r => (sumf m (fun c => M r c * (y i c - mu i c))) ^ 2)))
    by (intros y'; exact (C29_llk m n p X links y' coef)).
  rewrite (A mu), (A y).
  assert (Z : forall k, sumf k (fun _ => 0) = 0) by (clear; induction k; cbn [sumf]; lra).
  rewrite (sumf_ext_lt n (fun i => sumf m (fun r => (sumf m (fun c => M r c * (mu i c - mu i c))) ^ 2)) (fun _ => 0)).
  - rewrite (sumf_ext_lt n (fun i => sum_sq _) (fun i => sumf m (fun r => (sumf m (fun c => M r c * (y i c - mu i c))) ^ 2))).
    + rewrite Z. ring.
    + intros i _. rewrite <- sum_list_seq.
      assert (E : mvn_resid m p X links y coef None i = map (fun r => nth r (mvn_resid m p X links y coef None i) 0) (seq 0 m)).
      { apply (nth_ext _ _ 0 0); [now rewrite Len, map_length, seq_length|]. intros r Hr. rewrite Len in Hr.
        now rewrite (nth_map_seq (fun r => nth r (mvn_resid m p X links y coef None i) 0)) by assumption. }
      rewrite E. apply sum_sq_map. intros r Hr. apply in_seq in Hr. rewrite N by lia. reflexivity.
  - intros i _. rewrite (sumf_ext_lt m _ (fun _ => 0)); [apply Z|]. intros r _.
    rewrite (sumf_ext_lt m _ (fun _ => 0)); [rewrite Z; ring|intros; ring].
Qed.
Print Assumptions C175_multivariate.

(** Deviance residuals of the proportional hazard family: on the side of zero on which status minus cumulative hazard is;
    the square is twice the log-likelihood lost.  Events need a cumulative hazard not below the machine epsilon. *)
Theorem C175_survival n p X delta time r ut coef eps : table n time r ut -> 0 < eps ->
  let H := fun i => breslow n p X delta time coef (time i) * exp (lin p (X i) coef) in
  (forall i, (i < n)%nat -> 0 <= H i /\ (delta i = 0 \/ delta i = 1 /\ eps <= H i)) ->
  exists d, haz_resid_deviance n p X delta r ut eps coef None = map (fun i => Some (d i)) (seq 0 n) /\
    (forall ix, Forall (fun j => (j < n)%nat) ix ->
       haz_resid_deviance n p X delta r ut eps coef (Some ix) = map (fun j => Some (d j)) ix) /\
    (forall i, (i < n)%nat -> same_side (d i) (delta i - H i) /\ d i ^ 2 = surv_deviance (delta i) (H i)).
Proof.
  intros T He H Hok. exists (fun i => haz_deviance eps (delta i) (survival n p X delta time coef (time i) (X i))).
  pose proof (haz_resid_eq n p X delta time r ut T eps coef) as E. split; [exact E|]. split.
  - intros ix Hix. unfold haz_resid_deviance in *. rewrite E. apply map_ext_in. intros j Hj.
    rewrite Forall_forall in Hix. specialize (Hix j Hj).
    rewrite (nth_indep _ None (Some (haz_deviance eps (delta 0%nat) (survival n p X delta time coef (time 0%nat) (X 0%nat)))))
      by now rewrite map_length, seq_length.
    rewrite (map_nth (fun i => Some (haz_deviance eps (delta i) (survival n p X delta time coef (time i) (X i))))), seq_nth by assumption.
    reflexivity.
  - intros i Hi. destruct (Hok i Hi) as [A B]. unfold survival.
    replace (- breslow n p X delta time coef (time i) * exp (lin p (X i) coef)) with (- H i) by (unfold H; ring).
    now apply haz_deviance_ok.
Qed.
Print Assumptions C175_survival.

(** Three subjects (one censored) at coefficient 0: hazards 5/6, 5/6 and 1/3. *)
Example C175_case : table 3 ex_time ex_r [5; 2]%Z /\
  (forall i, (i < 3)%nat ->
     let H := breslow 3 1 (fun i _ => INR i) ex_delta ex_time (fun _ => 0) (ex_time i) * exp (lin 1 (fun _ => INR i) (fun _ => 0)) in
     0 <= H /\ (ex_delta i = 0 \/ ex_delta i = 1 /\ / 1000 <= H)) /\
  ex_delta 0 = 0 /\ ex_delta 1 = 1.
Proof.
  split; [exact haz_table_case|]. split; [|split; reflexivity].
  assert (L : forall i, exp (lin 1 (fun _ => INR i) (fun _ => 0)) = 1).
  { intros i. unfold lin. simpl. replace (0 + INR i * 0) with 0 by ring. apply exp_0. }
  intros i Hi. cbv zeta. unfold breslow, risk. cbn [sumf]. rewrite !L. unfold ex_time, ex_delta.
  destruct i as [|[|[|i]]]; [| | |lia]; simpl; lra.
Qed.

(** ** C176: simulated observations *)

(** Observations of the location-scale families are drawn from distributions whose log-density is the family's
    log-probability and that have the family's mean and variance. *)
Theorem C176_densities gammaln mu s : 0 < s ->
  (forall G y, gaumlss_lp y mu s = ln (law_pdf G (gaumlss_law mu s) y)) /\
  law_mean (gaumlss_law mu s) = mu /\ law_var (gaumlss_law mu s) = s ^ 2 /\
  (0 < mu ->
   (forall y, 0 < y -> gammals_lp gammaln y mu s = ln (law_pdf (fun a => exp (gammaln a)) (gammals_law mu s) y)) /\
   law_mean (gammals_law mu s) = mu /\ law_var (gammals_law mu s) = s * mu ^ 2).
Proof.
  intros Hs. split; [|split; [reflexivity|split; [reflexivity|]]].
  - intros G y. cbn [gaumlss_law law_pdf]. rewrite <- (gauss_lp gammaln) by nra. unfold fam_lp, gaumlss_lp.
    rewrite sqrt_pow2 by lra. reflexivity.
  - intros Hm. split; [|split].
    + intros y Hy. change (gammals_lp gammaln) with (fam_lp gammaln Gamma). rewrite gamma_lp by assumption.
      unfold gammals_law, law_pdf. do 2 f_equal. field. lra.
    + cbn. field. lra.
    + cbn. field. lra.
Qed.
Print Assumptions C176_densities.

(** Categories are drawn with the family's probabilities, which sum to one. *)
Theorem C176_categories n w : (forall i, (i < n)%nat -> 0 < w i) ->
  mulnom_weights (values n w) = values (n + 1) (cat_prob n w) /\
  Forall (fun x => 0 < x) (mulnom_weights (values n w)) /\ sum_list (mulnom_weights (values n w)) = 1.
Proof.
  intros Hw. destruct (C25_probabilities n w Hw) as (P & S1 & E).
  assert (E' : mulnom_weights (values n w) = values (n + 1) (cat_prob n w)).
  { rewrite <- E. unfold mulnom_weights, mulnom_probs. reflexivity. }
  split; [exact E'|]. rewrite E'. split.
  - unfold values. apply Forall_forall. intros x Hx. apply in_map_iff in Hx as (k & <- & Hk). apply in_seq in Hk.
    apply P. lia.
  - unfold values. now rewrite sum_list_seq.
Qed.
Print Assumptions C176_categories.

(** Rows of the multivariate family are drawn with the means given, one stream per row and the same rows for the same
    seed; the covariance is an inverse of the matrix of the quadratic form in the log-likelihood. *)
Theorem C176_multivariate V inv draw m theta mus seed :
  let M := fst (getR m theta) in let C := inv (gram m M) in
  (forall a c, (a < m)%nat -> (c < m)%nat -> sumf m (fun b => gram m M a b * C b c) = if (a =? c)%nat then 1 else 0) ->
  length (mvn_rvs V inv draw m theta mus seed) = length mus /\
  exists K, (forall d : nat -> R, sumf m (fun r => (sumf m (fun c => M r c * d c)) ^ 2) = sumf m (fun a => sumf m (fun b => d a * K a b * d b))) /\
    (forall a c, (a < m)%nat -> (c < m)%nat -> sumf m (fun b => K a b * C b c) = if (a =? c)%nat then 1 else 0) /\
    exists stream, (forall i j, stream i = stream j -> i = j) /\
      forall i mu, nth_error mus i = Some mu -> nth_error (mvn_rvs V inv draw m theta mus seed) i = Some (draw (stream i) mu C).
Proof.
  intros M C HC. rewrite mvn_rvs_rows. split; [rewrite map_length, combine_length, seq_length; lia|].
  exists (gram m M). split; [intros d; apply quad_gram|]. split; [exact HC|].
  exists (fun i => (seed + i)%nat). split; [intros; lia|]. intros i mu Hi.
  rewrite nth_error_map.
  assert (E : nth_error (combine (seq 0 (length mus)) mus) i = Some (i, mu)).
  { assert (Hl : (i < length mus)%nat) by (apply nth_error_Some; congruence).
    rewrite (nth_error_nth' _ (0%nat, mu)) by (rewrite combine_length, seq_length; lia).
    rewrite combine_nth by now rewrite seq_length. rewrite seq_nth by assumption.
    now rewrite (nth_error_nth _ _ mu Hi). }
  rewrite E. reflexivity.
Qed.
Print Assumptions C176_multivariate.

(** A diagonal factor with entries 1: the identity is its own inverse. *)
Example C176_case :
  let M := fst (getR 2 (fun _ => 0)) in
  (forall a c, (a < 2)%nat -> (c < 2)%nat ->
     sumf 2 (fun b => gram 2 M a b * (if (b =? c)%nat then 1 else 0)) = if (a =? c)%nat then 1 else 0) /\
  0 < 2 /\ (forall i, (i < 2)%nat -> 0 < (fun _ => 3) i).
Proof.
  cbv zeta. split; [|split; [lra|intros; lra]]. intros a c Ha Hc.
  assert (a = 0 \/ a = 1)%nat as [-> | ->] by lia; assert (c = 0 \/ c = 1)%nat as [-> | ->] by lia;
    unfold gram, nsum; cbn; rewrite ?exp_0; ring.
Qed.

(** REFUTED: data sets simulated with different seeds are drawn separately.  Row i of a data set uses seed + i, so for
    equal means a data set simulated with the next seed holds the rows of the first one, moved up by one. *)
Theorem C176_seeds_refuted : exists mus seed1 seed2, seed1 <> seed2 /\ (2 <= length mus)%nat /\
  forall V inv draw m theta i, (i + 1 < length mus)%nat ->
    nth_error (mvn_rvs V inv draw m theta mus seed1) (i + 1) <> None /\
    nth_error (mvn_rvs V inv draw m theta mus seed1) (i + 1) = nth_error (mvn_rvs V inv draw m theta mus seed2) i.
Proof.
  exists (repeat (fun _ => 0) 10), 0%nat, 1%nat. split; [discriminate|]. split; [cbn; lia|].
  intros V inv draw m theta i Hi. rewrite repeat_length in Hi. rewrite !mvn_rvs_rows.
  do 9 (destruct i as [|i]; [cbn; split; [discriminate|reflexivity]|]). lia.
Qed.
Print Assumptions C176_seeds_refuted.
