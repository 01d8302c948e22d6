(** Lemmas for links, exponential families and working weights. *)

From Coq Require Import Reals List Lra Lia.
From Coquelicot Require Import Coquelicot.
From Verif Require Import Ext FamModel FamSpec.
Import ListNotations.
Local Open Scope R_scope.

(** ** Logarithm *)

Lemma ln_lt_minus1 x : 0 < x -> x <> 1 -> ln x < x - 1.
Proof.
  intros Hx H1. assert (H : 1 + ln x < exp (ln x)).
  { apply exp_ineq1. intros E. apply H1. rewrite <- (exp_ln x) by assumption. rewrite E. apply exp_0. }
  rewrite exp_ln in H by assumption. lra.
Qed.

Lemma ln_le_minus1 x : 0 < x -> ln x <= x - 1.
Proof.
  intros Hx. destruct (Req_dec x 1) as [->|H]; [rewrite ln_1; lra|].
  left. now apply ln_lt_minus1.
Qed.

(** ** Links *)

Lemma link_fi_dom l eta : link_dom l (link_fi l eta).
Proof.
  pose proof (exp_pos eta). destruct l; simpl; auto; try lra.
  split.
  - apply Rdiv_lt_0_compat; lra.
  - apply Rmult_lt_reg_r with (1 + exp eta); [lra|]. unfold Rdiv. rewrite Rmult_assoc, Rinv_l by lra. lra.
Qed.

Lemma link_fi_f l mu : link_dom l mu -> link_fi l (link_f l mu) = mu.
Proof.
  destruct l; simpl; intros H.
  - rewrite exp_ln by (apply Rdiv_lt_0_compat; lra). field. lra.
  - reflexivity.
  - now apply exp_ln.
  - rewrite exp_ln by lra. ring.
Qed.

Lemma link_f_fi l eta : link_f l (link_fi l eta) = eta.
Proof.
  pose proof (exp_pos eta). destruct l; simpl.
  - replace (exp eta / (1 + exp eta) / (1 - exp eta / (1 + exp eta))) with (exp eta) by (field; lra).
    apply ln_exp.
  - reflexivity.
  - apply ln_exp.
  - replace (exp eta - b + b) with (exp eta) by ring. apply ln_exp.
Qed.

Lemma link_f_derive l mu : link_dom l mu -> is_derive (link_f l) mu (link_dy1 l mu).
Proof.
  destruct l; unfold link_f, link_dy1; simpl; intros H.
  - auto_derive.
    + split; [lra|]. split; [|exact I]. apply Rdiv_lt_0_compat; lra.
    + field. lra.
  - auto_derive; auto.
  - auto_derive; [lra|]. field. lra.
  - auto_derive; [lra|]. field. lra.
Qed.

Lemma link_dy1_derive l mu : link_dom l mu -> is_derive (link_dy1 l) mu (link_dy2 l mu).
Proof.
  destruct l; unfold link_dy1, link_dy2; simpl; intros H.
  - auto_derive.
    + apply Rmult_integral_contrapositive. split; lra.
    + field. lra.
  - auto_derive; auto.
  - auto_derive; [lra|]. field. lra.
  - auto_derive; [lra|]. field. lra.
Qed.

Lemma link_dy1_neq l mu : link_dom l mu -> link_dy1 l mu <> 0.
Proof.
  destruct l; simpl; intros H.
  - apply Rgt_not_eq. apply Rdiv_lt_0_compat; [lra|]. apply Rmult_lt_0_compat; lra.
  - lra.
  - apply Rgt_not_eq. apply Rdiv_lt_0_compat; lra.
  - apply Rgt_not_eq. apply Rdiv_lt_0_compat; lra.
Qed.

Lemma link_fi_derive l eta : is_derive (link_fi l) eta (1 / link_dy1 l (link_fi l eta)).
Proof.
  pose proof (exp_pos eta). destruct l; unfold link_fi, link_dy1; simpl.
  - auto_derive; [lra|]. field. lra.
  - auto_derive; auto. field.
  - auto_derive; auto. field. lra.
  - auto_derive; auto. field. lra.
Qed.

Lemma link_dom_open l mu : link_dom l mu -> locally mu (link_dom l).
Proof.
  destruct l; simpl; intros H.
  - apply (open_and (fun x => 0 < x) (fun x => x < 1)); [apply open_gt|apply open_lt|assumption].
  - now exists (mkposreal 1 Rlt_0_1).
  - now apply (open_gt 0).
  - now apply (open_gt (- b)).
Qed.

(** ** Families *)

Lemma fam_V_pos f mu : mean_ok f mu -> 0 < fam_V f mu.
Proof.
  destruct f; simpl; intros H.
  - destruct H as [Hn H]. apply Rdiv_lt_0_compat; [apply Rmult_lt_0_compat; lra|]. now apply lt_0_INR.
  - lra.
  - nra.
  - assert (0 < mu * mu) by nra. nra.
  - lra.
Qed.

Lemma fam_V_derive f mu : mean_ok f mu -> is_derive (fam_V f) mu (fam_dVy1 f mu).
Proof.
  destruct f; unfold fam_V, fam_dVy1; simpl; intros H.
  - destruct H as [Hn _]. apply lt_0_INR in Hn. auto_derive; auto. field. lra.
  - auto_derive; auto.
  - auto_derive; auto. ring.
  - auto_derive; auto. ring.
  - auto_derive; auto.
Qed.

Lemma mean_ok_open f mu : mean_ok f mu -> locally mu (mean_ok f).
Proof.
  destruct f; simpl; intros H.
  - destruct H as [Hn H]. apply filter_and; [now apply filter_forall|].
    apply (open_and (fun x => 0 < x) (fun x => x < 1)); [apply open_gt|apply open_lt|assumption].
  - now exists (mkposreal 1 Rlt_0_1).
  - now apply (open_gt 0).
  - now apply (open_gt 0).
  - now apply (open_gt 0).
Qed.

Section Lp.
Variable gammaln : R -> R.
Notation lp := (fam_lp gammaln).

(** The score: (y - mu) / (scale V). *)
Lemma fam_lp_derive f y mu scale : mean_ok f mu -> resp_ok f y -> scale_ok f scale ->
  is_derive (fun m => lp f y m scale) mu ((y - mu) / (scale * fam_V f mu)).
Proof.
  destruct f; simpl; intros Hm Hy Hs.
  - subst scale. destruct Hm as [Hn Hm]. destruct Hy as (_ & k & Hk & Ey).
    apply lt_0_INR in Hn. set (N := INR n) in *.
    assert (Hkn : INR k <= N) by now apply le_INR.
    unfold binom_logpmf, xlogy. rewrite Ey.
    assert (Hy : y = INR k / N) by (rewrite <- Ey; field; lra).
    destruct (Req_EM_T (INR k) 0) as [E0|E0]; destruct (Req_EM_T (N - INR k) 0) as [E1|E1].
    + lra.
    + auto_derive; [lra|]. rewrite Hy, E0. field. lra.
    + auto_derive; [lra|]. replace y with 1 by (rewrite Hy; replace (INR k) with N by lra; field; lra).
      replace (INR k) with N by lra. field. lra.
    + auto_derive; [lra|]. rewrite Hy. field. lra.
  - unfold norm_logpdf. assert (Hq : 0 < sqrt scale) by now apply sqrt_lt_R0.
    assert (Hqq : sqrt scale * sqrt scale = scale) by (apply sqrt_sqrt; lra).
    auto_derive; [lra|]. rewrite <- Hqq at 3. field. lra.
  - unfold gamma_logpdf, xlogy.
    assert (Ha : 1 / (1 / scale / mu) = scale * mu) by (field; lra).
    apply is_derive_ext_loc with
      (fun m => (if Req_EM_T (1 / scale - 1) 0 then 0 else (1 / scale - 1) * ln (y / (scale * m)))
                - y / (scale * m) - gammaln (1 / scale) - ln (scale * m)).
    { apply filter_imp with (fun m => 0 < m); [|now apply (open_gt 0)]. intros m Hm0.
      replace (1 / (1 / scale / m)) with (scale * m) by (field; lra). reflexivity. }
    assert (Hsm : 0 < scale * mu) by nra.
    assert (Hysm : 0 < y / (scale * mu)) by now apply Rdiv_lt_0_compat.
    destruct (Req_EM_T (1 / scale - 1) 0) as [E|E].
    + assert (scale = 1) by (apply (f_equal (fun x => scale * x)) in E; field_simplify in E; lra).
      subst scale. auto_derive; [repeat split; lra|]. field. lra.
    + auto_derive; [repeat split; lra|]. field. lra.
  - unfold invgauss_logpdf.
    assert (0 < 1 / scale) by (apply Rdiv_lt_0_compat; lra).
    auto_derive.
    + assert (0 < / (1 / scale)) by (apply Rinv_0_lt_compat; lra).
      repeat split; try lra. apply Rgt_not_eq. unfold Rdiv at 1. nra.
    + field. repeat split; lra.
  - subst scale. destruct Hy as [k ->]. unfold poisson_logpmf, xlogy.
    destruct (Req_EM_T (INR k) 0) as [E|E].
    + auto_derive; [exact I|]. rewrite E. field. lra.
    + auto_derive; [lra|]. field. lra.
Qed.
End Lp.

(** ** Chain rule for the working weights *)

Section Weights.
Variables (ll V dV fi dy1 dy2 : R -> R) (y phi eta : R).
Let mu := fi eta.

Lemma newton_first : phi <> 0 -> V mu <> 0 -> dy1 mu <> 0 ->
  is_derive ll mu ((y - mu) / (phi * V mu)) -> is_derive fi eta (1 / dy1 mu) ->
  is_derive (fun e => ll (fi e)) eta ((y - mu) / (phi * V mu * dy1 mu)).
Proof.
  intros Hp HV Hd Hl Hf.
  replace ((y - mu) / (phi * V mu * dy1 mu)) with (1 / dy1 mu * ((y - mu) / (phi * V mu))) by (field; auto).
  exact (is_derive_comp ll fi eta _ _ Hl Hf).
Qed.

Lemma newton_second : phi <> 0 -> V mu <> 0 -> dy1 mu <> 0 ->
  is_derive fi eta (1 / dy1 mu) -> is_derive V mu (dV mu) -> is_derive dy1 mu (dy2 mu) ->
  is_derive (fun e => (y - fi e) / (phi * V (fi e) * dy1 (fi e))) eta
    (- ((1 + (y - mu) * (dV mu / V mu + dy2 mu / dy1 mu)) / (dy1 mu ^ 2 * V mu)) / phi).
Proof.
  intros Hp HV Hd Hf HdV Hd2.
  set (g := fun m => (y - m) / (phi * V m * dy1 m)).
  assert (Hg : is_derive g mu ((- 1 * (phi * V mu * dy1 mu)
      - (y - mu) * (phi * (dV mu * dy1 mu + V mu * dy2 mu))) / (phi * V mu * dy1 mu) ^ 2)).
  { unfold g. auto_derive.
    - repeat split; try (eexists; eassumption).
      repeat apply Rmult_integral_contrapositive_currified; assumption.
    - replace (Derive (fun x : R => V x) mu) with (dV mu) by (symmetry; apply is_derive_unique; exact HdV).
      replace (Derive (fun x : R => dy1 x) mu) with (dy2 mu) by (symmetry; apply is_derive_unique; exact Hd2).
      field. auto. }
  replace (- ((1 + (y - mu) * (dV mu / V mu + dy2 mu / dy1 mu)) / (dy1 mu ^ 2 * V mu)) / phi)
    with (1 / dy1 mu * ((- 1 * (phi * V mu * dy1 mu)
      - (y - mu) * (phi * (dV mu * dy1 mu + V mu * dy2 mu))) / (phi * V mu * dy1 mu) ^ 2)) by (field; auto).
  exact (is_derive_comp g fi eta _ _ Hg Hf).
Qed.
End Weights.

(** ** Deviances *)

(** x - 1 - ln x, scaled. *)
Lemma dev_term a m : 0 < a -> 0 < m -> a * (ln a - ln m) - (a - m) = a * (m / a - 1 - ln (m / a)).
Proof. intros Ha Hm. rewrite ln_div by assumption. field. lra. Qed.

Lemma dev_term_nonneg a m : 0 < a -> 0 < m -> 0 <= a * (ln a - ln m) - (a - m).
Proof.
  intros Ha Hm. rewrite dev_term by assumption.
  assert (0 < m / a) by now apply Rdiv_lt_0_compat.
  pose proof (ln_le_minus1 (m / a) H). nra.
Qed.

Lemma dev_term_zero a m : 0 < a -> 0 < m -> a * (ln a - ln m) - (a - m) = 0 -> a = m.
Proof.
  intros Ha Hm. rewrite dev_term by assumption. intros E.
  assert (H : 0 < m / a) by now apply Rdiv_lt_0_compat.
  destruct (Req_dec (m / a) 1) as [E1|E1].
  - apply (f_equal (fun x => x * a)) in E1. unfold Rdiv in E1. rewrite Rmult_assoc, Rinv_l in E1; lra.
  - pose proof (ln_lt_minus1 (m / a) H E1). nra.
Qed.

Lemma elog_pos x : 0 < x -> elog x = Fin (ln x).
Proof. intros H. unfold elog. destruct (Rlt_dec 0 x); [reflexivity|contradiction]. Qed.

Lemma elog_zero : elog 0 = MInf.
Proof.
  unfold elog. destruct (Rlt_dec 0 0); [lra|]. destruct (Req_EM_T 0 0); [reflexivity|congruence].
Qed.

(** A summand of the binomial and Poisson deviances. *)
Lemma dev_summand a m : 0 <= a -> 0 < m ->
  a * reset (esub (elog a) (elog m)) = if Req_EM_T a 0 then 0 else a * (ln a - ln m).
Proof.
  intros Ha Hm. rewrite (elog_pos m) by assumption.
  destruct (Req_EM_T a 0) as [->|H]; [ring|]. rewrite elog_pos by lra. reflexivity.
Qed.

Lemma dev_summand_nonneg a m : 0 <= a -> 0 < m ->
  0 <= (if Req_EM_T a 0 then 0 else a * (ln a - ln m)) - (a - m).
Proof.
  intros Ha Hm. destruct (Req_EM_T a 0) as [->|H]; [lra|].
  apply dev_term_nonneg; lra.
Qed.

Lemma dev_summand_zero a m : 0 <= a -> 0 < m ->
  (if Req_EM_T a 0 then 0 else a * (ln a - ln m)) - (a - m) = 0 -> a = m.
Proof.
  intros Ha Hm. destruct (Req_EM_T a 0) as [->|H]; [lra|].
  apply dev_term_zero; lra.
Qed.

Lemma poisson_D y mu : 0 <= y -> 0 < mu ->
  fam_D Poisson y mu = 2 * ((if Req_EM_T y 0 then 0 else y * (ln y - ln mu)) - (y - mu)).
Proof.
  intros Hy Hm. unfold fam_D. rewrite (elog_pos mu) by assumption.
  destruct (Req_EM_T y 0) as [->|H].
  - rewrite elog_zero. simpl. destruct (Rlt_dec 0 0); [lra|]. simpl. ring.
  - rewrite elog_pos by lra. simpl. ring.
Qed.

Lemma binom_resp n y : resp_ok (Binomial n) y -> 0 < INR n /\ 0 <= y * INR n <= INR n.
Proof.
  intros (Hn & k & Hk & E). rewrite E. split; [now apply lt_0_INR|].
  split; [apply pos_INR|now apply le_INR].
Qed.

Lemma binom_D n y mu : resp_ok (Binomial n) y -> mean_ok (Binomial n) mu ->
  fam_D (Binomial n) y mu =
  2 * (((if Req_EM_T (y * INR n) 0 then 0 else y * INR n * (ln (y * INR n) - ln (mu * INR n)))
        - (y * INR n - mu * INR n))
     + ((if Req_EM_T (INR n - y * INR n) 0 then 0
         else (INR n - y * INR n) * (ln (INR n - y * INR n) - ln (INR n - mu * INR n)))
        - ((INR n - y * INR n) - (INR n - mu * INR n)))).
Proof.
  intros Hy [_ Hm]. destruct (binom_resp n y Hy) as [Hn Hk]. unfold fam_D.
  rewrite !dev_summand by nra. ring.
Qed.

Lemma fam_D_nonneg f y mu : mean_ok f mu -> resp_ok f y -> 0 <= fam_D f y mu.
Proof.
  destruct f; intros Hm Hy.
  - rewrite binom_D by assumption. destruct (binom_resp n y Hy) as [Hn Hk]. destruct Hm as [_ Hm].
    pose proof (dev_summand_nonneg (y * INR n) (mu * INR n)).
    pose proof (dev_summand_nonneg (INR n - y * INR n) (INR n - mu * INR n)). nra.
  - simpl. pose proof (Rle_0_sqr (y - mu)) as H. unfold Rsqr in H. lra.
  - simpl in *. pose proof (ln_le_minus1 (y / mu) (Rdiv_lt_0_compat _ _ Hy Hm)) as H.
    rewrite ln_div in H by assumption. replace ((y - mu) / mu) with (y / mu - 1) by (field; lra). lra.
  - simpl in *. pose proof (Rle_0_sqr (y - mu)) as Hsq; unfold Rsqr in Hsq; apply Rmult_le_pos; [lra|]. left. apply Rinv_0_lt_compat.
    assert (0 < mu * mu) by nra. nra.
  - destruct Hy as [k ->]. simpl in Hm. rewrite poisson_D by (auto using pos_INR).
    pose proof (dev_summand_nonneg (INR k) mu (pos_INR k) Hm). lra.
Qed.

Lemma fam_D_zero f y mu : mean_ok f mu -> resp_ok f y -> fam_D f y mu = 0 <-> y = mu.
Proof.
  intros Hm Hy. split.
  - destruct f; intros E.
    + rewrite binom_D in E by assumption. destruct (binom_resp n y Hy) as [Hn Hk]. destruct Hm as [_ Hm].
      pose proof (dev_summand_nonneg (y * INR n) (mu * INR n) ltac:(lra) ltac:(nra)).
      pose proof (dev_summand_nonneg (INR n - y * INR n) (INR n - mu * INR n) ltac:(lra) ltac:(nra)).
      pose proof (dev_summand_zero (y * INR n) (mu * INR n) ltac:(lra) ltac:(nra) ltac:(lra)).
      apply Rmult_eq_reg_r with (INR n); lra.
    + simpl in E. apply Rminus_diag_uniq, Rsqr_0_uniq. unfold Rsqr. lra.
    + simpl in *. destruct (Req_dec (y / mu) 1) as [E1|E1].
      * apply (f_equal (fun x => x * mu)) in E1. unfold Rdiv in E1. rewrite Rmult_assoc, Rinv_l in E1; lra.
      * pose proof (ln_lt_minus1 (y / mu) (Rdiv_lt_0_compat _ _ Hy Hm) E1) as H.
        rewrite ln_div in H by assumption. replace ((y - mu) / mu) with (y / mu - 1) in E by (field; lra). lra.
    + simpl in *. assert (0 < mu * mu) by nra. assert (0 < mu * (mu * 1) * y) by nra.
      apply (f_equal (fun x => x * (mu * (mu * 1) * y))) in E.
      unfold Rdiv in E. rewrite Rmult_assoc, Rinv_l in E by lra.
      apply Rminus_diag_uniq, Rsqr_0_uniq. unfold Rsqr. lra.
    + destruct Hy as [k ->]. simpl in Hm. rewrite poisson_D in E by (auto using pos_INR).
      apply dev_summand_zero; auto using pos_INR. lra.
  - intros ->. destruct f.
    + rewrite binom_D by assumption. destruct (binom_resp n mu Hy) as [Hn Hk].
      destruct (Req_EM_T (mu * INR n) 0); destruct (Req_EM_T (INR n - mu * INR n) 0); ring.
    + simpl. ring.
    + simpl in *. field. lra.
    + simpl in *. field. lra.
    + simpl in Hm. rewrite poisson_D by lra. destruct (Req_EM_T mu 0); ring.
Qed.

Lemma xlogy_eq a x : a <> 0 -> xlogy a x = a * ln x.
Proof. intros H. unfold xlogy. destruct (Req_EM_T a 0); [contradiction|reflexivity]. Qed.

(** Twice the scaled difference to the saturated log-likelihood. *)
Lemma fam_D_lp gammaln f y mu scale : mean_ok f mu -> resp_ok f y -> scale_ok f scale ->
  fam_D f y mu = 2 * scale * (fam_lp gammaln f y y scale - fam_lp gammaln f y mu scale).
Proof.
  destruct f; intros Hm Hy Hs.
  - rewrite binom_D by assumption. destruct (binom_resp n y Hy) as [Hn Hk]. destruct Hm as [_ Hm].
    simpl in Hs. subst scale. unfold fam_lp, binom_logpmf, xlogy.
    destruct (Req_EM_T (y * INR n) 0) as [E0|E0]; destruct (Req_EM_T (INR n - y * INR n) 0) as [E1|E1].
    + nra.
    + assert (y = 0) by nra. subst y. replace (INR n - mu * INR n) with ((1 - mu) * INR n) by ring.
      replace (INR n - 0 * INR n) with (INR n) by ring. rewrite ln_mult by lra.
      replace (1 - 0) with 1 by ring. rewrite ln_1. ring.
    + assert (y = 1) by nra. subst y. rewrite ln_1. replace (1 * INR n) with (INR n) by ring.
      rewrite ln_mult by lra. ring.
    + assert (0 < y) by nra. assert (y < 1) by nra.
      replace (INR n - mu * INR n) with ((1 - mu) * INR n) by ring.
      replace (INR n - y * INR n) with ((1 - y) * INR n) by ring. rewrite !ln_mult by lra. ring.
  - simpl in *. unfold norm_logpdf. assert (Hq : 0 < sqrt scale) by now apply sqrt_lt_R0.
    assert (Hqq : sqrt scale * sqrt scale = scale) by (apply sqrt_sqrt; lra).
    rewrite <- Hqq at 1. field. lra.
  - simpl in *. unfold gamma_logpdf, xlogy.
    replace (1 / (1 / scale / y)) with (scale * y) by (field; lra).
    replace (1 / (1 / scale / mu)) with (scale * mu) by (field; lra).
    assert (0 < scale * mu) by nra. assert (0 < scale * y) by nra.
    rewrite !(ln_div y) by assumption. rewrite !(ln_mult scale) by assumption.
    destruct (Req_EM_T (1 / scale - 1) 0) as [E|E].
    + assert (scale = 1) by (apply (f_equal (fun x => scale * x)) in E; field_simplify in E; lra).
      subst scale. field. lra.
    + field. lra.
  - simpl in *. unfold invgauss_logpdf. assert (0 < 1 / scale) by (apply Rdiv_lt_0_compat; lra).
    field. repeat split; lra.
  - destruct Hy as [k ->]. simpl in Hm, Hs. subst scale. rewrite poisson_D by (auto using pos_INR).
    unfold fam_lp, poisson_logpmf, xlogy. destruct (Req_EM_T (INR k) 0) as [->|E]; ring.
Qed.

(** ** Densities *)

Lemma ln_pow x k : 0 < x -> ln (x ^ k) = INR k * ln x.
Proof.
  intros Hx. induction k as [|k IH]; [simpl; rewrite ln_1; ring|].
  change (x ^ S k) with (x * x ^ k). rewrite ln_mult by (auto using pow_lt).
  rewrite IH, S_INR. ring.
Qed.

Lemma xlogy_pow k x : 0 < x -> xlogy (INR k) x = ln (x ^ k).
Proof.
  intros Hx. rewrite ln_pow by assumption. unfold xlogy.
  destruct (Req_EM_T (INR k) 0) as [->|]; [ring|reflexivity].
Qed.

Lemma INR_fact_pos k : 0 < INR (fact k).
Proof. apply lt_0_INR, lt_O_fact. Qed.

Lemma gauss_lp gammaln y mu scale : 0 < scale ->
  fam_lp gammaln Gaussian y mu scale = ln (gauss_pdf mu scale y).
Proof.
  intros Hs. unfold fam_lp, norm_logpdf, gauss_pdf. pose proof PI_RGT_0.
  assert (Hq : 0 < sqrt scale) by now apply sqrt_lt_R0.
  assert (Hqq : sqrt scale * sqrt scale = scale) by (apply sqrt_sqrt; lra).
  assert (Hp : 0 < sqrt (2 * PI)) by (apply sqrt_lt_R0; lra).
  rewrite ln_div, ln_exp by (try apply exp_pos; apply sqrt_lt_R0; nra).
  rewrite (sqrt_mult (2 * PI)), (ln_mult (sqrt (2 * PI))) by lra.
  assert (E : ln (2 * PI) = 2 * ln (sqrt (2 * PI))).
  { rewrite <- (sqrt_sqrt (2 * PI)) at 1 by lra. rewrite ln_mult by assumption. ring. }
  rewrite E. replace (2 * scale) with (2 * (sqrt scale * sqrt scale)) by (rewrite Hqq; reflexivity). field. lra.
Qed.

Lemma gamma_lp gammaln y mu scale : 0 < scale -> 0 < mu -> 0 < y ->
  fam_lp gammaln Gamma y mu scale
  = ln (gamma_pdf (fun a => exp (gammaln a)) (1 / scale) (1 / scale / mu) y).
Proof.
  intros Hs Hm Hy. unfold fam_lp, gamma_logpdf, gamma_pdf.
  assert (Hr : 0 < 1 / scale / mu) by (repeat apply Rdiv_lt_0_compat; lra).
  set (r := 1 / scale / mu) in *. set (a := 1 / scale) in *.
  assert (P1 : forall u v, 0 < Rpower u v) by (intros; apply exp_pos).
  assert (P2 : 0 < Rpower r a * Rpower y (a - 1)) by (apply Rmult_lt_0_compat; apply P1).
  rewrite (ln_div (Rpower r a * Rpower y (a - 1) * exp (- (r * y))))
    by (first [apply exp_pos | apply Rmult_lt_0_compat; [exact P2|apply exp_pos]]).
  rewrite (ln_mult (Rpower r a * Rpower y (a - 1))) by (first [exact P2 | apply exp_pos]).
  rewrite (ln_mult (Rpower r a)) by apply P1. rewrite !ln_exp.
  unfold Rpower. rewrite !ln_exp.
  assert (El : xlogy (a - 1) (y / (1 / r)) = (a - 1) * (ln y + ln r)).
  { replace (y / (1 / r)) with (y * r) by (field; lra). rewrite <- ln_mult by assumption.
    unfold xlogy. destruct (Req_EM_T (a - 1) 0) as [E|]; [rewrite E; ring|reflexivity]. }
  rewrite El. replace (1 / r) with (/ r) by (field; lra). rewrite ln_Rinv by assumption.
  replace (y / / r) with (r * y) by (field; lra). ring.
Qed.

Lemma invgauss_lp gammaln y mu scale : 0 < scale -> 0 < mu -> 0 < y ->
  fam_lp gammaln InvGauss y mu scale = ln (invgauss_pdf mu (1 / scale) y).
Proof.
  intros Hs Hm Hy. unfold fam_lp, invgauss_logpdf, invgauss_pdf. pose proof PI_RGT_0.
  assert (Hl : 0 < 1 / scale) by (apply Rdiv_lt_0_compat; lra). set (l := 1 / scale) in *.
  assert (Hy3 : 0 < y ^ 3) by now apply pow_lt.
  assert (Hd : 0 < 2 * PI * y ^ 3) by (apply Rmult_lt_0_compat; lra).
  assert (Hq : 0 < sqrt (l / (2 * PI * y ^ 3))) by (apply sqrt_lt_R0, Rdiv_lt_0_compat; assumption).
  rewrite (ln_mult (sqrt (l / (2 * PI * y ^ 3)))), ln_exp by (first [exact Hq | apply exp_pos]).
  assert (E : ln (sqrt (l / (2 * PI * y ^ 3))) = / 2 * (ln l - (ln (2 * PI) + 3 * ln y))).
  { assert (E2 : ln (l / (2 * PI * y ^ 3)) = 2 * ln (sqrt (l / (2 * PI * y ^ 3)))).
    { rewrite <- (sqrt_sqrt (l / (2 * PI * y ^ 3))) at 1 by (left; apply Rdiv_lt_0_compat; assumption).
      rewrite ln_mult by assumption. ring. }
    assert (E3 : ln (l / (2 * PI * y ^ 3)) = ln l - (ln (2 * PI) + 3 * ln y)).
    { rewrite ln_div by assumption. rewrite (ln_mult (2 * PI)) by lra. rewrite ln_pow by assumption.
      simpl INR. ring. }
    rewrite <- E3, E2. field. }
  rewrite E, (ln_div y) by assumption. field. lra.
Qed.

Lemma poisson_lp gammaln k mu scale : 0 < mu -> gammaln (INR k + 1) = ln (INR (fact k)) ->
  fam_lp gammaln Poisson (INR k) mu scale = ln (poisson_pmf mu k).
Proof.
  intros Hm Hg. unfold fam_lp, poisson_logpmf, poisson_pmf.
  pose proof (INR_fact_pos k). pose proof (pow_lt mu k Hm).
  rewrite ln_div by (auto; apply Rmult_lt_0_compat; auto using exp_pos).
  rewrite ln_mult, ln_exp by (auto using exp_pos). rewrite xlogy_pow, Hg by assumption. ring.
Qed.

Lemma binomial_lp gammaln n k y mu scale : 0 < mu < 1 -> (k <= n)%nat -> y * INR n = INR k ->
  (forall j, gammaln (INR j + 1) = ln (INR (fact j))) ->
  fam_lp gammaln (Binomial n) y mu scale = ln (binomial_pmf n mu k).
Proof.
  intros Hm Hk Ey Hg. unfold fam_lp, binom_logpmf, binomial_pmf. rewrite Ey.
  rewrite <- minus_INR by assumption. rewrite !Hg.
  pose proof (INR_fact_pos k). pose proof (INR_fact_pos n). pose proof (INR_fact_pos (n - k)).
  pose proof (pow_lt mu k ltac:(lra)). pose proof (pow_lt (1 - mu) (n - k) ltac:(lra)).
  assert (0 < INR (fact n) / (INR (fact k) * INR (fact (n - k)))).
  { apply Rdiv_lt_0_compat; [assumption|]. now apply Rmult_lt_0_compat. }
  rewrite !ln_mult by (try assumption; apply Rmult_lt_0_compat; assumption).
  rewrite ln_div, ln_mult by (try assumption; apply Rmult_lt_0_compat; assumption).
  rewrite !xlogy_pow by lra. ring.
Qed.
