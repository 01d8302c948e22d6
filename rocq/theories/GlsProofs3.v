(** Lemmas for the Gaussian and Gamma location-scale families and the scaled t family. *)

From Coq Require Import Reals List Lra Lia Arith Bool FunctionalExtensionality.
From Coquelicot Require Import Coquelicot.
From Verif Require Import Ext FamModel FamSpec FamProofs GlsModel GlsSpec GlsProofs.
Import ListNotations.
Local Open Scope R_scope.

Ltac req := match goal with |- @eq _ ?a ?b => change (@eq R a b) end.
Ltac nz := repeat apply Rmult_integral_contrapositive_currified; lra.

(** ** Gaussian location-scale *)

Lemma gaumlss_lp_mu y mu sigma : 0 < sigma ->
  is_derive (fun m => gaumlss_lp y m sigma) mu (1 / sigma ^ 2 * (y - mu)).
Proof. intros H. unfold gaumlss_lp, norm_logpdf. auto_derive; [auto|]. field. lra. Qed.

Lemma gaumlss_lp_sigma y mu sigma : 0 < sigma ->
  is_derive (fun s => gaumlss_lp y mu s) sigma (((y - mu) ^ 2 - sigma ^ 2) / sigma ^ 3).
Proof. intros H. unfold gaumlss_lp, norm_logpdf. auto_derive; [lra|]. field. lra. Qed.

Lemma pos_near x : 0 < x -> locally x (fun t => 0 < t).
Proof. intros H. apply (open_gt 0). exact H. Qed.

Lemma gaumlss_lp_mu2 y mu sigma : 0 < sigma ->
  is_derive_n (fun m => gaumlss_lp y m sigma) 2 mu (- (1 / sigma ^ 2)).
Proof.
  intros H. apply (is_derive_ext (fun m => 1 / sigma ^ 2 * (y - m))).
  - intros t. symmetry. apply is_derive_unique. now apply gaumlss_lp_mu.
  - auto_derive; [auto|]. field. lra.
Qed.

Lemma gaumlss_lp_sigma2 y mu sigma : 0 < sigma ->
  is_derive_n (fun s => gaumlss_lp y mu s) 2 sigma (1 / sigma ^ 2 - 3 * (y - mu) ^ 2 / sigma ^ 4).
Proof.
  intros H. apply (is_derive_ext_loc (fun s => ((y - mu) ^ 2 - s ^ 2) / s ^ 3)).
  - apply filter_imp with (2 := pos_near sigma H). intros s Hs. symmetry. apply is_derive_unique.
    now apply gaumlss_lp_sigma.
  - auto_derive; [nz|field; lra].
Qed.

Lemma gaumlss_lp_mixed y mu sigma : 0 < sigma ->
  is_derive (fun s => Derive (fun m => gaumlss_lp y m s) mu) sigma (- 2 * (y - mu) / sigma ^ 3).
Proof.
  intros H. apply (is_derive_ext_loc (fun s => 1 / s ^ 2 * (y - mu))).
  - apply filter_imp with (2 := pos_near sigma H). intros s Hs. symmetry. apply is_derive_unique.
    now apply gaumlss_lp_mu.
  - auto_derive; [nz|field; lra].
Qed.

(** ** Gamma location-scale *)

Section GammaLS.
Variables gammaln digamma trigamma : R -> R.
Hypothesis Hg : forall x, 0 < x -> is_derive gammaln x (digamma x).
Hypothesis Hd : forall x, 0 < x -> is_derive digamma x (trigamma x).
Notation lp := (gammals_lp gammaln).

Lemma gammals_lp_eq y mu s : 0 < y -> 0 < mu -> 0 < s ->
  lp y mu s = (1 / s - 1) * ln y - 1 / s * (ln mu + ln s) - y / (mu * s) - gammaln (1 / s).
Proof.
  intros Hy Hm Hs. unfold gammals_lp, gamma_logpdf, xlogy.
  assert (E : 1 / (1 / s / mu) = mu * s) by (field; lra). rewrite E.
  assert (0 < mu * s) by (apply Rmult_lt_0_compat; assumption).
  assert (L : ln (y / (mu * s)) = ln y - (ln mu + ln s))
    by (rewrite ln_div by assumption; rewrite (ln_mult mu s) by assumption; ring).
  rewrite L. rewrite (ln_mult mu s) by assumption.
  destruct (Req_EM_T (1 / s - 1) 0) as [E0|E0].
  - assert (E1 : 1 / s = 1) by lra. rewrite E1. ring.
  - ring.
Qed.

Lemma gammals_mu y mu s : 0 < y -> 0 < mu -> 0 < s ->
  is_derive (fun m => lp y m s) mu ((y - mu) / (s * mu ^ 2)).
Proof.
  intros Hy Hm Hs.
  apply (is_derive_ext_loc (fun m => (1 / s - 1) * ln y - 1 / s * (ln m + ln s) - y / (m * s) - gammaln (1 / s))).
  - apply filter_imp with (2 := pos_near mu Hm). intros m H. symmetry. now apply gammals_lp_eq.
  - auto_derive; [|field; lra]. repeat split; try lra; auto.
    apply Rmult_integral_contrapositive. split; lra.
Qed.

Lemma inv_derive (f : R -> R) (f' : R) s : 0 < s -> is_derive f (1 / s) f' ->
  is_derive (fun t => f (1 / t)) s (- f' / s ^ 2).
Proof.
  intros Hs H. assert (H1 : is_derive (fun t => 1 / t) s (- (1 / s ^ 2))) by (auto_derive; [lra|field; lra]).
  pose proof (is_derive_comp f (fun t => 1 / t) s _ _ H H1) as G.
  eapply is_derive_eq; [exact G|]. unfold scal. simpl. unfold mult. simpl. field. lra.
Qed.

Lemma gammals_s y mu s : 0 < y -> 0 < mu -> 0 < s ->
  is_derive (fun t => lp y mu t) s
    (1 / s ^ 2 * (y / mu - ln y + ln mu + ln s - 1 + digamma (1 / s))).
Proof.
  intros Hy Hm Hs.
  apply (is_derive_ext_loc (fun t => ((1 / t - 1) * ln y - 1 / t * (ln mu + ln t) - y / (mu * t)) - gammaln (1 / t))).
  - apply filter_imp with (2 := pos_near s Hs). intros t H. symmetry. now apply gammals_lp_eq.
  - assert (P : 0 < 1 / s) by (apply Rdiv_lt_0_compat; lra).
    assert (D1 : is_derive (fun t => (1 / t - 1) * ln y - 1 / t * (ln mu + ln t) - y / (mu * t)) s
      (1 / s ^ 2 * (y / mu - ln y + ln mu + ln s - 1))).
    { auto_derive; [|field; lra]. repeat split; try lra; auto.
      apply Rmult_integral_contrapositive. split; lra. }
    pose proof (is_derive_minus _ _ _ _ _ D1 (inv_derive gammaln _ s Hs (Hg (1 / s) P))) as G.
    eapply is_derive_eq; [exact G|]. unfold minus, plus, opp. simpl. field. lra.
Qed.

Lemma gammals_mu2 y mu s : 0 < y -> 0 < mu -> 0 < s ->
  is_derive_n (fun m => lp y m s) 2 mu (1 / (s * mu ^ 2) - 2 * y / (s * mu ^ 3)).
Proof.
  intros Hy Hm Hs. apply (is_derive_ext_loc (fun m => (y - m) / (s * m ^ 2))).
  - apply filter_imp with (2 := pos_near mu Hm). intros m H. symmetry. apply is_derive_unique.
    now apply gammals_mu.
  - auto_derive; [nz|field; lra].
Qed.

Lemma gammals_s2 y mu s : 0 < y -> 0 < mu -> 0 < s ->
  is_derive_n (fun t => lp y mu t) 2 s
    (- 2 / s ^ 3 * (y / mu - ln y + ln mu + ln s - 1 + digamma (1 / s))
     + 1 / s ^ 3 - 1 / s ^ 4 * trigamma (1 / s)).
Proof.
  intros Hy Hm Hs.
  apply (is_derive_ext_loc (fun t => 1 / t ^ 2 * (y / mu - ln y + ln mu + ln t - 1 + digamma (1 / t)))).
  - apply filter_imp with (2 := pos_near s Hs). intros t H. symmetry. apply is_derive_unique.
    now apply gammals_s.
  - assert (P : 0 < 1 / s) by (apply Rdiv_lt_0_compat; lra).
    pose proof (inv_derive digamma _ s Hs (Hd (1 / s) P)) as D.
    set (dg := fun t => digamma (1 / t)) in *.
    assert (G : is_derive (fun t => 1 / t ^ 2 * (y / mu - ln y + ln mu + ln t - 1 + dg t)) s
      (- 2 / s ^ 3 * (y / mu - ln y + ln mu + ln s - 1 + dg s) + 1 / s ^ 2 * (1 / s + - trigamma (1 / s) / s ^ 2))).
    { auto_derive.
      - repeat split; try lra; auto; try (eexists; exact D). apply Rgt_not_eq. nra.
      - replace (Derive (fun x : R => dg x) s) with (- trigamma (1 / s) / s ^ 2)
          by (symmetry; apply is_derive_unique; exact D).
        field. lra. }
    eapply is_derive_eq; [exact G|]. unfold dg. field. lra.
Qed.

Lemma gammals_mixed y mu s : 0 < y -> 0 < mu -> 0 < s ->
  is_derive (fun t => Derive (fun m => lp y m t) mu) s (- (y - mu) / (s ^ 2 * mu ^ 2)).
Proof.
  intros Hy Hm Hs. apply (is_derive_ext_loc (fun t => (y - mu) / (t * mu ^ 2))).
  - apply filter_imp with (2 := pos_near s Hs). intros t H. symmetry. apply is_derive_unique.
    now apply gammals_mu.
  - assert (0 < mu ^ 2) by (apply pow_lt; lra). auto_derive; [|field; lra].
    apply Rmult_integral_contrapositive. split; lra.
Qed.
End GammaLS.

(** ** Scaled t *)

Section ST.
Variables gammaln digamma trigamma : R -> R.
Hypothesis Hg : forall x, 0 < x -> is_derive gammaln x (digamma x).
Hypothesis Hd : forall x, 0 < x -> is_derive digamma x (trigamma x).
Variable min_df : R.
Hypothesis Hdf : 0 <= min_df.
Notation lp := (st_lp gammaln min_df).
Notation nu := (fun t1 => exp t1 + min_df).

(** The squared standardised residual. *)
Notation q := (fun t0 y mu => (y - mu) ^ 2 * exp (- 2 * t0)).

Lemma nu_pos t1 : 0 < nu t1.
Proof. pose proof (exp_pos t1). simpl. lra. Qed.
Lemma q_nonneg t0 y mu : 0 <= q t0 y mu.
Proof. simpl. apply Rmult_le_pos; [apply pow2_ge_0|left; apply exp_pos]. Qed.

Lemma q_eq t0 y mu : ((y - mu) / exp t0) ^ 2 = q t0 y mu.
Proof.
  pose proof (exp_pos t0). cbv beta.
  replace (- 2 * t0) with (- t0 + - t0) by ring. rewrite exp_plus, exp_Ropp. field. lra.
Qed.

Lemma st_ln_a t0 t1 y mu :
  ln (1 + ((y - mu) / exp t0) ^ 2 / nu t1) = ln (nu t1 + q t0 y mu) - ln (nu t1).
Proof.
  pose proof (nu_pos t1). pose proof (q_nonneg t0 y mu). rewrite q_eq. cbv beta in *.
  rewrite <- ln_div by lra. f_equal. field. lra.
Qed.

Lemma st_lp_eq t0 t1 y mu :
  lp y mu (t0, t1) = gammaln ((nu t1 + 1) / 2) - gammaln (nu t1 / 2) - t0 - / 2 * (ln PI + ln (nu t1))
                     - (nu t1 + 1) / 2 * (ln (nu t1 + q t0 y mu) - ln (nu t1)).
Proof.
  pose proof (nu_pos t1) as Hn. pose proof (exp_pos t0). pose proof PI_RGT_0.
  unfold st_lp, st_phi, st_nu. cbn [fst snd]. rewrite st_ln_a. cbv beta in *.
  assert (0 < Rpower (PI * (exp t1 + min_df)) (/ 2)) by apply exp_pos.
  rewrite (ln_mult (exp t0)) by assumption. rewrite ln_exp.
  unfold Rpower at 1. rewrite ln_exp. rewrite (ln_mult PI) by assumption.
  lra.
Qed.

Lemma st_D_eq t0 t1 y mu :
  st_D min_df y mu (t0, t1) = (nu t1 + 1) * (ln (nu t1 + q t0 y mu) - ln (nu t1)).
Proof. unfold st_D, st_phi, st_nu. cbn [fst snd]. now rewrite st_ln_a. Qed.

Lemma st_nusig2a_eq t0 t1 y mu :
  st_nusig2a (exp t0) (nu t1) y mu = exp t0 ^ 2 * (nu t1 + q t0 y mu).
Proof.
  pose proof (nu_pos t1). unfold st_nusig2a, st_a. rewrite q_eq. cbv beta in *. field. lra.
Qed.

Lemma st_fymu_eq t0 t1 y mu :
  st_fymu (exp t0) (nu t1) y mu = (nu t1 + 1) * q t0 y mu / (nu t1 + q t0 y mu).
Proof.
  pose proof (nu_pos t1). pose proof (q_nonneg t0 y mu). pose proof (exp_pos t0).
  unfold st_fymu. rewrite st_nusig2a_eq. rewrite <- q_eq in *. cbv beta in *.
  field. repeat split; try lra.
  replace ((exp t1 + min_df) * exp t0 ^ 2 + (y - mu) ^ 2)
    with (exp t0 ^ 2 * (exp t1 + min_df + ((y - mu) / exp t0) ^ 2)) by (field; lra).
  apply Rmult_integral_contrapositive. split; [apply pow_nonzero; lra|rewrite q_eq; cbv beta; lra].
Qed.

Lemma st_f1ymu_eq t0 t1 y mu :
  st_f1ymu (exp t0) (nu t1) y mu = q t0 y mu / (nu t1 + q t0 y mu).
Proof.
  pose proof (nu_pos t1). pose proof (q_nonneg t0 y mu). 
  transitivity (st_fymu (exp t0) (nu t1) y mu / (nu t1 + 1)).
  - unfold st_f1ymu, st_fymu. cbv beta in *. field. split; [|lra].
    pose proof (st_nusig2a_eq t0 t1 y mu) as E. cbv beta in E. rewrite E.
    pose proof (exp_pos t0).
    apply Rmult_integral_contrapositive. split; [apply pow_nonzero; lra|lra].
  - rewrite st_fymu_eq. cbv beta in *. field. split; lra.
Qed.

(** First derivatives of the log-density. *)
Definition g0 t0 t1 y mu : R := (nu t1 + 1) * q t0 y mu / (nu t1 + q t0 y mu) - 1.
Definition g1 t0 t1 y mu : R :=
  let e := exp t1 in
  e * digamma ((nu t1 + 1) / 2) / 2 - e * digamma (nu t1 / 2) / 2 - / 2 * (e / nu t1)
  - e / 2 * (ln (nu t1 + q t0 y mu) - ln (nu t1))
  - (nu t1 + 1) / 2 * e * (1 / (nu t1 + q t0 y mu) - 1 / nu t1).

Lemma st_d0 t0 t1 y mu : is_derive (fun t => lp y mu (t, t1)) t0 (g0 t0 t1 y mu).
Proof.
  eapply (is_derive_ext (fun t => gammaln ((nu t1 + 1) / 2) - gammaln (nu t1 / 2) - t - / 2 * (ln PI + ln (nu t1))
                     - (nu t1 + 1) / 2 * (ln (nu t1 + q t y mu) - ln (nu t1)))).
  { intros t. symmetry. apply st_lp_eq. }
  pose proof (nu_pos t1). pose proof (q_nonneg t0 y mu). cbv beta in *.
  auto_derive.
  - simpl in *. lra.
  - unfold g0. simpl in *. field; lra.
Qed.

Lemma lin_derive (f : R -> R) a t (f' : R) : is_derive f ((nu t + a) / 2) f' ->
  is_derive (fun t => f ((exp t + min_df + a) / 2)) t (exp t / 2 * f').
Proof.
  intros H. assert (H1 : is_derive (fun t => (exp t + min_df + a) / 2) t (exp t / 2))
    by (auto_derive; [auto|field]).
  exact (is_derive_comp f (fun t => (exp t + min_df + a) / 2) t _ _ H H1).
Qed.

Lemma st_d1 t0 t1 y mu : is_derive (fun t => lp y mu (t0, t)) t1 (g1 t0 t1 y mu).
Proof.
  pose proof (nu_pos t1). pose proof (q_nonneg t0 y mu).
  assert (A : is_derive (fun t => gammaln ((exp t + min_df + 1) / 2)) t1 (exp t1 / 2 * digamma ((nu t1 + 1) / 2)))
    by (apply lin_derive, Hg; cbv beta in *; lra).
  assert (B : is_derive (fun t => gammaln ((exp t + min_df + 0) / 2)) t1 (exp t1 / 2 * digamma ((nu t1 + 0) / 2)))
    by (apply lin_derive, Hg; cbv beta in *; lra).
  assert (C : is_derive (fun t => - t0 - / 2 * (ln PI + ln (exp t + min_df))
     - (exp t + min_df + 1) / 2 * (ln (exp t + min_df + q t0 y mu) - ln (exp t + min_df))) t1
     (- / 2 * (exp t1 / nu t1)  - exp t1 / 2 * (ln (nu t1 + q t0 y mu) - ln (nu t1))
  - (nu t1 + 1) / 2 * exp t1 * (1 / (nu t1 + q t0 y mu) - 1 / nu t1))).
  { cbv beta in *. set (Q := (y - mu) ^ 2 * exp (- 2 * t0)) in *.
    auto_derive; [lra|]. field. split; lra. }
  pose proof (is_derive_plus _ _ _ _ _ (is_derive_minus _ _ _ _ _ A B) C) as G.
  eapply is_derive_trans; [exact G| |].
  - intros t. cbv beta. rewrite st_lp_eq. cbv beta. rewrite Rplus_0_r.
    set (Q := (y - mu) ^ 2 * exp (- 2 * t0)). unfold plus, minus, plus, opp. simpl. ring.
  - unfold g1. cbv beta zeta in *. rewrite Rplus_0_r. set (Q := (y - mu) ^ 2 * exp (- 2 * t0)) in *.
    unfold plus, minus, plus, opp. simpl. field. split; lra.
Qed.

(** Second derivatives. *)
Definition h00 t0 t1 y mu : R := - 2 * (nu t1 + 1) * q t0 y mu * nu t1 / (nu t1 + q t0 y mu) ^ 2.
Definition h01 t0 t1 y mu : R := - exp t1 * q t0 y mu * (1 - q t0 y mu) / (nu t1 + q t0 y mu) ^ 2.
Definition h11 t0 t1 y mu : R :=
  let e := exp t1 in let n := nu t1 in let Q := q t0 y mu in
  e ^ 2 * trigamma ((n + 1) / 2) / 4 + e * digamma ((n + 1) / 2) / 2
  - e ^ 2 * trigamma (n / 2) / 4 - e * digamma (n / 2) / 2
  + / 2 * (e / n) ^ 2 - / 2 * (e / n)
  - e / 2 * (ln (n + Q) - ln n) - e ^ 2 * (1 / (n + Q) - 1 / n)
  - (n + 1) / 2 * e * (1 / (n + Q) - 1 / n)
  + (n + 1) / 2 * e ^ 2 * (1 / (n + Q) ^ 2 - 1 / n ^ 2).

Lemma st_d00 t0 t1 y mu : is_derive (fun t => g0 t t1 y mu) t0 (h00 t0 t1 y mu).
Proof.
  pose proof (nu_pos t1). pose proof (q_nonneg t0 y mu). unfold g0, h00. cbv beta in *.
  auto_derive; simpl in *; [lra|]. field. lra.
Qed.

Lemma st_d01 t0 t1 y mu : is_derive (fun t => g0 t0 t y mu) t1 (h01 t0 t1 y mu).
Proof.
  pose proof (nu_pos t1). pose proof (q_nonneg t0 y mu). unfold g0, h01. cbv beta in *.
  set (Q := (y - mu) ^ 2 * exp (- 2 * t0)) in *.
  auto_derive; [lra|]. field. lra.
Qed.

Lemma st_d11 t0 t1 y mu : is_derive (fun t => g1 t0 t y mu) t1 (h11 t0 t1 y mu).
Proof.
  pose proof (nu_pos t1). pose proof (q_nonneg t0 y mu).
  assert (A : is_derive (fun t => digamma ((exp t + min_df + 1) / 2)) t1 (exp t1 / 2 * trigamma ((nu t1 + 1) / 2)))
    by (apply lin_derive, Hd; cbv beta in *; lra).
  assert (B : is_derive (fun t => digamma ((exp t + min_df + 0) / 2)) t1 (exp t1 / 2 * trigamma ((nu t1 + 0) / 2)))
    by (apply lin_derive, Hd; cbv beta in *; lra).
  set (a := fun t => digamma ((exp t + min_df + 1) / 2)) in *.
  set (b := fun t => digamma ((exp t + min_df + 0) / 2)) in *.
  cbv beta in *. set (Q := (y - mu) ^ 2 * exp (- 2 * t0)) in *.
  assert (G : is_derive (fun t => exp t * a t / 2 - exp t * b t / 2 - / 2 * (exp t / (exp t + min_df))
    - exp t / 2 * (ln (exp t + min_df + Q) - ln (exp t + min_df))
    - (exp t + min_df + 1) / 2 * exp t * (1 / (exp t + min_df + Q) - 1 / (exp t + min_df))) t1 (h11 t0 t1 y mu)).
  { auto_derive.
    - repeat split; try lra; try (eexists; eassumption).
    - replace (Derive (fun x : R => a x) t1) with (exp t1 / 2 * trigamma ((exp t1 + min_df + 1) / 2))
        by (symmetry; apply is_derive_unique; exact A).
      replace (Derive (fun x : R => b x) t1) with (exp t1 / 2 * trigamma ((exp t1 + min_df + 0) / 2))
        by (symmetry; apply is_derive_unique; exact B).
      unfold h11, a, b. cbv beta zeta. fold Q. rewrite Rplus_0_r. field. split; lra. }
  apply is_derive_ext with (2 := G). intros t. unfold g1, a, b. cbv beta zeta. fold Q. now rewrite Rplus_0_r.
Qed.

(** The sums the code computes. *)
Lemma st_gradient_eq obs t0 t1 :
  st_gradient digamma min_df obs (t0, t1)
  = (total (map (fun o => g0 t0 t1 (fst o) (snd o)) obs), total (map (fun o => g1 t0 t1 (fst o) (snd o)) obs)).
Proof.
  pose proof (nu_pos t1) as Hn. unfold st_gradient, st_phi, st_nu. cbn [fst snd]. cbv zeta.
  f_equal.
  - rewrite total_scal. unfold g0.
    replace (INR (length obs)) with (total (map (fun _ => 1) obs)) by (rewrite total_const; ring).
    transitivity (total (map (fun o => st_fymu (exp t0) (nu t1) (fst o) (snd o)) obs)
      + -1 * total (map (fun _ : R * R => 1) obs)); [cbv beta; field|].
    rewrite <- total_scal, <- total_plus. apply total_ext. intros o _. rewrite st_fymu_eq. ring.
  - replace (exp t1 + min_df - min_df) with (exp t1) by ring. rewrite total_scal.
    set (e := exp t1). set (n := e + min_df).
    set (c := e * digamma ((n + 1) / 2) / 2 - e * digamma (n / 2) / 2 - / 2 * (e / n)).
    transitivity (- (e / 2) * total (map (fun o => ln (st_a (exp t0) n (fst o) (snd o)) - st_fymu (exp t0) n (fst o) (snd o) / n) obs)
      + INR (length obs) * c); [field|].
    rewrite <- total_const, <- total_scal, <- total_plus. apply total_ext. intros o _.
    pose proof (st_fymu_eq t0 t1 (fst o) (snd o)) as E. cbv beta in E. fold e in E. fold n in E. rewrite E.
    pose proof (st_ln_a t0 t1 (fst o) (snd o)) as L. cbv beta in L. fold e in L. fold n in L.
    unfold st_a. rewrite L. unfold g1. cbv beta zeta. fold e. fold n.
    pose proof (q_nonneg t0 (fst o) (snd o)) as Hq. cbv beta in Hq, Hn. fold e in Hn. fold n in Hn.
    unfold c. field. split; lra.
Qed.

Lemma st_hessian_eq obs t0 t1 :
  st_hessian digamma trigamma min_df obs (t0, t1)
  = (total (map (fun o => h00 t0 t1 (fst o) (snd o)) obs), total (map (fun o => h01 t0 t1 (fst o) (snd o)) obs),
     total (map (fun o => h11 t0 t1 (fst o) (snd o)) obs)).
Proof.
  pose proof (nu_pos t1) as Hn. unfold st_hessian, st_phi, st_nu. cbn [fst snd]. cbv zeta.
  replace (exp t1 + min_df - min_df) with (exp t1) by ring.
  pose proof (exp_pos t0) as He.
  set (e := exp t1). set (n := e + min_df). cbv beta in Hn. fold e in Hn. fold n in Hn.
  assert (F : forall o : R * R, st_fymu (exp t0) n (fst o) (snd o)
     = (n + 1) * ((fst o - snd o) ^ 2 * exp (- 2 * t0)) / (n + (fst o - snd o) ^ 2 * exp (- 2 * t0)))
    by (intros o; exact (st_fymu_eq t0 t1 (fst o) (snd o))).
  assert (F1 : forall o : R * R, st_f1ymu (exp t0) n (fst o) (snd o)
     = ((fst o - snd o) ^ 2 * exp (- 2 * t0)) / (n + (fst o - snd o) ^ 2 * exp (- 2 * t0)))
    by (intros o; exact (st_f1ymu_eq t0 t1 (fst o) (snd o))).
  assert (F2 : forall o : R * R, st_nusig2a (exp t0) n (fst o) (snd o)
     = exp t0 ^ 2 * (n + (fst o - snd o) ^ 2 * exp (- 2 * t0)))
    by (intros o; exact (st_nusig2a_eq t0 t1 (fst o) (snd o))).
  assert (F3 : forall o : R * R, ln (st_a (exp t0) n (fst o) (snd o))
     = ln (n + (fst o - snd o) ^ 2 * exp (- 2 * t0)) - ln n)
    by (intros o; exact (st_ln_a t0 t1 (fst o) (snd o))).
  assert (F4 : forall o : R * R, (fst o - snd o) ^ 2 = exp t0 ^ 2 * ((fst o - snd o) ^ 2 * exp (- 2 * t0))).
  { intros o. pose proof (q_eq t0 (fst o) (snd o)) as E. cbv beta in E. rewrite <- E. field. lra. }
  assert (F5 : forall o : R * R, exp t0 ^ 2 * st_a (exp t0) n (fst o) (snd o)
     = exp t0 ^ 2 * (n + (fst o - snd o) ^ 2 * exp (- 2 * t0)) / n).
  { intros o. rewrite <- F2. unfold st_nusig2a. field. lra. }
  f_equal; [f_equal|].
  - transitivity (-1 * / 2 * total (map (fun o =>  4 * st_fymu (exp t0) n (fst o) (snd o) * (1 - st_f1ymu (exp t0) n (fst o) (snd o))) obs)); [ring|].
    rewrite <- total_scal. apply total_ext. intros o _. rewrite F, F1. unfold h00. cbv beta. fold e. fold n.
    pose proof (q_nonneg t0 (fst o) (snd o)) as Hq. cbv beta in Hq.
    field. lra.
  - match goal with |- -1 * (total (map ?f obs) * / 2) = _ => transitivity (-1 * / 2 * total (map f obs)); [ring|] end.
    rewrite <- total_scal. apply total_ext. intros o _. rewrite F, F1, F5. unfold h01. cbv beta. fold e. fold n.
    pose proof (q_nonneg t0 (fst o) (snd o)) as Hq. cbv beta in Hq.
    replace ((fst o - snd o) * ((fst o - snd o) / (exp t0 ^ 2 * (n + (fst o - snd o) ^ 2 * exp (- 2 * t0)) / n)))
      with ((fst o - snd o) ^ 2 / (exp t0 ^ 2 * (n + (fst o - snd o) ^ 2 * exp (- 2 * t0)) / n))
      by (unfold Rdiv; ring).
    pose proof (F4 o) as F4o. set (Q := (fst o - snd o) ^ 2 * exp (- 2 * t0)) in *. rewrite F4o. field. lra.
  - match goal with |- -1 * (total (map ?f obs) * / 2 - INR (length obs) * ?c) = _ =>
      transitivity (- / 2 * total (map f obs) + INR (length obs) * c); [field; lra|] end.
    rewrite <- total_const, <- total_scal, <- total_plus. apply total_ext. intros o _.
    rewrite F1, F2, F3. unfold h11. cbv beta zeta. fold e. fold n.
    pose proof (q_nonneg t0 (fst o) (snd o)) as Hq. cbv beta in Hq.
    pose proof (F4 o) as F4o. set (Q := (fst o - snd o) ^ 2 * exp (- 2 * t0)) in *. rewrite F4o. field. lra.
Qed.

(** The deviance in the mean. *)
Lemma st_dD t0 t1 y mu : is_derive (fun m => st_D min_df y m (t0, t1)) mu (st_dDdmu min_df y mu (t0, t1)).
Proof.
  pose proof (nu_pos t1) as Hn. pose proof (exp_pos t0) as He. cbv beta in Hn.
  unfold st_D, st_dDdmu, st_phi, st_nu. cbn [fst snd]. cbv zeta.
  set (p := exp t0) in *. set (n := exp t1 + min_df) in *.
  assert (Hp : 0 < p ^ 2 * n + (y - mu) ^ 2) by (assert (0 < p ^ 2 * n) by (apply Rmult_lt_0_compat; [apply pow_lt|]; lra); pose proof (pow2_ge_0 (y - mu)); lra).
  assert (Ha : 0 < 1 + ((y - mu) / p) ^ 2 / n).
  { assert (0 <= ((y - mu) / p) ^ 2 / n); [|lra]. apply Rmult_le_pos; [apply pow2_ge_0|]. left. now apply Rinv_0_lt_compat. }
  auto_derive.
  - unfold Rdiv in Ha. simpl in *. lra.
  - field. repeat split; lra.
Qed.

Lemma st_dD2 t0 t1 y mu : is_derive (fun m => st_dDdmu min_df y m (t0, t1)) mu (st_d2Ddmu min_df y mu (t0, t1)).
Proof.
  pose proof (nu_pos t1) as Hn. pose proof (exp_pos t0) as He. cbv beta in Hn.
  unfold st_d2Ddmu, st_dDdmu, st_phi, st_nu. cbn [fst snd]. cbv zeta.
  set (p := exp t0) in *. set (n := exp t1 + min_df) in *.
  assert (Hp : 0 < p ^ 2 * n + (y - mu) ^ 2) by (assert (0 < p ^ 2 * n) by (apply Rmult_lt_0_compat; [apply pow_lt|]; lra); pose proof (pow2_ge_0 (y - mu)); lra).
  assert (E : forall m, n * (p ^ 2 * (1 + ((y - m) / p) ^ 2 / n)) = p ^ 2 * n + (y - m) ^ 2) by (intros; field; lra).
  apply (is_derive_ext (fun m => -2 * ((n + 1) * (y - m) / (p ^ 2 * n + (y - m) ^ 2)))).
  - intros t. now rewrite E.
  - rewrite E. auto_derive.
    + simpl in *. lra.
    + simpl in *. field. lra.
Qed.
End ST.
