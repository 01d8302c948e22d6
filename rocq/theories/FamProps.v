(** Properties C19-C23 and C67: links, exponential families, working weights. *)

From Coq Require Import Reals List Lra Lia.
From Coquelicot Require Import Coquelicot.
From Verif Require Import Ext FamModel FamSpec FamProofs.
Import ListNotations.
Local Open Scope R_scope.

(** ** C19 *)

Theorem C19_links_invert : forall l,
  (forall mu, link_dom l mu -> link_fi l (link_f l mu) = mu) /\
  (forall eta, link_f l (link_fi l eta) = eta /\ link_dom l (link_fi l eta)).
Proof. intros l. split; auto using link_fi_f, link_f_fi, link_fi_dom. Qed.
Print Assumptions C19_links_invert.

Example C19_case : link_dom Logit (1 / 4) /\ link_dom (LOGb (- (1 / 10000))) 1 /\ ~ link_dom LOG (-1).
Proof. simpl. lra. Qed.

(** ** C20 *)

Theorem C20_link_derivatives : forall l mu, link_dom l mu ->
  is_derive_n (link_f l) 1 mu (link_dy1 l mu) /\ is_derive_n (link_f l) 2 mu (link_dy2 l mu).
Proof.
  intros l mu H. split; [now apply link_f_derive|].
  apply (is_derive_ext_loc (link_dy1 l)); [|now apply link_dy1_derive].
  apply filter_imp with (link_dom l); [|now apply link_dom_open].
  intros m Hm. symmetry. now apply is_derive_unique, link_f_derive.
Qed.
Print Assumptions C20_link_derivatives.

Example C20_case : link_dy1 Logit (1 / 4) = 16 / 3 /\ link_dy2 Logit (1 / 4) = - (128 / 9).
Proof. simpl. split; field. Qed.

(** ** C21 *)

Theorem C21_deviance : forall gammaln f y mu scale,
  mean_ok f mu -> resp_ok f y -> scale_ok f scale ->
  0 <= fam_D f y mu /\ (fam_D f y mu = 0 <-> y = mu) /\
  fam_D f y mu = 2 * scale * (fam_lp gammaln f y y scale - fam_lp gammaln f y mu scale).
Proof.
  intros. split; [now apply fam_D_nonneg|]. split; [now apply fam_D_zero|]. now apply fam_D_lp.
Qed.
Print Assumptions C21_deviance.

(** Two successes in two trials against a mean of 1/2; no event against a mean of 3. *)
Example C21_case :
  mean_ok (Binomial 2) (1 / 2) /\ resp_ok (Binomial 2) 1 /\ fam_D (Binomial 2) 1 (1 / 2) = 4 * ln 2 /\
  resp_ok Poisson 0 /\ fam_D Poisson 0 3 = 6.
Proof.
  assert (H1 : mean_ok (Binomial 2) (1 / 2)) by (simpl; split; [lia|lra]).
  assert (H2 : resp_ok (Binomial 2) 1) by (split; [lia|]; exists 2%nat; split; [lia|ring]).
  split; [exact H1|]. split; [exact H2|]. split; [|split].
  - rewrite binom_D by assumption. simpl INR. replace (1 + 1) with 2 by ring.
    destruct (Req_EM_T (1 * 2) 0); [lra|]. destruct (Req_EM_T (2 - 1 * 2) 0); [|lra].
    replace (1 / 2 * 2) with 1 by field. rewrite ln_1. replace (1 * 2) with 2 by ring. ring.
  - exists 0%nat. reflexivity.
  - rewrite poisson_D by lra. destruct (Req_EM_T 0 0); [ring|congruence].
Qed.

(** ** C22 *)

Theorem C22_variance : forall f mu, mean_ok f mu ->
  0 < fam_V f mu /\ is_derive (fam_V f) mu (fam_dVy1 f mu).
Proof. split; auto using fam_V_pos, fam_V_derive. Qed.
Print Assumptions C22_variance.

Example C22_case : mean_ok (Binomial 4) (1 / 4) /\ fam_V (Binomial 4) (1 / 4) = 3 / 64.
Proof. split; [simpl; split; [lia|lra]|]. unfold fam_V. simpl INR. field. Qed.

(** ** C67 *)

(** The log-probabilities are the ones of the distribution with mean mu and variance
    scale * V(mu); [gammaln] is the logarithm of the Gamma function. *)
Theorem C67_log_density : forall gammaln y mu scale,
  (forall j, gammaln (INR j + 1) = ln (INR (fact j))) ->
  (0 < scale -> fam_lp gammaln Gaussian y mu scale = ln (gauss_pdf mu (scale * fam_V Gaussian mu) y)) /\
  (0 < scale -> 0 < mu -> 0 < y -> exists a r,
     a / r = mu /\ a / r ^ 2 = scale * fam_V Gamma mu /\
     fam_lp gammaln Gamma y mu scale = ln (gamma_pdf (fun a => exp (gammaln a)) a r y)) /\
  (0 < scale -> 0 < mu -> 0 < y -> exists l,
     mu ^ 3 / l = scale * fam_V InvGauss mu /\
     fam_lp gammaln InvGauss y mu scale = ln (invgauss_pdf mu l y)) /\
  (forall k, 0 < mu -> y = INR k -> fam_lp gammaln Poisson y mu scale = ln (poisson_pmf mu k)) /\
  (forall n k, 0 < mu < 1 -> (k <= n)%nat -> y * INR n = INR k ->
     fam_lp gammaln (Binomial n) y mu scale = ln (binomial_pmf n mu k)).
Proof.
  intros gammaln y mu scale Hg. repeat split.
  - intros Hs. simpl fam_V. rewrite Rmult_1_r. now apply gauss_lp.
  - intros Hs Hm Hy. exists (1 / scale), (1 / scale / mu). simpl fam_V.
    repeat split; [field; lra|field; lra|now apply gamma_lp].
  - intros Hs Hm Hy. exists (1 / scale). simpl fam_V. split; [field; lra|now apply invgauss_lp].
  - intros k Hm ->. apply poisson_lp; auto.
  - intros n k Hm Hk Ey. now apply binomial_lp.
Qed.
Print Assumptions C67_log_density.

Example C67_case : exists gammaln, forall j, gammaln (INR j + 1) = ln (INR (fact j)).
Proof.
  exists (fun x => ln (INR (fact (Z.to_nat (up x - 2))))). intros j. do 3 f_equal.
  replace (up (INR j + 1)) with (Z.of_nat j + 2)%Z.
  - rewrite Z.add_simpl_r. apply Nat2Z.id.
  - apply tech_up; rewrite plus_IZR, <- INR_IZR_INZ; lra.
Qed.

(** ** C23 *)

Section Newton.
Variable gammaln : R -> R.

(** Log-likelihood of one observation as a function of its linear predictor. *)
Definition eta_llk (f : family) (l : link) (y scale e : R) : R :=
  fam_lp gammaln f y (link_fi l e) scale.

Lemma scale_neq f scale : scale_ok f scale -> scale <> 0.
Proof. destruct f; simpl; lra. Qed.

Lemma eta_score f l y scale eta :
  let mu := link_fi l eta in
  mean_ok f mu -> resp_ok f y -> scale_ok f scale ->
  is_derive (eta_llk f l y scale) eta ((y - mu) / (scale * fam_V f mu * link_dy1 l mu)).
Proof.
  intros mu Hm Hy Hs. unfold eta_llk.
  apply (newton_first (fun m => fam_lp gammaln f y m scale) (fam_V f) (link_fi l) (link_dy1 l)).
  - now apply (scale_neq f).
  - apply Rgt_not_eq. now apply fam_V_pos.
  - apply link_dy1_neq, link_fi_dom.
  - now apply fam_lp_derive.
  - apply link_fi_derive.
Qed.

Lemma eta_curvature f l y scale eta :
  let mu := link_fi l eta in
  mean_ok f mu -> resp_ok f y -> scale_ok f scale ->
  is_derive_n (eta_llk f l y scale) 2 eta
    (- ((1 + (y - mu) * (fam_dVy1 f mu / fam_V f mu + link_dy2 l mu / link_dy1 l mu))
        / (link_dy1 l mu ^ 2 * fam_V f mu)) / scale).
Proof.
  intros mu Hm Hy Hs.
  apply (is_derive_ext_loc (fun e => (y - link_fi l e)
      / (scale * fam_V f (link_fi l e) * link_dy1 l (link_fi l e)))).
  - assert (L : locally eta (fun e => mean_ok f (link_fi l e))).
    { apply (ex_derive_continuous (link_fi l) eta).
      - eexists. apply link_fi_derive.
      - now apply mean_ok_open. }
    apply filter_imp with (2 := L). intros e He. symmetry. apply is_derive_unique.
    now apply eta_score.
  - apply (newton_second (fam_V f) (fam_dVy1 f) (link_fi l) (link_dy1 l) (link_dy2 l)).
    + now apply (scale_neq f).
    + apply Rgt_not_eq. now apply fam_V_pos.
    + apply link_dy1_neq, link_fi_dom.
    + apply link_fi_derive.
    + now apply fam_V_derive.
    + apply link_dy1_derive, link_fi_dom.
Qed.

Theorem C23_newton : forall f l y scale eta,
  let mu := link_fi l eta in
  mean_ok f mu -> resp_ok f y -> scale_ok f scale ->
  match pirls_newton f l y mu eta with
  | Some (z, w) => is_derive_n (eta_llk f l y scale) 1 eta (w * (z - eta) / scale) /\
                   is_derive_n (eta_llk f l y scale) 2 eta (- w / scale)
  | None => is_derive_n (eta_llk f l y scale) 2 eta 0
  end.
Proof.
  intros f l y scale eta mu Hm Hy Hs.
  pose proof (eta_score f l y scale eta Hm Hy Hs) as H1.
  pose proof (eta_curvature f l y scale eta Hm Hy Hs) as H2. fold mu in H1, H2.
  pose proof (scale_neq f scale Hs).
  assert (HV : fam_V f mu <> 0) by (apply Rgt_not_eq; now apply fam_V_pos).
  assert (Hd : link_dy1 l mu <> 0) by (apply link_dy1_neq, link_fi_dom).
  unfold pirls_newton, newton_row.
  set (a := 1 + (y - mu) * (fam_dVy1 f mu / fam_V f mu + link_dy2 l mu / link_dy1 l mu)) in *.
  destruct (Req_EM_T a 0) as [E|E].
  - rewrite E in H2. replace 0 with (- (0 / (link_dy1 l mu ^ 2 * fam_V f mu)) / scale); [exact H2|].
    field. auto.
  - split; [|exact H2].
    replace (a / (link_dy1 l mu ^ 2 * fam_V f mu) * (link_dy1 l mu * (y - mu) / a + eta - eta) / scale)
      with ((y - mu) / (scale * fam_V f mu * link_dy1 l mu)); [exact H1|]. field. auto.
Qed.

(** The Fisher weights are the expectation over the response, and their working response gives
    the same first derivative. *)
Theorem C23_fisher : forall f l scale eta E,
  let mu := link_fi l eta in
  mean_ok f mu -> scale_ok f scale -> expectation (resp_ok f) E -> E (fun y => y) = mu ->
  (forall y, resp_ok f y -> let (z, w) := pirls_fisher f l y mu eta in
     0 < w /\ is_derive_n (eta_llk f l y scale) 1 eta (w * (z - eta) / scale) /\
     E (fun y' => Derive_n (eta_llk f l y' scale) 2 eta) = - w / scale).
Proof.
  intros f l scale eta E mu Hm Hs HE Emu y Hy. unfold pirls_fisher, fisher_row.
  pose proof (scale_neq f scale Hs). pose proof (fam_V_pos f mu Hm) as HV.
  assert (Hd : link_dy1 l mu <> 0) by (apply link_dy1_neq, link_fi_dom).
  split; [|split].
  - apply Rdiv_lt_0_compat; [lra|]. apply Rmult_lt_0_compat; [|assumption]. now apply pow2_gt_0.
  - pose proof (eta_score f l y scale eta Hm Hy Hs) as H1. fold mu in H1.
    replace (1 / (link_dy1 l mu ^ 2 * fam_V f mu) * (link_dy1 l mu * (y - mu) + eta - eta) / scale)
      with ((y - mu) / (scale * fam_V f mu * link_dy1 l mu)); [exact H1|]. field. repeat split; lra.
  - set (c := fam_dVy1 f mu / fam_V f mu + link_dy2 l mu / link_dy1 l mu).
    set (k := - (1 / (link_dy1 l mu ^ 2 * fam_V f mu)) / scale).
    rewrite (E_ext _ _ HE _ (fun y' => (k * (1 - mu * c)) * 1 + (k * c) * y')).
    + rewrite (E_lin _ _ HE), (E_one _ _ HE), Emu. ring.
    + intros y' Hy'. rewrite (is_derive_n_unique _ _ _ _ (eta_curvature f l y' scale eta Hm Hy' Hs)).
      fold mu. fold c. unfold k. field. repeat split; lra.
Qed.
End Newton.
Print Assumptions C23_newton.
Print Assumptions C23_fisher.

Theorem C23_canonical : forall f l y mu eta,
  is_canonical f l = true -> mean_ok f mu ->
  pirls_newton f l y mu eta = Some (pirls_fisher f l y mu eta).
Proof.
  intros f l y mu eta Hc Hm.
  assert (E : 1 + (y - mu) * (fam_dVy1 f mu / fam_V f mu + link_dy2 l mu / link_dy1 l mu) = 1).
  { destruct f, l; try discriminate; simpl in *.
    - destruct Hm as [Hn Hm]. apply lt_0_INR in Hn. field. repeat split; lra.
    - field.
    - field. lra. }
  unfold pirls_newton, pirls_fisher, newton_row, fisher_row. rewrite E.
  destruct (Req_EM_T 1 0); [lra|]. do 2 f_equal. field.
Qed.
Print Assumptions C23_canonical.

(** A user's own family and link. *)
Theorem C23_newton_general : forall (ll V dV fi dy1 dy2 : R -> R) y phi eta,
  let mu := fi eta in
  phi <> 0 ->
  locally eta (fun e => let m := fi e in V m <> 0 /\ dy1 m <> 0 /\
    is_derive ll m ((y - m) / (phi * V m)) /\ is_derive fi e (1 / dy1 m)) ->
  is_derive V mu (dV mu) -> is_derive dy1 mu (dy2 mu) ->
  match newton_row (dy1 mu) (dy2 mu) (V mu) (dV mu) y mu eta with
  | Some (z, w) => is_derive_n (fun e => ll (fi e)) 1 eta (w * (z - eta) / phi) /\
                   is_derive_n (fun e => ll (fi e)) 2 eta (- w / phi)
  | None => is_derive_n (fun e => ll (fi e)) 2 eta 0
  end.
Proof.
  intros ll V dV fi dy1 dy2 y phi eta mu Hp L HdV Hd2.
  destruct (locally_singleton _ _ L) as (HV & Hd & Hl & Hf). fold mu in HV, Hd, Hl, Hf.
  pose proof (newton_first ll V fi dy1 y phi eta Hp HV Hd Hl Hf) as H1. cbv zeta in H1. fold mu in H1.
  assert (H2 : is_derive_n (fun e => ll (fi e)) 2 eta
    (- ((1 + (y - mu) * (dV mu / V mu + dy2 mu / dy1 mu)) / (dy1 mu ^ 2 * V mu)) / phi)).
  { apply (is_derive_ext_loc (fun e => (y - fi e) / (phi * V (fi e) * dy1 (fi e)))).
    - apply filter_imp with (2 := L). intros e (A & B & C & D). symmetry. apply is_derive_unique.
      now apply (newton_first ll V fi dy1).
    - now apply (newton_second V dV fi dy1 dy2). }
  unfold newton_row. set (a := 1 + (y - mu) * (dV mu / V mu + dy2 mu / dy1 mu)) in *.
  destruct (Req_EM_T a 0) as [E|E].
  - rewrite E in H2. replace 0 with (- (0 / (dy1 mu ^ 2 * V mu)) / phi); [exact H2|]. field. auto.
  - split; [|exact H2].
    replace (a / (dy1 mu ^ 2 * V mu) * (dy1 mu * (y - mu) / a + eta - eta) / phi)
      with ((y - mu) / (phi * V mu * dy1 mu)); [exact H1|]. field. auto.
Qed.
Print Assumptions C23_newton_general.

(** A Gamma model with log link: the Newton weight is the response divided by its mean. *)
Example C23_case : mean_ok Gamma (link_fi LOG 0) /\ resp_ok Gamma 3 /\
  pirls_newton Gamma LOG 3 (link_fi LOG 0) 0 = Some (2 / 3, 3) /\
  pirls_fisher Gamma LOG 3 (link_fi LOG 0) 0 = (2, 1).
Proof.
  simpl. rewrite exp_0. repeat split; try lra.
  - unfold pirls_newton, newton_row. simpl.
    destruct (Req_EM_T _ 0) as [E|_]; [exfalso; field_simplify in E; lra|].
    do 2 f_equal; field.
  - unfold pirls_fisher, fisher_row. simpl. f_equal; field.
Qed.

(** A response that is 0 or 1 with probability 3/4 and 1/4. *)
Example C23_expectation : exists E, expectation (resp_ok (Binomial 1)) E /\ E (fun y => y) = 1 / 4.
Proof.
  exists (fin_E [(3 / 4, 0); (1 / 4, 1)]). split; [|simpl; field]. constructor.
  - intros f g H. simpl. rewrite !H; [reflexivity| |].
    + split; [lia|]. exists 1%nat. split; [lia|simpl; ring].
    + split; [lia|]. exists 0%nat. split; [lia|simpl; ring].
  - intros. simpl. ring.
  - simpl. field.
Qed.
