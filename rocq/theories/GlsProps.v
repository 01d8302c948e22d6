(** Theorems about families with several parameters, extended families and their use as general
    smooth families (C24-C28, C68, C70). *)

From Coq Require Import Reals List Lra Lia Arith Bool FunctionalExtensionality.
From Coquelicot Require Import Coquelicot.
From Verif Require Import Ext FamModel FamSpec FamProofs GlsModel GlsSpec GlsProofs GlsProofs2 GlsProofs3.
Import ListNotations.
Local Open Scope R_scope.

(** ** C24: from means to linear predictors *)

(** [l] is a function of the means (m 0, ..., m (n-1)), [d1], [d2] and [d2m] its derivatives in
    the order the family lists them, [fi] the inverse links and [dy1], [dy2] the links'
    derivatives.  The lists the code returns are the derivatives of the function of the linear
    predictors. *)
Theorem C24_transform :
  forall (n : nat) (l : (nat -> R) -> R) (d1 d2 d2m : nat -> (nat -> R) -> R)
         (fi dy1 dy2 : nat -> R -> R) (Dom : (nat -> R) -> Prop),
  (forall m i, Dom m -> locally (m i) (fun t => Dom (upd m i t))) ->
  (forall m i, (i < n)%nat -> Dom m -> partial l i m (d1 i m)) ->
  (forall m i, (i < n)%nat -> Dom m -> partial (d1 i) i m (d2 i m)) ->
  (forall m k i j, nth_error (pairs n) k = Some (i, j) -> Dom m -> partial (d1 i) j m (d2m k m)) ->
  (forall i e, (i < n)%nat -> is_derive (fi i) e (1 / dy1 i (fi i e))) ->
  (forall i e, (i < n)%nat -> dy1 i (fi i e) <> 0) ->
  (forall i e, (i < n)%nat -> is_derive (dy1 i) (fi i e) (dy2 i (fi i e))) ->
  forall eta, Dom (fun i => fi i (eta i)) ->
  let m := fun i => fi i (eta i) in
  let L := fun e : nat -> R => l (fun i => fi i (e i)) in
  let a1 := fun i => d1 i m in let a2 := fun i => d2 i m in let a2m := fun k => d2m k m in
  let b1 := fun i => dy1 i (m i) in let b2 := fun i => dy2 i (m i) in
  exists hm cnt, d2meta n a2m b1 = Some (hm, cnt) /\
  length (d1eta n a1 b1) = n /\ length (d2eta n a1 a2 b1 b2) = n /\ length hm = length (pairs n) /\
  (forall i, (i < n)%nat -> partial L i eta (nth i (d1eta n a1 b1) 0) /\
                            partial2 L i eta (nth i (d2eta n a1 a2 b1 b2) 0)) /\
  (forall k i j, nth_error (pairs n) k = Some (i, j) -> partial_mixed L i j eta (nth k hm 0)).
Proof.
  intros n l d1 d2 d2m fi dy1 dy2 Dom Hopen H1 H2 Hm Hfi Hnz Hdy eta HD m L a1 a2 a2m b1 b2.
  change (fun i => fi i (eta i)) with (means fi eta) in HD.
  assert (Em : m = means fi eta) by reflexivity.
  exists (map (mixed_entry a2m b1) (combine (seq 0 (length (pairs n))) (pairs n))), (length (pairs n)).
  split; [apply d2meta_eq|]. unfold d1eta, d2eta.
  split; [now rewrite map_length, seq_length|]. split; [now rewrite map_length, seq_length|].
  split; [now rewrite map_length, combine_length, seq_length, Nat.min_id|].
  split.
  - intros i Hi.
    pose proof (chain_first l d1 fi dy1 Dom n H1 Hfi Hnz eta i Hi HD) as C1.
    pose proof (chain_second l d1 d2 fi dy1 dy2 Dom n Hopen H1 H2 Hfi Hnz Hdy eta i Hi HD) as C2.
    pose proof (Hnz i (eta i) Hi) as Z.
    assert (N : forall f : nat -> R, nth i (map f (seq 0 n)) 0 = f i) by (intros f; now apply values_nth).
    rewrite !N.
    unfold div0, b1. change (m i) with (fi i (eta i)).
    destruct (Req_EM_T (dy1 i (fi i (eta i))) 0); [contradiction|].
    split; [exact C1|exact C2].
  - intros k i j Hk.
    assert (Hin : In (i, j) (pairs n)) by (now apply nth_error_In with k).
    apply pairs_range in Hin.
    assert (HkL : (k < length (pairs n))%nat) by (apply nth_error_Some; congruence).
    rewrite (nth_indep _ 0 (mixed_entry a2m b1 (0%nat, (0%nat, 0%nat))))
      by (now rewrite map_length, combine_length, seq_length, Nat.min_id).
    rewrite map_nth, combine_nth by now rewrite seq_length.
    rewrite seq_nth by assumption. rewrite (nth_error_nth _ _ _ Hk), Nat.add_0_l.
    assert (Hi : (i < n)%nat) by lia. assert (Hj : (j < n)%nat) by lia.
    pose proof (chain_mixed l d1 fi dy1 Dom n Hopen H1 Hfi Hnz eta i j (d2m k m) Hi Hj ltac:(lia) HD
      (Hm m k i j Hk HD)) as C.
    unfold mixed_entry. cbn [fst snd]. unfold b1. change (m i) with (fi i (eta i)). change (m j) with (fi j (eta j)).
    destruct (Req_EM_T (dy1 i (fi i (eta i))) 0) as [E|_]; [now apply Hnz in E|].
    destruct (Req_EM_T (dy1 j (fi j (eta j))) 0) as [E|_]; [now apply Hnz in E|].
    unfold a2m. replace (d2m k m * (1 / dy1 i (fi i (eta i))) * (1 / dy1 j (fi j (eta j))))
      with (d2m k m / dy1 i (fi i (eta i)) / dy1 j (fi j (eta j))) by (unfold Rdiv; ring).
    exact C.
Qed.
Print Assumptions C24_transform.

(** The Gaussian location-scale log-likelihood (with its own second derivatives) meets the
    hypotheses with an identity link for the mean and a log link for the standard deviation. *)
Example C24_case :
  let l := fun m => gaumlss_lp 2 (m 0%nat) (m 1%nat) in
  let d1 := fun i m => match i with
     | O => 1 / m 1%nat ^ 2 * (2 - m 0%nat)
     | _ => ((2 - m 0%nat) ^ 2 - m 1%nat ^ 2) / m 1%nat ^ 3 end in
  let d2 := fun i m => match i with
     | O => - (1 / m 1%nat ^ 2)
     | _ => 1 / m 1%nat ^ 2 - 3 * (2 - m 0%nat) ^ 2 / m 1%nat ^ 4 end in
  let d2m := fun (k : nat) m => - 2 * (2 - m 0%nat) / m 1%nat ^ 3 in
  let lk := fun i : nat => match i with O => Identity | _ => LOG end in
  let Dom := fun m : nat -> R => 0 < m 1%nat in
  (forall m i, Dom m -> locally (m i) (fun t => Dom (upd m i t))) /\
  (forall m i, (i < 2)%nat -> Dom m -> partial l i m (d1 i m)) /\
  (forall m i, (i < 2)%nat -> Dom m -> partial (d1 i) i m (d2 i m)) /\
  (forall m k i j, nth_error (pairs 2) k = Some (i, j) -> Dom m -> partial (d1 i) j m (d2m k m)) /\
  (forall i e, (i < 2)%nat -> is_derive (link_fi (lk i)) e (1 / link_dy1 (lk i) (link_fi (lk i) e))) /\
  (forall i e, (i < 2)%nat -> link_dy1 (lk i) (link_fi (lk i) e) <> 0) /\
  (forall i e, (i < 2)%nat -> is_derive (link_dy1 (lk i)) (link_fi (lk i) e) (link_dy2 (lk i) (link_fi (lk i) e))) /\
  Dom (fun i => link_fi (lk i) 0).
Proof.
  intros l d1 d2 d2m lk Dom. split; [|split; [|split; [|split; [|split; [|split; [|split]]]]]].
  - intros m i H. unfold Dom in *. destruct (Nat.eq_dec i 1) as [->|N].
    + apply filter_imp with (2 := pos_near _ H). intros t Ht. now rewrite upd_same.
    + exists (mkposreal 1 Rlt_0_1). intros t _. now rewrite upd_other by lia.
  - intros m i Hi H. unfold partial, l, d1. destruct i as [|[|i]]; [| |lia].
    + apply is_derive_ext with (fun t => gaumlss_lp 2 t (m 1%nat)).
      { intros t. now rewrite upd_same, upd_other by lia. } now apply gaumlss_lp_mu.
    + apply is_derive_ext with (fun t => gaumlss_lp 2 (m 0%nat) t).
      { intros t. now rewrite upd_same, upd_other by lia. } now apply gaumlss_lp_sigma.
  - intros m i Hi H. unfold partial, d1, d2, Dom in *. destruct i as [|[|i]]; [| |lia].
    + apply is_derive_ext with (fun t => 1 / m 1%nat ^ 2 * (2 - t)).
      { intros t. now rewrite upd_same, upd_other by lia. } auto_derive; [auto|]. field. lra.
    + apply is_derive_ext with (fun t => ((2 - m 0%nat) ^ 2 - t ^ 2) / t ^ 3).
      { intros t. now rewrite upd_same, upd_other by lia. } auto_derive; [nz|]. field. lra.
  - intros m k i j Hk H. unfold partial, d1, d2m, Dom in *.
    destruct k as [|k]; simpl in Hk; [|destruct k; discriminate]. injection Hk as <- <-.
    apply is_derive_ext with (fun t => 1 / t ^ 2 * (2 - m 0%nat)).
    { intros t. now rewrite upd_same, upd_other by lia. } auto_derive; [nz|]. field. lra.
  - intros i e _. apply link_fi_derive.
  - intros i e _. apply link_dy1_neq, link_fi_dom.
  - intros i e _. apply link_dy1_derive, link_fi_dom.
  - unfold Dom. simpl. apply exp_pos.
Qed.

(** ** C25: multinomial *)

(** For any number [n] of non-reference categories and positive means: the probabilities are
    positive, sum to 1, the log-likelihood is the log of the observed category's probability, and
    what is predicted are these probabilities. *)
Theorem C25_probabilities : forall n w, (forall i, (i < n)%nat -> 0 < w i) ->
  (forall y, (y <= n)%nat -> 0 < cat_prob n w y /\ mulnom_lp y (values n w) = ln (cat_prob n w y)) /\
  sumf (n + 1) (cat_prob n w) = 1 /\
  mulnom_probs (values n w) = values (n + 1) (cat_prob n w).
Proof.
  intros n w Hw. split; [|split].
  - intros y Hy. destruct (mulnom_lp_prob y n w Hw Hy). auto.
  - now apply cat_prob_sum.
  - unfold mulnom_probs. rewrite values_length. unfold values at 2. apply map_ext_in. intros k Hk.
    apply in_seq in Hk. destruct (mulnom_lp_prob k n w Hw ltac:(lia)) as [E P]. rewrite E. now apply exp_ln.
Qed.
Print Assumptions C25_probabilities.

(** The returned derivatives are those with respect to the linear predictors, the means being
    their exponentials.  The mixed ones are listed in the order of [pairs]. *)
Theorem C25_derivatives : forall n y eta, 
  let L := fun e : nat -> R => mulnom_lp y (values n (fun i => exp (e i))) in
  let mus := values n (fun i => exp (eta i)) in
  (forall i, (i < n)%nat -> exists v h, mulnom_d1 y mus i = Some v /\ partial L i eta v /\
                                        mulnom_d2 y mus i = Some h /\ partial2 L i eta h) /\
  (forall i, (n <= i)%nat -> mulnom_d1 y mus i = None /\ mulnom_d2 y mus i = None) /\
  (forall k, match nth_error (pairs n) k with
             | Some (i, j) => exists v, mulnom_d2m y mus k = Some v /\ partial_mixed L i j eta v
             | None => mulnom_d2m y mus k = None
             end).
Proof.
  intros n y eta L mus. unfold mulnom_d1, mulnom_d2, mulnom_d2m, mus. rewrite values_length, total_values.
  split; [|split].
  - intros i Hi. destruct (Nat.ltb_spec i n); [|lia]. rewrite values_nth by assumption.
    eexists; eexists. split; [reflexivity|]. split; [|split; [reflexivity|]].
    + pose proof (mulnom_first n y eta i Hi) as H0. fold L in H0.
      destruct (y =? i + 1)%nat; [exact H0|]. rewrite Rplus_0_r in H0. exact H0.
    + exact (mulnom_second n y eta i Hi).
  - intros i Hi. destruct (Nat.ltb_spec i n); [lia|auto].
  - intros k. rewrite dpairs_pairs. destruct (nth_error (pairs n) k) as [[i j]|] eqn:E; [|reflexivity].
    assert (Hin : In (i, j) (pairs n)) by (now apply nth_error_In with k). apply pairs_range in Hin.
    rewrite !values_nth by lia. eexists. split; [reflexivity|].
    apply mulnom_mixed; lia.
Qed.
Print Assumptions C25_derivatives.

(** Three categories. *)
Example C25_case : mulnom_probs (values 2 (fun i => INR (i + 1))) = [1 / 4; 1 / 4; 2 / 4] /\
  mulnom_d1 2 (values 2 (fun i => exp 0)) 1 = Some (- (1 / 3) + 1) /\
  nth_error (pairs 3) 2 = Some (1, 2)%nat.
Proof.
  split; [|split].
  - assert (Hw : forall i, (i < 2)%nat -> 0 < INR (i + 1)) by (intros i _; apply lt_0_INR; lia).
    destruct (C25_probabilities 2 (fun i => INR (i + 1)) Hw) as (_ & _ & ->).
    unfold values, cat_prob. cbn [seq map sumf weight Nat.add INR]. repeat (f_equal; try lra).
  - unfold mulnom_d1, values. simpl. rewrite exp_0. do 2 f_equal. field.
  - reflexivity.
Qed.

(** ** C68: residual intervals of the multinomial family *)

(** Category y occupies an interval whose length is its probability; the intervals of categories
    1, ..., n, 0 follow each other and fill [0, 1]. *)
Theorem C68_intervals : forall n w, (1 <= n)%nat -> (forall i, (i < n)%nat -> 0 < w i) ->
  (forall y, (y <= n)%nat -> let (lo, hi) := mulnom_interval y (values n w) in
     0 <= lo < hi /\ hi <= 1 /\ hi - lo = cat_prob n w y) /\
  fst (mulnom_interval 1 (values n w)) = 0 /\
  (forall y, (1 <= y < n)%nat ->
     snd (mulnom_interval y (values n w)) = fst (mulnom_interval (y + 1) (values n w))) /\
  snd (mulnom_interval n (values n w)) = fst (mulnom_interval 0 (values n w)) /\
  snd (mulnom_interval 0 (values n w)) = 1.
Proof.
  intros n w Hn Hw.
  assert (HS : 0 < sumf n w) by (now apply sumf_pos).
  assert (Hmono : forall y, (y < n)%nat -> sumf y w + w y <= sumf n w).
  { intros y Hy. change (sumf y w + w y) with (sumf (S y) w).
    assert (G : forall k, (S y + k <= n)%nat -> sumf (S y) w <= sumf (S y + k) w).
    { induction k as [|k IH]; intros Hk; [rewrite Nat.add_0_r; lra|].
      rewrite Nat.add_succ_r. change (sumf (S (S y + k)) w) with (sumf (S y + k) w + w (S y + k)%nat).
      assert (0 < w (S y + k)%nat) by (apply Hw; lia). specialize (IH ltac:(lia)). lra. }
    specialize (G (n - S y)%nat ltac:(lia)). now replace (S y + (n - S y))%nat with n in G by lia. }
  assert (E1 : forall y, (1 <= y <= n)%nat ->
    mulnom_interval y (values n w) = (sumf (y - 1) w / (sumf n w + 1), sumf y w / (sumf n w + 1))).
  { intros y Hy. rewrite mulnom_interval_eq by lia. destruct y as [|[|k]]; [lia| |].
    - rewrite exp_lcp by (auto; lia). f_equal. simpl. field. lra.
    - rewrite !exp_lcp by (auto; lia). replace (S (S k) - 1)%nat with (S k) by lia. reflexivity. }
  assert (E0 : mulnom_interval 0 (values n w) = (sumf n w / (sumf n w + 1), 1)).
  { rewrite mulnom_interval_eq by lia. rewrite exp_lcp by (auto; lia). reflexivity. }
  assert (P : 0 < / (sumf n w + 1)) by (apply Rinv_0_lt_compat; lra).
  assert (U : (sumf n w + 1) * / (sumf n w + 1) = 1) by (apply Rinv_r; lra).
  split; [|split; [|split; [|split]]].
  - intros y Hy. destruct y as [|y].
    + rewrite E0. unfold cat_prob. rewrite sumf_weight. simpl weight. unfold Rdiv.
      repeat split; try nra.
    + rewrite E1 by lia. unfold cat_prob. rewrite sumf_weight. simpl weight.
      replace (S y - 1)%nat with y by lia. change (sumf (S y) w) with (sumf y w + w y). unfold Rdiv.
      assert (0 <= sumf y w) by (apply sumf_nonneg; intros; left; apply Hw; lia).
      assert (0 < w y) by (apply Hw; lia). pose proof (Hmono y ltac:(lia)).
      repeat split; nra.
  - rewrite E1 by lia. simpl. unfold Rdiv. ring.
  - intros y Hy. rewrite !E1 by lia. simpl. f_equal. f_equal. lia.
  - rewrite E1, E0 by lia. reflexivity.
  - rewrite E0. reflexivity.
Qed.
Print Assumptions C68_intervals.

Example C68_case : (1 <= 2)%nat /\ (forall i, (i < 2)%nat -> 0 < INR (i + 1)) /\
  mulnom_interval 2 (values 2 (fun i => INR (i + 1))) = (1 / 4, 3 / 4).
Proof.
  assert (Hw : forall i, (i < 2)%nat -> 0 < INR (i + 1)) by (intros i _; apply lt_0_INR; lia).
  split; [lia|]. split; [exact Hw|].
  rewrite mulnom_interval_eq by lia. rewrite !exp_lcp by (auto; lia). simpl. f_equal; field.
Qed.

(** ** C26: location-scale families *)

(** Gaussian: first derivatives are exact; the returned second derivatives are the expectations of
    the second derivatives under any distribution of the response with this mean and variance. *)
Theorem C26_gaussian : forall mu sigma, 0 < sigma ->
  (forall y, exists v, gaumlss_d1 y mu sigma 0 = Some v /\ is_derive (fun m => gaumlss_lp y m sigma) mu v) /\
  (forall y, exists v, gaumlss_d1 y mu sigma 1 = Some v /\ is_derive (fun s => gaumlss_lp y mu s) sigma v) /\
  (forall y E, expectation (fun _ => True) E -> E (fun y => y) = mu -> E (fun y => (y - mu) ^ 2) = sigma ^ 2 ->
     (exists v, gaumlss_d2 y mu sigma 0 = Some v /\ E (fun y => Derive_n (fun m => gaumlss_lp y m sigma) 2 mu) = v) /\
     (exists v, gaumlss_d2 y mu sigma 1 = Some v /\ E (fun y => Derive_n (fun s => gaumlss_lp y mu s) 2 sigma) = v) /\
     (exists v, gaumlss_d2m y mu sigma 0 = Some v /\
                E (fun y => Derive (fun s => Derive (fun m => gaumlss_lp y m s) mu) sigma) = v)).
Proof.
  intros mu sigma Hs. split; [|split].
  - intros y. eexists. split; [reflexivity|]. now apply gaumlss_lp_mu.
  - intros y. eexists. split; [reflexivity|]. now apply gaumlss_lp_sigma.
  - intros y E HE E1 E2.
    assert (E3 : E (fun y => y - mu) = 0).
    { rewrite (E_ext _ _ HE _ (fun y => 1 * y + - mu * 1)) by (intros; ring).
      rewrite (E_lin _ _ HE), (E_one _ _ HE), E1. ring. }
    split; [|split]; eexists; (split; [reflexivity|]).
    + rewrite (E_ext _ _ HE _ (fun _ => - (1 / sigma ^ 2) * 1 + 0 * 1)).
      * rewrite (E_lin _ _ HE), (E_one _ _ HE). ring.
      * intros y' _. rewrite (is_derive_n_unique _ _ _ _ (gaumlss_lp_mu2 y' mu sigma Hs)). ring.
    + rewrite (E_ext _ _ HE _ (fun y => 1 / sigma ^ 2 * 1 + - (3 / sigma ^ 4) * (y - mu) ^ 2)).
      * rewrite (E_lin _ _ HE _ _ (fun _ => 1) (fun y => (y - mu) ^ 2)), (E_one _ _ HE), E2. field. lra.
      * intros y' _. rewrite (is_derive_n_unique _ _ _ _ (gaumlss_lp_sigma2 y' mu sigma Hs)). field. lra.
    + rewrite (E_ext _ _ HE _ (fun y => 0 * 1 + - (2 / sigma ^ 3) * (y - mu))).
      * rewrite (E_lin _ _ HE _ _ (fun _ => 1) (fun y => y - mu)), (E_one _ _ HE), E3. ring.
      * intros y' _. etransitivity; [apply is_derive_unique; exact (gaumlss_lp_mixed y' mu sigma Hs)|field; lra].
Qed.
Print Assumptions C26_gaussian.

(** Gamma with mean mu and scale s: the log of such a response has expectation
    ln mu + ln s + digamma (1 / s). *)
Theorem C26_gamma : forall (gammaln digamma trigamma : R -> R),
  (forall x, 0 < x -> is_derive gammaln x (digamma x)) ->
  (forall x, 0 < x -> is_derive digamma x (trigamma x)) ->
  forall mu s, 0 < mu -> 0 < s ->
  let lp := gammals_lp gammaln in
  (forall y, 0 < y -> exists v, gammals_d1 digamma y mu s 0 = Some v /\ is_derive (fun m => lp y m s) mu v) /\
  (forall y, 0 < y -> exists v, gammals_d1 digamma y mu s 1 = Some v /\ is_derive (fun t => lp y mu t) s v) /\
  (forall y E, expectation (fun y => 0 < y) E -> E (fun y => y) = mu ->
     E (fun y => ln y) = ln mu + ln s + digamma (1 / s) ->
     (exists v, gammals_d2 trigamma y mu s 0 = Some v /\ E (fun y => Derive_n (fun m => lp y m s) 2 mu) = v) /\
     (exists v, gammals_d2 trigamma y mu s 1 = Some v /\ E (fun y => Derive_n (fun t => lp y mu t) 2 s) = v) /\
     (exists v, gammals_d2m y mu s 0 = Some v /\
                E (fun y => Derive (fun t => Derive (fun m => lp y m t) mu) s) = v)).
Proof.
  intros gammaln digamma trigamma Hg Hd mu s Hm Hs lp. subst lp. split; [|split].
  - intros y Hy. eexists. split; [reflexivity|]. now apply gammals_mu.
  - intros y Hy. eexists. split; [reflexivity|]. now apply gammals_s.
  - intros y E HE E1 E2. split; [|split]; eexists; (split; [reflexivity|]).
    + rewrite (E_ext _ _ HE _ (fun y => 1 / (s * mu ^ 2) * 1 + - (2 / (s * mu ^ 3)) * y)).
      * rewrite (E_lin _ _ HE _ _ (fun _ => 1) (fun y => y)), (E_one _ _ HE), E1. field. lra.
      * intros y' Hy'. rewrite (is_derive_n_unique _ _ _ _ (gammals_mu2 gammaln y' mu s Hy' Hm Hs)). field. lra.
    + set (c := ln mu + ln s - 1 + digamma (1 / s)).
      rewrite (E_ext _ _ HE _ (fun y => 1 * (- 2 / s ^ 3 * (1 / mu * y + -1 * ln y))
          + (- 2 / s ^ 3 * c + 1 / s ^ 3 - 1 / s ^ 4 * trigamma (1 / s)) * 1)).
      * rewrite (E_lin _ _ HE _ _ (fun y => - 2 / s ^ 3 * (1 / mu * y + -1 * ln y)) (fun _ => 1)), (E_one _ _ HE).
        rewrite (E_ext _ _ HE (fun y => - 2 / s ^ 3 * (1 / mu * y + -1 * ln y))
                   (fun y => (- 2 / s ^ 3 / mu) * y + (2 / s ^ 3) * ln y)) by (intros; field; lra).
        rewrite (E_lin _ _ HE _ _ (fun y => y) ln), E1.
        change (E ln) with (E (fun y => ln y)). rewrite E2. unfold c. field. lra.
      * intros y' Hy'. rewrite (is_derive_n_unique _ _ _ _ (gammals_s2 gammaln digamma trigamma Hg Hd y' mu s Hy' Hm Hs)).
        unfold c. field. lra.
    + rewrite (E_ext _ _ HE _ (fun y => - (1 / (s ^ 2 * mu ^ 2)) * y + (mu / (s ^ 2 * mu ^ 2)) * 1)).
      * rewrite (E_lin _ _ HE _ _ (fun y => y) (fun _ => 1)), (E_one _ _ HE), E1. field. lra.
      * intros y' Hy'. etransitivity; [apply is_derive_unique; exact (gammals_mixed gammaln y' mu s Hy' Hm Hs)|field; lra].
Qed.
Print Assumptions C26_gamma.

(** A response that is 1 or 3 with equal probabilities has mean 2 and standard deviation 1. *)
Example C26_case : exists E, expectation (fun _ => True) E /\ E (fun y => y) = 2 /\
  E (fun y => (y - 2) ^ 2) = 1 ^ 2.
Proof.
  exists (fin_E [(1 / 2, 1); (1 / 2, 3)]). split; [|simpl; split; field]. constructor.
  - intros f g H. simpl. now rewrite !H.
  - intros. simpl. ring.
  - simpl. field.
Qed.

(** ** C27: the scaled t family *)

Section ST.
Variables gammaln digamma trigamma : R -> R.
Hypothesis Hg : forall x, 0 < x -> is_derive gammaln x (digamma x).
Hypothesis Hd : forall x, 0 < x -> is_derive digamma x (trigamma x).
Variable min_df : R.
Hypothesis Hdf : 0 <= min_df.

Theorem C27_deviance : forall y mu theta,
  0 <= st_D min_df y mu theta /\ (st_D min_df y mu theta = 0 <-> y = mu) /\
  st_D min_df y mu theta = 2 * (st_lp gammaln min_df y y theta - st_lp gammaln min_df y mu theta).
Proof.
  intros y mu [t0 t1]. rewrite !(st_lp_eq gammaln min_df Hdf), (st_D_eq min_df Hdf).
  pose proof (nu_pos min_df Hdf t1) as Hn. pose proof (q_nonneg t0 y mu) as Hq. cbv beta in *.
  assert (Z : (y - y) ^ 2 * exp (- 2 * t0) = 0) by (replace (y - y) with 0 by ring; ring).
  rewrite Z, Rplus_0_r.
  set (n := exp t1 + min_df) in *. pose proof (exp_pos (- 2 * t0)) as He.
  set (Q := (y - mu) ^ 2 * exp (- 2 * t0)) in *.
  assert (HL : 0 <= ln (n + Q) - ln n).
  { destruct (Rle_lt_or_eq_dec _ _ Hq) as [L|L]; [|rewrite <- L, Rplus_0_r; lra].
    pose proof (ln_increasing n (n + Q) Hn ltac:(lra)). lra. }
  split; [apply Rmult_le_pos; lra|]. split; [|field].
  split.
  - intros H. apply Rmult_integral in H. destruct H as [H|H]; [lra|].
    destruct (Rle_lt_or_eq_dec _ _ Hq) as [L|L].
    + pose proof (ln_increasing n (n + Q) Hn ltac:(lra)). lra.
    + assert (E : (y - mu) ^ 2 = 0) by (unfold Q in L; apply (Rmult_eq_reg_r (exp (- 2 * t0))); lra).
      apply Rminus_diag_uniq, Rsqr_0_uniq. unfold Rsqr. simpl in E. lra.
  - intros ->. unfold Q. replace (mu - mu) with 0 by ring.
    replace (0 ^ 2 * exp (- 2 * t0)) with 0 by ring. rewrite Rplus_0_r. ring.
Qed.

Theorem C27_mean_derivatives : forall y mu theta,
  is_derive_n (fun m => st_D min_df y m theta) 1 mu (st_dDdmu min_df y mu theta) /\
  is_derive_n (fun m => st_D min_df y m theta) 2 mu (st_d2Ddmu min_df y mu theta).
Proof.
  intros y mu [t0 t1]. split; [exact (st_dD min_df Hdf t0 t1 y mu)|].
  apply (is_derive_ext (fun m => st_dDdmu min_df y m (t0, t1))).
  - intros m. symmetry. apply is_derive_unique. exact (st_dD min_df Hdf t0 t1 y m).
  - exact (st_dD2 min_df Hdf t0 t1 y mu).
Qed.

(** Ed2Ddmu is the expectation of the second derivative whenever the share b of the squared
    standardised residual in nu + residual has the first two moments it has under a t
    distribution (where it is Beta(1/2, nu/2)). *)
Theorem C27_expected : forall y mu theta E,
  let phi := exp (fst theta) in let nu := exp (snd theta) + min_df in
  let b := fun y => ((y - mu) / phi) ^ 2 / (nu + ((y - mu) / phi) ^ 2) in
  expectation (fun _ => True) E ->
  E b = 1 / (nu + 1) -> E (fun y => b y ^ 2) = 3 / ((nu + 1) * (nu + 3)) ->
  E (fun y => Derive_n (fun m => st_D min_df y m theta) 2 mu) = st_Ed2Ddmu min_df y mu theta.
Proof.
  intros y mu [t0 t1] E phi nu b HE E1 E2. cbn [fst snd] in *.
  pose proof (nu_pos min_df Hdf t1) as Hn. cbv beta in Hn. fold nu in Hn.
  assert (Hp : 0 < phi) by apply exp_pos.
  set (k := 2 * (nu + 1) / (phi ^ 2 * nu)).
  rewrite (E_ext _ _ HE _ (fun y => 1 * (k * 1 + (- 3 * k) * b y) + (2 * k) * b y ^ 2)).
  - rewrite (E_lin _ _ HE _ _ (fun y => k * 1 + (- 3 * k) * b y) (fun y => b y ^ 2)), E2.
    rewrite (E_lin _ _ HE _ _ (fun _ => 1) b), (E_one _ _ HE), E1.
    unfold k, st_Ed2Ddmu, st_phi, st_nu. cbn [fst snd]. fold phi. fold nu. field. repeat split; lra.
  - intros y' _.
    rewrite (is_derive_n_unique _ _ _ _ (proj2 (C27_mean_derivatives y' mu (t0, t1)))).
    unfold st_d2Ddmu, st_phi, st_nu, k, b. cbn [fst snd]. fold phi. fold nu.
    assert (0 < nu * phi ^ 2) by (apply Rmult_lt_0_compat; [assumption|apply pow_lt; assumption]).
    pose proof (pow2_ge_0 (y' - mu)).
    field. repeat split; lra.
Qed.

(** V is the variance of mu + phi * z whenever z has the variance nu / (nu - 2) of a t variable. *)
Theorem C27_variance : forall mu theta E,
  let phi := exp (fst theta) in let nu := exp (snd theta) + min_df in
  expectation (fun _ => True) E -> E (fun z => z) = 0 -> E (fun z => z ^ 2) = nu / (nu - 2) ->
  E (fun z => (mu + phi * z - E (fun z => mu + phi * z)) ^ 2) = st_V min_df mu theta.
Proof.
  intros mu [t0 t1] E phi nu HE E1 E2. cbn [fst snd] in *.
  rewrite (E_ext _ _ HE (fun z => mu + phi * z) (fun z => mu * 1 + phi * z)) by (intros; ring).
  rewrite (E_lin _ _ HE _ _ (fun _ => 1) (fun z => z)), (E_one _ _ HE), E1.
  rewrite (E_ext _ _ HE _ (fun z => phi ^ 2 * z ^ 2 + 0 * z)) by (intros; ring).
  rewrite (E_lin _ _ HE _ _ (fun z => z ^ 2) (fun z => z)), E1, E2.
  unfold st_V, st_phi, st_nu. cbn [fst snd]. fold phi. fold nu. unfold Rdiv. ring.
Qed.

(** The gradient and the Hessian of the log-likelihood in the two shape parameters. *)
Theorem C27_theta : forall obs t0 t1,
  let llk := fun a b => st_llk gammaln min_df obs (a, b) in
  let (g0, g1) := st_gradient digamma min_df obs (t0, t1) in
  let '(h00, h01, h11) := st_hessian digamma trigamma min_df obs (t0, t1) in
  is_derive (fun t => llk t t1) t0 g0 /\ is_derive (fun t => llk t0 t) t1 g1 /\
  is_derive_n (fun t => llk t t1) 2 t0 h00 /\ is_derive_n (fun t => llk t0 t) 2 t1 h11 /\
  is_derive (fun t => Derive (fun s => llk s t) t0) t1 h01.
Proof.
  intros obs t0 t1 llk. rewrite (st_gradient_eq digamma min_df Hdf), (st_hessian_eq digamma trigamma min_df Hdf).
  assert (D0 : forall a b, is_derive (fun t => llk t b) a (total (map (fun o => g0 min_df a b (fst o) (snd o)) obs))).
  { intros a b. unfold llk, st_llk. apply (is_derive_total (fun o t => st_lp gammaln min_df (fst o) (snd o) (t, b))).
    intros o _. now apply st_d0. }
  assert (D1 : forall a b, is_derive (fun t => llk a t) b (total (map (fun o => g1 digamma min_df a b (fst o) (snd o)) obs))).
  { intros a b. unfold llk, st_llk. apply (is_derive_total (fun o t => st_lp gammaln min_df (fst o) (snd o) (a, t))).
    intros o _. now apply st_d1. }
  split; [apply D0|]. split; [apply D1|]. split; [|split].
  - apply (is_derive_ext (fun a => total (map (fun o => g0 min_df a t1 (fst o) (snd o)) obs))).
    + intros a. symmetry. apply is_derive_unique, D0.
    + apply (is_derive_total (fun o t => g0 min_df t t1 (fst o) (snd o))). intros o _. now apply st_d00.
  - apply (is_derive_ext (fun b => total (map (fun o => g1 digamma min_df t0 b (fst o) (snd o)) obs))).
    + intros b. symmetry. apply is_derive_unique, D1.
    + apply (is_derive_total (fun o t => g1 digamma min_df t0 t (fst o) (snd o))). intros o _. now apply st_d11.
  - apply (is_derive_ext (fun b => total (map (fun o => g0 min_df t0 b (fst o) (snd o)) obs))).
    + intros b. symmetry. apply is_derive_unique, D0.
    + apply (is_derive_total (fun o t => g0 min_df t0 t (fst o) (snd o))). intros o _. now apply st_d01.
Qed.
End ST.
Print Assumptions C27_deviance.
Print Assumptions C27_mean_derivatives.
Print Assumptions C27_expected.
Print Assumptions C27_variance.
Print Assumptions C27_theta.

(** Four degrees of freedom: a three-point distribution with the required moments, and values. *)
Example C27_case :
  let E := fin_E [(8 / 15, 0); (7 / 15, sqrt 3)] in
  let b := fun y => ((y - 0) / exp 0) ^ 2 / (exp 0 + 3 + ((y - 0) / exp 0) ^ 2) in
  expectation (fun _ => True) E /\ E b = 1 / (exp 0 + 3 + 1) /\
  E (fun y => b y ^ 2) = 3 / ((exp 0 + 3 + 1) * (exp 0 + 3 + 3)) /\
  st_dDdmu 3 2 1 (0, 0) = -2.
Proof.
  intros E b. split; [|split; [|split]].
  - constructor.
    + intros f g H. unfold E. simpl. now rewrite !H.
    + intros. unfold E. simpl. ring.
    + unfold E. simpl. field.
  - assert (B : b (sqrt 3) = 3 / 7).
    { unfold b. rewrite exp_0. replace ((sqrt 3 - 0) / 1) with (sqrt 3) by field. rewrite pow2_sqrt by lra. field. }
    assert (B0 : b 0 = 0) by (unfold b; rewrite exp_0; field).
    unfold E. simpl. rewrite B, B0, exp_0. field.
  - assert (B : b (sqrt 3) = 3 / 7).
    { unfold b. rewrite exp_0. replace ((sqrt 3 - 0) / 1) with (sqrt 3) by field. rewrite pow2_sqrt by lra. field. }
    assert (B0 : b 0 = 0) by (unfold b; rewrite exp_0; field).
    unfold E. cbn [fin_E fold_right fst snd]. rewrite B, B0, exp_0. field.
  - unfold st_dDdmu, st_phi, st_nu. simpl. rewrite exp_0. field.
Qed.

(** Standardised t variables with four degrees of freedom have variance two. *)
Example C27_variance_case :
  let E := fin_E [(1 / 2, - sqrt 2); (1 / 2, sqrt 2)] in
  expectation (fun _ => True) E /\ E (fun z => z) = 0 /\
  E (fun z => z ^ 2) = (exp 0 + 3) / (exp 0 + 3 - 2) /\ st_V 3 1 (0, 0) = 2.
Proof.
  intros E. split; [|split; [|split]].
  - constructor.
    + intros f g H. unfold E. simpl. now rewrite !H.
    + intros. unfold E. simpl. ring.
    + unfold E. simpl. field.
  - unfold E. simpl. field.
  - assert (sqrt 2 * sqrt 2 = 2) by (apply sqrt_sqrt; lra).
    transitivity 2; [unfold E; simpl; nra|rewrite exp_0; field].
  - unfold st_V, st_phi, st_nu. simpl. rewrite exp_0. field.
Qed.

(** ** C28: single-parameter families as general smooth families *)

Lemma lin_pred_derive p X i coef j : (j < p)%nat ->
  is_derive (fun t => lin_pred p X (upd coef j t) i) (coef j) (X i j).
Proof.
  intros Hj. unfold lin_pred.
  apply (is_derive_ext (fun t => sumf p (fun c => X i c * coef c) - X i j * coef j + X i j * t)).
  - intros t. rewrite total_sumf.
    replace (fun c => X i c * upd coef j t c) with (upd (fun c => X i c * coef c) j (X i j * t)).
    + now rewrite sumf_upd.
    + apply functional_extensionality. intros c. unfold upd. destruct (Nat.eqb_spec c j) as [->|]; reflexivity.
  - auto_derive; [auto|]. ring.
Qed.

(** The gradient for exponential families is the gradient of the log-likelihood. *)
Theorem C28_exponential : forall n p X y gammaln f l scale coef,
  (forall i, (i < n)%nat -> mean_ok f (link_fi l (lin_pred p X coef i)) /\ resp_ok f (y i)) ->
  scale_ok f scale ->
  forall j, (j < p)%nat ->
  partial (exp_llk n p X y gammaln f l scale) j coef (dllkdcoef n p X y f l scale coef j).
Proof.
  intros n p X y gammaln f l scale coef Hi Hs j Hj. unfold partial, exp_llk, dllkdcoef.
  assert (Hs0 : scale <> 0) by (destruct f; simpl in Hs; lra).
  eapply is_derive_eq.
  - apply (is_derive_total (fun i t => fam_lp gammaln f (y i) (link_fi l (lin_pred p X (upd coef j t) i)) scale)
      (fun i => let mu := link_fi l (lin_pred p X coef i) in
         / scale * (div0 (y i - mu) (link_dy1 l mu * fam_V f mu) * X i j))).
    intros i Hin. apply in_seq in Hin. destruct (Hi i ltac:(lia)) as [Hm Hy].
    pose proof (lin_pred_derive p X i coef j Hj) as D1.
    set (eta := lin_pred p X coef i) in *.
    assert (E : lin_pred p X (upd coef j (coef j)) i = eta) by (now rewrite upd_id).
    assert (D2 : is_derive (link_fi l) (lin_pred p X (upd coef j (coef j)) i) (1 / link_dy1 l (link_fi l eta)))
      by (rewrite E; apply link_fi_derive).
    pose proof (is_derive_comp _ _ _ _ _ D2 D1) as D3.
    assert (D4 : is_derive (fun m => fam_lp gammaln f (y i) m scale)
       (link_fi l (lin_pred p X (upd coef j (coef j)) i)) ((y i - link_fi l eta) / (scale * fam_V f (link_fi l eta))))
      by (rewrite E; now apply fam_lp_derive).
    pose proof (is_derive_comp (fun m => fam_lp gammaln f (y i) m scale) (fun t => link_fi l (lin_pred p X (upd coef j t) i)) (coef j) _ _ D4 D3) as D5.
    eapply is_derive_eq; [exact D5|]. unfold scal. simpl. unfold mult. simpl.
    assert (Hd : link_dy1 l (link_fi l eta) <> 0) by (apply link_dy1_neq, link_fi_dom).
    assert (HV : fam_V f (link_fi l eta) <> 0) by (apply Rgt_not_eq; now apply fam_V_pos).
    unfold div0. destruct (Req_EM_T _ 0) as [Z|_].
    + apply Rmult_integral in Z. tauto.
    + field. auto.
  - rewrite (total_scal (/ scale)). unfold Rdiv. rewrite Rmult_comm. reflexivity.
Qed.
Print Assumptions C28_exponential.

Lemma half_derive (f : R -> R) (c x d : R) : is_derive f x d -> is_derive (fun m => c - / 2 * f m) x (- / 2 * d).
Proof.
  intros H. pose proof (is_derive_minus _ _ _ _ _ (is_derive_const c x) (is_derive_scal _ _ (/ 2) _ H)) as G.
  eapply is_derive_eq; [exact G|]. unfold minus, plus, opp, zero. simpl. ring.
Qed.

(** With an identity link the gradient for the scaled t family is the gradient. *)
Theorem C28_extended_identity : forall n p X y gammaln min_df theta coef j,
  0 <= min_df -> (j < p)%nat ->
  partial (ext_llk n p X y gammaln min_df Identity theta) j coef
          (ext_gradient n p X y min_df Identity theta coef j).
Proof.
  intros n p X y gammaln min_df [t0 t1] coef j Hdf Hj. unfold partial, ext_llk, ext_gradient.
  rewrite <- total_scal.
  apply (is_derive_total (fun i t => st_lp gammaln min_df (y i) (link_fi Identity (lin_pred p X (upd coef j t) i)) (t0, t1))).
  intros i _. cbn [link_fi link_dy1].
  pose proof (lin_pred_derive p X i coef j Hj) as D1.
  set (c := st_lp gammaln min_df (y i) (y i) (t0, t1)).
  apply (is_derive_ext (fun t => c - / 2 * st_D min_df (y i) (lin_pred p X (upd coef j t) i) (t0, t1))).
  - intros t. pose proof (C27_deviance gammaln min_df Hdf (y i) (lin_pred p X (upd coef j t) i) (t0, t1)) as (_ & _ & E).
    rewrite E. unfold c. req. field.
  - assert (D2 : is_derive (fun m => c - / 2 * st_D min_df (y i) m (t0, t1)) (lin_pred p X (upd coef j (coef j)) i)
        (- / 2 * st_dDdmu min_df (y i) (lin_pred p X coef i) (t0, t1))).
    { rewrite upd_id. pose proof (st_dD min_df Hdf t0 t1 (y i) (lin_pred p X coef i)) as D.
      exact (half_derive _ c _ _ D). }
    pose proof (is_derive_comp _ _ _ _ _ D2 D1) as D3.
    eapply is_derive_eq; [exact D3|]. unfold scal. simpl. unfold mult. simpl. field.
Qed.
Print Assumptions C28_extended_identity.

(** With a log link it is not: the derivative of the link is evaluated at the derivative of the
    deviance.  One observation 2 with mean 1: the gradient is 1, the code returns -2. *)
Theorem C28_log_link_refuted : exists n p X y gammaln min_df theta coef j v,
  0 <= min_df /\ (j < p)%nat /\
  partial (ext_llk n p X y gammaln min_df LOG theta) j coef v /\
  v = 1 /\ ext_gradient n p X y min_df LOG theta coef j = -2.
Proof.
  exists 1%nat, 1%nat, (fun _ _ => 1), (fun _ => 2), (fun _ => 0), 3, (0, 0), (fun _ => 0), 0%nat, 1.
  split; [lra|]. split; [lia|]. split; [|split; [reflexivity|]].
  - unfold partial, ext_llk, lin_pred. cbn [seq map total fold_right].
    apply (is_derive_ext (fun t => st_lp (fun _ => 0) 3 2 2 (0, 0) - / 2 * st_D 3 2 (exp t) (0, 0))).
    + intros t. rewrite upd_same. cbn [link_fi]. rewrite !Rmult_1_l, !Rplus_0_r.
      pose proof (C27_deviance (fun _ => 0) 3 ltac:(lra) 2 (exp t) (0, 0)) as (_ & _ & E). rewrite E. req. field.
    + pose proof (st_dD 3 ltac:(lra) 0 0 2 (exp 0)) as D.
      assert (V : st_dDdmu 3 2 (exp 0) (0, 0) = -2)
        by (unfold st_dDdmu, st_phi, st_nu; simpl; rewrite exp_0; field).
      rewrite V in D.
      assert (D0 : is_derive exp 0 1) by (auto_derive; [auto|]; rewrite exp_0; ring).
      pose proof (half_derive _ (st_lp (fun _ => 0) 3 2 2 (0, 0)) _ _ D) as D1.
      pose proof (is_derive_comp (fun m => st_lp (fun _ => 0) 3 2 2 (0, 0) - / 2 * st_D 3 2 m (0, 0)) exp 0 _ _ D1 D0) as D2.
      eapply is_derive_eq; [exact D2|]. unfold scal. simpl. unfold mult. simpl. field.
  - unfold ext_gradient, lin_pred. simpl. unfold st_dDdmu, st_phi, st_nu. simpl.
    rewrite !Rmult_1_l, !Rplus_0_r, !exp_0. field.
Qed.
Print Assumptions C28_log_link_refuted.

Example C28_case : mean_ok Poisson (link_fi LOG (lin_pred 2 (fun i c => INR (i + c)) (fun _ => 1) 1)) /\
  resp_ok Poisson 3.
Proof. split; [apply exp_pos|]. exists 3%nat. simpl. ring. Qed.

(** ** C70: working weights of extended families *)

(** The Newton variant: minus half a deviance is the log-likelihood up to a constant, so weight
    and working response are those of the log-likelihood. *)
Theorem C70_newton : forall (D dD d2D fi dy1 dy2 : R -> R) eta,
  let mu := fi eta in
  locally eta (fun e => is_derive D (fi e) (dD (fi e)) /\ is_derive fi e (1 / dy1 (fi e)) /\ dy1 (fi e) <> 0) ->
  is_derive dD mu (d2D mu) -> is_derive dy1 mu (dy2 mu) ->
  let l := fun e => - / 2 * D (fi e) in
  match extended_row (dy1 mu) (dy2 mu) (dD mu) (d2D mu) eta with
  | Some (z, w) => is_derive_n l 1 eta (w * (z - eta)) /\ is_derive_n l 2 eta (- w)
  | None => is_derive_n l 2 eta 0
  end.
Proof.
  intros D dD d2D fi dy1 dy2 eta mu L HdD Hdy l.
  assert (F : forall e, is_derive D (fi e) (dD (fi e)) /\ is_derive fi e (1 / dy1 (fi e)) /\ dy1 (fi e) <> 0 ->
    is_derive l e (- / 2 * (dD (fi e) / dy1 (fi e)))).
  { intros e (A & B & C). unfold l.
    pose proof (is_derive_scal _ _ (- / 2) _ (is_derive_comp _ _ _ _ _ A B)) as G.
    eapply is_derive_eq; [exact G|]. unfold scal. simpl. unfold mult. simpl. field. exact C. }
  destruct (locally_singleton _ _ L) as (HD & Hfi & Hz). fold mu in HD, Hfi, Hz.
  assert (H2 : is_derive_n l 2 eta (- (/ 2 * (d2D mu / dy1 mu ^ 2 - dD mu * dy2 mu / dy1 mu ^ 3)))).
  { apply (is_derive_ext_loc (fun e => - / 2 * (dD (fi e) / dy1 (fi e)))).
    - apply filter_imp with (2 := L). intros e He. symmetry. apply is_derive_unique. now apply F.
    - pose proof (is_derive_div dD dy1 mu _ _ HdD Hdy Hz) as Q.
      pose proof (is_derive_comp (fun m => dD m / dy1 m) fi eta _ _ Q Hfi) as Q2.
      pose proof (is_derive_scal _ _ (- / 2) _ Q2) as Q3.
      eapply is_derive_eq; [exact Q3|]. unfold scal. simpl. unfold mult. simpl. field. exact Hz. }
  unfold extended_row. set (w := / 2 * (d2D mu / dy1 mu ^ 2 - dD mu * dy2 mu / dy1 mu ^ 3)) in *.
  destruct (Req_EM_T w 0) as [E|E].
  - rewrite E, Ropp_0 in H2. exact H2.
  - split; [|exact H2]. pose proof (F eta (locally_singleton _ _ L)) as H1. fold mu in H1.
    simpl. eapply is_derive_eq; [exact H1|]. field; auto.
Qed.
Print Assumptions C70_newton.

(** The Fisher variant with an identity link: weights are positive, do not depend on the response
    and the working response gives the first derivative. *)
Theorem C70_fisher_identity : forall min_df y mu eta theta, 0 <= min_df ->
  exists z, extended_row (link_dy1 Identity mu) (link_dy2 Identity mu) (st_dDdmu min_df y mu theta)
              (st_Ed2Ddmu min_df y mu theta) eta = Some (z, / 2 * st_Ed2Ddmu min_df y mu theta) /\
            0 < / 2 * st_Ed2Ddmu min_df y mu theta /\
            / 2 * st_Ed2Ddmu min_df y mu theta * (z - eta) = - / 2 * st_dDdmu min_df y mu theta.
Proof.
  intros min_df y mu eta [t0 t1] Hdf. unfold extended_row. cbn [link_dy1 link_dy2].
  set (E2 := st_Ed2Ddmu min_df y mu (t0, t1)). set (D1 := st_dDdmu min_df y mu (t0, t1)).
  assert (P : 0 < E2).
  { unfold E2, st_Ed2Ddmu, st_phi, st_nu. cbn [fst snd]. pose proof (nu_pos min_df Hdf t1). cbv beta in *.
    pose proof (exp_pos t0). assert (0 < exp t0 ^ 2) by (apply pow_lt; assumption).
    apply Rmult_lt_0_compat; [lra|]. apply Rdiv_lt_0_compat; [|lra]. apply Rdiv_lt_0_compat; lra. }
  replace (/ 2 * (E2 / 1 ^ 2 - D1 * 0 / 1 ^ 3)) with (/ 2 * E2) by field.
  destruct (Req_EM_T (/ 2 * E2) 0); [lra|]. eexists. split; [reflexivity|]. split; [lra|]. field. lra.
Qed.
Print Assumptions C70_fisher_identity.

(** With a log link the Fisher weights of the scaled t family still contain the observed first
    derivative: they depend on the response and can be negative, so that their square root, which
    scales the rows of the model matrix, does not exist. *)
Theorem C70_fisher_log_refuted : exists mu theta,
  0 < mu /\
  (exists y z w, 0 < y /\ extended_row (link_dy1 LOG mu) (link_dy2 LOG mu) (st_dDdmu 3 y mu theta)
     (st_Ed2Ddmu 3 y mu theta) (ln mu) = Some (z, w) /\ w < 0) /\
  (exists y z w, 0 < y /\ extended_row (link_dy1 LOG mu) (link_dy2 LOG mu) (st_dDdmu 3 y mu theta)
     (st_Ed2Ddmu 3 y mu theta) (ln mu) = Some (z, w) /\ 0 < w).
Proof.
  exists (1 / 10), (0, 0). split; [lra|].
  assert (W : forall y, / 2 * (st_Ed2Ddmu 3 y (1 / 10) (0, 0) / link_dy1 LOG (1 / 10) ^ 2
     - st_dDdmu 3 y (1 / 10) (0, 0) * link_dy2 LOG (1 / 10) / link_dy1 LOG (1 / 10) ^ 3)
     = 1 / 140 - (1 / 2) * (y - 1 / 10) / (4 + (y - 1 / 10) ^ 2)).
  { intros y. unfold st_dDdmu, st_Ed2Ddmu, st_phi, st_nu. cbn [fst snd link_dy1 link_dy2]. rewrite exp_0.
    pose proof (pow2_ge_0 (y - 1 / 10)). field.
    assert (0 < 4 + (y - 1 / 10) ^ 2) by lra. nra. }
  split.
  - exists (21 / 10). unfold extended_row. rewrite W.
    destruct (Req_EM_T _ 0) as [E|E]; [exfalso; field_simplify in E; lra|].
    eexists. eexists. split; [lra|]. split; [reflexivity|]. lra.
  - exists (1 / 10). unfold extended_row. rewrite W.
    destruct (Req_EM_T _ 0) as [E|E]; [exfalso; field_simplify in E; lra|].
    eexists. eexists. split; [lra|]. split; [reflexivity|]. lra.
Qed.
Print Assumptions C70_fisher_log_refuted.

Example C70_case : exists z, extended_row (link_dy1 Identity 1) (link_dy2 Identity 1) (st_dDdmu 3 2 1 (0, 0))
  (st_d2Ddmu 3 2 1 (0, 0)) 1 = Some (z, 3 / 5).
Proof.
  unfold extended_row, st_d2Ddmu, st_dDdmu, st_phi, st_nu. simpl. rewrite exp_0.
  destruct (Req_EM_T _ 0) as [E|E]; [exfalso; field_simplify in E; lra|].
  eexists. do 2 f_equal. field.
Qed.
