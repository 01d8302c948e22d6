(** Lemmas for residuals and simulated observations. *)

From Coq Require Import Reals List Bool Arith ZArith Lia Lra.
From Verif Require Import FamModel FamSpec FamProofs FamProps GlsModel GlsSpec GlsProofs GlsProps MvnModel MvnSpec MvnProofs MvnProps
  HazModel HazSpec HazProofs HazProps ResModel ResSpec.
Import ListNotations.
Local Open Scope R_scope.

Lemma sign_cases x : (x < 0 /\ sign x = - 1) \/ (x = 0 /\ sign x = 0) \/ (0 < x /\ sign x = 1).
Proof. unfold sign. destruct (total_order_T x 0) as [[L|L]|L]; auto. Qed.

(** A sign times a root that vanishes only together with it. *)
Lemma signed_root x D : 0 <= D -> (D = 0 -> x = 0) ->
  same_side (sign x * sqrt D) x /\ (sign x * sqrt D) ^ 2 = (if Req_EM_T x 0 then 0 else D).
Proof.
  intros HD Hz. pose proof (sqrt_sqrt D HD) as E. pose proof (sqrt_pos D) as P.
  assert (N : x <> 0 -> 0 < sqrt D).
  { intros Hx. apply sqrt_lt_R0. destruct (Rle_lt_or_eq_dec 0 D HD) as [L|L]; [assumption|]. now destruct Hx; apply Hz. }
  destruct (sign_cases x) as [[H ->]|[[H ->]|[H ->]]]; destruct (Req_EM_T x 0) as [Z|Z]; try lra.
  - specialize (N Z). unfold same_side. split; [lra|]. replace ((-1 * sqrt D) ^ 2) with (sqrt D * sqrt D) by ring. exact E.
  - unfold same_side. rewrite Rmult_0_l. split; [lra|ring].
  - specialize (N Z). unfold same_side. split; [lra|]. replace ((1 * sqrt D) ^ 2) with (sqrt D * sqrt D) by ring. exact E.
Qed.

Lemma deviance_resid_ok f y mu : mean_ok f mu -> resp_ok f y ->
  same_side (deviance_resid f y mu) (y - mu) /\ (deviance_resid f y mu) ^ 2 = fam_D f y mu.
Proof.
  intros Hm Hy. unfold deviance_resid.
  assert (Hs : exists s, scale_ok f s) by (destruct f; [exists 1; reflexivity| | | |exists 1; reflexivity]; exists 1; simpl; lra).
  destruct Hs as [s Hs]. destruct (C21_deviance (fun _ => 0) f y mu s Hm Hy Hs) as (A & B & _).
  destruct (signed_root (y - mu) (fam_D f y mu) A) as [S1 S2]; [intros E; apply B in E; lra|].
  split; [exact S1|]. rewrite S2. destruct (Req_EM_T (y - mu) 0) as [Z|Z]; [|reflexivity].
  symmetry. apply B. lra.
Qed.

Lemma general_mu f l eta : (if general f l then map (link_fi l) eta else eta) = map (link_fi l) eta.
Proof.
  destruct (general f l) eqn:G; [reflexivity|]. destruct f, l; try discriminate. symmetry.
  rewrite <- (map_id eta) at 2. apply map_ext. reflexivity.
Qed.

Lemma sum_sq_map {A} (g h : A -> R) (l : list A) : (forall a, In a l -> g a ^ 2 = h a) ->
  sum_sq (map g l) = sum_list (map h l).
Proof.
  induction l as [|a l IH]; intros H; [reflexivity|]. cbn [map sum_sq sum_list fold_right].
  change (fold_right (fun x s => x ^ 2 + s) 0 (map g l)) with (sum_sq (map g l)).
  change (fold_right Rplus 0 (map h l)) with (sum_list (map h l)).
  rewrite IH by (intros b Hb; apply H; now right). now rewrite H by now left.
Qed.

Lemma nth_map_seq (g : nat -> R) k i : (i < k)%nat -> nth i (map g (seq 0 k)) 0 = g i.
Proof.
  intros H. rewrite (nth_indep _ 0 (g 0%nat)) by now rewrite map_length, seq_length.
  rewrite map_nth, seq_nth by assumption. reflexivity.
Qed.

(** Multivariate residuals. *)
Lemma sum_list_seq g k : sum_list (map g (seq 0 k)) = sumf k g.
Proof.
  assert (A : forall l1 l2, sum_list (l1 ++ l2) = sum_list l1 + sum_list l2).
  { induction l1 as [|x l1 IH]; intros l2; [unfold sum_list; cbn; ring|].
    change (x + sum_list (l1 ++ l2) = x + sum_list l1 + sum_list l2). rewrite IH. ring. }
  induction k as [|k IH]; [reflexivity|]. rewrite seq_S, map_app, A, IH. cbn. ring.
Qed.
Lemma sumf_swap a b (g : nat -> nat -> R) : sumf a (fun i => sumf b (g i)) = sumf b (fun j => sumf a (fun i => g i j)).
Proof.
  induction a as [|a IH]; cbn [sumf].
  - induction b as [|b IHb]; cbn [sumf]; [reflexivity|]. rewrite <- IHb. ring.
  - rewrite IH. clear. induction b as [|b IHb]; cbn [sumf]; [ring|]. rewrite <- IHb. ring.
Qed.
Lemma sumf_mul a c g : c * sumf a g = sumf a (fun i => c * g i).
Proof. induction a as [|a IH]; cbn [sumf]; [ring|]. rewrite <- IH. ring. Qed.
Lemma sumf_ext_lt a g h : (forall i, (i < a)%nat -> g i = h i) -> sumf a g = sumf a h.
Proof. induction a as [|a IH]; intros H; cbn [sumf]; [reflexivity|]. rewrite IH by (intros; apply H; lia). rewrite H by lia. reflexivity. Qed.
Lemma sumf_square a g : (sumf a g) ^ 2 = sumf a (fun i => sumf a (fun j => g i * g j)).
Proof.
  replace ((sumf a g) ^ 2) with (sumf a g * sumf a g) by ring. rewrite sumf_mul. apply sumf_ext_lt. intros i _.
  rewrite Rmult_comm. apply sumf_mul.
Qed.

Lemma quad_gram m M d :
  sumf m (fun r => (sumf m (fun c => M r c * d c)) ^ 2) = sumf m (fun a => sumf m (fun b => d a * gram m M a b * d b)).
Proof.
  rewrite (sumf_ext_lt m _ (fun r => sumf m (fun a => sumf m (fun b => M r a * d a * (M r b * d b))))) by (intros; apply sumf_square).
  rewrite sumf_swap. apply sumf_ext_lt. intros a _. rewrite sumf_swap. apply sumf_ext_lt. intros b _.
  unfold gram. rewrite nsum_sumf. rewrite Rmult_comm, (Rmult_comm (d a)), <- Rmult_assoc.
  replace (d b * sumf m (fun k => M k a * M k b) * d a) with (d a * d b * sumf m (fun k => M k a * M k b)) by ring.
  rewrite sumf_mul. apply sumf_ext_lt. intros k _. ring.
Qed.

(** Survival. *)
Lemma ln_le_sub1 H : 0 < H -> ln H <= H - 1.
Proof. intros P. pose proof (exp_ineq1_le (ln H)) as E. rewrite exp_ln in E by assumption. lra. Qed.
Lemma ln_sub1_eq H : 0 < H -> ln H = H - 1 -> H = 1.
Proof.
  intros P E. destruct (Req_dec (ln H) 0) as [Z|Z]; [lra|]. pose proof (exp_ineq1 (ln H) Z) as L.
  rewrite exp_ln in L by assumption. lra.
Qed.

Lemma haz_deviance_ok eps d H : 0 < eps -> 0 <= H -> (d = 0 \/ d = 1 /\ eps <= H) ->
  same_side (haz_deviance eps d (exp (- H))) (d - H) /\ (haz_deviance eps d (exp (- H))) ^ 2 = surv_deviance d H.
Proof.
  intros He HH Hd. unfold haz_deviance. rewrite ln_exp. replace (d + - H) with (d - H) by ring.
  set (D := - 2 * (d - H + d * ln (- Rmin (- H) (- eps)))).
  assert (A : D = surv_deviance d H /\ 0 <= D /\ (D = 0 -> d - H = 0)).
  { unfold D, surv_deviance, surv_loglik. destruct Hd as [->|[-> L]].
    - split; [ring|]. split; lra.
    - rewrite Rmin_left by lra. rewrite Ropp_involutive, ln_1. pose proof (ln_le_sub1 H ltac:(lra)).
      split; [ring|]. split; [lra|]. intros E. apply (f_equal (fun x => x / - 2)) in E.
      rewrite (ln_sub1_eq H); [lra|lra|]. lra. }
  destruct A as (A & B & C). rewrite <- A. destruct (signed_root (d - H) D B C) as [S1 S2]. split; [exact S1|].
  rewrite S2. destruct (Req_EM_T (d - H) 0) as [Z|Z]; [|reflexivity].
  rewrite A. unfold surv_deviance. replace H with d by lra. ring.
Qed.

Section Haz.
Variables (n p : nat) (X : nat -> nat -> R) (delta : nat -> R) (time : nat -> Z) (r : nat -> nat) (ut : list Z).
Hypothesis T : table n time r ut.
Lemma haz_resid_eq eps coef : haz_resid_deviance n p X delta r ut eps coef None
  = map (fun i => Some (haz_deviance eps (delta i) (survival n p X delta time coef (time i) (X i)))) (seq 0 n).
Proof.
  unfold haz_resid_deviance.
  assert (L : forall k, (k <= n)%nat -> forall F, F = (fun (st : cache * list (option R)) i =>
         let '(o, res) := st in
         match nth_error ut (r i) with
         | None => (o, res ++ [None])
         | Some ti =>
             let '(S0, o') := get_survival n p X delta r ut o coef ti (X i) None in
             (o', res ++ [match S0 with Some (s, _) => Some (haz_deviance eps (delta i) s) | None => None end])
         end) ->
    fold_left F (seq 0 k) (None, [])
    = (match k with O => None | _ => Some (map (entry n p X delta time coef) ut) end,
       map (fun i => Some (haz_deviance eps (delta i) (survival n p X delta time coef (time i) (X i)))) (seq 0 k))).
  { induction k as [|k IH]; intros Hk F EF; [reflexivity|].
    rewrite seq_S, fold_left_app, (IH ltac:(lia) F EF), map_app. cbn [fold_left Nat.add map]. rewrite EF. cbv beta iota.
    assert (Hin : In (time k) ut) by (apply nth_error_In with (r k); apply (tab_r _ _ _ _ T); lia).
    rewrite (tab_r _ _ _ _ T) by lia.
    destruct k as [|k]; [rewrite (survival_at n p X delta time r ut T) by assumption
                        |rewrite (survival_cached n p X delta time r ut T coef _ _ _ Hin eq_refl)]; reflexivity. }
  exact (f_equal snd (L n (le_n n) _ eq_refl)).
Qed.
End Haz.

(** Rows drawn by MultiGauss.rvs. *)
Lemma mvn_rvs_rows V inv draw m theta mus seed :
  mvn_rvs V inv draw m theta mus seed
  = map (fun q => draw (seed + fst q)%nat (snd q) (inv (gram m (fst (getR m theta))))) (combine (seq 0 (length mus)) mus).
Proof.
  unfold mvn_rvs.
  assert (L : forall mus s k out, s = (seed + k)%nat ->
    snd (fold_left (fun (st : nat * list V) mu => let '(s, out) := st in (S s, out ++ [draw s mu (inv (gram m (fst (getR m theta))))])) mus (s, out))
    = out ++ map (fun q => draw (seed + fst q)%nat (snd q) (inv (gram m (fst (getR m theta))))) (combine (seq k (length mus)) mus)).
  { clear mus. induction mus as [|mu mus IH]; intros s k out E; cbn [fold_left length seq combine map].
    - now rewrite app_nil_r.
    - rewrite (IH (S s) (S k)) by lia. rewrite <- app_assoc. cbn [app fst snd]. now rewrite E. }
  rewrite (L mus seed 0%nat []) by lia. reflexivity.
Qed.
