(** C91: the gradient of a hidden semi-Markov model is the derivative of its log-likelihood. *)

From Coq Require Import List Bool Arith Reals Lia Lra.
From Coquelicot Require Import Coquelicot.
From Verif Require Import Ext HsmmModel HsmmSpec HsmmProofs2 HsmmProofs3 GlsModel HgrModel HgrSpec HgrProofs HgrProofs2 HgrProofs3 HgrProofs4.
Import ListNotations.
Local Open Scope R_scope.

(** Coefficients in models of observations.  A coefficient has one column for each pair (state, signal) of [L] in whose model it is, more than one if it is
    shared; [bg t j s] is the derivative of the logarithmic density of signal s in state j. *)
Theorem C91_observations (m : tables R) n (L : list (nat * nat)) (l : R -> nat -> nat -> nat -> R) (bg : nat -> nat -> nat -> R) (x0 : R) :
  hmp m = false -> usable m -> NoDup L -> (forall j s, In (j, s) L -> (j < n_S m)%nat /\ (s < n)%nat) ->
  (forall t j s, In (j, s) L -> is_derive (fun x => l x t j s) x0 (bg t j s)) ->
  (forall t j s x, ~ In (j, s) L -> l x t j s = l x0 t j s) ->
  (exists r, llk (observing m n (l x0)) = Fin r) ->
  let m0 := observing m n (l x0) in
  slope (fun x => llk (observing m n (l x))) x0
    (shared_sum (map (fun '(j, s) => grad m0 (obs_kernel m0 (fun t => bg t j s) j)) L)).
Proof.
  intros Hh (Hn & HD & HS & (P1 & P2 & P3 & P4) & Hf) ND HL Hg Hc Hfin. cbv zeta.
  set (bg' := fun t j s => if in_dec pair_dec (j, s) L then bg t j s else 0).
  assert (Hg' : forall t j s, is_derive (fun x => l x t j s) x0 (bg' t j s)).
  { intros t j s. unfold bg'. destruct (in_dec pair_dec (j, s) L); [now apply Hg|]. apply dsame. intros; now apply Hc. }
  set (m0 := observing m n (l x0)).
  rewrite shared_lsum. rewrite (lsum_ext _ L _ (fun a => grad m0 (obs_kernel m0 (fun t => bg t (fst a) (snd a)) (fst a)))) by (intros [j s] _; reflexivity).
  apply (kernels_slope m (fun x t k j => b m t k j * exp (nsum n (fun s => l x t j s))) (fun _ => dur m) (fun _ => tr m) (fun _ => pi m)
    (fun t k j => b m t k j * exp (nsum n (fun s => l x0 t j s)) * nsum n (fun s => bg' t j s)) (fun _ _ _ => 0) (fun _ _ _ => 0) (fun _ => 0) x0) with
    (gs := fun a => obs_tangent m0 (fun t => bg t (fst a) (snd a)) (fst a)); auto.
  - intros t k j. eapply deq.
    + apply scal_derive, dexp. refine (dnsum n (fun x s => l x t j s) (fun s => bg' t j s) x0 _). intros; apply Hg'.
    + cbv beta. ring.
  - intros. apply dconst.
  - intros. apply dconst.
  - intros. apply dconst.
  - intros x. repeat split; cbn; auto. intros. apply Rmult_le_pos; [apply P1|apply Rlt_le, exp_pos].
  - intros a Ha. split; [unfold obs_tangent; repeat eexists|]. split; [now apply plain_bumps|]. now apply obs_right.
  - pose proof (gsum_entries m0 (fun a => obs_tangent m0 (fun t => bg t (fst a) (snd a)) (fst a)) L) as (E1 & E2 & E3 & E4).
    split; [repeat eexists|]. split; [apply gsum_shaped|]. repeat split; intros; rewrite ?E1, ?E2, ?E3, ?E4; cbn [b dur tr pi put obs_tangent m0 observing with_b].
    + rewrite <- HgrProofs.nsum_scal_l.
      rewrite <- (lsum_keyed L n j (fun j s => b m t k j * exp (nsum n (fun s => l x0 t j s)) * bg' t j s)); auto.
      * apply lsum_ext. intros [i s] Ha. cbn [fst snd]. destruct (Nat.eqb_spec j i); [subst|reflexivity]. f_equal.
        unfold bg'. destruct (in_dec pair_dec (i, s) L); [reflexivity|contradiction].
      * intros [i s] Ha. now apply (HL i s).
      * intros s I. unfold bg'. destruct (in_dec pair_dec (j, s) L); [contradiction|ring].
    + symmetry. apply lsum_zero. reflexivity.
    + symmetry. apply lsum_zero. reflexivity.
    + symmetry. apply lsum_zero. reflexivity.
    + symmetry. apply lsum_zero. reflexivity.
Qed.

(** Coefficients in models of durations. *)
Theorem C91_durations (m : tables R) jx (l : R -> nat -> nat -> R) (g : nat -> nat -> R) (x0 : R) :
  usable m -> (hmp m = true -> starts_with_first m = true /\ Nat.even jx = true) ->
  (forall d t, is_derive (fun x => l x d t) x0 (g d t)) ->
  (exists r, llk (lasting m jx (l x0)) = Fin r) ->
  let m0 := lasting m jx (l x0) in
  slope (fun x => llk (lasting m jx (l x))) x0
    (grad m0 (dur_kernel m0 (fun d t => d_grad (D m) (fun e => l x0 e t) (fun e => g e t) d) jx)).
Proof.
  intros (Hn & HD & HS & (P1 & P2 & P3 & P4) & Hf) Hh Hg Hfin. cbv zeta.
  assert (E : hmp m = true -> forall j, Nat.odd j = true -> (j =? jx)%nat = false /\ later_column m j = j).
  { intros H j Oj. destruct (Hh H) as [Hs He]. split.
    - destruct (Nat.eqb_spec j jx) as [->|]; [|reflexivity]. rewrite <- Nat.negb_even, He in Oj. discriminate.
    - unfold later_column. now rewrite Hs. }
  apply (kernel_slope m (fun _ => b m) (fun x d j t => if (j =? jx)%nat then exp (l x d t) / nsum (D m - 1) (fun e => exp (l x e t)) else dur m d j t)
    (fun _ => tr m) (fun _ => pi m) (fun _ _ _ => 0) (fun d j t => if (j =? jx)%nat then d_grad (D m) (fun e => l x0 e t) (fun e => g e t) d else 0)
    (fun _ _ _ => 0) (fun _ => 0) x0); auto.
  - intros. apply dconst.
  - intros d j t. destruct (j =? jx)%nat; [|apply dconst]. apply (normalised_derive (D m) (fun x e => l x e t) (fun e => g e t)); [exact HD|]. intros; apply Hg.
  - intros. apply dconst.
  - intros. apply dconst.
  - intros x H. destruct (Hf H) as [He Hz]. split; [exact He|]. intros d j t Hj Oj Nd. destruct (Hz d j t Hj Oj Nd) as [Z1 Z2].
    destruct (E H j Oj) as [E1 E2]. unfold duration, later_column in *. cbn in *. rewrite E2 in *. rewrite E1. auto.
  - intros x. repeat split; cbn; auto. intros d j t. destruct (j =? jx)%nat; [|apply P2].
    apply Rlt_le, Rdiv_lt_0_compat; [apply exp_pos|apply exps_pos; lia].
  - intros H. destruct (Hf H) as [He Hz]. split; [exact He|]. intros d j t Hj Oj Nd.
    destruct (E H j Oj) as [E1 E2]. unfold duration, later_column in *. cbn in *. rewrite E2 in *. rewrite E1. auto.
  - apply dur_right.
Qed.

(** Coefficients in models of the probabilities of leaving state jx for another state. *)
Theorem C91_transitions (m : tables R) jx par (eta : R -> nat -> nat -> R) (X : nat -> R) (x0 : R) :
  hmp m = false -> usable m -> (par < n_S m - 2)%nat ->
  (forall t, is_derive (fun x => eta x par t) x0 (X t)) -> (forall i t x, i <> par -> eta x i t = eta x0 i t) ->
  (exists r, llk (leaving m jx (eta x0)) = Fin r) ->
  let m0 := leaving m jx (eta x0) in
  slope (fun x => llk (leaving m jx (eta x))) x0
    (grad m0 (tr_kernel m0 (fun k t => cat_grad (map (fun i => exp (eta x0 i t)) (seq 0 (n_S m - 2))) par (X t) k) jx)).
Proof.
  intros Hh (Hn & HD & HS & (P1 & P2 & P3 & P4) & Hf) Hp Hg Hc Hfin. cbv zeta.
  assert (Hpos : forall x t (k : nat), 0 <= match k with O => 1 | S p => exp (eta x p t) end / (1 + nsum (n_S m - 2) (fun p => exp (eta x p t)))).
  { intros x t k. pose proof (exps_pos (n_S m - 2) (fun p => eta x p t) ltac:(lia)). apply Rlt_le, Rdiv_lt_0_compat; [|lra].
    destruct k; [lra|apply exp_pos]. }
  set (m0 := leaving m jx (eta x0)).
  apply (kernel_slope m (fun _ => b m) (fun _ => dur m) (fun x i j t => tr (leaving m jx (eta x)) i j t) (fun _ => pi m) (fun _ _ _ => 0) (fun _ _ _ => 0)
    (fun i j t => if (i =? jx)%nat then if (j =? jx)%nat then 0 else tr m0 i j t *
       cat_grad (map (fun i => exp (eta x0 i t)) (seq 0 (n_S m - 2))) par (X t) (if j <? jx then j else j - 1)%nat else 0) (fun _ => 0) x0); auto.
  - intros. apply dconst.
  - intros. apply dconst.
  - intros i j t. cbn [tr leaving with_tr put m0]. destruct (i =? jx)%nat; [|apply dconst]. destruct (j =? jx)%nat; [apply dconst|].
    apply (cat_derive (n_S m - 2) par (fun x p => eta x p t)); auto.
  - intros. apply dconst.
  - intros x. repeat split; auto. intros i j t. cbn [tr leaving with_tr put]. destruct (i =? jx)%nat; [|apply P3]. destruct (j =? jx)%nat; [lra|]. apply Hpos.
  - now apply plain_bumps.
  - now apply tr_right.
Qed.

(** Coefficients in models of the initial probabilities, if durations do not vary over time. *)
Theorem C91_initial (m : tables R) par (eta : R -> nat -> R) (X x0 : R) :
  hmp m = false -> tvdtpi m = false -> usable m -> (par < n_S m - 1)%nat ->
  is_derive (fun x => eta x par) x0 X -> (forall i x, i <> par -> eta x i = eta x0 i) ->
  (exists r, llk (entering m (eta x0)) = Fin r) ->
  let m0 := entering m (eta x0) in
  slope (fun x => llk (entering m (eta x))) x0
    (grad m0 (pi_kernel m0 (fun k => cat_grad (map (fun i => exp (eta x0 i)) (seq 0 (n_S m - 1))) par X k))).
Proof.
  intros Hh Ht (Hn & HD & HS & (P1 & P2 & P3 & P4) & Hf) Hp Hg Hc Hfin. cbv zeta. set (m0 := entering m (eta x0)).
  apply (kernel_slope m (fun _ => b m) (fun _ => dur m) (fun _ => tr m) (fun x j => pi (entering m (eta x)) j) (fun _ _ _ => 0) (fun _ _ _ => 0)
    (fun _ _ _ => 0) (fun j => pi m0 j * cat_grad (map (fun i => exp (eta x0 i)) (seq 0 (n_S m - 1))) par X j) x0); auto.
  - intros. apply dconst.
  - intros. apply dconst.
  - intros. apply dconst.
  - intros j. now apply cat_derive.
  - intros x. repeat split; auto. intros j. cbn [pi entering with_pi put].
    pose proof (exps_pos (n_S m - 1) (eta x) ltac:(lia)). apply Rlt_le, Rdiv_lt_0_compat; [|lra]. destruct j; [lra|apply exp_pos].
  - now apply plain_bumps.
  - now apply pi_right.
Qed.

(** Coefficients in models of bumps of hmp models with an exponential or Gaussian density and with or without an AR model; [bg t s j] is the derivative of
    the mean of signal s in state j. *)
Theorem C91_hmp (m : tables R) h (L : list (nat * nat)) (mu : R -> nat -> nat -> nat -> R) (bg : nat -> nat -> nat -> R) (x0 : R) :
  hmp m = true -> usable m -> 0 < scale h -> NoDup L -> (forall j s, In (j, s) L -> (j < n_S m)%nat /\ Nat.odd j = true /\ (s < M h)%nat) ->
  (forall t j s, In (j, s) L -> is_derive (fun x => mu x t s j) x0 (bg t s j)) ->
  (forall t j s x, ~ In (j, s) L -> mu x t s j = mu x0 t s j) ->
  (exists r, llk (with_b m (hmp_b h (event_width m) (mu x0))) = Fin r) ->
  let m0 := with_b m (hmp_b h (event_width m) (mu x0)) in
  slope (fun x => llk (with_b m (hmp_b h (event_width m) (mu x)))) x0
    (shared_sum (map (fun '(j, s) => grad m0 (hmp_kernel m0 h s (fun t => mu x0 t s j) (fun t => bg t s j) j)) L)).
Proof.
  intros Hh (Hn & HD & HS & (P1 & P2 & P3 & P4) & Hf) Hs ND HL Hg Hc Hfin. cbv zeta.
  set (bg' := fun t s j => if in_dec pair_dec (j, s) L then bg t s j else 0).
  assert (Hg' : forall t s j, is_derive (fun x => mu x t s j) x0 (bg' t s j)).
  { intros t s j. unfold bg'. destruct (in_dec pair_dec (j, s) L); [now apply Hg|]. apply dsame. intros; now apply Hc. }
  set (m0 := with_b m (hmp_b h (event_width m) (mu x0))).
  set (gs := fun a : nat * nat => hmp_tangent m0 h (snd a) (fun t => mu x0 t (snd a) (fst a)) (fun t => bg' t (snd a) (fst a)) (fst a)).
  rewrite shared_lsum.
  rewrite (lsum_ext _ L _ (fun a => grad m0 (hmp_kernel m0 h (snd a) (fun t => mu x0 t (snd a) (fst a)) (fun t => bg t (snd a) (fst a)) (fst a))))
    by (intros [j s] _; reflexivity).
  apply (kernels_slope m (fun x => hmp_b h (event_width m) (mu x)) (fun _ => dur m) (fun _ => tr m) (fun _ => pi m)
    (fun t k j => hmp_b h (event_width m) (mu x0) t k j * hmp_dsum h (event_width m) (mu x0) bg' t k j) (fun _ _ _ => 0) (fun _ _ _ => 0) (fun _ => 0) x0)
    with (gs := gs); auto.
  - intros t k j. now apply hmp_b_derive.
  - intros. apply dconst.
  - intros. apply dconst.
  - intros. apply dconst.
  - intros x. repeat split; auto. intros. apply hmp_nonneg.
  - intros [jx s] Ha. destruct (HL jx s Ha) as (Hj & Oj & _). split; [unfold gs, hmp_tangent; repeat eexists|]. split.
    + intros _. destruct (Hf Hh) as [He _]. split; [exact He|]. intros. split; reflexivity.
    + unfold gs. cbn [fst snd].
      assert (K : right_kernel m0 (hmp_tangent m0 h s (fun t => mu x0 t s jx) (fun t => bg' t s jx) jx) (hmp_kernel m0 h s (fun t => mu x0 t s jx) (fun t => bg' t s jx) jx))
        by now apply hmp_right.
      assert (B : forall t, bg' t s jx = bg t s jx) by (intros t; unfold bg'; destruct (in_dec pair_dec (jx, s) L); [reflexivity|contradiction]).
      destruct K as [K1 K2]. split.
      * intros d j Hd Hj' Sk. rewrite <- K1 by assumption. cbn [first hmp_kernel]. now rewrite B.
      * intros t la psi d j Hd Hj' Sk Rg. rewrite <- K2 by assumption. cbn [cell hmp_kernel]. unfold bumpk. now rewrite !B.
  - pose proof (gsum_entries m0 gs L) as (E1 & E2 & E3 & E4).
    split; [repeat eexists|]. split; [apply gsum_shaped|]. repeat split; intros; rewrite ?E1, ?E2, ?E3, ?E4.
    + unfold gs. symmetry. apply (hmp_tangents m0 h (mu x0) bg' L t k j); auto.
      * intros [i s] Ha. now destruct (HL i s Ha) as (_ & Q).
      * intros u i s I. unfold bg'. destruct (in_dec pair_dec (i, s) L); [contradiction|reflexivity].
    + symmetry. apply lsum_zero. reflexivity.
    + symmetry. apply lsum_zero. reflexivity.
    + symmetry. apply lsum_zero. reflexivity.
    + symmetry. apply lsum_zero. reflexivity.
Qed.

(** Series are independent: gradients of series are added, also with the constant of the AR model. *)
Theorem C91_series (fs : list (R -> tables R)) (gs : list R) (llc x0 : R) :
  Forall2 (fun f g => slope (fun x => llk (f x)) x0 g) fs gs ->
  slope (fun x => joint_llk (map (fun f => f x) fs) llc) x0 (series_sum gs).
Proof.
  intros H. unfold joint_llk, series_sum.
  assert (G : forall acc a, slope acc x0 a -> slope (fun x => fold_left (fun acc m => esum2 acc (llk m)) (map (fun f => f x) fs) (acc x)) x0 (fold_left Rplus gs a)).
  { induction H as [|f g fs gs Hf _ IH]; intros acc a Ha; [exact Ha|]. cbn [map fold_left].
    apply (IH (fun x => esum2 (acc x) (llk (f x)))). destruct Ha as [L1 D1], Hf as [L2 D2].
    pose proof (filter_and _ _ L1 L2) as L. split.
    - apply filter_imp with (2 := L). intros x [[r ->] [q ->]]. eexists. reflexivity.
    - apply is_derive_ext_loc with (fun x => value (acc x) + value (llk (f x))); [|now apply dplus].
      apply filter_imp with (2 := L). intros x [[r ->] [q ->]]. reflexivity. }
  destruct (G (fun _ => Fin 0) 0) as [L D].
  { split; [apply filter_forall; intros; now eexists|]. cbn. apply dconst. }
  split.
  - apply filter_imp with (2 := L). intros x [r ->]. now eexists.
  - apply is_derive_ext_loc with (fun x => value (fold_left (fun acc m => esum2 acc (llk m)) (map (fun f => f x) fs) (Fin 0)) + - llc).
    + apply filter_imp with (2 := L). intros x [r ->]. reflexivity.
    + eapply deq; [apply dplus; [exact D|apply dconst]|]. ring.
Qed.

(** The tables of these theorems are those that the model builds. *)
Theorem C91_tables (m : tables R) jx (l eta : nat -> nat -> R) (ep : nat -> R) :
  (forall d t, dur (lasting m jx l) d jx t = normalised (D m) (fun e => l e t) d) /\
  ((2 <= n_S m)%nat -> forall j t, (j < n_S m)%nat -> (jx < n_S m)%nat -> tr (leaving m jx eta) jx j t = T_entry (n_S m) (fun _ p => exp (eta p t)) jx j) /\
  (forall j, pi (entering m ep) j = pi_entry (n_S m) (fun p => exp (ep p)) j).
Proof.
  split; [|split].
  - intros. cbn. now rewrite Nat.eqb_refl.
  - intros H j t Hj Hx. cbn [tr leaving with_tr put]. rewrite Nat.eqb_refl. unfold T_entry. rewrite (Rplus_comm 1).
    destruct (Nat.eqb_spec j jx); [now destruct (2 <? n_S m)%nat|]. destruct (Nat.ltb_spec 2 (n_S m)).
    + destruct (if j <? jx then j else j - 1)%nat; reflexivity.
    + assert (E : (if j <? jx then j else j - 1)%nat = 0%nat) by (destruct (Nat.ltb_spec j jx); lia). rewrite E.
      replace (n_S m - 2)%nat with 0%nat by lia. cbn. field.
  - intros j. cbn [pi entering with_pi put]. unfold pi_entry. rewrite (Rplus_comm 1). now destruct j.
Qed.

(** ** Cases *)

(** Two states, two time points. *)
Definition two_ex : tables R :=
  Tables false 0 2 3 2 true false false false (fun t k j => if (j =? 0)%nat then 1 else 1 / 2) (fun d j t => 1 / 2) (fun i j t => 1)
    (fun j => if (j =? 0)%nat then 3 / 4 else 1 / 4).
Lemma two_ex_ok : usable two_ex.
Proof.
  repeat split; cbn; try lia; try discriminate; intros; try destruct (_ =? _)%nat; lra.
Qed.
Lemma usable_with m B Du Tr Pi : usable m -> hmp m = false -> nonnegative (put m B Du Tr Pi) -> usable (put m B Du Tr Pi).
Proof. intros (U1 & U2 & U3 & _) H P. split; [exact U1|]. split; [exact U2|]. split; [exact U3|]. split; [exact P|]. intros H'. cbn in H'. congruence. Qed.
(** One coefficient for both states. *)
Definition obs_ex (x : R) (t j s : nat) : R := match j, s with O, O => x | S O, O => 2 * x | _, _ => 0 end.
Example C91_observations_ex : slope (fun x => llk (observing two_ex 1 (obs_ex x))) 0 (52 / 21).
Proof.
  assert (E : shared_sum (map (fun '(j, s) => grad (observing two_ex 1 (obs_ex 0)) (obs_kernel (observing two_ex 1 (obs_ex 0)) (fun t : nat => INR (S j)) j)) [(0, 0); (1, 0)]%nat)
              = 52 / 21).
  { cbv -[Rplus Rmult Rdiv IZR exp]. rewrite !Rmult_0_r, !Rplus_0_r, !exp_0. field. }
  rewrite <- E. apply (C91_observations two_ex 1 [(0, 0); (1, 0)]%nat obs_ex (fun t j s => INR (S j)) 0).
  - reflexivity.
  - exact two_ex_ok.
  - repeat constructor; cbn; intuition discriminate.
  - intros j s [I|[I|[]]]; injection I as <- <-; cbn; lia.
  - intros t j s [I|[I|[]]]; injection I as <- <-; unfold obs_ex; cbn [INR]; [apply did|eapply deq; [apply scal_derive, did|ring]].
  - intros t j s x N. unfold obs_ex. destruct j as [|[|j]], s; try reflexivity; exfalso; apply N; cbn; auto.
  - apply (finite_total _ (21 / 32)); [|cbv -[Rplus Rmult Rdiv IZR exp]; rewrite !Rmult_0_r, !Rplus_0_r, !exp_0; field|lra].
    apply usable_with; [exact two_ex_ok|reflexivity|]. repeat split; intros; cbn; try destruct (_ =? _)%nat; try lra;
      apply Rmult_le_pos; try lra; apply Rlt_le, exp_pos.
Qed.

Definition dur_ex (x : R) (d t : nat) : R := INR d * x.
Example C91_durations_ex : slope (fun x => llk (lasting two_ex 0 (dur_ex x))) 0 (1 / 7).
Proof.
  assert (E : grad (lasting two_ex 0 (dur_ex 0)) (dur_kernel (lasting two_ex 0 (dur_ex 0)) (fun d t => d_grad (D two_ex) (fun e => dur_ex 0 e t) (fun e => INR e) d) 0) = 1 / 7).
  { cbv -[Rplus Rmult Rminus Rdiv IZR exp pow]. rewrite !Rmult_0_r, !exp_0. field. }
  rewrite <- E. apply (C91_durations two_ex 0 dur_ex (fun d t => INR d) 0).
  - exact two_ex_ok.
  - discriminate.
  - intros d t. eapply deq; [apply scal_derive, did|ring].
  - apply (finite_total _ (21 / 32)); [|cbv -[Rplus Rmult Rdiv IZR exp]; rewrite !Rmult_0_r, !exp_0; field|lra].
    apply usable_with; [exact two_ex_ok|reflexivity|].
    repeat split; intros; cbn [b dur tr pi put two_ex lasting with_dur]; try destruct (_ =? _)%nat; try lra.
    apply Rlt_le, Rdiv_lt_0_compat; [apply exp_pos|apply exps_pos; cbn; lia].
Qed.

Example C91_initial_ex : slope (fun x => llk (entering two_ex (fun p => match p with O => x | _ => 0 end))) 0 (- 1 / 6).
Proof.
  assert (E : grad (entering two_ex (fun p => match p with O => 0 | _ => 0 end)) (pi_kernel (entering two_ex (fun p => match p with O => 0 | _ => 0 end))
    (fun k => cat_grad (map (fun i => exp (match i with O => 0 | _ => 0 end)) (seq 0 (n_S two_ex - 1))) 0 1 k)) = - 1 / 6).
  { cbv -[Rplus Rmult Ropp Rdiv IZR exp]. rewrite !exp_0. field. }
  rewrite <- E. apply (C91_initial two_ex 0 (fun x p => match p with O => x | _ => 0 end) 1 0).
  - reflexivity.
  - reflexivity.
  - exact two_ex_ok.
  - cbn. lia.
  - apply did.
  - intros [|i] x N; [contradiction|reflexivity].
  - apply (finite_total _ (9 / 16)); [|cbv -[Rplus Rmult Rdiv IZR exp]; rewrite !exp_0; field|lra].
    apply usable_with; [exact two_ex_ok|reflexivity|].
    repeat split; intros; cbn [b dur tr pi put two_ex entering with_pi]; try destruct (_ =? _)%nat; try lra.
    pose proof (exps_pos (n_S two_ex - 1) (fun p : nat => match p with O => 0 | _ => 0 end) ltac:(cbn; lia)).
    apply Rlt_le, Rdiv_lt_0_compat; [|cbn in *; lra]. destruct j; [lra|apply exp_pos].
Qed.

(** Three states. *)
Definition three_ex : tables R :=
  Tables false 0 2 3 3 true false false false (fun t k j => if (j =? 2)%nat then 1 / 2 else 1) (fun d j t => 1 / 2) (fun i j t => 1 / 2) (fun j => 1 / 3).
Lemma three_ex_ok : usable three_ex.
Proof. repeat split; cbn; try lia; try discriminate; intros; try destruct (_ =? _)%nat; lra. Qed.
Definition tr_ex (x : R) (p t : nat) : R := match p with O => x | _ => 0 end.
Example C91_transitions_ex : slope (fun x => llk (leaving three_ex 1 (tr_ex x))) 0 (- 1 / 34).
Proof.
  assert (E : grad (leaving three_ex 1 (tr_ex 0)) (tr_kernel (leaving three_ex 1 (tr_ex 0))
    (fun k t => cat_grad (map (fun i => exp (tr_ex 0 i t)) (seq 0 (n_S three_ex - 2))) 0 1 k) 1) = - 1 / 34).
  { cbv -[Rplus Rmult Ropp Rdiv IZR exp]. rewrite !exp_0. field. }
  rewrite <- E. apply (C91_transitions three_ex 1 0 tr_ex (fun _ => 1) 0).
  - reflexivity.
  - exact three_ex_ok.
  - cbn. lia.
  - intros t. apply did.
  - intros [|i] t x N; [contradiction|reflexivity].
  - apply (finite_total _ (17 / 24)); [|cbv -[Rplus Rmult Rdiv IZR exp]; rewrite !exp_0; field|lra].
    apply usable_with; [exact three_ex_ok|reflexivity|].
    repeat split; intros; cbn [b dur tr pi put three_ex leaving with_tr]; try destruct (_ =? 2)%nat; try lra.
    destruct (i =? 1)%nat; [|lra]. destruct (j =? 1)%nat; [lra|].
    pose proof (exps_pos (n_S three_ex - 2) (fun p => tr_ex 0 p t) ltac:(cbn; lia)). apply Rlt_le, Rdiv_lt_0_compat; [|cbn in *; lra].
    destruct (if (j <? 1)%nat then j else j - 1)%nat; [lra|apply exp_pos].
Qed.

(** A bump of two time points between flats; 3/2 time points of the bump are expected. *)
Definition hmp_ex : tables R :=
  Tables true 2 3 3 3 true false false false (fun t k j => 0)
    (fun d j t => if Nat.odd j then (if (d =? 1)%nat then 1 else 0) else 1 / 2)
    (fun i j t => if (j =? S i)%nat then 1 else 0) (fun j => if (j =? 0)%nat then 1 else 0).
Lemma hmp_ex_ok B : (forall t k j, 0 <= B t k j) -> usable (with_b hmp_ex B).
Proof.
  intros HB. split; [cbn; lia|]. split; [cbn; lia|]. split; [cbn; lia|]. split.
  - repeat split; intros; cbn; auto; try destruct (Nat.odd j); try destruct (_ =? _)%nat; lra.
  - intros _. split; [cbn; lia|]. intros d j t _ Ho Hd. unfold duration, later_column. cbn. rewrite Ho. destruct (Nat.eqb_spec d 1); [contradiction|]. auto.
Qed.
Definition pars_ex : hmp_pars := HmpPars 1 (fun _ => 1) 1 None false (fun _ _ => 1).
Definition mean_ex (x : R) (t s j : nat) : R := match s, j with O, S O => x | _, _ => 0 end.
Lemma ebump_ex t k j s : ebump pars_ex (fun t => mean_ex 0 t s j) t k = 0.
Proof. unfold ebump, mean_ex. cbn. destruct s; [|ring]. destruct j as [|[|j]]; ring. Qed.
Example C91_hmp_ex : slope (fun x => llk (with_b hmp_ex (hmp_b pars_ex 2 (mean_ex x)))) 0 (3 / 2).
Proof.
  assert (E : shared_sum (map (fun '(j, s) => grad (with_b hmp_ex (hmp_b pars_ex 2 (mean_ex 0)))
     (hmp_kernel (with_b hmp_ex (hmp_b pars_ex 2 (mean_ex 0))) pars_ex s (fun t => mean_ex 0 t s j) (fun _ => 1) j)) [(1, 0)]%nat) = 3 / 2).
  { cbv -[Rplus Rmult Rminus Ropp Rdiv IZR exp ld]. rewrite !Rmult_0_r, !Rplus_0_r. pose proof (exp_pos (ld pars_ex 1 0)) as P.
    unfold pars_ex in P. set (c := exp _) in *.
    pose proof (Rmult_lt_0_compat _ _ P P) as P2. pose proof (Rmult_lt_0_compat _ _ P2 P). field. lra. }
  rewrite <- E. apply (C91_hmp hmp_ex pars_ex [(1, 0)]%nat mean_ex (fun t s j => 1) 0).
  - reflexivity.
  - apply (hmp_ex_ok (fun _ _ _ => 0)). intros; lra.
  - cbn. lra.
  - repeat constructor; cbn; intuition discriminate.
  - intros j s [I|[]]; injection I as <- <-; cbn; auto.
  - intros t j s [I|[]]; injection I as <- <-. apply did.
  - intros t j s x N. unfold mean_ex. destruct s, j as [|[|j]]; try reflexivity; exfalso; apply N; cbn; auto.
  - apply (finite_total _ (exp (ld pars_ex 1 0) ^ 3)).
    + apply hmp_ex_ok. intros. apply hmp_nonneg.
    + cbv -[Rplus Rmult Rminus Ropp Rdiv IZR exp ld pow]. rewrite !Rmult_0_r, !Rplus_0_r. set (c := exp _). field.
    + apply pow_lt, exp_pos.
Qed.

Example C91_series_ex : slope (fun x => joint_llk [observing two_ex 1 (obs_ex x); with_b hmp_ex (hmp_b pars_ex 2 (mean_ex x))] 1) 0 (52 / 21 + 3 / 2).
Proof.
  assert (E : series_sum [52 / 21; 3 / 2] = 52 / 21 + 3 / 2) by (cbn; ring). rewrite <- E.
  apply (C91_series [(fun x => observing two_ex 1 (obs_ex x)); (fun x => with_b hmp_ex (hmp_b pars_ex 2 (mean_ex x)))] [52 / 21; 3 / 2] 1 0).
  constructor; [exact C91_observations_ex|]. constructor; [exact C91_hmp_ex|constructor].
Qed.

(** ** What the gradient is not *)

(** Durations that vary over time: gradients of coefficients of the initial probabilities use the durations of the first time point throughout. *)
Definition late_ex : tables R :=
  Tables false 0 2 3 2 true true false true (fun t k j => 1) (fun d j t => match t, j with O, _ => 1 / 2 | _, O => if (d =? 0)%nat then 1 / 4 else 3 / 4 | _, _ => if (d =? 0)%nat then 3 / 4 else 1 / 4 end)
    (fun i j t => 1) (fun j => 1 / 2).
Lemma late_ex_ok : usable late_ex.
Proof. repeat split; cbn; try lia; try discriminate; intros; try destruct t; try destruct j; try destruct (_ =? _)%nat; lra. Qed.
Definition start_ex (x : R) (p : nat) : R := match p with O => x | _ => 0 end.
Theorem C91_initial_refuted : exists (m : tables R) par (eta : R -> nat -> R) (X x0 : R),
  hmp m = false /\ tvdtpi m = true /\ usable m /\ (par < n_S m - 1)%nat /\ is_derive (fun x => eta x par) x0 X /\ (forall i x, i <> par -> eta x i = eta x0 i) /\
  (exists r, llk (entering m (eta x0)) = Fin r) /\
  ~ slope (fun x => llk (entering m (eta x))) x0
      (grad (entering m (eta x0)) (pi_kernel (entering m (eta x0)) (fun k => cat_grad (map (fun i => exp (eta x0 i)) (seq 0 (n_S m - 1))) par X k))).
Proof.
  exists late_ex, 0%nat, start_ex, 1, 0.
  assert (Fi : exists r, llk (entering late_ex (start_ex 0)) = Fin r).
  { apply (finite_total _ (3 / 4)); [|cbv -[Rplus Rmult Rdiv IZR exp]; rewrite !exp_0; field|lra].
    apply usable_with; [exact late_ex_ok|reflexivity|].
    destruct late_ex_ok as (_ & _ & _ & (P1 & P2 & P3 & _) & _). repeat split; try assumption. intros j. cbn [pi put].
    pose proof (exps_pos (n_S late_ex - 1) (start_ex 0) ltac:(cbn; lia)). apply Rlt_le, Rdiv_lt_0_compat; [|lra]. destruct j; [lra|apply exp_pos]. }
  split; [reflexivity|]. split; [reflexivity|]. split; [exact late_ex_ok|]. split; [cbn; lia|]. split; [apply did|].
  split; [intros [|i] x N; [contradiction|reflexivity]|]. split; [exact Fi|]. intros W.
  assert (T : slope (fun x => llk (entering late_ex (start_ex x))) 0 (- 1 / 12)).
  { set (pg := fun j => match j with O => 1 | S p => exp (start_ex 0 p) end / (1 + nsum 1 (fun p => exp (start_ex 0 p))) * cat_grad (map (fun i => exp (start_ex 0 i)) (seq 0 1)) 0 1 j).
    pose proof (llk_slope late_ex (fun _ => b late_ex) (fun _ => dur late_ex) (fun _ => tr late_ex) (fun x => pi (entering late_ex (start_ex x)))
      (fun _ _ _ => 0) (fun _ _ _ => 0) (fun _ _ _ => 0) pg 0) as S.
    assert (Fb : forall x, fixed_bumps 0 (put late_ex (b late_ex) (dur late_ex) (tr late_ex) (pi (entering late_ex (start_ex x))))) by (intros x; now apply plain_bumps).
    eassert (V : _ = - 1 / 12); [|rewrite <- V; apply S]; cycle 1.
    - intros; apply dconst.
    - intros; apply dconst.
    - intros; apply dconst.
    - intros j. apply (cat_derive 1 0 start_ex 1 0 j); [lia|apply did|intros [|i] x N; [contradiction|reflexivity]].
    - cbn; lia.
    - exact Fb.
    - intros x. destruct late_ex_ok as (_ & _ & _ & (P1 & P2 & P3 & _) & _). repeat split; try assumption. intros j. cbn [pi mx put entering with_pi].
      pose proof (exps_pos (n_S late_ex - 1) (start_ex x) ltac:(cbn; lia)). apply Rlt_le, Rdiv_lt_0_compat; [|lra]. destruct j; [lra|apply exp_pos].
    - exact Fi.
    - unfold mx. rewrite <- (total_alpha _ (Fb 0)) by (cbn; lia). cbv -[Rplus Rmult Ropp Rdiv IZR exp]. rewrite !exp_0. field. }
  pose proof (slope_unique _ _ _ _ W T) as Q. revert Q. cbv -[Rplus Rmult Ropp Rdiv IZR exp]. rewrite !exp_0. intros Q. field_simplify in Q. lra.
Qed.

(** hmp models: the gradient of coefficients of transition and initial probabilities that are estimated is zero. *)
Definition flat_ex : tables R :=
  Tables true 2 1 3 2 true false false false (fun t k j => if (j =? 0)%nat then 1 / 2 else 1 / 4)
    (fun d j t => if Nat.odd j then (if (d =? 1)%nat then 1 else 0) else 1 / 2) (fun i j t => 1) (fun j => 1 / 2).
Lemma flat_ex_ok Pi : (forall j, 0 <= Pi j) -> usable (with_pi flat_ex Pi).
Proof.
  intros HP. split; [cbn; lia|]. split; [cbn; lia|]. split; [cbn; lia|]. split.
  - repeat split; intros; cbn; auto; try destruct (Nat.odd j); try destruct (_ =? _)%nat; lra.
  - intros _. split; [cbn; lia|]. intros d j t _ Ho Hd. unfold duration, later_column. cbn. rewrite Ho. destruct (Nat.eqb_spec d 1); [contradiction|]. auto.
Qed.
Theorem C91_hmp_refuted : exists (m : tables R) par (eta : R -> nat -> R) (X x0 : R),
  hmp m = true /\ usable m /\ (par < n_S m - 1)%nat /\ is_derive (fun x => eta x par) x0 X /\ (forall i x, i <> par -> eta x i = eta x0 i) /\
  (exists r, llk (entering m (eta x0)) = Fin r) /\
  ~ slope (fun x => llk (entering m (eta x))) x0 (grad (entering m (eta x0)) unused_kernel).
Proof.
  exists flat_ex, 0%nat, start_ex, 1, 0.
  assert (Ps : forall x j, 0 <= pi (entering flat_ex (start_ex x)) j).
  { intros x j. cbn [pi put entering with_pi].
    pose proof (exps_pos (n_S flat_ex - 1) (start_ex x) ltac:(cbn; lia)). apply Rlt_le, Rdiv_lt_0_compat; [|lra]. destruct j; [lra|apply exp_pos]. }
  assert (Fi : exists r, llk (entering flat_ex (start_ex 0)) = Fin r).
  { apply (finite_total _ (3 / 8)); [|cbv -[Rplus Rmult Rdiv IZR exp]; rewrite !exp_0; field|lra]. apply flat_ex_ok, Ps. }
  split; [reflexivity|]. split; [apply (flat_ex_ok (pi flat_ex)); intros; cbn; lra|]. split; [cbn; lia|]. split; [apply did|].
  split; [intros [|i] x N; [contradiction|reflexivity]|]. split; [exact Fi|]. intros W.
  assert (T : slope (fun x => llk (entering flat_ex (start_ex x))) 0 (- 1 / 6)).
  { set (pg := fun j => match j with O => 1 | S p => exp (start_ex 0 p) end / (1 + nsum 1 (fun p => exp (start_ex 0 p))) * cat_grad (map (fun i => exp (start_ex 0 i)) (seq 0 1)) 0 1 j).
    pose proof (llk_slope flat_ex (fun _ => b flat_ex) (fun _ => dur flat_ex) (fun _ => tr flat_ex) (fun x => pi (entering flat_ex (start_ex x)))
      (fun _ _ _ => 0) (fun _ _ _ => 0) (fun _ _ _ => 0) pg 0) as S.
    assert (Fb : forall x, fixed_bumps 0 (put flat_ex (b flat_ex) (dur flat_ex) (tr flat_ex) (pi (entering flat_ex (start_ex x))))) by (intros x; apply flat_ex_ok, Ps).
    eassert (V : _ = - 1 / 6); [|rewrite <- V; apply S]; cycle 1.
    - intros; apply dconst.
    - intros; apply dconst.
    - intros; apply dconst.
    - intros j. apply (cat_derive 1 0 start_ex 1 0 j); [lia|apply did|intros [|i] x N; [contradiction|reflexivity]].
    - cbn; lia.
    - exact Fb.
    - intros x. apply (flat_ex_ok _ (Ps x)).
    - exact Fi.
    - unfold mx. rewrite <- (total_alpha _ (Fb 0)) by (cbn; lia). cbv -[Rplus Rmult Ropp Rdiv IZR exp]. rewrite !exp_0. field. }
  pose proof (slope_unique _ _ _ _ W T) as Q. revert Q. cbv -[Rplus Rmult Ropp Rdiv IZR exp]. rewrite !exp_0. intros Q. field_simplify in Q. lra.
Qed.

Print Assumptions C91_observations. Print Assumptions C91_durations. Print Assumptions C91_transitions. Print Assumptions C91_initial.
Print Assumptions C91_hmp. Print Assumptions C91_series. Print Assumptions C91_tables. Print Assumptions C91_initial_refuted. Print Assumptions C91_hmp_refuted.
