(** C196: what is cut off by ending the integration in Davies' routine. *)
From Coq Require Import List Arith Reals Lra Lia.
From Coquelicot Require Import Coquelicot.
From Verif Require Import DavModel DtrModel DtrSpec DtrProofs Dav2Model Dav2Spec Dav2Proofs Dav2Props Dtr2Spec Dtr2Proofs.
Import ListNotations.
Local Open Scope R_scope.

(** ** C196 *)

(** The modulus above is that of the characteristic function. *)
Theorem C196_modulus : forall vars var c E t, is_root E (cf2 vars var c) -> Cmod (E t) = modulus vars var t.
Proof.
  intros vars var c E t (Sq & _).
  assert (A : s3 (inner vars var c t) = - (/ 2 * noncentral vars t) - / 4 * logs vars (2 * (var * t ^ 2)) t).
  { clear. induction vars as [|[[l n] nc] vars IH]; [cbn; field|].
    unfold inner. cbn [fold_right noncentral logs]. fold (inner vars var c t) (noncentral vars t) (logs vars (2 * (var * t ^ 2)) t).
    destruct (inner vars var c t) as [[a b] d]. unfold s3 in *. cbn [snd] in *. rewrite IH.
    replace ((2 * t * l) ^ 2) with (2 * l * t * (2 * l * t)) by ring. field. pose proof (pow2_ge_0 (2 * l * t)). nra. }
  assert (B : Cmod (E t) * Cmod (E t) = exp (s3 (inner vars var c t)) * exp (s3 (inner vars var c t))).
  { rewrite <- Cmod_mult, Sq, cf2_polar, <- exp_plus. unfold cexp, Cmod. cbn [fst snd].
    replace (s3 (inner vars var c t) + s3 (inner vars var c t)) with (2 * s3 (inner vars var c t)) by ring.
    set (e := exp (2 * s3 (inner vars var c t))). set (th := s1 (inner vars var c t)).
    replace ((e * cos th) ^ 2 + (e * sin th) ^ 2) with (e ^ 2 * (Rsqr (sin th) + Rsqr (cos th))) by (unfold Rsqr; ring).
    rewrite sin2_cos2, Rmult_1_r. apply sqrt_pow2. left. apply exp_pos. }
  rewrite modulus_exp, <- A. apply Rsqr_inj; [apply Cmod_ge_0|left; apply exp_pos|exact B].
Qed.

(** If truncation returns less than 1, the rest of the integral is not larger, for every end T. *)
Theorem C196_tail : forall vars u T tausq sigsq c E, 0 <= tausq -> 0 <= sigsq -> valid vars -> 0 < u -> u <= T ->
  is_root E (cf2 vars (sigsq + tausq) c) ->
  exp (- 50) <= Cmod (E u) -> truncation vars u tausq sigsq < 1 ->
  Rabs (RInt (fun t => snd (E t) / (PI * t)) u T) <= truncation vars u tausq sigsq.
Proof.
  intros vars u T tq sg c E Ht Hs V Hu L RE H50 H1. pose proof PI_3 as P.
  assert (M := fun t => C196_modulus vars (sg + tq) c E t RE).
  apply Rle_trans with (tail vars (sg + tq) u T); [|apply tail_truncation; try assumption; rewrite <- M; exact H50].
  destruct RE as (_ & _ & _ & Cs).
  assert (Cf : forall t, u <= t <= T -> continuous (fun t : R => snd (E t) / (PI * t)) t).
  { intros t Htt. apply (continuous_mult (K := R_AbsRing) (fun t => snd (E t)) (fun t => / (PI * t))); [apply Cs|].
    apply (ex_derive_continuous (K := R_AbsRing) (V := R_NormedModule) (fun t : R => / (PI * t))). auto_derive. split; [|exact I] || idtac. apply Rgt_not_eq. nra. }
  assert (X : ex_RInt (fun t : R => snd (E t) / (PI * t)) u T).
  { apply (ex_RInt_continuous (V := R_CompleteNormedModule)). intros t. rewrite Rmin_left, Rmax_right by exact L. apply Cf. }
  eapply Rle_trans; [apply abs_RInt_le; [exact L|exact X]|]. unfold tail. apply RInt_le; [exact L| | |].
  - apply (ex_RInt_continuous (V := R_CompleteNormedModule)). intros t. rewrite Rmin_left, Rmax_right by exact L. intros Htt.
    apply (continuous_comp (fun t : R => snd (E t) / (PI * t)) Rabs); [apply Cf, Htt|apply continuous_Rabs].
  - apply (ex_RInt_continuous (V := R_CompleteNormedModule)). intros t. rewrite Rmin_left, Rmax_right by exact L. intros Htt.
    apply modulus_continuous. lra.
  - intros t Htt. rewrite <- M. unfold Rdiv. rewrite Rabs_mult.
    assert (Pt : 0 < / (PI * t)) by (apply Rinv_0_lt_compat, Rmult_lt_0_compat; lra).
    rewrite (Rabs_right (/ _)) by lra. apply Rmult_le_compat_r; [lra|].
    eapply Rle_trans; [apply Rmax_r|apply Rmax_Cmod].
Qed.

(** So a point returned by findu leaves no more than the accuracy. *)
Theorem C196_findu : forall vars lim fuel accx sigsq utx count u n T c E, 0 <= sigsq -> valid vars -> 0 < utx -> accx < 1 ->
  findu (truncation vars) lim fuel accx sigsq utx count = Done u n ->
  is_root E (cf2 vars sigsq c) -> exp (- 50) <= Cmod (E u) -> u <= T ->
  Rabs (RInt (fun t => snd (E t) / (PI * t)) u T) <= accx.
Proof.
  intros vars lim fuel accx sigsq utx count u n T c E Hs V Hu Ha F RE H50 L.
  destruct (C191_findu _ _ _ _ _ _ _ _ _ Hu F) as (U & A & _). eapply Rle_trans; [|exact A].
  apply (C196_tail vars u T 0 sigsq c); try assumption; try lra. rewrite Rplus_0_r. exact RE.
Qed.

(** The hypotheses of the last two theorems hold for the two weights of C195 at 1. *)
Example C196_case : valid two_weights /\ truncation two_weights 1 0 0 < 1 /\
  is_root (E_of two_weights 0 3) (cf2 two_weights 0 3) /\ exp (- 50) <= Cmod (E_of two_weights 0 3 1).
Proof.
  assert (RE : is_root (E_of two_weights 0 3) (cf2 two_weights 0 3)) by apply E_root.
  pose proof PI_3 as P.
  split; [intros l n nc [I|[I|[]]]; injection I; intros; lra|]. split.
  - rewrite two_low by lra. eapply Rle_lt_trans; [apply Rmin_l|]. eapply Rle_lt_trans; [apply Rmin_r|].
    apply (Rmult_lt_reg_r PI); [lra|]. unfold Rdiv at 1. rewrite Rmult_assoc, Rinv_l by lra. lra.
  - split; [exact RE|]. rewrite (C196_modulus _ _ _ _ _ RE), modulus_exp. apply exp_le. cbn.
    assert (A : ln (1 + 2 * 1 * 10 * (2 * 1 * 10 * 1)) <= 10 * ln 2).
    { replace (10 * ln 2) with (ln (2 ^ 10)) by (rewrite ln_nat by lra; cbn [INR]; ring). apply ln_le_mono; lra. }
    assert (B : ln (1 + 2 * 1 * / 2 * (2 * 1 * / 2 * 1)) = ln 2) by (f_equal; field).
    assert (D : ln 2 <= 1). { rewrite <- (ln_exp 1). apply ln_le_mono; [lra|]. pose proof (exp_ineq1 1 ltac:(lra)). lra. }
    rewrite B. lra.
Qed.

Print Assumptions C196_modulus.
Print Assumptions C196_tail.
Print Assumptions C196_findu.
