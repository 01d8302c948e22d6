(** C195: the bound of the truncation error in Davies' routine. *)
From Coq Require Import List Arith Reals Lra Lia.
From Coquelicot Require Import Coquelicot.
From Verif Require Import DavModel DtrModel DtrSpec DtrProofs Dav2Props.
Import ListNotations.
Local Open Scope R_scope.

(** ** C195 *)

(** The bound is a number between 0 and 1. *)
Theorem C195_unit : forall vars u tausq sigsq, 0 <= tausq -> 0 <= sigsq -> valid vars ->
  0 <= truncation vars u tausq sigsq <= 1.
Proof. exact truncation_unit. Qed.

(** It does not increase as long as no weight is passed, or if none was passed at the smaller point. *)
Theorem C195_antitone : forall vars u v tausq sigsq, 0 <= tausq -> 0 <= sigsq -> valid vars -> 0 <= u -> u <= v ->
  same_side vars u v \/ none_passed vars u -> truncation vars v tausq sigsq <= truncation vars u tausq sigsq.
Proof. exact truncation_antitone. Qed.

(** If all weights have the same size, the search keeps what its comment says. *)
Theorem C195_equal : forall vars m lim fuel accx sigsq utx count u n, 0 < utx -> 0 <= sigsq -> valid vars -> equal_size vars m ->
  findu (truncation vars) lim fuel accx sigsq utx count = Done u n ->
  truncation vars u 0 sigsq <= accx /\ accx < truncation vars (u / (12 / 10)) 0 sigsq.
Proof.
  intros vars m lim fuel accx sigsq utx count u n P S V Q E. destruct (C191_findu _ _ _ _ _ _ _ _ _ P E) as (_ & A & B).
  split; [exact A|]. apply B; [|lra]. intros s t Hs L. apply truncation_antitone; try lra; [exact V|].
  apply (equal_sides vars m); [lra|exact L|exact Q].
Qed.

(** With two weights of different sizes the bound increases where the second one is passed. *)
Theorem C195_increase : exists vars u v, valid vars /\ 0 < u /\ u < v /\ truncation vars u 0 0 < truncation vars v 0 0.
Proof.
  exists two_weights, 1, (11 / 10). split; [intros l n nc [I|[I|[]]]; injection I; intros; lra|]. split; [lra|]. split; [lra|].
  rewrite two_low, two_high by lra. pose proof PI_3 as P.
  assert (H : / 40000 / PI < Rmin (Rmin (5 / 2 / ((1 + 400 * (11 / 10) ^ 2) * (1 + (11 / 10) ^ 2) ^ 6) / PI)
                   (2 / 28 / (400 * (11 / 10) ^ 2 * ((11 / 10) ^ 2) ^ 6) / PI)) 1).
  { repeat apply Rmin_glb_lt; [apply over_pi_lt; lra|apply over_pi_lt; lra|].
    apply (Rmult_lt_reg_r PI); [lra|]. unfold Rdiv. rewrite Rmult_assoc, Rinv_l by lra. lra. }
  eapply Rle_lt_trans; [|exact H]. eapply Rle_trans; [apply Rmin_l|]. eapply Rle_trans; [apply Rmin_r|]. apply over_pi. lra.
Qed.

(** The search then returns a point although one smaller by the factor 1.2 is within the accuracy. *)
Theorem C195_refuted : exists vars lim fuel accx utx u n, valid vars /\ 0 < accx /\ 0 < utx /\
  findu (truncation vars) lim fuel accx 0 utx 0 = Done u n /\
  truncation vars (u / (12 / 10)) 0 0 <= accx.
Proof.
  pose proof PI_3 as P.
  assert (Low : forall u, u <= / 40960 -> u / PI < 1).
  { intros u H. apply (Rmult_lt_reg_r PI); [lra|]. unfold Rdiv. rewrite Rmult_assoc, Rinv_l by lra. lra. }
  exists two_weights, 20%nat, 5%nat, (/ 40960 / PI), (13 / 10), (13 / 11), 6%nat.
  split; [intros l n nc [I|[I|[]]]; injection I; intros; lra|].
  split; [apply Rmult_lt_0_compat; apply Rinv_0_lt_compat; lra|]. split; [lra|].
  assert (T1 : / 40960 / PI < truncation two_weights (13 / 10 / 4) 0 0).
  { rewrite two_low by lra. repeat apply Rmin_glb_lt; [apply over_pi_lt; lra|apply over_pi_lt; lra|apply Low; lra]. }
  assert (T2 : truncation two_weights (13 / 10) 0 0 <= / 40960 / PI).
  { rewrite two_high by lra. eapply Rle_trans; [apply Rmin_l|]. eapply Rle_trans; [apply Rmin_l|]. apply over_pi. lra. }
  assert (T3 : / 40960 / PI < truncation two_weights (13 / 10 / 2) 0 0).
  { rewrite two_low by lra. repeat apply Rmin_glb_lt; [apply over_pi_lt; lra|apply over_pi_lt; lra|apply Low; lra]. }
  assert (T4 : / 40960 / PI < truncation two_weights (13 / 10 / (14 / 10)) 0 0).
  { rewrite two_low by lra. repeat apply Rmin_glb_lt; [apply over_pi_lt; lra|apply over_pi_lt; lra|apply Low; lra]. }
  assert (T5 : / 40960 / PI < truncation two_weights (13 / 10 / (12 / 10)) 0 0).
  { rewrite two_high by lra. repeat apply Rmin_glb_lt; [apply over_pi_lt; lra|apply over_pi_lt; lra|apply Low; lra]. }
  assert (T6 : truncation two_weights (13 / 10 / (11 / 10)) 0 0 <= / 40960 / PI).
  { rewrite two_high by lra. eapply Rle_trans; [apply Rmin_l|]. eapply Rle_trans; [apply Rmin_l|]. apply over_pi. lra. }
  split.
  - unfold findu. unfold call at 1. cbn [Nat.ltb Nat.leb bind]. destruct (Rlt_dec _ _) as [_|Q]; [|lra].
    cbn [grow]. unfold call at 1. cbn [Nat.ltb Nat.leb bind]. destruct (Rlt_dec _ _) as [Q|_]; [lra|].
    cbn [bind refine].
    unfold call at 1. cbn [Nat.ltb Nat.leb bind]. destruct (Rle_dec _ _) as [Q|_]; [lra|].
    unfold call at 1. cbn [Nat.ltb Nat.leb bind]. destruct (Rle_dec _ _) as [Q|_]; [lra|].
    unfold call at 1. cbn [Nat.ltb Nat.leb bind]. destruct (Rle_dec _ _) as [Q|_]; [lra|].
    unfold call at 1. cbn [Nat.ltb Nat.leb bind]. destruct (Rle_dec _ _) as [_|Q]; [|lra].
    f_equal. field.
  - rewrite two_low by lra. eapply Rle_trans; [apply Rmin_l|]. eapply Rle_trans; [apply Rmin_r|]. apply over_pi. lra.
Qed.

Example C195_case : valid two_weights /\ same_side two_weights (/ 2) 1 /\ equal_size [(3, 2%nat, 0); (- 3, 1%nat, 5)] 9 /\
  none_passed two_weights (/ 100).
Proof.
  split; [intros l n nc [I|[I|[]]]; injection I; intros; lra|].
  split; [intros l n nc [I|[I|[]]]; injection I; intros; subst; [left|right]; lra|].
  split; [intros l n nc [I|[I|[]]]; injection I; intros; subst; lra|].
  intros l n nc [I|[I|[]]]; injection I; intros; subst; lra.
Qed.

Print Assumptions C195_unit.
Print Assumptions C195_antitone.
Print Assumptions C195_equal.
Print Assumptions C195_increase.
Print Assumptions C195_refuted.
