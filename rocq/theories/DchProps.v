(** Theorems about DchModel: C33, C78, C79, C80. *)

From Coq Require Import Reals List Bool Arith Lia Lra.
From Coquelicot Require Import Coquelicot.
From Verif Require Import GlsModel GlsSpec GlsProofs GlsProofs2 GlsProofs3 MvnModel MvnProofs HazProofs.
From Verif Require Import DchModel DchSpec DchProofs DchProofs2.
Import ListNotations.
Local Open Scope R_scope.

(** ** C33 *)

(** The result is upper triangular, satisfies dR^T R + R^T dR = A, and nothing else does. *)
Theorem C33_equation n (M A : nat -> nat -> R) :
  upper M -> (forall i, (i < n)%nat -> M i i <> 0) ->
  (forall i j, (i < n)%nat -> (j < n)%nat -> A i j = A j i) ->
  let D := dchol n M A in
  upper D /\
  (forall i j, (i < n)%nat -> (j < n)%nat -> sumf n (fun k => D k i * M k j + M k i * D k j) = A i j) /\
  (forall X, upper X ->
     (forall i j, (i < n)%nat -> (j < n)%nat -> sumf n (fun k => X k i * M k j + M k i * X k j) = A i j) ->
     forall i j, (i < n)%nat -> (j < n)%nat -> X i j = D i j).
Proof.
  intros u nz s; cbv zeta; split; [apply dchol_upper|split].
  - apply dchol_eq; auto.
  - intros X; apply dchol_unique; auto.
Qed.

(** It is the derivative of the factor of any differentiable family of matrices; differentiability of
    the factor is a consequence. *)
Theorem C33_derivative n (T M : R -> nat -> nat -> R) (t0 : R) (A : nat -> nat -> R) :
  locally t0 (fun t => chol_factor n (T t) (M t)) -> mat_derive n T t0 A ->
  mat_derive n M t0 (dchol n (M t0) A).
Proof. intros f d i j Hi Hj; apply (chol_derive n T M t0 A f d); auto. Qed.

(** [[4,2],[2,5]] = R^T R with R = [[2,1],[0,2]]; derivative [[8,4],[4,6]]. *)
Definition ex_M (i j : nat) : R :=
  match i, j with O, O => 2 | O, S O => 1 | S O, S O => 2 | _, _ => 0 end.
Definition ex_A (i j : nat) : R :=
  match i, j with O, O => 8 | O, S O => 4 | S O, O => 4 | S O, S O => 6 | _, _ => 0 end.
Example C33_two :
  upper ex_M /\ (forall i, (i < 2)%nat -> ex_M i i <> 0) /\
  dchol 2 ex_M ex_A 0 0 = 2 /\ dchol 2 ex_M ex_A 0 1 = 1 /\ dchol 2 ex_M ex_A 1 1 = 1.
Proof.
  split; [intros [|[|i]] [|[|j]] L; try lia; reflexivity|].
  split; [intros [|[|i]] L; cbn; try lia; lra|].
  unfold dchol, dchol_row, dchol_B, nsum; cbn.
  repeat split; try lra.
Qed.

Example C33_family :
  locally 1 (fun t => chol_factor 1 (fun _ _ => t) (fun i j => if ((i =? 0) && (j =? 0))%nat then sqrt t else 0)) /\
  dchol 1 (fun i j => if ((i =? 0) && (j =? 0))%nat then sqrt 1 else 0) (fun _ _ => 1) 0 0 = 1 / 2.
Proof.
  split.
  - refine (filter_imp _ _ _ (pos_near 1 Rlt_0_1)); intros t p; split; [|split].
    + intros [|i] [|j] L; try lia; reflexivity.
    + intros i Hi; replace i with 0%nat by lia; cbn; apply sqrt_lt_R0; exact p.
    + intros i j Hi Hj; replace i with 0%nat by lia; replace j with 0%nat by lia; cbn.
      rewrite sqrt_sqrt by lra; ring.
  - unfold dchol, dchol_row, dchol_B; cbn; rewrite sqrt_1; lra.
Qed.

(** ** C80: the derivative of the inverse factor *)

(** What is returned is minus the derivative of the inverse factor. *)
Theorem C80_minus_derivative n (T M Mi : R -> nat -> nat -> R) (t0 : R) (A : nat -> nat -> R) :
  locally t0 (fun t => chol_factor n (T t) (M t)) ->
  locally t0 (fun t => inverse n (M t) (Mi t)) -> mat_derive n T t0 A ->
  mat_derive n Mi t0 (fun i j => - invdchol n (M t0) (Mi t0) A i j).
Proof.
  intros f v d i j Hi Hj.
  destruct (inv_derive_family n T M Mi t0 A f d v) as [V HV].
  rewrite <- (inv_derive_value n T M Mi t0 A f d v V HV) by auto; apply HV; auto.
Qed.

(** The documented claim, "returns derivative of inverse of this sum", has the wrong sign:
    R = sqrt t, at t = 1 the inverse falls with slope -1/2 and +1/2 is returned. *)
Theorem C80_sign_refuted :
  exists (T M Mi : R -> nat -> nat -> R) (t0 : R) (A : nat -> nat -> R),
    locally t0 (fun t => chol_factor 1 (T t) (M t)) /\
    locally t0 (fun t => inverse 1 (M t) (Mi t)) /\ mat_derive 1 T t0 A /\
    ~ mat_derive 1 Mi t0 (invdchol 1 (M t0) (Mi t0) A).
Proof.
  set (M := fun t (i j : nat) => if ((i =? 0) && (j =? 0))%nat then sqrt t else 0).
  exists (fun t _ _ => t), M, (fun t _ _ => / sqrt t), 1, (fun _ _ => 1).
  assert (f : locally 1 (fun t => chol_factor 1 (fun _ _ => t) (M t))) by apply C33_family.
  assert (v : locally 1 (fun t => inverse 1 (M t) (fun _ _ => / sqrt t))).
  { refine (filter_imp _ _ _ (pos_near 1 Rlt_0_1)); intros t p i j Hi Hj.
    replace i with 0%nat by lia; replace j with 0%nat by lia; unfold prod, M, ident; cbn.
    rewrite Rplus_0_l; apply Rinv_r; pose proof (sqrt_lt_R0 t p); lra. }
  assert (d : mat_derive 1 (fun t _ _ => t) 1 (fun _ _ => 1)).
  { intros i j _ _; apply (is_derive_id (K := R_AbsRing)). }
  split; [exact f|split; [exact v|split; [exact d|]]]; intros H.
  pose proof (C80_minus_derivative 1 _ M _ 1 _ f v d 0%nat 0%nat Nat.lt_0_1 Nat.lt_0_1) as H1.
  specialize (H 0%nat 0%nat Nat.lt_0_1 Nat.lt_0_1).
  cbv beta in H, H1.
  pose proof (is_derive_unique _ _ _ H) as U; pose proof (is_derive_unique _ _ _ H1) as U1.
  assert (E : invdchol 1 (M 1) (fun _ _ => / sqrt 1) (fun _ _ => 1) 0 0 = 1 / 2).
  { unfold invdchol, mmul, nsum, dchol, dchol_row, dchol_B, M; cbn; rewrite sqrt_1, Rinv_1; lra. }
  rewrite E in *; rewrite U in U1; lra.
Qed.

(** ** C79: derivatives of coefficients *)

Lemma penalised_derive npen n H SJ rho p i j : (p < npen)%nat -> (i < n)%nat ->
  is_derive (fun t => penalised npen H SJ (upd rho p t) i j) (rho p) (exp (rho p) * SJ p i j).
Proof.
  intros Hp _; unfold penalised.
  apply (is_derive_eq _ _ (plus 0 (sumf npen (fun q => if (q =? p)%nat then exp (rho p) * SJ p i j else 0)))).
  - apply (is_derive_plus (fun _ => H i j)); [apply (is_derive_const (V := R_NormedModule))|].
    apply (is_derive_sumf npen (fun q t => exp (upd rho p t q) * SJ q i j)); intros q Hq.
    destruct (Nat.eqb_spec q p) as [E|N].
    + rewrite E; apply (is_derive_ext (fun t => exp t * SJ p i j)).
      * intros t; rewrite upd_same; reflexivity.
      * auto_derive; auto; ring.
    + apply (is_derive_ext (fun _ => exp (rho q) * SJ q i j)).
      * intros t; rewrite upd_other by auto; reflexivity.
      * apply (is_derive_const (V := R_NormedModule)).
  - req; rewrite (sumf_single npen _ p Hp).
    + rewrite Nat.eqb_refl; apply Rplus_0_l.
    + intros q _ N; destruct (Nat.eqb_spec q p); [lia|reflexivity].
Qed.

(** If the coefficients solve the penalised system for every rho near the current one, then they are
    differentiable and their derivative with respect to log smoothing parameter p is the column the
    code computes (no coefficient dropped). *)
Theorem C79_coefficient_derivative npen n H SJ M Mi (rho : nat -> R) (b : nat -> R)
    (beta : (nat -> R) -> nat -> R) scale Vbr :
  factored npen n H SJ M Mi rho ->
  (forall r i, (i < n)%nat -> sumf n (fun j => penalised npen H SJ r i j * beta r j) = b i) ->
  forall p i, (p < npen)%nat -> (i < n)%nat ->
  is_derive (fun t => beta (upd rho p t) i) (rho p)
    (wps_dbeta n (fun p => exp (rho p)) SJ (beta rho) (wps_V n false scale Vbr (Mi rho)) i p).
Proof.
  intros F sys p i Hp Hi; destruct (F p Hp) as [f v].
  pose proof (locally_singleton _ _ f) as f0; cbv beta in f0; rewrite upd_id in f0.
  pose proof (locally_singleton _ _ v) as v0; cbv beta in v0; rewrite upd_id in v0.
  assert (dT : mat_derive n (fun t => penalised npen H SJ (upd rho p t)) (rho p) (fun i j => exp (rho p) * SJ p i j)).
  { intros r c Hr Hc; apply (penalised_derive npen n); auto. }
  destruct (inv_derive_family n _ _ _ (rho p) _ f dT v) as [V HV].
  assert (sol : forall r i, (i < n)%nat -> chol_factor n (penalised npen H SJ r) (M r) -> inverse n (M r) (Mi r) ->
     beta r i = sumf n (fun k => Mi r i k * sumf n (fun l => Mi r l k * b l))).
  { intros r c Hc [u [pos e]] I; apply (solve_gram n (M r) u); auto.
    - intros q Hq; pose proof (pos q Hq); lra.
    - intros q Hq; rewrite <- (sys r q Hq); apply sumf_ext; intros j Hj; rewrite e by auto; reflexivity. }
  assert (exd : exists d : nat -> R, forall i, (i < n)%nat -> is_derive (fun t => beta (upd rho p t) i) (rho p) (d i)).
  { exists (fun i => sumf n (fun k => V i k * sumf n (fun l => Mi rho l k * b l)
       + Mi rho i k * sumf n (fun l => V l k * b l))); intros c Hc.
    apply (is_derive_ext_loc (fun t => sumf n (fun k => Mi (upd rho p t) c k * sumf n (fun l => Mi (upd rho p t) l k * b l)))).
    - refine (filter_imp _ _ _ (filter_and _ _ f v)); intros t [ft vt]; symmetry; apply sol; auto.
    - apply (is_derive_sumf n (fun k t => Mi (upd rho p t) c k * sumf n (fun l => Mi (upd rho p t) l k * b l))).
      intros k Hk; eapply is_derive_eq.
      + apply (is_derive_mult (fun t => Mi (upd rho p t) c k) (fun t => sumf n (fun l => Mi (upd rho p t) l k * b l)));
          [apply HV; auto| |intros; apply Rmult_comm].
        apply (is_derive_sumf n (fun l t => Mi (upd rho p t) l k * b l) (fun l => V l k * b l)); intros l Hl.
        eapply is_derive_eq.
        * apply (is_derive_mult (fun t => Mi (upd rho p t) l k) (fun _ => b l));
            [apply HV; auto|apply (is_derive_const (V := R_NormedModule))|intros; apply Rmult_comm].
        * unfold plus, mult, zero; cbn; ring.
      + rewrite upd_id; reflexivity. }
  destruct exd as [d Hd]; eapply is_derive_eq; [apply Hd; exact Hi|].
  assert (E : forall r, (r < n)%nat ->
    sumf n (fun j => sumf n (fun k => M rho k r * M rho k j) * d j)
    = - exp (rho p) * sumf n (fun l => SJ p r l * beta rho l)).
  { intros r Hr; destruct f0 as [u [pos e]].
    assert (d1 : is_derive (fun t => sumf n (fun j => penalised npen H SJ (upd rho p t) r j * beta (upd rho p t) j)) (rho p)
       (sumf n (fun j => exp (rho p) * SJ p r j * beta rho j + penalised npen H SJ rho r j * d j))).
    { apply (is_derive_sumf n (fun j t => penalised npen H SJ (upd rho p t) r j * beta (upd rho p t) j)); intros j Hj.
      eapply is_derive_eq.
      - apply (is_derive_mult (fun t => penalised npen H SJ (upd rho p t) r j) (fun t => beta (upd rho p t) j));
          [apply dT; auto|apply Hd; auto|intros; apply Rmult_comm].
      - rewrite upd_id; reflexivity. }
    assert (d2 : is_derive (fun t => sumf n (fun j => penalised npen H SJ (upd rho p t) r j * beta (upd rho p t) j)) (rho p) 0).
    { apply (is_derive_ext (fun _ => b r)); [intros t; symmetry; apply sys; auto|].
      apply (is_derive_const (V := R_NormedModule)). }
    pose proof (is_derive_unique _ _ _ d1) as U1; pose proof (is_derive_unique _ _ _ d2) as U2.
    rewrite U1 in U2; rewrite sumf_plus in U2.
    rewrite (sumf_ext n (fun j => exp (rho p) * SJ p r j * beta rho j) (fun j => exp (rho p) * (SJ p r j * beta rho j))) in U2
      by (intros; ring).
    rewrite sumf_scal in U2.
    rewrite (sumf_ext n (fun j => sumf n (fun k => M rho k r * M rho k j) * d j) (fun j => penalised npen H SJ rho r j * d j))
      by (intros j Hj; rewrite e by auto; reflexivity).
    lra. }
  destruct f0 as [u [pos e]].
  assert (nz : forall q, (q < n)%nat -> M rho q q <> 0) by (intros q Hq; pose proof (pos q Hq); lra).
  rewrite (solve_gram n (M rho) u nz (Mi rho) v0 d _ E i Hi).
  unfold wps_dbeta, wps_V; rewrite nsum_sumf.
  transitivity (sumf n (fun k => sumf n (fun l => Mi rho i k * Mi rho l k *
      (- exp (rho p) * sumf n (fun m => SJ p l m * beta rho m))))).
  - apply sumf_ext; intros k Hk; rewrite <- sumf_scal; apply sumf_ext; intros; ring.
  - rewrite sumf_swap; apply sumf_ext; intros l Hl; rewrite mmul_prod, nsum_sumf; unfold prod, mtr.
    set (c := - exp (rho p)); set (B := sumf n (fun m => SJ p l m * beta rho m)).
    transitivity ((c * B) * sumf n (fun k => Mi rho i k * Mi rho l k)); [|ring].
    rewrite <- sumf_scal; apply sumf_ext; intros; ring.
Qed.

(** One coefficient, H = 1, S = 1, b = 1: beta(rho) = 1 / (1 + exp rho), slope -1/4 at rho = 0. *)
Definition one_H (i j : nat) : R := 1.
Definition one_SJ (p i j : nat) : R := 1.
Definition one_M (r : nat -> R) (i j : nat) : R := if ((i =? 0) && (j =? 0))%nat then sqrt (1 + exp (r 0%nat)) else 0.
Definition one_Mi (r : nat -> R) (i j : nat) : R := / sqrt (1 + exp (r 0%nat)).
Definition one_beta (r : nat -> R) (i : nat) : R := / (1 + exp (r 0%nat)).

Lemma one_factored rho : factored 1 1 one_H one_SJ one_M one_Mi rho.
Proof.
  assert (P : forall r : nat -> R, 0 < 1 + exp (r 0%nat)) by (intros r; pose proof (exp_pos (r 0%nat)); lra).
  assert (Q : forall r : nat -> R, 0 < sqrt (1 + exp (r 0%nat))) by (intros r; apply sqrt_lt_R0, P).
  intros p Hp; split; apply filter_forall; intros t.
  - split; [|split].
    + intros [|i] [|j] L; try lia; reflexivity.
    + intros i Hi; replace i with 0%nat by lia; apply Q.
    + intros i j Hi Hj; replace i with 0%nat by lia; replace j with 0%nat by lia.
      unfold one_M, penalised, one_H, one_SJ; cbn; rewrite sqrt_sqrt by (left; apply P); ring.
  - intros i j Hi Hj; replace i with 0%nat by lia; replace j with 0%nat by lia.
    unfold prod, one_M, one_Mi, ident; cbn; rewrite Rplus_0_l; apply Rinv_r; pose proof (Q (upd rho p t)); lra.
Qed.

Lemma one_solves r i : (i < 1)%nat -> sumf 1 (fun j => penalised 1 one_H one_SJ r i j * one_beta r j) = 1.
Proof.
  intros Hi; unfold penalised, one_H, one_SJ, one_beta; cbn.
  pose proof (exp_pos (r 0%nat)); field; lra.
Qed.

Example C79_one :
  factored 1 1 one_H one_SJ one_M one_Mi (fun _ => 0) /\
  wps_dbeta 1 (fun _ => exp 0) one_SJ (one_beta (fun _ => 0))
    (wps_V 1 false 1 (fun _ _ => 0) (one_Mi (fun _ => 0))) 0 0 = - (1 / 4).
Proof.
  split; [apply one_factored|].
  unfold wps_dbeta, wps_V, mmul, mtr, nsum, one_beta, one_Mi, one_SJ; cbn; rewrite exp_0.
  replace (1 + 1) with 2 by ring.
  assert (E : / sqrt 2 * / sqrt 2 = / 2).
  { rewrite <- Rinv_mult_distr, sqrt_sqrt; try lra; apply Rgt_not_eq, sqrt_lt_R0; lra. }
  rewrite E; lra.
Qed.

(** With dropped coefficients the column is the derivative multiplied by the scale once too often. *)
Theorem C79_dropped npen n H SJ keep b beta (rho : nat -> R) scale Vbr Mi (d : nat -> R) p :
  (p < npen)%nat ->
  kept_solution npen n H SJ keep b beta ->
  padded_inverse n keep (penalised npen H SJ rho) (fun i j => sumf n (fun k => Vbr k i * Vbr k j)) ->
  (forall i, (i < n)%nat -> is_derive (fun t => beta (upd rho p t) i) (rho p) (d i)) ->
  forall i, (i < n)%nat ->
  wps_dbeta n (fun p => exp (rho p)) SJ (beta rho) (wps_V n true scale Vbr Mi) i p = scale * d i.
Proof.
  intros Hp sol PI Hd i Hi.
  set (W := fun i j => sumf n (fun k => Vbr k i * Vbr k j)) in *.
  assert (W0 : forall i j, (i < n)%nat -> (j < n)%nat -> keep i = false \/ keep j = false -> W i j = 0) by apply PI.
  assert (W1 : forall i j, (i < n)%nat -> (j < n)%nat -> keep i = true -> keep j = true ->
    prod n W (penalised npen H SJ rho) i j = ident i j) by apply PI.
  assert (dz : forall j, (j < n)%nat -> keep j = false -> d j = 0).
  { intros j Hj K; rewrite <- (is_derive_unique _ _ _ (Hd j Hj)).
    rewrite (Derive_ext _ (fun _ => 0)); [apply Derive_const|]; intros t; apply (sol (upd rho p t) j Hj); exact K. }
  assert (E : forall r, (r < n)%nat -> keep r = true ->
    sumf n (fun j => penalised npen H SJ rho r j * d j) = - exp (rho p) * sumf n (fun l => SJ p r l * beta rho l)).
  { intros r Hr K.
    assert (d1 : is_derive (fun t => sumf n (fun j => penalised npen H SJ (upd rho p t) r j * beta (upd rho p t) j)) (rho p)
       (sumf n (fun j => exp (rho p) * SJ p r j * beta rho j + penalised npen H SJ rho r j * d j))).
    { apply (is_derive_sumf n (fun j t => penalised npen H SJ (upd rho p t) r j * beta (upd rho p t) j)); intros j Hj.
      eapply is_derive_eq.
      - apply (is_derive_mult (fun t => penalised npen H SJ (upd rho p t) r j) (fun t => beta (upd rho p t) j));
          [apply (penalised_derive npen n); auto|apply Hd; auto|intros; apply Rmult_comm].
      - rewrite upd_id; reflexivity. }
    assert (d2 : is_derive (fun t => sumf n (fun j => penalised npen H SJ (upd rho p t) r j * beta (upd rho p t) j)) (rho p) 0).
    { apply (is_derive_ext (fun _ => b r)); [intros t; symmetry; apply sol; auto|].
      apply (is_derive_const (V := R_NormedModule)). }
    pose proof (is_derive_unique _ _ _ d1) as U1; pose proof (is_derive_unique _ _ _ d2) as U2.
    rewrite U1 in U2; rewrite sumf_plus in U2.
    rewrite (sumf_ext n (fun j => exp (rho p) * SJ p r j * beta rho j) (fun j => exp (rho p) * (SJ p r j * beta rho j))) in U2
      by (intros; ring).
    rewrite sumf_scal in U2; lra. }
  transitivity (scale * sumf n (fun k => W i k * (- exp (rho p) * sumf n (fun l => SJ p k l * beta rho l)))).
  { unfold wps_dbeta, wps_V; rewrite nsum_sumf, <- sumf_scal; apply sumf_ext; intros k Hk.
    rewrite mmul_prod, nsum_sumf; unfold W, prod, mtr; ring. }
  clearbody W; f_equal; destruct (keep i) eqn:K.
  - transitivity (sumf n (fun k => W i k * sumf n (fun j => penalised npen H SJ rho k j * d j))).
    { apply sumf_ext; intros k Hk; destruct (keep k) eqn:Kk; [rewrite E by auto; reflexivity|].
      rewrite (W0 i k) by auto; ring. }
    transitivity (sumf n (fun j => prod n W (penalised npen H SJ rho) i j * d j)).
    { transitivity (sumf n (fun k => sumf n (fun j => W i k * penalised npen H SJ rho k j * d j))).
      - apply sumf_ext; intros k Hk; rewrite <- sumf_scal; apply sumf_ext; intros; ring.
      - rewrite sumf_swap; apply sumf_ext; intros j Hj; unfold prod.
        rewrite (Rmult_comm _ (d j)), <- sumf_scal; apply sumf_ext; intros; ring. }
    rewrite (sumf_single n _ i Hi).
    + rewrite W1 by auto; unfold ident; rewrite Nat.eqb_refl; ring.
    + intros j Hj N; destruct (keep j) eqn:Kj; [|rewrite (dz j Hj Kj); ring].
      rewrite W1 by auto; unfold ident; destruct (Nat.eqb_spec i j); [lia|ring].
  - rewrite (dz i Hi K); apply sumf_zero; intros k Hk; rewrite (W0 i k) by auto; ring.
Qed.

(** Two coefficients, the second one dropped, scale 2: the derivative is -1/4 and -1/2 is used. *)
Definition two_H (i j : nat) : R := if ((i =? 0) && (j =? 0))%nat then 1 else 0.
Definition two_SJ (p i j : nat) : R := if ((i =? 0) && (j =? 0))%nat then 1 else 0.
Definition two_beta (r : nat -> R) (i : nat) : R := if (i =? 0)%nat then / (1 + exp (r 0%nat)) else 0.
Definition two_Vbr (i j : nat) : R := if ((i =? 0) && (j =? 0))%nat then / sqrt 2 else 0.

Lemma half_root : / sqrt 2 * / sqrt 2 = / 2.
Proof. rewrite <- Rinv_mult_distr, sqrt_sqrt; try lra; apply Rgt_not_eq, sqrt_lt_R0; lra. Qed.

Lemma two_kept : kept_solution 1 2 two_H two_SJ (fun i => (i =? 0)%nat) (fun _ => 1) two_beta.
Proof.
  intros r i Hi; split; intros K.
  - apply Nat.eqb_eq in K; subst i; unfold penalised, two_H, two_SJ, two_beta; cbn.
    pose proof (exp_pos (r 0%nat)); field; lra.
  - unfold two_beta; rewrite K; reflexivity.
Qed.

Lemma two_padded : padded_inverse 2 (fun i => (i =? 0)%nat) (penalised 1 two_H two_SJ (fun _ => 0))
  (fun i j => sumf 2 (fun k => two_Vbr k i * two_Vbr k j)).
Proof.
  split.
  - intros [|[|i]] [|[|j]] Hi Hj [K|K]; try lia; cbn in K; try discriminate; unfold two_Vbr; cbn; ring.
  - intros [|[|i]] [|[|j]] Hi Hj K L; try lia; cbn in K, L; try discriminate.
    unfold prod, penalised, two_H, two_SJ, two_Vbr, ident; cbn; rewrite exp_0.
    pose proof half_root; lra.
Qed.

Lemma two_derive i : (i < 2)%nat ->
  is_derive (fun t => two_beta (upd (fun _ => 0) 0 t) i) 0 (if (i =? 0)%nat then - (1 / 4) else 0).
Proof.
  intros Hi; unfold two_beta; destruct i as [|i]; cbn [Nat.eqb].
  - apply (is_derive_ext (fun t => / (1 + exp t))); [intros t; rewrite upd_same; reflexivity|].
    auto_derive; [rewrite exp_0; lra|rewrite exp_0; field].
  - apply (is_derive_const (V := R_NormedModule)).
Qed.

Theorem C79_dropped_refuted :
  exists npen n H SJ keep b beta (rho : nat -> R) scale Vbr Mi (d : nat -> R) p i,
    (p < npen)%nat /\ (i < n)%nat /\ 0 < scale /\
    kept_solution npen n H SJ keep b beta /\
    padded_inverse n keep (penalised npen H SJ rho) (fun i j => sumf n (fun k => Vbr k i * Vbr k j)) /\
    (forall i, (i < n)%nat -> is_derive (fun t => beta (upd rho p t) i) (rho p) (d i)) /\
    wps_dbeta n (fun p => exp (rho p)) SJ (beta rho) (wps_V n true scale Vbr Mi) i p <> d i.
Proof.
  exists 1%nat, 2%nat, two_H, two_SJ, (fun i => (i =? 0)%nat), (fun _ => 1), two_beta, (fun _ => 0), 2, two_Vbr,
    (fun _ _ => 0), (fun i => if (i =? 0)%nat then - (1 / 4) else 0), 0%nat, 0%nat.
  split; [lia|split; [lia|split; [lra|split; [apply two_kept|split; [apply two_padded|split]]]]].
  - intros i Hi; apply two_derive; exact Hi.
  - pose proof (C79_dropped 1 2 two_H two_SJ (fun i => (i =? 0)%nat) (fun _ => 1) two_beta (fun _ => 0) 2 two_Vbr
      (fun _ _ => 0) (fun i => if (i =? 0)%nat then - (1 / 4) else 0) 0%nat Nat.lt_0_1 two_kept two_padded
      (fun i Hi => two_derive i Hi) 0%nat Nat.lt_0_2) as E.
    cbv beta in E; rewrite E; cbn; lra.
Qed.

(** With scale 1 the column is the derivative. *)
Theorem C79_dropped_unit npen n H SJ keep b beta (rho : nat -> R) Vbr Mi (d : nat -> R) p :
  (p < npen)%nat ->
  kept_solution npen n H SJ keep b beta ->
  padded_inverse n keep (penalised npen H SJ rho) (fun i j => sumf n (fun k => Vbr k i * Vbr k j)) ->
  (forall i, (i < n)%nat -> is_derive (fun t => beta (upd rho p t) i) (rho p) (d i)) ->
  forall i, (i < n)%nat ->
  wps_dbeta n (fun p => exp (rho p)) SJ (beta rho) (wps_V n true 1 Vbr Mi) i p = d i.
Proof.
  intros Hp s w D i Hi; rewrite (C79_dropped npen n H SJ keep b beta rho 1 Vbr Mi d p Hp s w D i Hi); ring.
Qed.

(** ** C78: the correction for uncertainty about the smoothing parameters *)

(** First term: J V_rho J^T where J holds the derivatives of the coefficients and Vr is the transposed
    root of the covariance matrix of the log smoothing parameters.  Second term: the covariance matrix
    propagated through the derivatives of the inverse factor. *)
Theorem C78_terms npen n H SJ M Mi (rho b : nat -> R) (beta : (nat -> R) -> nat -> R) scale Vbr Vpr Vr :
  factored npen n H SJ M Mi rho ->
  (forall r i, (i < n)%nat -> sumf n (fun j => penalised npen H SJ r i j * beta r j) = b i) ->
  (forall k l, (k < npen)%nat -> (l < npen)%nat -> Vpr k l = Vpr l k) ->
  let res := compute_Vb_corr_WPS npen n (fun p => exp (rho p)) SJ (beta rho) false scale Vbr (M rho) (Mi rho) Vpr Vr 0 in
  exists (J : nat -> nat -> R) (D : nat -> nat -> nat -> R),
    (forall p i, (p < npen)%nat -> (i < n)%nat -> is_derive (fun t => beta (upd rho p t) i) (rho p) (J i p)) /\
    (forall p, (p < npen)%nat -> mat_derive n (fun t => Mi (upd rho p t)) (rho p) (D p)) /\
    (forall i j, (i < n)%nat -> (j < n)%nat ->
       fst res i j = sumf npen (fun k => sumf npen (fun l => J i k * sumf npen (fun q => Vr q k * Vr q l) * J j l)) /\
       snd res i j = scale * sumf npen (fun k => sumf npen (fun l => Vpr k l * sumf n (fun m => D k i m * D l j m)))).
Proof.
  intros F sys sym; cbv zeta.
  set (lam := fun p => exp (rho p)).
  set (G := fun p => invdchol n (M rho) (Mi rho) (fun i j => lam p * SJ p i j)).
  set (J := wps_dbeta n lam SJ (beta rho) (wps_V n false scale Vbr (Mi rho))).
  exists J, (fun p i j => - G p i j).
  split; [intros p i Hp Hi; apply (C79_coefficient_derivative npen n H SJ M Mi rho b beta); auto|].
  split.
  { intros p Hp; destruct (F p Hp) as [f v].
    assert (dT : mat_derive n (fun t => penalised npen H SJ (upd rho p t)) (rho p) (fun i j => lam p * SJ p i j)).
    { intros r c Hr Hc; apply (penalised_derive npen n); auto. }
    pose proof (C80_minus_derivative n _ _ _ (rho p) _ f v dT) as E; cbv beta in E; rewrite upd_id in E; exact E. }
  intros i j Hi Hj; split; unfold compute_Vb_corr_WPS; cbn [fst snd Nat.eqb].
  - fold J; unfold wps_Vc; rewrite mmul_prod; unfold prod.
    transitivity (sumf npen (fun q => sumf npen (fun k => Vr q k * J i k) * sumf npen (fun l => Vr q l * J j l))).
    { apply sumf_ext; intros q Hq; unfold mtr; rewrite !mmul_prod; reflexivity. }
    transitivity (sumf npen (fun q => sumf npen (fun k => sumf npen (fun l => Vr q k * J i k * (Vr q l * J j l))))).
    { apply sumf_ext; intros q Hq; rewrite Rmult_comm, <- sumf_scal; apply sumf_ext; intros k Hk.
      rewrite Rmult_comm, <- sumf_scal; reflexivity. }
    rewrite sumf_swap; apply sumf_ext; intros k Hk; rewrite sumf_swap; apply sumf_ext; intros l Hl.
    transitivity ((J i k * J j l) * sumf npen (fun q => Vr q k * Vr q l)); [|ring].
    rewrite <- sumf_scal; apply sumf_ext; intros; ring.
  - unfold wps_Vcc; fold G; f_equal.
    destruct (Nat.eq_dec npen 0) as [Z|Z].
    { subst npen; unfold computeV2; destruct (i <=? j)%nat; reflexivity. }
    assert (f0 : chol_factor n (penalised npen H SJ rho) (M rho) /\ inverse n (M rho) (Mi rho)).
    { destruct (F 0%nat ltac:(lia)) as [f v]; apply locally_singleton in f; apply locally_singleton in v.
      rewrite upd_id in f, v; split; assumption. }
    destruct f0 as [[u [pos _]] I].
    assert (nz : forall q, (q < n)%nat -> M rho q q <> 0) by (intros q Hq; pose proof (pos q Hq); lra).
    rewrite (computeV2_eq npen n Vpr G).
    + unfold v2_spec; apply sumf_ext; intros k Hk; apply sumf_ext; intros l Hl; f_equal.
      apply sumf_ext; intros; ring.
    + intros p r c Hp Hr Hc; unfold G; rewrite invdchol_prod by lia.
      assert (UI : forall a b, (a < n)%nat -> (b < a)%nat -> Mi rho a b = 0) by (intros; apply (inv_upper n (M rho) u nz (Mi rho) I); auto).
      apply prod_upper; auto.
      intros a c' Ha Hc'; apply prod_upper; auto; intros; apply dchol_upper; auto.
    + exact sym.
    + exact Hi.
    + exact Hj.
Qed.

Example C78_one :
  let res := compute_Vb_corr_WPS 1 1 (fun _ => exp 0) one_SJ (one_beta (fun _ => 0)) false 2 (fun _ _ => 0)
    (one_M (fun _ => 0)) (one_Mi (fun _ => 0)) (fun _ _ => 9) (fun _ _ => 3) 0 in
  factored 1 1 one_H one_SJ one_M one_Mi (fun _ => 0) /\ fst res 0%nat 0%nat = 9 / 16 /\ snd res 0%nat 0%nat = 9 / 16.
Proof.
  split; [apply one_factored|].
  unfold compute_Vb_corr_WPS, wps_Vc, wps_Vcc, wps_dbeta, wps_V, computeV2, v2_cell, invdchol, mmul, mtr, nsum, dchol,
    dchol_row, dchol_B, one_beta, one_Mi, one_M, one_SJ; cbn; rewrite exp_0.
  replace (1 + 1) with 2 by ring.
  pose proof half_root as h; set (m := / sqrt 2) in *; unfold Rdiv; fold m.
  split.
  - rewrite !Rplus_0_r, h; lra.
  - rewrite ?Rplus_0_r.
    match goal with |- ?l = _ => replace l with (2 * (9 * (0.5 * 0.5) * ((m * m) * (m * m) * (m * m)))) end; [|lra].
    rewrite h; lra.
Qed.

Print Assumptions C33_equation.
Print Assumptions C33_derivative.
Print Assumptions C80_minus_derivative.
Print Assumptions C80_sign_refuted.
Print Assumptions C79_coefficient_derivative.
Print Assumptions C79_dropped.
Print Assumptions C79_dropped_refuted.
Print Assumptions C79_dropped_unit.
Print Assumptions C78_terms.
