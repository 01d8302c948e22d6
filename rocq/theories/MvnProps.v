(** Theorems about the multivariate Gaussian family: C29 and C69. *)

From Coq Require Import Reals List Lra Lia Arith Bool FunctionalExtensionality.
From Coquelicot Require Import Coquelicot.
From Verif Require Import FamModel FamSpec FamProofs GlsModel GlsSpec GlsProofs GlsProofs2 MvnModel MvnSpec MvnProofs MvnProofs2.
Import ListNotations.
Local Open Scope R_scope.

(** ** C29: layout of the factor *)

(** getR fills the cells on and above the diagonal row by row, with the exponential of the
    parameter on the diagonal; everything below the diagonal is zero. *)
Theorem C29_layout : forall m theta,
  length (cells m) = extra_coef m /\
  (forall q r c, nth_error (cells m) q = Some (r, c) ->
     fst (getR m theta) r c = if (r =? c)%nat then exp (theta q) else theta q) /\
  (forall r c, (c < r < m)%nat -> fst (getR m theta) r c = 0).
Proof.
  intros m theta. split; [apply cells_length|]. rewrite getR_eq. cbn [fst]. split.
  - intros q r c H. apply cells_pos in H as [H ->]. unfold Rspec.
    destruct (Nat.leb_spec r c), (Nat.ltb_spec c m); try lia. reflexivity.
  - intros r c H. unfold Rspec. destruct (Nat.leb_spec r c); [lia|]. reflexivity.
Qed.
Print Assumptions C29_layout.

(** Every upper triangular matrix with positive diagonal is the factor of exactly one choice of
    parameters. *)
Theorem C29_bijection : forall m M,
  (forall r, (r < m)%nat -> 0 < M r r) -> (forall r c, (c < r < m)%nat -> M r c = 0) ->
  (exists theta, forall r c, (r < m)%nat -> (c < m)%nat -> fst (getR m theta) r c = M r c) /\
  (forall th1 th2,
     (forall r c, (r < m)%nat -> (c < m)%nat -> fst (getR m th1) r c = fst (getR m th2) r c) ->
     forall q, (q < extra_coef m)%nat -> th1 q = th2 q).
Proof.
  intros m M Hd Hz. split.
  - exists (fun q => match nth_error (cells m) q with
                     | Some (r, c) => if (r =? c)%nat then ln (M r c) else M r c
                     | None => 0 end).
    intros r c Hr Hc. destruct (Nat.le_gt_cases r c) as [L|L].
    + rewrite (proj1 (proj2 (C29_layout m _)) (pos m r c) r c) by now apply cells_nth.
      rewrite cells_nth by lia. destruct (Nat.eqb_spec r c) as [->|N]; [|reflexivity].
      apply exp_ln. now apply Hd.
    + rewrite (proj2 (proj2 (C29_layout m _))) by lia. symmetry. apply Hz. lia.
  - intros th1 th2 H q Hq. rewrite <- cells_length in Hq.
    destruct (nth_error (cells m) q) as [[r c]|] eqn:E; [|apply nth_error_None in E; lia].
    pose proof (cells_pos _ _ _ _ E) as [Hrc _]. specialize (H r c ltac:(lia) ltac:(lia)).
    rewrite (proj1 (proj2 (C29_layout m th1)) q r c E), (proj1 (proj2 (C29_layout m th2)) q r c E) in H.
    destruct (r =? c)%nat; [now apply exp_inv|assumption].
Qed.
Print Assumptions C29_bijection.

(** The second result of getR is the logarithm of the determinant of the first. *)
Theorem C29_log_determinant : forall m theta,
  0 < det m (fst (getR m theta)) /\ snd (getR m theta) = ln (det m (fst (getR m theta))).
Proof.
  intros m theta.
  assert (E : det m (fst (getR m theta)) = exp (snd (getR m theta))).
  { rewrite det_upper by (intros; apply C29_layout; lia).
    rewrite getR_eq. cbn [fst snd]. rewrite <- prodf_exp. apply prodf_ext. intros r Hr.
    unfold Rspec. destruct (Nat.leb_spec r r), (Nat.ltb_spec r m); try lia. cbn [andb]. now rewrite Nat.eqb_refl. }
  rewrite E. split; [apply exp_pos|]. now rewrite ln_exp.
Qed.
Print Assumptions C29_log_determinant.

Lemma columns_length p k : length (columns p k) = off p k.
Proof. rewrite columns_blocks. apply blocks_length. Qed.

(** The log-likelihood, up to a constant: n log-determinants minus half the sum of squared
    entries of R (y - mu). *)
Theorem C29_llk : forall m n p X links y coef,
  let M := fst (getR m (fun q => coef (length (columns p m) + q)%nat)) in
  let mu := fun i k => link_fi (links k)
              (sumf (p k) (fun a => X k i a * coef (length (columns p k) + a)%nat)) in
  mvn_llk m n p X links y coef
  = INR n * ln (det m M)
    - / 2 * sumf n (fun i => sumf m (fun r => (sumf m (fun c => M r c * (y i c - mu i c))) ^ 2)).
Proof.
  intros m n p X links y coef M mu. subst M.
  replace (fun q => coef (length (columns p m) + q)%nat) with (mvn_theta m p coef)
    by (rewrite columns_length; reflexivity).
  rewrite <- (proj2 (C29_log_determinant m _)), llk_eq, getR_eq. cbn [fst snd].
  assert (G : forall S1 S2 T : R, S1 = S2 -> - / 2 * S1 + T = T - / 2 * S2) by (intros; subst; ring).
  apply G.
  apply sumf_ext. intros i _. apply sumf_ext. intros r _. rewrite yR_eq.
  replace (sumf m (fun c => mvn_ymu p X links y coef i c * Rspec m (mvn_theta m p coef) r c))
    with (sumf m (fun c => Rspec m (mvn_theta m p coef) r c * (y i c - mu i c))); [ring|].
  apply sumf_ext. intros c _. unfold mvn_ymu, mvn_mu, mu. rewrite nsum_sumf, columns_length. ring.
Qed.
Print Assumptions C29_llk.

(** The entries of the gradient for the parameters of the factor are partial derivatives of the
    log-likelihood, whatever the links. *)
Theorem C29_gradient_factor : forall m n p X links y coef q,
  (q < length (cells m))%nat ->
  exists g, nth_error (mvn_gradient m n p X links y coef) (length (columns p m) + q) = Some g /\
            partial (mvn_llk m n p X links y) (length (columns p m) + q) coef g.
Proof.
  intros m n p X links y coef q Hq.
  destruct (nth_error (cells m) q) as [[r c]|] eqn:E; [|apply nth_error_None in E; lia].
  apply cells_pos in E as [H ->]. rewrite columns_length. unfold mvn_gradient.
  pose proof (list_blocks m p (mvn_grad_mean m n p X links y coef) (mvn_grad_theta m n p X links y coef)) as (_ & _ & B).
  rewrite B by assumption. eexists. split; [reflexivity|]. now apply llk_theta.
Qed.
Print Assumptions C29_gradient_factor.

(** With identity links the returned vector is the gradient. *)
Theorem C29_gradient_identity : forall m n p X links y coef,
  (forall k, (k < m)%nat -> links k = Identity) ->
  length (mvn_gradient m n p X links y coef) = (length (columns p m) + length (cells m))%nat /\
  forall t, (t < length (columns p m) + length (cells m))%nat ->
  exists g, nth_error (mvn_gradient m n p X links y coef) t = Some g /\
            partial (mvn_llk m n p X links y) t coef g.
Proof.
  intros m n p X links y coef HI. rewrite columns_length, cells_length. unfold mvn_gradient.
  pose proof (list_blocks m p (mvn_grad_mean m n p X links y coef) (mvn_grad_theta m n p X links y coef)) as (A & B & C).
  split; [exact A|]. intros t Ht. destruct (index_cases m p t Ht) as [(k & a & Hk & Ha & ->)|(r & c & H & ->)].
  - rewrite B by assumption. eexists. split; [reflexivity|]. apply llk_mean_identity; auto.
  - rewrite C by assumption. eexists. split; [reflexivity|]. now apply llk_theta.
Qed.
Print Assumptions C29_gradient_identity.

(** With another link it is not: one response with mean exp(coef 0) and unit variance, observation
    5, mean 2.  The derivative is 6, the returned entry 3. *)
Theorem C29_log_link_refuted : exists (m n : nat) p X links y coef g d,
  nth_error (mvn_gradient m n p X links y coef) 0 = Some g /\
  partial (mvn_llk m n p X links y) 0 coef d /\ g <> d.
Proof.
  set (coef := fun q : nat => if (q =? 0)%nat then ln 2 else 0).
  exists 1%nat, 1%nat, (fun _ => 1%nat), (fun _ _ _ => 1), (fun _ => LOG), (fun _ _ => 5), coef.
  assert (M : mvn_mu (fun _ => 1%nat) (fun _ _ _ => 1) (fun _ => LOG) coef 0 0 = 2).
  { unfold mvn_mu, nsum, off, coef, link_fi. simpl. replace (1 * ln 2 + 0) with (ln 2) by ring. apply exp_ln. lra. }
  assert (RR : Rspec 1 (mvn_theta 1 (fun _ => 1%nat) coef) 0 0 = 1).
  { unfold Rspec, mvn_theta, off, coef. simpl. apply exp_0. }
  assert (YR : mvn_yR 1 (fun _ => 1%nat) (fun _ _ _ => 1) (fun _ => LOG) (fun _ _ => 5) coef 0 0 = 3).
  { rewrite yR_eq. unfold sumf, mvn_ymu. simpl. rewrite M, RR. ring. }
  exists 3, 6. split; [|split].
  - unfold mvn_gradient. simpl nth_error. f_equal. rewrite gmean_eq. simpl sumf. rewrite YR, RR. ring.
  - unfold partial. pose proof (llk_mean 1 1 (fun _ => 1%nat) (fun _ _ _ => 1) (fun _ => LOG) (fun _ _ => 5) coef 0 0
      (le_n 1) (le_n 1)) as G. unfold partial in G. change (off (fun _ => 1%nat) 0 + 0)%nat with 0%nat in G.
    eapply is_derive_eq; [exact G|]. simpl sumf. rewrite YR, RR, M. simpl. field.
  - lra.
Qed.
Print Assumptions C29_log_link_refuted.

(** Two responses, one observation, an intercept for each mean.  The parameters 0, 1, 0 of the
    factor give R = [1 1; 0 1]. *)
Example C29_case :
  cells 2 = [(0, 0); (0, 1); (1, 1)]%nat /\ columns (fun _ => 1%nat) 2 = [(0, 0); (1, 0)]%nat /\
  let th := fun q : nat => if (q =? 1)%nat then 1 else 0 in
  fst (getR 2 th) 0%nat 0%nat = 1 /\ fst (getR 2 th) 0%nat 1%nat = 1 /\
  fst (getR 2 th) 1%nat 0%nat = 0 /\ fst (getR 2 th) 1%nat 1%nat = 1 /\ det 2 (fst (getR 2 th)) = 1.
Proof.
  split; [reflexivity|]. split; [reflexivity|]. intros th.
  pose proof exp_0 as E0.
  assert (A : forall r c, fst (getR 2 th) r c = Rspec 2 th r c) by (intros; now rewrite getR_eq).
  assert (A00 : fst (getR 2 th) 0%nat 0%nat = 1) by (rewrite A; unfold Rspec, th; simpl; exact E0).
  assert (A01 : fst (getR 2 th) 0%nat 1%nat = 1) by (rewrite A; reflexivity).
  assert (A10 : fst (getR 2 th) 1%nat 0%nat = 0) by (rewrite A; reflexivity).
  assert (A11 : fst (getR 2 th) 1%nat 1%nat = 1) by (rewrite A; unfold Rspec, th; simpl; exact E0).
  repeat (split; [assumption|]). clear A. revert A00 A01 A10 A11. generalize (fst (getR 2 th)). intros M A00 A01 A10 A11.
  unfold det, sumf. simpl. rewrite A00, A01, A10, A11. ring.
Qed.

(** The entry for the off-diagonal parameter with residuals (1, 2): -(1*1 + 1*2)*2 = -6. *)
Example C29_gradient_case :
  let th := fun q : nat => if (q =? 3)%nat then 1 else 0 in
  nth_error (mvn_gradient 2 1 (fun _ => 1%nat) (fun _ _ _ => 1) (fun _ => Identity)
               (fun _ c => if (c =? 0)%nat then 1 else 2) th) 3 = Some (- 6).
Proof.
  intros th. unfold mvn_gradient. simpl nth_error. f_equal. rewrite gtheta_eq by lia.
  simpl sumf. rewrite yR_eq. simpl sumf. unfold R1, Rspec, mvn_ymu, mvn_mu, mvn_theta, off, nsum. simpl.
  unfold th. simpl. rewrite exp_0. ring.
Qed.

(** ** C69: columns of the Hessian *)

(** With identity links, column j holds the second derivatives, except for its entry j when j is
    the parameter of a cell off the diagonal. *)
Theorem C69_hessian : forall m n p X links y coef j,
  (forall k, (k < m)%nat -> links k = Identity) ->
  (j < length (columns p m) + length (cells m))%nat ->
  exists H, mvn_jcolhessian m n p X links y j coef = Some H /\
    length H = (length (columns p m) + length (cells m))%nat /\
    forall i, (i < length (columns p m) + length (cells m))%nat ->
      (i = j -> forall q r c, j = (length (columns p m) + q)%nat -> nth_error (cells m) q = Some (r, c) -> r = c) ->
      exists h, nth_error H i = Some h /\ second (mvn_llk m n p X links y) i j coef h.
Proof.
  intros m n p X links y coef j HI Hj. rewrite columns_length, cells_length in *.
  unfold mvn_jcolhessian.
  destruct (index_cases m p j Hj) as [(kj & aj & Hkj & Haj & ->)|(r0 & c0 & H0 & ->)].
  - pose proof (off_block p kj m aj Hkj Haj) as L.
    destruct (Nat.ltb_spec (off p kj + aj) (off p m)); [|lia].
    rewrite find_par_spec by assumption. rewrite cj_spec by assumption.
    match goal with |- context [flat_map (fun mui => map (fun a => @?F mui a) _) _ ++ flat_map (fun mr => map (fun mc => @?G mr mc) _) _] =>
      pose proof (list_blocks m p F G) as (A & B & C) end.
    eexists. split; [reflexivity|]. split; [exact A|]. intros i Hi _.
    destruct (index_cases m p i Hi) as [(k & a & Hk & Ha & ->)|(r & c & H1 & ->)].
    + rewrite B by assumption. eexists. split; [reflexivity|]. apply hess_mean_mean; auto.
    + rewrite C by assumption. eexists. split; [reflexivity|].
      rewrite Nat.eqb_refl. apply hess_mean_theta; auto.
  - destruct (Nat.ltb_spec (off p m + pos m r0 c0) (off p m)); [lia|].
    replace (off p m + pos m r0 c0 - off p m)%nat with (pos m r0 c0) by lia.
    rewrite thet_idx_cells, cells_nth by assumption.
    match goal with |- context [flat_map (fun mui => map (fun a => @?F mui a) _) _ ++ flat_map (fun mr => map (fun mc => @?G mr mc) _) _] =>
      pose proof (list_blocks m p F G) as (A & B & C) end.
    eexists. split; [reflexivity|]. split; [exact A|]. intros i Hi Hd.
    destruct (index_cases m p i Hi) as [(k & a & Hk & Ha & ->)|(r & c & H1 & ->)].
    + rewrite B by assumption. eexists. split; [reflexivity|]. apply hess_theta_mean; auto.
    + rewrite C by assumption. eexists. split; [reflexivity|].
      pose proof (code_theta_theta m n p X links y coef r0 c0 r c H0 H1) as E. cbv zeta in E. cbv zeta. rewrite E. clear E.
      pose proof (hess_theta_theta m n p X links y coef r0 c0 r c H0 H1) as D.
      destruct (Nat.eqb_spec r r0) as [Er|Nr]; [destruct (Nat.eqb_spec c c0) as [Ec|Nc]|]; try exact D.
      subst r c. specialize (Hd eq_refl _ _ _ eq_refl (cells_nth m r0 c0 H0)). rewrite <- Hd in *.
      rewrite Nat.eqb_refl in D. exact D.
Qed.
Print Assumptions C69_hessian.

(** For off-diagonal parameters the entry on the diagonal of the Hessian is wrong: two responses
    without mean coefficients, residuals (1, 1), R the identity.  The second derivative is -1, the
    returned entry -2. *)
Theorem C69_off_diagonal_refuted : exists (m n : nat) p X links y coef j H h d,
  (forall k, (k < m)%nat -> links k = Identity) /\
  mvn_jcolhessian m n p X links y j coef = Some H /\ nth_error H j = Some h /\
  second (mvn_llk m n p X links y) j j coef d /\ h <> d.
Proof.
  set (X := fun _ _ _ : nat => 0). set (y := fun _ _ : nat => 1).
  exists 2%nat, 1%nat, (fun _ => 0%nat), X, (fun _ => Identity), y, (fun _ => 0), 1%nat.
  pose proof (hess_theta_theta 2 1 (fun _ => 0%nat) X (fun _ => Identity) y (fun _ => 0) 0 1 0 1 ltac:(lia) ltac:(lia)) as D.
  pose proof (code_theta_theta 2 1 (fun _ => 0%nat) X (fun _ => Identity) y (fun _ => 0) 0 1 0 1 ltac:(lia) ltac:(lia)) as C.
  cbv zeta in C.
  eexists. eexists. eexists. split; [reflexivity|]. split; [reflexivity|].
  split; [simpl nth_error; reflexivity|]. split; [exact D|].
  intros Q. assert (Q2 := eq_trans (eq_sym C) Q). revert Q2. clear. unfold theta_entry, R1. simpl sumf.
  rewrite yR_eq. simpl sumf. unfold Rspec, mvn_ymu, mvn_mu, mvn_theta, off, nsum, y. simpl. rewrite exp_0. lra.
Qed.
Print Assumptions C69_off_diagonal_refuted.

(** Column of the first diagonal parameter for the same model: entry -2 on the diagonal (the
    log-likelihood is -exp(2 t) / 2 + t in that direction, up to constants). *)
Example C69_case : exists H h,
  mvn_jcolhessian 2 1 (fun _ => 0%nat) (fun _ _ _ => 0) (fun _ => Identity) (fun _ _ => 1) 0 (fun _ => 0) = Some H /\
  nth_error H 0 = Some h /\ h = -2.
Proof.
  set (X := fun _ _ _ : nat => 0). set (y := fun _ _ : nat => 1).
  pose proof (code_theta_theta 2 1 (fun _ => 0%nat) X (fun _ => Identity) y (fun _ => 0) 0 0 0 0 ltac:(lia) ltac:(lia)) as C.
  cbv zeta in C.
  eexists. eexists. split; [reflexivity|]. split; [simpl nth_error; reflexivity|].
  refine (eq_trans C _). clear C. unfold theta_entry, R1. simpl sumf.
  rewrite yR_eq. simpl sumf. unfold Rspec, mvn_ymu, mvn_mu, mvn_theta, off, nsum, y. simpl. rewrite exp_0. lra.
Qed.
