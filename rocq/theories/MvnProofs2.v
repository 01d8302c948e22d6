(** Derivatives of the multivariate Gaussian log-likelihood. *)

From Coq Require Import Reals List Lra Lia Arith Bool FunctionalExtensionality.
From Coquelicot Require Import Coquelicot.
From Verif Require Import FamModel FamSpec FamProofs GlsModel GlsSpec GlsProofs GlsProofs2 MvnModel MvnSpec MvnProofs.
Import ListNotations.
Local Open Scope R_scope.

Section Mvn.
Variables (m n : nat) (p : nat -> nat) (X : nat -> nat -> nat -> R) (links : nat -> link)
          (y : nat -> nat -> R).
Notation mu := (mvn_mu p X links).
Notation e := (mvn_ymu p X links y).
Notation yR := (mvn_yR m p X links y).
Notation llk := (mvn_llk m n p X links y).
Notation RR := (fun coef => Rspec m (mvn_theta m p coef)).
Notation gmean := (mvn_grad_mean m n p X links y).
Notation gtheta := (mvn_grad_theta m n p X links y).
(** The derivative of a cell of R with respect to its parameter. *)
Definition R1 (coef : nat -> R) (r c : nat) : R := if (r =? c)%nat then RR coef r c else 1.

Lemma yR_eq coef i r : yR coef i r = sumf m (fun c => e coef i c * RR coef r c).
Proof. unfold mvn_yR. rewrite nsum_sumf, getR_eq. reflexivity. Qed.

Lemma llk_eq coef : llk coef = - / 2 * sumf n (fun i => sumf m (fun r => yR coef i r * yR coef i r))
  + INR n * sumf m (fun r => mvn_theta m p coef (pos m r r)).
Proof.
  unfold mvn_llk. rewrite nsum_sumf, getR_eq. cbn [snd]. do 3 f_equal.
  apply functional_extensionality. intros i. apply nsum_sumf.
Qed.

Lemma gmean_eq coef k a :
  gmean coef k a = sumf n (fun i => X k i a * sumf m (fun r => RR coef r k * yR coef i r)).
Proof.
  unfold mvn_grad_mean. rewrite nsum_sumf. apply sumf_ext. intros i _. rewrite nsum_sumf, getR_eq. reflexivity.
Qed.

(** Multiplication with the matrix of a single cell. *)
Lemma Rp_row coef r0 c0 r (g : nat -> R) : (r0 <= c0 < m)%nat ->
  nsum m (fun c => g c * mvn_Rp m p coef r0 c0 r c) = if (r =? r0)%nat then g c0 * R1 coef r0 c0 else 0.
Proof.
  intros H. rewrite nsum_sumf. unfold mvn_Rp, R1. rewrite getR_eq. cbn [fst].
  destruct (Nat.eqb_spec r r0) as [->|N].
  - rewrite (sumf_single m _ c0); [|lia|].
    + rewrite Nat.eqb_refl. simpl. destruct (Nat.eqb_spec r0 c0) as [->|]; reflexivity.
    + intros c _ Hc. destruct (Nat.eqb_spec c c0); [contradiction|]. simpl. ring.
  - apply sumf_zero. intros. simpl. ring.
Qed.

Lemma Rp_col coef r0 c0 c (g : nat -> R) : (r0 <= c0 < m)%nat ->
  nsum m (fun r => g r * mvn_Rp m p coef r0 c0 r c) = if (c =? c0)%nat then g r0 * R1 coef r0 c0 else 0.
Proof.
  intros H. rewrite nsum_sumf. unfold mvn_Rp, R1. rewrite getR_eq. cbn [fst].
  destruct (Nat.eqb_spec c c0) as [->|N].
  - rewrite (sumf_single m _ r0); [|lia|].
    + rewrite Nat.eqb_refl. simpl. destruct (Nat.eqb_spec r0 c0) as [->|]; reflexivity.
    + intros r _ Hr. destruct (Nat.eqb_spec r r0); [contradiction|]. simpl. ring.
  - apply sumf_zero. intros. rewrite andb_false_r. ring.
Qed.

Lemma gtheta_eq coef r0 c0 : (r0 <= c0 < m)%nat ->
  gtheta coef r0 c0 = - sumf n (fun i => yR coef i r0 * (e coef i c0 * R1 coef r0 c0))
                      + (if (r0 =? c0)%nat then INR n else 0).
Proof.
  intros H. unfold mvn_grad_theta. rewrite nsum_sumf.
  rewrite (sumf_ext n _ (fun i => yR coef i r0 * (e coef i c0 * R1 coef r0 c0))).
  - destruct (r0 =? c0)%nat; ring.
  - intros i _. rewrite nsum_sumf. rewrite (sumf_single m _ r0); [|lia|].
    + rewrite Rp_row by assumption. now rewrite Nat.eqb_refl.
    + intros r _ Hr. rewrite Rp_row by assumption. destruct (Nat.eqb_spec r r0); [contradiction|]. ring.
Qed.

(** ** Along one coordinate *)

Section Coordinate.
Variables (coef : nat -> R) (t : nat) (de : nat -> nat -> R) (dR : nat -> nat -> R) (dl : R).
Notation at_ s := (upd coef t s).
Hypothesis He : forall i c, (c < m)%nat -> is_derive (fun s => e (at_ s) i c) (coef t) (de i c).
Hypothesis HR : forall r c, (r < m)%nat -> (c < m)%nat -> is_derive (fun s => RR (at_ s) r c) (coef t) (dR r c).
Hypothesis Hl : is_derive (fun s => sumf m (fun r => mvn_theta m p (at_ s) (pos m r r))) (coef t) dl.

Definition dyR (i r : nat) : R := sumf m (fun c => de i c * RR coef r c + e coef i c * dR r c).

Lemma mult_derive (f g : R -> R) (x a b : R) : is_derive f x a -> is_derive g x b ->
  is_derive (fun s => f s * g s) x (a * g x + f x * b).
Proof.
  intros Hf Hg. pose proof (is_derive_mult f g x a b Hf Hg ltac:(intros; apply Rmult_comm)) as H.
  eapply is_derive_eq; [exact H|]. reflexivity.
Qed.

Lemma yR_derive i r : (r < m)%nat -> is_derive (fun s => yR (at_ s) i r) (coef t) (dyR i r).
Proof.
  intros Hr. apply (is_derive_ext (fun s => sumf m (fun c => e (at_ s) i c * RR (at_ s) r c))).
  { intros s. symmetry. apply yR_eq. }
  unfold dyR. apply (is_derive_sumf m (fun c s => e (at_ s) i c * RR (at_ s) r c)). intros c Hc.
  eapply is_derive_eq.
  - apply (mult_derive (fun s => e (at_ s) i c) (fun s => RR (at_ s) r c)); [now apply He|now apply HR].
  - cbv beta. now rewrite upd_id.
Qed.

Lemma llk_derive : is_derive (fun s => llk (at_ s)) (coef t)
  (- sumf n (fun i => sumf m (fun r => yR coef i r * dyR i r)) + INR n * dl).
Proof.
  eapply (is_derive_ext (fun s => - / 2 * sumf n (fun i => sumf m (fun r => yR (at_ s) i r * yR (at_ s) i r))
     + INR n * sumf m (fun r => mvn_theta m p (at_ s) (pos m r r)))).
  { intros s. symmetry. apply llk_eq. }
  assert (D : is_derive (fun s => sumf n (fun i => sumf m (fun r => yR (at_ s) i r * yR (at_ s) i r))) (coef t)
      (sumf n (fun i => sumf m (fun r => dyR i r * yR coef i r + yR coef i r * dyR i r)))).
  { apply (is_derive_sumf n (fun i s => sumf m (fun r => yR (at_ s) i r * yR (at_ s) i r))). intros i Hi.
    apply (is_derive_sumf m (fun r s => yR (at_ s) i r * yR (at_ s) i r)). intros r Hr.
    eapply is_derive_eq.
    - apply (mult_derive (fun s => yR (at_ s) i r) (fun s => yR (at_ s) i r)); now apply yR_derive.
    - cbv beta. now rewrite upd_id. }
  pose proof (is_derive_plus _ _ _ _ _ (is_derive_scal _ _ (- / 2) _ D) (is_derive_scal _ _ (INR n) _ Hl)) as G.
  eapply is_derive_eq; [exact G|]. unfold plus. simpl. f_equal.
  transitivity (- / 2 * (2 * sumf n (fun i => sumf m (fun r => yR coef i r * dyR i r)))); [|field].
  f_equal. rewrite <- sumf_scal. apply sumf_ext. intros i _. rewrite <- sumf_scal. apply sumf_ext. intros r _. ring.
Qed.

Lemma gmean_derive k a : (k < m)%nat -> is_derive (fun s => gmean (at_ s) k a) (coef t)
  (sumf n (fun i => X k i a * sumf m (fun r => dR r k * yR coef i r + RR coef r k * dyR i r))).
Proof.
  intros Hk.
  apply (is_derive_ext (fun s => sumf n (fun i => X k i a * sumf m (fun r => RR (at_ s) r k * yR (at_ s) i r)))).
  { intros s. symmetry. apply gmean_eq. }
  apply (is_derive_sumf n (fun i s => X k i a * sumf m (fun r => RR (at_ s) r k * yR (at_ s) i r))). intros i Hi.
  apply (is_derive_scal (fun s => sumf m (fun r => RR (at_ s) r k * yR (at_ s) i r))).
  apply (is_derive_sumf m (fun r s => RR (at_ s) r k * yR (at_ s) i r)). intros r Hr.
  eapply is_derive_eq.
  - apply (mult_derive (fun s => RR (at_ s) r k) (fun s => yR (at_ s) i r)); [now apply HR|now apply yR_derive].
  - cbv beta. now rewrite upd_id.
Qed.

Lemma gtheta_derive r0 c0 : (r0 <= c0 < m)%nat -> is_derive (fun s => gtheta (at_ s) r0 c0) (coef t)
  (- sumf n (fun i => dyR i r0 * (e coef i c0 * R1 coef r0 c0)
       + yR coef i r0 * (de i c0 * R1 coef r0 c0 + e coef i c0 * (if (r0 =? c0)%nat then dR r0 c0 else 0)))).
Proof.
  intros H.
  apply (is_derive_ext (fun s => - sumf n (fun i => yR (at_ s) i r0 * (e (at_ s) i c0 * R1 (at_ s) r0 c0))
                      + (if (r0 =? c0)%nat then INR n else 0))).
  { intros s. symmetry. now apply gtheta_eq. }
  assert (D1 : is_derive (fun s => R1 (at_ s) r0 c0) (coef t) (if (r0 =? c0)%nat then dR r0 c0 else 0)).
  { unfold R1. destruct (Nat.eqb_spec r0 c0) as [->|N].
    - apply HR; lia.
    - apply (is_derive_const 1). }
  assert (D : is_derive (fun s => sumf n (fun i => yR (at_ s) i r0 * (e (at_ s) i c0 * R1 (at_ s) r0 c0))) (coef t)
     (sumf n (fun i => dyR i r0 * (e coef i c0 * R1 coef r0 c0)
       + yR coef i r0 * (de i c0 * R1 coef r0 c0 + e coef i c0 * (if (r0 =? c0)%nat then dR r0 c0 else 0))))).
  { apply (is_derive_sumf n (fun i s => yR (at_ s) i r0 * (e (at_ s) i c0 * R1 (at_ s) r0 c0))). intros i Hi.
    eapply is_derive_eq.
    - apply (mult_derive (fun s => yR (at_ s) i r0) (fun s => e (at_ s) i c0 * R1 (at_ s) r0 c0)).
      + apply yR_derive. lia.
      + apply (mult_derive (fun s => e (at_ s) i c0) (fun s => R1 (at_ s) r0 c0)); [apply He; lia|exact D1].
    - cbv beta. now rewrite upd_id. }
  pose proof (is_derive_plus _ _ _ _ _ (is_derive_opp _ _ _ D)
    (is_derive_const (if (r0 =? c0)%nat then INR n else 0) (coef t))) as G.
  eapply is_derive_eq; [exact G|]. unfold plus, opp, zero. simpl. ring.
Qed.
End Coordinate.

(** ** A coefficient of a mean *)

Section Mean.
Variables (coef : nat -> R) (k a : nat).
Hypothesis Hk : (k < m)%nat.
Hypothesis Ha : (a < p k)%nat.
Notation t := (off p k + a)%nat.

Lemma theta_mean s : mvn_theta m p (upd coef t s) = mvn_theta m p coef.
Proof.
  apply functional_extensionality. intros q. unfold mvn_theta. apply upd_other.
  pose proof (off_block p k m a Hk Ha). lia.
Qed.

Lemma mu_other s i k' : k' <> k -> mu (upd coef t s) i k' = mu coef i k'.
Proof.
  intros N. unfold mvn_mu. f_equal. rewrite !nsum_sumf. apply sumf_ext. intros c Hc. f_equal.
  apply upd_other. intros E. apply off_inj in E; [|assumption..]. lia.
Qed.

Lemma mu_same i : is_derive (fun s => mu (upd coef t s) i k) (coef t)
  (X k i a / link_dy1 (links k) (mu coef i k)).
Proof.
  unfold mvn_mu.
  set (eta := fun s => nsum (p k) (fun c => X k i c * upd coef t s (off p k + c)%nat)).
  assert (D : is_derive eta (coef t) (X k i a)).
  { apply (is_derive_ext (fun s => sumf (p k) (fun c => X k i c * coef (off p k + c)%nat) - X k i a * coef t + X k i a * s)).
    - intros s. unfold eta. rewrite nsum_sumf.
      replace (fun c => X k i c * upd coef t s (off p k + c)%nat)
        with (upd (fun c => X k i c * coef (off p k + c)%nat) a (X k i a * s)).
      + now rewrite sumf_upd.
      + apply functional_extensionality. intros c. unfold upd.
        destruct (Nat.eqb_spec c a) as [E|N]; destruct (Nat.eqb_spec (off p k + c) t); try lia; [now rewrite E|reflexivity].
    - auto_derive; [auto|]. ring. }
  assert (E : eta (coef t) = nsum (p k) (fun c => X k i c * coef (off p k + c)%nat))
    by (unfold eta; now rewrite upd_id).
  pose proof (is_derive_comp (link_fi (links k)) eta (coef t) _ _ (link_fi_derive (links k) (eta (coef t))) D) as G.
  rewrite E in G. eapply is_derive_eq; [exact G|]. unfold scal. simpl. unfold mult. simpl. unfold Rdiv. ring.
Qed.

Definition de_mean (i c : nat) : R :=
  if (c =? k)%nat then - (X k i a / link_dy1 (links k) (mu coef i k)) else 0.

Lemma He_mean i c : (c < m)%nat -> is_derive (fun s => e (upd coef t s) i c) (coef t) (de_mean i c).
Proof.
  intros Hc. unfold mvn_ymu, de_mean. destruct (Nat.eqb_spec c k) as [->|N].
  - pose proof (is_derive_minus _ _ _ _ _ (is_derive_const (y i k) (coef t)) (mu_same i)) as G.
    eapply is_derive_eq; [exact G|]. unfold minus, plus, opp, zero. simpl. ring.
  - apply (is_derive_ext (fun _ => y i c - mu coef i c)); [intros s; now rewrite mu_other|].
    apply (is_derive_const (y i c - mu coef i c)).
Qed.

Lemma HR_mean r c : is_derive (fun s => RR (upd coef t s) r c) (coef t) 0.
Proof.
  apply (is_derive_ext (fun _ => RR coef r c)); [intros s; now rewrite theta_mean|].
  apply (is_derive_const (RR coef r c)).
Qed.

Lemma Hl_mean : is_derive (fun s => sumf m (fun r => mvn_theta m p (upd coef t s) (pos m r r))) (coef t) 0.
Proof.
  apply (is_derive_ext (fun _ => sumf m (fun r => mvn_theta m p coef (pos m r r)))); [intros s; now rewrite theta_mean|].
  apply (is_derive_const (sumf m (fun r => mvn_theta m p coef (pos m r r)))).
Qed.

Lemma dyR_mean i r : dyR coef de_mean (fun _ _ => 0) i r
  = - (X k i a / link_dy1 (links k) (mu coef i k)) * RR coef r k.
Proof.
  unfold dyR. rewrite (sumf_single m _ k); [|assumption|].
  - unfold de_mean. rewrite Nat.eqb_refl. ring.
  - intros c _ N. unfold de_mean. destruct (Nat.eqb_spec c k); [contradiction|]. ring.
Qed.

Lemma llk_mean : partial llk t coef
  (sumf n (fun i => X k i a / link_dy1 (links k) (mu coef i k) * sumf m (fun r => RR coef r k * yR coef i r))).
Proof.
  unfold partial. pose proof (llk_derive coef t de_mean (fun _ _ => 0) 0 He_mean (fun r c _ _ => HR_mean r c) Hl_mean) as G.
  eapply is_derive_eq; [exact G|].
  transitivity (-1 * sumf n (fun i => sumf m (fun r => yR coef i r * dyR coef de_mean (fun _ _ => 0) i r))); [ring|].
  rewrite <- sumf_scal. apply sumf_ext. intros i _. rewrite <- !sumf_scal. apply sumf_ext. intros r _.
  rewrite dyR_mean. ring.
Qed.
End Mean.

(** ** A parameter of the Cholesky factor *)

Section Theta.
Variables (coef : nat -> R) (r0 c0 : nat).
Hypothesis H0 : (r0 <= c0 < m)%nat.
Notation t := (off p m + pos m r0 c0)%nat.

Lemma mu_theta s i k : (k < m)%nat -> mu (upd coef t s) i k = mu coef i k.
Proof.
  intros Hk. unfold mvn_mu. f_equal. rewrite !nsum_sumf. apply sumf_ext. intros c Hc. f_equal.
  apply upd_other. pose proof (off_block p k m c Hk Hc). lia.
Qed.

Lemma theta_theta s q : mvn_theta m p (upd coef t s) q = upd (mvn_theta m p coef) (pos m r0 c0) s q.
Proof.
  unfold mvn_theta, upd. destruct (Nat.eqb_spec (off p m + q) t), (Nat.eqb_spec q (pos m r0 c0)); try lia; reflexivity.
Qed.

Definition dR_theta (r c : nat) : R := if (r =? r0)%nat && (c =? c0)%nat then R1 coef r0 c0 else 0.

Lemma HR_theta r c : (r < m)%nat -> (c < m)%nat -> is_derive (fun s => RR (upd coef t s) r c) (coef t) (dR_theta r c).
Proof.
  intros Hr Hc. unfold dR_theta. destruct (Nat.eqb_spec r r0) as [->|Nr]; [destruct (Nat.eqb_spec c c0) as [->|Nc]|].
  - simpl. unfold R1, Rspec.
    destruct (Nat.leb_spec r0 c0), (Nat.ltb_spec c0 m); try lia. cbn [andb].
    destruct (Nat.eqb_spec r0 c0) as [E|N].
    + apply (is_derive_ext exp); [intros s; now rewrite theta_theta, upd_same|].
      auto_derive; [auto|]. unfold mvn_theta. ring.
    + apply (is_derive_ext (fun s => s)); [intros s; now rewrite theta_theta, upd_same|]. apply (is_derive_id (coef t)).
  - cbn [andb]. apply (is_derive_ext (fun _ => RR coef r0 c)); [|apply (is_derive_const (RR coef r0 c))].
    intros s. unfold Rspec. destruct (Nat.leb_spec r0 c), (Nat.ltb_spec c m); try lia; try reflexivity. cbn [andb].
    rewrite theta_theta, upd_other; [reflexivity|]. intros E. apply pos_inj in E; lia.
  - cbn [andb]. apply (is_derive_ext (fun _ => RR coef r c)); [|apply (is_derive_const (RR coef r c))].
    intros s. unfold Rspec. destruct (Nat.leb_spec r c), (Nat.ltb_spec c m); try lia; try reflexivity. cbn [andb].
    rewrite theta_theta, upd_other; [reflexivity|]. intros E. apply pos_inj in E; lia.
Qed.

Lemma He_theta i c : (c < m)%nat -> is_derive (fun s => e (upd coef t s) i c) (coef t) 0.
Proof.
  intros Hc. apply (is_derive_ext (fun _ => e coef i c)); [intros s; unfold mvn_ymu; now rewrite mu_theta|].
  apply (is_derive_const (e coef i c)).
Qed.

Lemma Hl_theta : is_derive (fun s => sumf m (fun r => mvn_theta m p (upd coef t s) (pos m r r))) (coef t)
  (if (r0 =? c0)%nat then 1 else 0).
Proof.
  set (d := fun r => if (r =? r0)%nat && (r =? c0)%nat then 1 else 0).
  eapply is_derive_eq.
  - apply (is_derive_sumf m (fun r s => mvn_theta m p (upd coef t s) (pos m r r)) d). intros r Hr. unfold d.
    destruct (Nat.eqb_spec r r0) as [->|N1]; [destruct (Nat.eqb_spec r0 c0) as [E|N2]|].
    + simpl. apply (is_derive_ext (fun s => s)); [|apply (is_derive_id (coef t))].
      intros s. rewrite theta_theta. replace (pos m r0 c0) with (pos m r0 r0) by (now rewrite E). now rewrite upd_same.
    + cbn [andb]. apply (is_derive_ext (fun _ => mvn_theta m p coef (pos m r0 r0)));
        [|apply (is_derive_const (mvn_theta m p coef (pos m r0 r0)))].
      intros s. rewrite theta_theta, upd_other; [reflexivity|]. intros E. apply pos_inj in E; lia.
    + cbn [andb]. apply (is_derive_ext (fun _ => mvn_theta m p coef (pos m r r)));
        [|apply (is_derive_const (mvn_theta m p coef (pos m r r)))].
      intros s. rewrite theta_theta, upd_other; [reflexivity|]. intros E. apply pos_inj in E; lia.
  - rewrite (sumf_single m d r0); [|lia|].
    + unfold d. now rewrite Nat.eqb_refl.
    + intros r _ N. unfold d. destruct (Nat.eqb_spec r r0); [contradiction|]. reflexivity.
Qed.

Lemma dyR_theta i r : dyR coef (fun _ _ => 0) dR_theta i r = if (r =? r0)%nat then e coef i c0 * R1 coef r0 c0 else 0.
Proof.
  unfold dyR, dR_theta. destruct (Nat.eqb_spec r r0) as [->|N].
  - rewrite (sumf_single m _ c0); [|lia|].
    + rewrite Nat.eqb_refl. cbn [andb]. ring.
    + intros c Hc N. destruct (Nat.eqb_spec c c0); [contradiction|]. rewrite andb_false_r. ring.
  - apply sumf_zero. intros. cbn [andb]. ring.
Qed.

Lemma llk_theta : partial llk t coef (gtheta coef r0 c0).
Proof.
  unfold partial.
  pose proof (llk_derive coef t (fun _ _ => 0) dR_theta _ He_theta HR_theta Hl_theta) as G.
  eapply is_derive_eq; [exact G|]. rewrite gtheta_eq by assumption. f_equal.
  - f_equal. apply sumf_ext. intros i _. rewrite (sumf_single m _ r0); [|lia|].
    + rewrite dyR_theta. now rewrite Nat.eqb_refl.
    + intros r _ N. rewrite dyR_theta. destruct (Nat.eqb_spec r r0); [contradiction|]. ring.
  - destruct (r0 =? c0)%nat; ring.
Qed.
End Theta.

(** ** Second derivatives *)

Notation gm k a := (fun coef => gmean coef k a).

Lemma llk_mean_identity coef k a : (k < m)%nat -> (a < p k)%nat -> links k = Identity ->
  partial llk (off p k + a) coef (gmean coef k a).
Proof.
  intros Hk Ha HI. eapply is_derive_eq; [apply llk_mean; assumption|].
  rewrite gmean_eq. apply sumf_ext. intros i _. rewrite HI. simpl. field.
Qed.

Lemma second_of (g : (nat -> R) -> R) i j coef v :
  (forall c, partial llk i c (g c)) -> is_derive (fun s => g (upd coef j s)) (coef j) v ->
  second llk i j coef v.
Proof.
  intros H D. unfold second. apply (is_derive_ext (fun s => g (upd coef j s))); [|exact D].
  intros s. symmetry. apply is_derive_unique. apply H.
Qed.

(** The symmetric sum of R' * R over the columns. *)
Lemma RiRp_sum coef r0 c0 q i : (r0 <= c0 < m)%nat -> (q < m)%nat ->
  nsum m (fun c => (nsum m (fun r => mvn_Rp m p coef r0 c0 r q * fst (getR m (mvn_theta m p coef)) r c)
                    + nsum m (fun r => fst (getR m (mvn_theta m p coef)) r q * mvn_Rp m p coef r0 c0 r c)) * e coef i c)
  = (if (q =? c0)%nat then R1 coef r0 c0 * yR coef i r0 else 0) + RR coef r0 q * (e coef i c0 * R1 coef r0 c0).
Proof.
  intros H Hq. rewrite nsum_sumf.
  rewrite (sumf_ext m _ (fun c => (if (q =? c0)%nat then R1 coef r0 c0 else 0) * (e coef i c * RR coef r0 c)
       + (if (c =? c0)%nat then RR coef r0 q * R1 coef r0 c0 else 0) * e coef i c)).
  - rewrite sumf_plus, sumf_scal, <- yR_eq. rewrite (sumf_single m _ c0); [|lia|].
    + rewrite Nat.eqb_refl. destruct (q =? c0)%nat; ring.
    + intros c _ N. destruct (Nat.eqb_spec c c0); [contradiction|]. ring.
  - intros c Hc. rewrite getR_eq. cbn [fst].
    replace (fun r => mvn_Rp m p coef r0 c0 r q * Rspec m (mvn_theta m p coef) r c)
      with (fun r => Rspec m (mvn_theta m p coef) r c * mvn_Rp m p coef r0 c0 r q)
      by (apply functional_extensionality; intros; ring).
    rewrite (Rp_col coef r0 c0 q (fun r => Rspec m (mvn_theta m p coef) r c)) by assumption.
    rewrite (Rp_col coef r0 c0 c (fun r => Rspec m (mvn_theta m p coef) r q)) by assumption.
    destruct (q =? c0)%nat, (c =? c0)%nat; ring.
Qed.

(** Coefficient j of a mean against coefficient i of a mean *)
Lemma hess_mean_mean coef kj aj k a : (kj < m)%nat -> (aj < p kj)%nat -> (k < m)%nat -> (a < p k)%nat ->
  links kj = Identity -> links k = Identity ->
  second llk (off p k + a) (off p kj + aj) coef
    (- nsum n (fun i => X k i a *
        nsum m (fun q => nsum m (fun r => fst (getR m (mvn_theta m p coef)) r k * fst (getR m (mvn_theta m p coef)) r q)
                         * (if (q =? kj)%nat then X kj i aj else 0)))).
Proof.
  intros Hkj Haj Hk Ha Ij I. eapply second_of; [intros c; now apply llk_mean_identity|].
  pose proof (gmean_derive coef (off p kj + aj) _ _ (He_mean coef kj aj Hkj Haj)
     (fun r c _ _ => HR_mean coef kj aj Hkj Haj r c) k a Hk) as G.
  eapply is_derive_eq; [exact G|]. rewrite nsum_sumf.
  transitivity (-1 * sumf n (fun i => X k i a *
        nsum m (fun q => nsum m (fun r => fst (getR m (mvn_theta m p coef)) r k * fst (getR m (mvn_theta m p coef)) r q)
                         * (if (q =? kj)%nat then X kj i aj else 0)))); [|ring].
  rewrite <- sumf_scal. apply sumf_ext. intros i _. rewrite nsum_sumf.
  rewrite (sumf_single m (fun q => nsum m _ * _) kj); [|assumption|].
  - rewrite Nat.eqb_refl, nsum_sumf, getR_eq. cbn [fst].
    transitivity (X k i a * (-1 * X kj i aj * sumf m (fun r => RR coef r k * RR coef r kj))); [|ring].
    f_equal. rewrite <- sumf_scal. apply sumf_ext. intros r _. rewrite dyR_mean by assumption.
    rewrite Ij. simpl link_dy1. field.
  - intros q _ N. destruct (Nat.eqb_spec q kj); [contradiction|]. ring.
Qed.

(** Coefficient j of a mean against a parameter of the factor *)
Lemma hess_mean_theta coef kj aj r0 c0 : (kj < m)%nat -> (aj < p kj)%nat -> (r0 <= c0 < m)%nat ->
  links kj = Identity ->
  second llk (off p m + pos m r0 c0) (off p kj + aj) coef
    (nsum n (fun i => X kj i aj * nsum m (fun c =>
       (nsum m (fun r => mvn_Rp m p coef r0 c0 r kj * fst (getR m (mvn_theta m p coef)) r c)
        + nsum m (fun r => fst (getR m (mvn_theta m p coef)) r kj * mvn_Rp m p coef r0 c0 r c)) * e coef i c))).
Proof.
  intros Hkj Haj H0 Ij. eapply second_of; [intros c; now apply llk_theta|].
  pose proof (gtheta_derive coef (off p kj + aj) _ _ (He_mean coef kj aj Hkj Haj)
     (fun r c _ _ => HR_mean coef kj aj Hkj Haj r c) r0 c0 H0) as G.
  eapply is_derive_eq; [exact G|]. rewrite nsum_sumf.
  match goal with |- - sumf n ?F = _ => transitivity (-1 * sumf n F); [ring|] end.
  rewrite <- sumf_scal. apply sumf_ext. intros i _. rewrite RiRp_sum by assumption.
  rewrite dyR_mean by assumption. unfold de_mean. rewrite Ij. simpl link_dy1.
  destruct (Nat.eqb_spec c0 kj) as [E|N], (Nat.eqb_spec kj c0); try congruence; destruct (r0 =? c0)%nat; field.
Qed.

(** A parameter of the factor against coefficient i of a mean *)
Lemma hess_theta_mean coef r0 c0 k a : (r0 <= c0 < m)%nat -> (k < m)%nat -> (a < p k)%nat ->
  links k = Identity ->
  second llk (off p k + a) (off p m + pos m r0 c0) coef
    (nsum n (fun i => X k i a * nsum m (fun c =>
       (nsum m (fun r => mvn_Rp m p coef r0 c0 r k * fst (getR m (mvn_theta m p coef)) r c)
        + nsum m (fun r => fst (getR m (mvn_theta m p coef)) r k * mvn_Rp m p coef r0 c0 r c)) * e coef i c))).
Proof.
  intros H0 Hk Ha I. eapply second_of; [intros c; now apply llk_mean_identity|].
  pose proof (gmean_derive coef (off p m + pos m r0 c0) _ _ (He_theta coef r0 c0 H0)
     (HR_theta coef r0 c0 H0) k a Hk) as G.
  eapply is_derive_eq; [exact G|]. rewrite nsum_sumf.
  apply sumf_ext. intros i _. rewrite RiRp_sum by assumption. f_equal.
  rewrite (sumf_single m _ r0); [|lia|].
  - rewrite dyR_theta by assumption. unfold dR_theta. rewrite Nat.eqb_refl. cbn [andb].
    destruct (k =? c0)%nat; ring.
  - intros r _ N. rewrite dyR_theta by assumption. unfold dR_theta.
    destruct (Nat.eqb_spec r r0); [contradiction|]. cbn [andb]. ring.
Qed.

Definition theta_entry coef r0 c0 r1 c1 : R :=
  sumf n (fun i => if (r1 =? r0)%nat then (e coef i c0 * R1 coef r0 c0) * (e coef i c1 * R1 coef r1 c1) else 0).

(** Two parameters of the factor *)
Lemma hess_theta_theta coef r0 c0 r1 c1 : (r0 <= c0 < m)%nat -> (r1 <= c1 < m)%nat ->
  second llk (off p m + pos m r1 c1) (off p m + pos m r0 c0) coef
    (- (theta_entry coef r0 c0 r1 c1
        + if (r1 =? r0)%nat && (c1 =? c0)%nat && (r1 =? c1)%nat
          then sumf n (fun i => yR coef i r0 * (e coef i c0 * R1 coef r0 c0)) else 0)).
Proof.
  intros H0 H1. eapply second_of; [intros c; now apply llk_theta|].
  pose proof (gtheta_derive coef (off p m + pos m r0 c0) _ _ (He_theta coef r0 c0 H0)
     (HR_theta coef r0 c0 H0) r1 c1 H1) as G.
  eapply is_derive_eq; [exact G|]. f_equal. unfold theta_entry.
  destruct ((r1 =? r0)%nat && (c1 =? c0)%nat && (r1 =? c1)%nat) eqn:B.
  - apply andb_true_iff in B as [B B3]. apply andb_true_iff in B as [B1 B2].
    rewrite <- sumf_plus. apply sumf_ext. intros i _. rewrite dyR_theta by assumption.
    unfold dR_theta. rewrite B1, B2, B3. cbn [andb].
    apply Nat.eqb_eq in B1, B2. subst r1 c1. ring.
  - rewrite Rplus_0_r. apply sumf_ext. intros i _. rewrite dyR_theta by assumption.
    unfold dR_theta. destruct (r1 =? r0)%nat, (c1 =? c0)%nat, (r1 =? c1)%nat; try discriminate; cbn [andb]; ring.
Qed.

(** What the code returns for two parameters of the factor *)
Lemma code_theta_theta coef r0 c0 r1 c1 : (r0 <= c0 < m)%nat -> (r1 <= c1 < m)%nat ->
  (let Rpi := mvn_Rp m p coef r1 c1 in
   let yRpj := fun i r => nsum m (fun c => e coef i c * mvn_Rp m p coef r0 c0 r c) in
   let yRpi := fun i r => nsum m (fun c => e coef i c * Rpi r c) in
   let d2 := fun i r => yRpj i r * yRpi i r in
   let d2 := if (r1 =? r0)%nat && (c1 =? c0)%nat
             then fun i r => d2 i r + yR coef i r * yRpj i r else d2 in
   - nsum n (fun i => nsum m (fun r => d2 i r)))
  = - (theta_entry coef r0 c0 r1 c1
        + if (r1 =? r0)%nat && (c1 =? c0)%nat
          then sumf n (fun i => yR coef i r0 * (e coef i c0 * R1 coef r0 c0)) else 0).
Proof.
  intros H0 H1. cbv zeta. f_equal. rewrite nsum_sumf. unfold theta_entry.
  assert (A : forall i, sumf m (fun r => nsum m (fun c => e coef i c * mvn_Rp m p coef r0 c0 r c)
                               * nsum m (fun c => e coef i c * mvn_Rp m p coef r1 c1 r c))
     = if (r1 =? r0)%nat then (e coef i c0 * R1 coef r0 c0) * (e coef i c1 * R1 coef r1 c1) else 0).
  { intros i. rewrite (sumf_single m _ r0); [|lia|].
    - rewrite !Rp_row by assumption. rewrite Nat.eqb_refl, (Nat.eqb_sym r0 r1). destruct (r1 =? r0)%nat; ring.
    - intros r _ N. rewrite (Rp_row coef r0 c0) by assumption. destruct (Nat.eqb_spec r r0); [contradiction|]. ring. }
  destruct ((r1 =? r0)%nat && (c1 =? c0)%nat).
  - rewrite <- sumf_plus. apply sumf_ext. intros i _. rewrite nsum_sumf, sumf_plus, A. f_equal.
    rewrite (sumf_single m _ r0); [|lia|].
    + rewrite Rp_row by assumption. now rewrite Nat.eqb_refl.
    + intros r _ N. rewrite Rp_row by assumption. destruct (Nat.eqb_spec r r0); [contradiction|]. ring.
  - rewrite Rplus_0_r. apply sumf_ext. intros i _. rewrite nsum_sumf. apply A.
Qed.

(** ** Positions in the returned lists *)

Lemma list_blocks {A} (f g : nat -> nat -> A) :
  let l := flat_map (fun k => map (f k) (seq 0 (p k))) (seq 0 m)
           ++ flat_map (fun r => map (g r) (seq r (m - r))) (seq 0 m) in
  length l = (off p m + extra_coef m)%nat
  /\ (forall k a, (k < m)%nat -> (a < p k)%nat -> nth_error l (off p k + a) = Some (f k a))
  /\ (forall r c, (r <= c < m)%nat -> nth_error l (off p m + pos m r c) = Some (g r c)).
Proof.
  intros l.
  assert (E : l = blocks (fun _ => 0%nat) p f m ++ blocks (fun i => i) (fun i => (m - i)%nat) g m) by reflexivity.
  rewrite E. split; [|split].
  - rewrite app_length, !blocks_length. f_equal.
    rewrite <- cells_length, <- thet_idx_cells, thet_idx_blocks. symmetry. apply blocks_length.
  - intros k a Hk Ha. rewrite nth_error_app1; [|rewrite blocks_length; now apply off_block].
    now rewrite blocks_nth.
  - intros r c H. rewrite nth_error_app2; rewrite blocks_length; [|lia].
    replace (off p m + pos m r c - off p m)%nat with (pos m r c) by lia. unfold pos.
    rewrite (blocks_nth (fun i => i) (fun i => (m - i)%nat) g m r (c - r)) by lia. do 2 f_equal. lia.
Qed.

Lemma index_cases i : (i < off p m + extra_coef m)%nat ->
  (exists k a, (k < m)%nat /\ (a < p k)%nat /\ i = (off p k + a)%nat)
  \/ (exists r c, (r <= c < m)%nat /\ i = (off p m + pos m r c)%nat).
Proof.
  intros H. destruct (Nat.lt_ge_cases i (off p m)) as [L|L].
  - left. now apply off_find.
  - right. destruct (nth_error (cells m) (i - off p m)) as [[r c]|] eqn:E.
    + apply cells_pos in E as [H1 H2]. exists r, c. split; [assumption|lia].
    + apply nth_error_None in E. rewrite cells_length in E. lia.
Qed.

Lemma find_par_spec k a : (k < m)%nat -> (a < p k)%nat -> find_par (off p k + a) 0 (par_n_coef m p) = k.
Proof.
  intros Hk Ha. unfold par_n_coef.
  assert (G : forall l idx, (idx <= k < idx + l)%nat ->
     find_par (off p k + a) idx (map (fun k => off p (k + 1)) (seq idx l)) = k).
  { induction l as [|l IH]; intros idx H; [lia|]. cbn [seq map find_par]. rewrite Nat.add_1_r.
    destruct (Nat.ltb_spec (off p k + a) (off p (S idx))) as [L|L].
    - destruct (Nat.eq_dec idx k) as [|N]; [assumption|].
      pose proof (off_mono p (S idx) k ltac:(lia)). lia.
    - rewrite ?Nat.add_1_r. apply IH. destruct (Nat.eq_dec idx k) as [E|N]; [subst idx; rewrite off_S in L|]; lia. }
  apply G. lia.
Qed.

Lemma cj_spec k a : (k < m)%nat -> (a < p k)%nat ->
  (if (k =? 0)%nat then off p k + a else off p k + a - nth (k - 1) (par_n_coef m p) 0)%nat = a.
Proof.
  intros Hk Ha. destruct (Nat.eqb_spec k 0) as [->|N]; [reflexivity|].
  unfold par_n_coef. rewrite nth_indep with (d' := off p (0 + 1)) by (rewrite map_length, seq_length; lia).
  rewrite (map_nth (fun k => off p (k + 1))), seq_nth by lia. rewrite Nat.add_0_l.
  replace (k - 1 + 1)%nat with k by lia. lia.
Qed.
End Mvn.
