(** Lemmas about expectations, sums and single leapfrog steps. *)

From Coq Require Import List ZArith Reals Bool Lra Lia FunctionalExtensionality.
From Verif Require Import NutsModel NutsSpec.
Import ListNotations.
Local Open Scope R_scope.

(** Expectations. *)

Lemma mean_bind {A B} (x : rnd A) (f : A -> rnd B) g : mean (bind x f) g = mean x (fun a => mean (f a) g).
Proof. induction x as [|p k IH]; cbn; [reflexivity|]. now rewrite !IH. Qed.

Lemma always_bind {A B} (x : rnd A) (f : A -> rnd B) P : always P (bind x f) <-> always (fun a => always P (f a)) x.
Proof. induction x as [|p k IH]; cbn; [tauto|]. now rewrite !IH. Qed.

Lemma always_impl {A} (P Q : A -> Prop) x : (forall a, P a -> Q a) -> always P x -> always Q x.
Proof. intros H. induction x; cbn; firstorder. Qed.

Lemma always_and {A} (P Q : A -> Prop) x : always P x -> always Q x -> always (fun a => P a /\ Q a) x.
Proof. induction x; cbn; firstorder. Qed.

Lemma always_true {A} (P : A -> Prop) x : (forall a, P a) -> always P x.
Proof. intros H. induction x; cbn; firstorder. Qed.

Lemma mean_ext_always {A} (x : rnd A) f g : always (fun a => f a = g a) x -> mean x f = mean x g.
Proof.
  induction x as [|p k IH]; cbn; [tauto|]. intros [H1 H2]. now rewrite (IH true H1), (IH false H2).
Qed.

Lemma mean_ext {A} (x : rnd A) f g : (forall a, f a = g a) -> mean x f = mean x g.
Proof. intros H. apply mean_ext_always. now apply always_true. Qed.

Lemma mean_const {A} (x : rnd A) c : mean x (fun _ => c) = c.
Proof. induction x as [|p k IH]; cbn; [reflexivity|]. rewrite !IH. ring. Qed.

Lemma chance_in p : 0 <= p <= 1 -> chance p = p.
Proof. intros H. unfold chance. rewrite Rmax_right, Rmin_right; lra. Qed.

Lemma chance_bounds p : 0 <= chance p <= 1.
Proof.
  unfold chance. split; [|apply Rmin_l]. apply Rmin_glb; [lra|apply Rmax_l].
Qed.

Lemma chance_pos p : 0 <= p -> chance p = Rmin 1 p.
Proof. intros H. unfold chance. now rewrite Rmax_right. Qed.

(** Sums. *)

Lemma zsum_ext lo len f g : (forall k, (lo <= k < lo + Z.of_nat len)%Z -> f k = g k) -> zsum lo len f = zsum lo len g.
Proof.
  revert lo; induction len; intros lo H; cbn; [reflexivity|]. rewrite H by lia. f_equal. apply IHlen. intros; apply H; lia.
Qed.

Lemma zsum_plus lo len f g : zsum lo len (fun k => f k + g k) = zsum lo len f + zsum lo len g.
Proof. revert lo; induction len; intros lo; cbn; [ring|]. rewrite IHlen. ring. Qed.

Lemma zsum_scal lo len c f : zsum lo len (fun k => c * f k) = c * zsum lo len f.
Proof. revert lo; induction len; intros lo; cbn; [ring|]. rewrite IHlen. ring. Qed.

Lemma zsum_scal_r lo len c f : zsum lo len (fun k => f k * c) = zsum lo len f * c.
Proof. revert lo; induction len; intros lo; cbn; [ring|]. rewrite IHlen. ring. Qed.

Lemma zsum_zero lo len f : (forall k, (lo <= k < lo + Z.of_nat len)%Z -> f k = 0) -> zsum lo len f = 0.
Proof.
  revert lo; induction len; intros lo H; cbn; [reflexivity|]. rewrite H, IHlen by (try intros; try apply H; lia). ring.
Qed.

Lemma zsum_app lo a b f : zsum lo (a + b) f = zsum lo a f + zsum (lo + Z.of_nat a) b f.
Proof.
  revert lo; induction a; intros lo; cbn [zsum Nat.add].
  - replace (lo + Z.of_nat 0)%Z with lo by lia. ring.
  - rewrite IHa. replace (lo + 1 + Z.of_nat a)%Z with (lo + Z.of_nat (S a))%Z by lia. ring.
Qed.

Lemma zsum_swap la na lb nb (f : Z -> Z -> R) :
  zsum la na (fun x => zsum lb nb (fun y => f x y)) = zsum lb nb (fun y => zsum la na (fun x => f x y)).
Proof.
  revert la; induction na; intros la; cbn.
  - symmetry; now apply zsum_zero.
  - rewrite IHna. now rewrite zsum_plus.
Qed.

(** A larger window adds nothing where the summand is zero. *)
Lemma zsum_window lo len lo' len' f :
  (lo' <= lo)%Z -> (lo + Z.of_nat len <= lo' + Z.of_nat len')%Z ->
  (forall k, (k < lo \/ lo + Z.of_nat len <= k)%Z -> f k = 0) ->
  zsum lo' len' f = zsum lo len f.
Proof.
  intros H1 H2 Z0.
  replace len' with (Z.to_nat (lo - lo') + (len + Z.to_nat (lo' + Z.of_nat len' - lo - Z.of_nat len)))%nat by lia.
  rewrite !zsum_app. rewrite (zsum_zero lo'); [|intros; apply Z0; lia].
  replace (lo' + Z.of_nat (Z.to_nat (lo - lo')))%Z with lo by lia.
  rewrite (zsum_zero (lo + Z.of_nat len)); [ring|]. intros; apply Z0; lia.
Qed.

Lemma zsum_single lo len k f : (lo <= k < lo + Z.of_nat len)%Z -> (forall x, x <> k -> f x = 0) -> zsum lo len f = f k.
Proof.
  intros H H0. rewrite (zsum_window k 1 lo len); [cbn; ring|lia|lia|]. intros; apply H0; lia.
Qed.

Lemma zsum_shift lo len c f : zsum (lo + c) len f = zsum lo len (fun k => f (k + c)%Z).
Proof.
  revert lo; induction len; intros lo; cbn; [reflexivity|]. rewrite <- IHlen.
  now replace (lo + c + 1)%Z with (lo + 1 + c)%Z by lia.
Qed.

(** Summing downwards. *)
Lemma zsum_rev i len f : zsum 0 len (fun t => f (i - t)%Z) = zsum (i - Z.of_nat len + 1) len f.
Proof.
  revert f; induction len; intros f; [reflexivity|].
  replace (S len) with (len + 1)%nat at 1 by lia. rewrite zsum_app, IHlen. cbn [zsum].
  replace (i - (0 + Z.of_nat len))%Z with (i - Z.of_nat (S len) + 1)%Z by lia.
  replace (i - Z.of_nat (S len) + 1 + 1)%Z with (i - Z.of_nat len + 1)%Z by lia. ring.
Qed.

(** Vectors. *)

Lemma vsum_ext n x y : (forall i, (i < n)%nat -> x i = y i) -> vsum n x = vsum n y.
Proof. induction n; intros H; cbn; [reflexivity|]. rewrite H, IHn by auto. reflexivity. Qed.

Lemma vsum_plus n x y : vsum n (fun i => x i + y i) = vsum n x + vsum n y.
Proof. induction n; cbn; [ring|]. rewrite IHn. ring. Qed.

Lemma vsum_scal n c x : vsum n (fun i => c * x i) = c * vsum n x.
Proof. induction n; cbn; [ring|]. rewrite IHn. ring. Qed.

Lemma vadd_comm x y : vadd x y = vadd y x.
Proof. apply functional_extensionality; intro; unfold vadd; ring. Qed.

Lemma vadd_assoc x y z : vadd x (vadd y z) = vadd (vadd x y) z.
Proof. apply functional_extensionality; intro; unfold vadd; ring. Qed.

Lemma vadd_undo x c y : vadd (vadd x (vscale c y)) (vscale (- c) y) = x.
Proof. apply functional_extensionality; intro; unfold vadd, vscale; ring. Qed.

Section Steps.
Variables (n : nat) (Minv : nat -> vec) (llk : vec -> R) (grad : vec -> vec).

Lemma leap_back state r eps state' g' r' L' :
  leap_frog n Minv llk grad state (grad state) r eps = (state', g', r', L') ->
  leap_frog n Minv llk grad state' (grad state') r' (- eps) = (state, grad state, r, llk state).
Proof.
  unfold leap_frog. intros H. injection H as <- <- <- <-.
  set (r1 := vadd r (vscale (1 / 2 * eps) (grad state))).
  set (x1 := vadd state (vscale eps (mul n Minv r1))).
  replace (1 / 2 * - eps) with (- (1 / 2 * eps)) by ring.
  rewrite (vadd_undo r1 (1 / 2 * eps) (grad x1)).
  rewrite (vadd_undo state eps (mul n Minv r1) : vadd x1 (vscale (- eps) (mul n Minv r1)) = state).
  unfold r1. now rewrite vadd_undo.
Qed.

Lemma path_back eps st mo : path n Minv llk grad eps st mo ->
  forall k, leap_frog n Minv llk grad (st k) (grad (st k)) (mo k) (- eps)
            = (st (k - 1)%Z, grad (st (k - 1)%Z), mo (k - 1)%Z, llk (st (k - 1)%Z)).
Proof.
  intros H k. specialize (H (k - 1)%Z). replace (k - 1 + 1)%Z with k in H by lia.
  now apply leap_back in H.
Qed.

Lemma check_reversed rb1 rb2 re1 re2 s1 s2 :
  check_dynamic_divergence n Minv rb1 rb2 re1 re2 s1 s2 = check_dynamic_divergence n Minv re2 re1 rb2 rb1 s2 s1.
Proof.
  unfold check_dynamic_divergence. cbv zeta. rewrite (vadd_comm s2 s1).
  repeat match goal with |- context [pos ?e] => generalize (pos e); intros [|] end; reflexivity.
Qed.

End Steps.
