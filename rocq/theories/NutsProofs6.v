(** Leapfrog steps preserve areas in phase space. *)

From Coq Require Import List ZArith Reals Lra Lia.
From Coquelicot Require Import Coquelicot.
From Verif Require Import NutsModel NutsSpec NutsProofs.
Local Open Scope R_scope.

Lemma derive_eq (f : R -> R) (x l l' : R) : is_derive f x l -> l = l' -> is_derive f x l'.
Proof. now intros H <-. Qed.

Lemma derive_plus (f g : R -> R) (x a b : R) : is_derive f x a -> is_derive g x b -> is_derive (fun t => f t + g t) x (a + b).
Proof. intros H1 H2. exact (is_derive_plus f g x a b H1 H2). Qed.

Lemma derive_scal (f : R -> R) (x c a : R) : is_derive f x a -> is_derive (fun t => c * f t) x (c * a).
Proof. intros H. eapply derive_eq; [apply (is_derive_scal f x c a H)|]. reflexivity. Qed.

Lemma derive_vsum n (f : R -> nat -> R) (x : R) (d : nat -> R) :
  (forall i, (i < n)%nat -> is_derive (fun t => f t i) x (d i)) -> is_derive (fun t => vsum n (f t)) x (vsum n d).
Proof.
  induction n; intros H; cbn [vsum].
  - exact (is_derive_const 0 x).
  - apply derive_plus; [apply IHn; intros; apply H; lia|apply H; lia].
Qed.

Lemma derive_mul n (A : nat -> vec) (r : R -> vec) (x : R) (d : vec) i :
  (forall k, (k < n)%nat -> is_derive (fun t => r t k) x (d k)) -> is_derive (fun t => mul n A (r t) i) x (mul n A d i).
Proof.
  intros H. unfold mul, dot. refine (derive_vsum n (fun t k => A i k * r t k) x (fun k => A i k * d k) _). intros k K.
  apply derive_scal. now apply H.
Qed.

Lemma dot_plus_r n x y z : dot n x (vadd y z) = dot n x y + dot n x z.
Proof. unfold dot, vadd. rewrite <- vsum_plus. apply vsum_ext. intros; ring. Qed.
Lemma dot_scal_r n x c y : dot n x (vscale c y) = c * dot n x y.
Proof. unfold dot, vscale. rewrite <- vsum_scal. apply vsum_ext. intros; ring. Qed.
Lemma dot_comm n x y : dot n x y = dot n y x.
Proof. unfold dot. apply vsum_ext. intros; ring. Qed.
Lemma dot_plus_l n x y z : dot n (vadd x y) z = dot n x z + dot n y z.
Proof. rewrite !(dot_comm n _ z). apply dot_plus_r. Qed.
Lemma dot_scal_l n x c y : dot n (vscale c x) y = c * dot n x y.
Proof. rewrite !(dot_comm n _ y). apply dot_scal_r. Qed.

Lemma vsum_swap n m (f : nat -> nat -> R) : vsum n (fun i => vsum m (fun j => f i j)) = vsum m (fun j => vsum n (fun i => f i j)).
Proof.
  induction n; cbn [vsum].
  - induction m; cbn; [reflexivity|]. rewrite <- IHm. ring.
  - rewrite IHn, <- vsum_plus. reflexivity.
Qed.

Lemma quad_sym n (A : nat -> vec) x y : (forall i j, (i < n)%nat -> (j < n)%nat -> A i j = A j i) ->
  dot n x (mul n A y) = dot n y (mul n A x).
Proof.
  intros H. unfold mul, dot.
  rewrite (vsum_ext n _ (fun i => vsum n (fun j => x i * (A i j * y j)))) by (intros; now rewrite vsum_scal).
  rewrite vsum_swap. apply vsum_ext. intros j J. rewrite <- vsum_scal. apply vsum_ext. intros i I. rewrite (H i j I J). ring.
Qed.

Section Area.
Variables (n : nat) (Minv : nat -> vec) (llk : vec -> R) (grad : vec -> vec) (hess : vec -> nat -> vec).

Notation moves := (moves n).
Notation area := (area n).
Notation image := (image n Minv llk grad).

Hypothesis grad_moves : forall x u, moves x u -> moves (fun t => grad (x t)) (mul n (hess (x 0)) u).
Hypothesis hess_sym : forall x i j, (i < n)%nat -> (j < n)%nat -> hess x i j = hess x j i.
Hypothesis Minv_sym : forall i j, (i < n)%nat -> (j < n)%nat -> Minv i j = Minv j i.

Lemma moves_kick eps x r u p : moves x u -> moves r p ->
  moves (fun t => vadd (r t) (vscale (1 / 2 * eps) (grad (x t)))) (vadd p (vscale (1 / 2 * eps) (mul n (hess (x 0)) u))).
Proof.
  intros X P i I. unfold vadd, vscale. apply derive_plus; [now apply P|]. apply derive_scal. now apply grad_moves.
Qed.

Lemma moves_drift eps x r u p : moves x u -> moves r p ->
  moves (fun t => vadd (x t) (vscale eps (mul n Minv (r t)))) (vadd u (vscale eps (mul n Minv p))).
Proof.
  intros X P i I. unfold vadd, vscale. apply derive_plus; [now apply X|]. apply derive_scal. now apply derive_mul.
Qed.

Lemma area_kick c H u1 p1 u2 p2 : (forall i j, (i < n)%nat -> (j < n)%nat -> H i j = H j i) ->
  area u1 (vadd p1 (vscale c (mul n H u1))) u2 (vadd p2 (vscale c (mul n H u2))) = area u1 p1 u2 p2.
Proof.
  intros S. unfold NutsSpec.area. rewrite !dot_plus_r, !dot_scal_r, (quad_sym n H u2 u1 S). ring.
Qed.

Lemma area_drift c u1 p1 u2 p2 :
  area (vadd u1 (vscale c (mul n Minv p1))) p1 (vadd u2 (vscale c (mul n Minv p2))) p2 = area u1 p1 u2 p2.
Proof.
  unfold NutsSpec.area. rewrite !dot_plus_l, !dot_scal_l, !(dot_comm n (mul n Minv _)), (quad_sym n Minv p1 p2 Minv_sym). ring.
Qed.

Lemma image_moves eps x r u p : moves x u -> moves r p ->
  exists u' p', moves (fun t => fst (image eps (x t) (r t))) u' /\ moves (fun t => snd (image eps (x t) (r t))) p' /\
    forall x0, x 0 = x0 -> forall r0, r 0 = r0 ->
      let p1 := vadd p (vscale (1 / 2 * eps) (mul n (hess x0) u)) in
      u' = vadd u (vscale eps (mul n Minv p1)) /\
      p' = vadd p1 (vscale (1 / 2 * eps) (mul n (hess (fst (image eps x0 r0))) u')).
Proof.
  intros X P.
  pose proof (moves_kick eps x r u p X P) as K1.
  pose proof (moves_drift eps _ _ _ _ X K1) as D.
  pose proof (moves_kick eps _ _ _ _ D K1) as K2.
  eexists. eexists. split; [exact D|]. split; [exact K2|].
  intros x0 <- r0 <-. cbv zeta. split; reflexivity.
Qed.

(** Displacements of a common point: after the step they span the same area. *)
Lemma area_preserved eps x1 r1 u1 p1 x2 r2 u2 p2 :
  x1 0 = x2 0 -> r1 0 = r2 0 -> moves x1 u1 -> moves r1 p1 -> moves x2 u2 -> moves r2 p2 ->
  exists u1' p1' u2' p2',
    moves (fun t => fst (image eps (x1 t) (r1 t))) u1' /\ moves (fun t => snd (image eps (x1 t) (r1 t))) p1' /\
    moves (fun t => fst (image eps (x2 t) (r2 t))) u2' /\ moves (fun t => snd (image eps (x2 t) (r2 t))) p2' /\
    area u1' p1' u2' p2' = area u1 p1 u2 p2.
Proof.
  intros Ex Er X1 P1 X2 P2.
  destruct (image_moves eps _ _ _ _ X1 P1) as (u1' & p1' & A1 & B1 & C1).
  destruct (image_moves eps _ _ _ _ X2 P2) as (u2' & p2' & A2 & B2 & C2).
  exists u1', p1', u2', p2'. repeat (split; [assumption|]).
  specialize (C1 _ eq_refl _ eq_refl). specialize (C2 _ (eq_sym Ex) _ (eq_sym Er)). cbv zeta in C1, C2.
  destruct C1 as [E1 F1], C2 as [E2 F2]. rewrite F1, F2, area_kick by apply hess_sym.
  rewrite E1, E2, area_drift, area_kick by apply hess_sym. reflexivity.
Qed.

End Area.
