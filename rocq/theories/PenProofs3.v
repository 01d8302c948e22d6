(** Quadratic forms of tensor product and difference penalties. *)

From Coq Require Import List Arith Bool Lia Permutation Ring ZArith Reals Lra.
From Verif Require Import PenModel PenSpec PenSpecR PenProofs2.
Import ListNotations.

Section TP.
Variable K : Type.
Variables (k0 k1 : K) (kadd kmul ksub : K -> K -> K) (kopp : K -> K).
Variable Kring : ring_theory k0 k1 kadd kmul ksub kopp (@eq K).
Add Ring Kr : Kring.

Notation nsum := (@nsum K k0 kadd).
Notation quad := (@quad K k0 kadd kmul).
Notation tp_loop := (@tp_loop K k0 k1 kmul).
Notation idm := (@identity_mat K k0 k1).

Lemma tp_loop_ext j Sj : forall ks i A B,
  (forall p q, A p q = B p q) -> forall p q, tp_loop j i ks Sj A p q = tp_loop j i ks Sj B p q.
Proof.
  induction ks as [|k ks IH]; intros i A B H p q; simpl; [apply H|].
  apply IH. intros. unfold kron. now rewrite H.
Qed.

Lemma kron_id_id k p q : 0 < k -> kron kmul k idm idm p q = idm p q.
Proof.
  intros Hk. unfold kron, identity_mat.
  pose proof (Nat.div_mod p k ltac:(lia)). pose proof (Nat.div_mod q k ltac:(lia)).
  destruct (Nat.eqb_spec (p / k) (q / k)), (Nat.eqb_spec (p mod k) (q mod k)), (Nat.eqb_spec p q);
    try ring; exfalso; try congruence.
Qed.

(** Marginals in front of j leave the identity. *)
Lemma tp_loop_pre j Sj : forall ks i, j < i \/ i + length ks <= j -> Forall (lt 0) ks ->
  forall p q, tp_loop j i ks Sj idm p q = idm p q.
Proof.
  induction ks as [|k ks IH]; intros i Hj Hpos p q; simpl; [reflexivity|].
  inversion Hpos; subst. simpl in Hj.
  destruct (Nat.eqb_spec j i); [lia|].
  rewrite (tp_loop_ext j Sj ks (S i) _ idm) by (intros; now apply kron_id_id).
  apply IH; [lia|assumption].
Qed.

(** Marginals behind j multiply by the identity. *)
Lemma tp_loop_suf j Sj : forall ks i A, j < i -> Forall (lt 0) ks ->
  forall p q b b', b < lprod ks -> b' < lprod ks ->
  tp_loop j i ks Sj A (p * lprod ks + b) (q * lprod ks + b') = kmul (A p q) (idm b b').
Proof.
  induction ks as [|k ks IH]; intros i A Hj Hpos p q b b' Hb Hb'.
  - simpl in *. assert (b = 0) by lia. assert (b' = 0) by lia. subst.
    unfold identity_mat. simpl. rewrite !Nat.mul_1_r, !Nat.add_0_r. ring.
  - inversion Hpos; subst. cbn [PenModel.tp_loop].
    destruct (Nat.eqb_spec j i); [lia|].
    change (lprod (k :: ks)) with (k * lprod ks) in *.
    set (s := lprod ks) in *.
    assert (Hs : 0 < s) by (destruct s; lia).
    pose proof (Nat.div_mod b s ltac:(lia)) as Eb. pose proof (Nat.div_mod b' s ltac:(lia)) as Eb'.
    pose proof (Nat.mod_upper_bound b s ltac:(lia)) as Mb.
    pose proof (Nat.mod_upper_bound b' s ltac:(lia)) as Mb'.
    assert (Qb : b / s < k) by (apply Nat.div_lt_upper_bound; lia).
    assert (Qb' : b' / s < k) by (apply Nat.div_lt_upper_bound; lia).
    replace (p * (k * s) + b) with ((p * k + b / s) * s + b mod s) by nia.
    replace (q * (k * s) + b') with ((q * k + b' / s) * s + b' mod s) by nia.
    unfold s. rewrite IH by (assumption || lia). fold s.
    rewrite kron_entry by assumption. unfold identity_mat.
    destruct (Nat.eqb_spec (b / s) (b' / s)), (Nat.eqb_spec (b mod s) (b' mod s)), (Nat.eqb_spec b b');
      try ring; exfalso; try congruence.
Qed.

Lemma tp_loop_app j Sj : forall ks1 i ks2 A p q,
  tp_loop j i (ks1 ++ ks2) Sj A p q = tp_loop j (i + length ks1) ks2 Sj (tp_loop j i ks1 Sj A) p q.
Proof.
  induction ks1 as [|k ks1 IH]; intros i ks2 A p q; simpl.
  - now rewrite Nat.add_0_r.
  - rewrite IH. f_equal. lia.
Qed.

(** The tensor penalty as identity x S_j x identity. *)
Lemma tp_pen_blocks ks1 kj ks2 Sj S :
  Forall (lt 0) (ks1 ++ kj :: ks2) ->
  tp_pen k0 k1 kmul Sj (length ks1) (ks1 ++ kj :: ks2) = Some S ->
  forall a a' u u' b b', u < kj -> u' < kj -> b < lprod ks2 -> b' < lprod ks2 ->
  S ((a * kj + u) * lprod ks2 + b) ((a' * kj + u') * lprod ks2 + b')
  = (if (ks1 : list nat) then
       if (a =? 0) && (a' =? 0) then kmul (Sj u u') (idm b b')
       else S ((a * kj + u) * lprod ks2 + b) ((a' * kj + u') * lprod ks2 + b')
     else kmul (kmul (idm a a') (Sj u u')) (idm b b')).
Proof.
  intros Hpos HS a a' u u' b b' Hu Hu' Hb Hb'.
  destruct ks1 as [|k ks1].
  - simpl in HS. inversion HS; subst; clear HS.
    destruct (Nat.eqb_spec a 0), (Nat.eqb_spec a' 0); simpl; try reflexivity.
    subst. simpl. inversion Hpos; subst. now rewrite tp_loop_suf by (assumption || lia).
  - cbn [app tp_pen length Nat.eqb] in HS. injection HS as HS. subst S.
    inversion Hpos as [|x y Hk Hrest]; subst. apply Forall_app in Hrest. destruct Hrest as [H1 H2].
    inversion H2 as [|x y Hkj Hks2]; subst.
    rewrite tp_loop_app. cbn [PenModel.tp_loop].
    replace (1 + length ks1) with (Datatypes.S (length ks1)) by lia.
    rewrite Nat.eqb_refl.
    rewrite tp_loop_suf by (assumption || lia).
    rewrite kron_entry by assumption.
    rewrite tp_loop_pre by (assumption || lia). reflexivity.
Qed.

Lemma nsum_swap n m f : nsum n (fun i => nsum m (fun j => f i j)) = nsum m (fun j => nsum n (fun i => f i j)).
Proof. apply (lsum_swap _ _ _ _ _ _ _ Kring). Qed.

Lemma nsum_mul_l n c f : nsum n (fun i => kmul c (f i)) = kmul c (nsum n f).
Proof. apply (lsum_mul_l _ _ _ _ _ _ _ Kring). Qed.

Lemma nsum_mul_r n c f : nsum n (fun i => kmul (f i) c) = kmul (nsum n f) c.
Proof. apply (lsum_mul_r _ _ _ _ _ _ _ Kring). Qed.

Lemma idm_sum n i (f : nat -> K) : i < n -> nsum n (fun j => kmul (idm i j) (f j)) = f i.
Proof.
  intros Hi. rewrite (nsum_ext K k0 kadd n _ (fun j => if j =? i then f i else k0)).
  - rewrite (nsum_delta _ _ _ _ _ _ _ Kring). destruct (Nat.ltb_spec i n); [reflexivity|lia].
  - intros j Hj. unfold identity_mat. rewrite Nat.eqb_sym.
    destruct (Nat.eqb_spec j i); [subst; ring|ring].
Qed.

(** The penalty of a coefficient array is the sum of the marginal penalties of its slices. *)
Lemma tp_pen_quad ks1 kj ks2 Sj S beta :
  Forall (lt 0) (ks1 ++ kj :: ks2) ->
  tp_pen k0 k1 kmul Sj (length ks1) (ks1 ++ kj :: ks2) = Some S ->
  quad (lprod ks1 * kj * lprod ks2) S beta
  = nsum (lprod ks1) (fun a => nsum (lprod ks2) (fun b =>
      quad kj Sj (fun u => beta ((a * kj + u) * lprod ks2 + b)))).
Proof.
  intros Hpos HS. set (A := lprod ks1). set (B := lprod ks2).
  assert (HE : forall a a' u u' b b', a < A -> a' < A -> u < kj -> u' < kj -> b < B -> b' < B ->
     S ((a * kj + u) * B + b) ((a' * kj + u') * B + b')
     = kmul (kmul (idm a a') (Sj u u')) (idm b b')).
  { intros a a' u u' b b' Ha Ha' Hu Hu' Hb Hb'.
    rewrite (tp_pen_blocks ks1 kj ks2 Sj S Hpos HS) by assumption.
    destruct ks1; [|reflexivity]. unfold A in *. simpl in Ha, Ha'.
    assert (a = 0) by lia. assert (a' = 0) by lia. subst. simpl.
    change (idm 0 0) with k1. ring. }
  assert (R3 : forall f, nsum (A * kj * B) f
     = nsum A (fun a => nsum kj (fun u => nsum B (fun b => f ((a * kj + u) * B + b))))).
  { intros f. now rewrite !(nsum_prod _ _ _ _ _ _ _ Kring). }
  unfold PenSpec.quad. rewrite R3.
  apply nsum_ext. intros a Ha. rewrite nsum_swap.
  apply nsum_ext. intros b Hb.
  apply nsum_ext. intros u Hu. rewrite R3.
  transitivity (nsum A (fun a' => kmul (idm a a')
     (nsum kj (fun u' => kmul (kmul (beta ((a * kj + u) * B + b)) (Sj u u'))
                              (beta ((a' * kj + u') * B + b)))))).
  - apply nsum_ext. intros a' Ha'.
    rewrite <- nsum_mul_l.
    apply nsum_ext. intros u' Hu'.
    transitivity (nsum B (fun b' => kmul (idm b b')
       (kmul (idm a a') (kmul (kmul (beta ((a * kj + u) * B + b)) (Sj u u')) (beta ((a' * kj + u') * B + b')))))).
    + apply nsum_ext. intros b' Hb'. rewrite HE by assumption. ring.
    + now rewrite idm_sum.
  - rewrite (idm_sum A a (fun a' => nsum kj (fun u' => kmul (kmul (beta ((a * kj + u) * B + b)) (Sj u u'))
                              (beta ((a' * kj + u') * B + b))))) by assumption.
    reflexivity.
Qed.

Notation basis_prod := (@basis_prod K k1 kmul).

Lemma tp_basis_loop r : forall ms is acc p, Forall2 lt is (map snd ms) ->
  fold_left (fun acc Bq => tp_basis_calc kmul (snd Bq) acc (fst Bq)) ms acc r (flat p (map snd ms) is)
  = kmul (acc r p) (basis_prod r ms is).
Proof.
  induction ms as [|[B q] ms IH]; intros is acc p H.
  - inversion H; subst; simpl. ring.
  - inversion H as [|x k is' ks' Hx Hr]; subst; simpl. rewrite IH by assumption. unfold tp_basis_calc. simpl.
    rewrite !Nat.div_add_l, (Nat.div_small x q), Nat.add_0_r by lia.
    rewrite (Nat.add_comm (p * q)), Nat.mod_add, Nat.mod_small by lia. ring.
Qed.

Lemma tp_basis_entry ms is X r : Forall2 lt is (map snd ms) -> tp_basis kmul ms = Some X ->
  X r (flat 0 (map snd ms) is) = basis_prod r ms is.
Proof.
  intros H. destruct ms as [|[B q] ms]; [discriminate|]. simpl. intros E; inversion E; subst; clear E.
  inversion H; subst. simpl. now rewrite tp_basis_loop.
Qed.

(** ** Difference penalties *)

Notation diff_D := (@diff_D K k0 k1 ksub).
Notation deltas := (@deltas K ksub).

Lemma deltas_S m b : forall i, deltas (S m) b i = ksub (deltas m b (S i)) (deltas m b i).
Proof.
  revert b. induction m as [|m IH]; intros b i; [reflexivity|].
  change (deltas (S (S m)) b i) with (deltas (S m) (fun i => ksub (b (S i)) (b i)) i).
  rewrite IH. reflexivity.
Qed.

(** Column l of D applied to b gives the m-th difference at l. *)
Lemma diff_D_apply n b : forall m l, l + m < n ->
  nsum n (fun i => kmul (b i) (diff_D m i l)) = deltas m b l.
Proof.
  induction m as [|m IH]; intros l Hl.
  - simpl. transitivity (nsum n (fun i => kmul (idm l i) (b i))).
    + apply nsum_ext. intros i _. unfold identity_mat. rewrite Nat.eqb_sym. ring.
    + apply idm_sum. lia.
  - rewrite deltas_S. rewrite <- (IH (S l)), <- (IH l) by lia.
    transitivity (nsum n (fun i => kadd (kmul (b i) (diff_D m i (S l)))
                                        (kmul (kopp k1) (kmul (b i) (diff_D m i l))))).
    + apply nsum_ext. intros i _. simpl. unfold diff_cols. fold (diff_D m). ring.
    + unfold PenSpec.nsum at 1. rewrite (lsum_add _ _ _ _ _ _ _ Kring).
      fold (nsum n (fun i => kmul (b i) (diff_D m i (S l)))).
      fold (nsum n (fun i => kmul (kopp k1) (kmul (b i) (diff_D m i l)))).
      rewrite nsum_mul_l. ring.
Qed.

Lemma ksum_nsum n f : ksum k0 kadd n f = nsum n f.
Proof.
  induction n; [reflexivity|]. simpl. now rewrite IHn, (nsum_S _ _ _ _ _ _ _ Kring).
Qed.

Lemma quad_mul_tr n q D b :
  quad n (mul_tr k0 kadd kmul q D) b
  = nsum q (fun l => let s := nsum n (fun i => kmul (b i) (D i l)) in kmul s s).
Proof.
  unfold PenSpec.quad, mul_tr.
  transitivity (nsum n (fun i => nsum n (fun j => nsum q (fun l =>
     kmul (kmul (b i) (D i l)) (kmul (b j) (D j l)))))).
  - apply nsum_ext. intros i _. apply nsum_ext. intros j _. rewrite ksum_nsum.
    rewrite <- nsum_mul_l, <- nsum_mul_r.
    apply nsum_ext. intros. ring.
  - transitivity (nsum n (fun i => nsum q (fun l => nsum n (fun j =>
       kmul (kmul (b i) (D i l)) (kmul (b j) (D j l)))))).
    + apply nsum_ext. intros i _. apply nsum_swap.
    + rewrite nsum_swap. apply nsum_ext. intros l _. cbv zeta.
      rewrite <- nsum_mul_r. apply nsum_ext. intros i _. apply nsum_mul_l.
Qed.

Lemma difference_quad n m b :
  quad n (fst (fst (difference_penalty k0 k1 kadd kmul ksub n m))) b
  = nsum (n - m) (fun l => kmul (deltas m b l) (deltas m b l)).
Proof.
  unfold difference_penalty. simpl. rewrite quad_mul_tr.
  apply nsum_ext. intros l Hl. cbv zeta. now rewrite diff_D_apply by lia.
Qed.

Lemma difference_sym n m i j :
  let S := fst (fst (difference_penalty k0 k1 kadd kmul ksub n m)) in S i j = S j i.
Proof.
  simpl. unfold mul_tr. rewrite !ksum_nsum. apply nsum_ext. intros. ring.
Qed.

End TP.

(** ** Null space of the difference penalty over the reals *)

Local Open Scope R_scope.

Notation rdeltas := (@deltas R Rminus).

Lemma RR : ring_theory 0 1 Rplus Rmult Rminus Ropp (@eq R).
Proof. constructor; intros; ring. Qed.

Lemma rsum_S n f : rsum (S n) f = rsum n f + f n.
Proof. apply (nsum_S _ _ _ _ _ _ _ RR). Qed.

Lemma rsum_nonneg n f : (forall i, (i < n)%nat -> 0 <= f i) -> 0 <= rsum n f.
Proof.
  induction n; intros H; [unfold nsum; simpl; lra|].
  rewrite rsum_S. assert (0 <= rsum n f) by (apply IHn; intros; apply H; lia).
  specialize (H n ltac:(lia)). lra.
Qed.

Lemma rsum_nonneg_zero n f : (forall i, (i < n)%nat -> 0 <= f i) -> rsum n f = 0 ->
  forall i, (i < n)%nat -> f i = 0.
Proof.
  induction n; intros H E i Hi; [lia|].
  rewrite rsum_S in E.
  assert (H1 : 0 <= rsum n f) by (apply rsum_nonneg; intros; apply H; lia).
  pose proof (H n ltac:(lia)) as H2.
  destruct (Nat.eq_dec i n); [subst; lra|].
  apply IHn; [intros; apply H; lia|lra|lia].
Qed.

Lemma rsum_ext n f g : (forall i, (i < n)%nat -> f i = g i) -> rsum n f = rsum n g.
Proof. apply nsum_ext. Qed.

Lemma rsum_add n f g : rsum n (fun i => f i + g i) = rsum n f + rsum n g.
Proof. apply (lsum_add _ _ _ _ _ _ _ RR). Qed.

Lemma rsum_mul n c f : rsum n (fun i => c * f i) = c * rsum n f.
Proof. apply (lsum_mul_l _ _ _ _ _ _ _ RR). Qed.

Lemma rsum_zero n : rsum n (fun _ => 0) = 0.
Proof. apply (nsum_zero _ _ _ _ _ _ _ RR). reflexivity. Qed.

(** Polynomials (on all of nat) of degree less than m. *)
Definition poly (m : nat) (f : nat -> R) : Prop :=
  exists a : nat -> R, forall i, f i = rsum m (fun k => a k * INR i ^ k).

Lemma poly_ext m f g : (forall i, f i = g i) -> poly m f -> poly m g.
Proof. intros H [a Ha]. exists a. intros i. now rewrite <- H. Qed.

Lemma poly_add m f g : poly m f -> poly m g -> poly m (fun i => f i + g i).
Proof.
  intros [a Ha] [b Hb]. exists (fun k => a k + b k). intros i. rewrite Ha, Hb, <- rsum_add.
  apply rsum_ext. intros. ring.
Qed.

Lemma poly_scale m c f : poly m f -> poly m (fun i => c * f i).
Proof.
  intros [a Ha]. exists (fun k => c * a k). intros i. rewrite Ha, <- rsum_mul.
  apply rsum_ext. intros. ring.
Qed.

Lemma poly_mono m f : poly m f -> poly (S m) f.
Proof.
  intros [a Ha]. exists (fun k => if (k <? m)%nat then a k else 0). intros i.
  rewrite rsum_S, Ha. rewrite Nat.ltb_irrefl.
  rewrite (rsum_ext m _ (fun k => (if (k <? m)%nat then a k else 0) * INR i ^ k)).
  - ring.
  - intros k Hk. destruct (Nat.ltb_spec k m); [reflexivity|lia].
Qed.

Lemma poly_mulX m f : poly m f -> poly (S m) (fun i => INR i * f i).
Proof.
  intros [a Ha]. exists (fun k => match k with O => 0 | S p => a p end). intros i.
  rewrite (nsum_S_l R 0 Rplus). rewrite Ha, <- rsum_mul. simpl.
  rewrite (rsum_ext m (fun i0 => a i0 * (INR i * INR i ^ i0)) (fun k => INR i * (a k * INR i ^ k)))
    by (intros; ring).
  ring.
Qed.

Lemma poly_one : poly 1 (fun _ => 1).
Proof. exists (fun _ => 1). intros i. unfold nsum. simpl. ring. Qed.

Lemma poly_pow k : poly (S k) (fun i => INR i ^ k).
Proof.
  exists (fun l => if (l =? k)%nat then 1 else 0). intros i.
  rewrite (rsum_ext (S k) _ (fun l => if (l =? k)%nat then INR i ^ k else 0)).
  - rewrite (nsum_delta _ _ _ _ _ _ _ RR). destruct (Nat.ltb_spec k (S k)); [reflexivity|lia].
  - intros l _. destruct (Nat.eqb_spec l k); [subst|]; ring.
Qed.

Lemma poly_zero m : poly m (fun _ => 0).
Proof.
  exists (fun _ => 0). intros i. rewrite (rsum_ext m _ (fun _ => 0)); [now rewrite rsum_zero|].
  intros; ring.
Qed.

Lemma poly_pow_le k m : (k < m)%nat -> poly m (fun i => INR i ^ k).
Proof.
  intros H. induction H; [apply poly_pow|]. now apply poly_mono.
Qed.

Lemma poly_sum (F : nat -> nat -> R) m : forall n, (forall k, (k < n)%nat -> poly m (F k)) ->
  poly m (fun i => rsum n (fun k => F k i)).
Proof.
  induction n; intros H.
  - apply poly_ext with (f := fun _ => 0); [reflexivity|apply poly_zero].
  - apply poly_ext with (f := fun i => rsum n (fun k => F k i) + F n i).
    + intros i. now rewrite rsum_S.
    + apply poly_add; [apply IHn; intros; apply H; lia|apply H; lia].
Qed.

(** Differences of powers lower the degree. *)
Lemma diff_pow k : poly k (fun i => INR (S i) ^ k - INR i ^ k).
Proof.
  induction k.
  - apply poly_ext with (f := fun _ => 0); [intros; simpl; ring|apply poly_zero].
  - apply poly_ext with
      (f := fun i => (INR i * (INR (S i) ^ k - INR i ^ k) + (INR (S i) ^ k - INR i ^ k)) + INR i ^ k).
    + intros i. rewrite <- !tech_pow_Rmult, S_INR. ring.
    + apply poly_add; [apply poly_add|].
      * now apply poly_mulX.
      * now apply poly_mono.
      * apply poly_pow.
Qed.

Lemma diff_poly m f : poly (S m) f -> poly m (fun i => f (S i) - f i).
Proof.
  intros [a Ha].
  apply poly_ext with (f := fun i => rsum (S m) (fun k => a k * (INR (S i) ^ k - INR i ^ k))).
  - intros i. rewrite !Ha.
    rewrite (rsum_ext (S m) _ (fun k => a k * INR (S i) ^ k + (-1) * (a k * INR i ^ k)))
      by (intros; ring).
    rewrite rsum_add, rsum_mul. ring.
  - apply poly_sum. intros k Hk. apply poly_scale.
    destruct (Nat.eq_dec k m); [subst; apply diff_pow|].
    assert (Hm : exists d, m = (k + d)%nat) by (exists (m - k)%nat; lia).
    destruct Hm as [d ->]. clear. induction d; [rewrite Nat.add_0_r; apply diff_pow|].
    rewrite Nat.add_succ_r. now apply poly_mono.
Qed.

Lemma deltas_ext m : forall n f g, (forall i, (i < n + m)%nat -> f i = g i) ->
  forall i, (i < n)%nat -> rdeltas m f i = rdeltas m g i.
Proof.
  induction m; intros n f g H i Hi; simpl.
  - apply H. lia.
  - apply (IHm n); [|assumption]. intros j Hj. rewrite !H by lia. reflexivity.
Qed.

Lemma deltas_poly m : forall f, poly m f -> forall i, rdeltas m f i = 0.
Proof.
  induction m; intros f Hf i; simpl.
  - destruct Hf as [a Ha]. rewrite Ha. reflexivity.
  - apply IHm. now apply diff_poly.
Qed.

(** Partial sums of a polynomial are a polynomial of one degree more. *)
Lemma sum_pow : forall k, poly (S (S k)) (fun i => rsum i (fun t => INR t ^ k)).
Proof.
  intros k. induction k as [k IH] using (well_founded_induction lt_wf).
  (* telescoping: i^(k+1) = sum_t ((t+1)^(k+1) - t^(k+1)) and the summand is
     (k+1) t^k + lower order terms *)
  assert (Hexp : exists a : nat -> R, forall t,
     INR (S t) ^ (S k) - INR t ^ (S k)
     = INR (S k) * INR t ^ k + rsum k (fun l => a l * INR t ^ l)).
  { clear IH. induction k.
    - exists (fun _ => 0). intros t. unfold nsum. cbn [seq lsum]. rewrite S_INR. simpl. ring.
    - destruct IHk as [a Ha].
      assert (HP : poly (S k) (fun t => INR t * rsum k (fun l => a l * INR t ^ l)
              + (INR (S k) * INR t ^ k + rsum k (fun l => a l * INR t ^ l)))).
      { apply poly_add; [apply poly_mulX; now exists a|]. apply poly_add.
        - apply poly_scale, poly_pow.
        - apply poly_mono. now exists a. }
      destruct HP as [c Hc]. exists c. intros t. rewrite <- Hc.
      transitivity (INR (S t) * (INR (S t) ^ S k - INR t ^ S k) + INR t ^ S k).
      + rewrite <- (tech_pow_Rmult (INR (S t)) (S k)), <- (tech_pow_Rmult (INR t) (S k)), (S_INR t). ring.
      + rewrite Ha, (S_INR t), (S_INR (S k)). rewrite <- (tech_pow_Rmult (INR t) k). ring. }
  destruct Hexp as [a Ha].
  assert (Hne : INR (S k) <> 0) by (apply not_0_INR; lia).
  assert (Htel : forall i, INR i ^ S k
     = INR (S k) * rsum i (fun t => INR t ^ k) + rsum k (fun l => a l * rsum i (fun t => INR t ^ l))).
  { induction i.
    - unfold nsum at 1 3. cbn [seq lsum].
      rewrite (rsum_ext k _ (fun _ => 0)) by (intros; unfold nsum; simpl; ring).
      rewrite rsum_zero. simpl. ring.
    - rewrite rsum_S.
      rewrite (rsum_ext k _ (fun l => a l * rsum i (fun t => INR t ^ l) + a l * INR i ^ l))
        by (intros; rewrite rsum_S; ring).
      rewrite rsum_add. specialize (Ha i).
      transitivity (INR i ^ S k + (INR (S i) ^ S k - INR i ^ S k)); [ring|].
      rewrite Ha, IHi. ring. }
  apply poly_ext with (f := fun i => / INR (S k) *
     (INR i ^ S k + (-1) * rsum k (fun l => a l * rsum i (fun t => INR t ^ l)))).
  - intros i. rewrite Htel. field. exact Hne.
  - apply poly_scale, poly_add; [apply poly_pow|]. apply poly_scale.
    apply poly_sum with (F := fun l i => a l * rsum i (fun t => INR t ^ l)).
    intros l Hl. apply poly_scale.
    pose proof (IH l Hl) as Hp.
    assert (Hm : exists d, (S (S k) = S (S l) + d)%nat) by (exists (k - l)%nat; lia).
    destruct Hm as [d ->]. clear -Hp. induction d; [now rewrite Nat.add_0_r|].
    rewrite Nat.add_succ_r. now apply poly_mono.
Qed.

Lemma rsum_swap n m f : rsum n (fun i => rsum m (fun j => f i j)) = rsum m (fun j => rsum n (fun i => f i j)).
Proof. apply (lsum_swap _ _ _ _ _ _ _ RR). Qed.

Lemma poly_partial_sum m f : poly m f -> poly (S m) (fun i => rsum i f).
Proof.
  intros [a Ha].
  apply poly_ext with (f := fun i => rsum m (fun k => a k * rsum i (fun t => INR t ^ k))).
  - intros i. rewrite (rsum_ext i f (fun t => rsum m (fun k => a k * INR t ^ k))) by (intros; apply Ha).
    rewrite rsum_swap. apply rsum_ext. intros k _. now rewrite rsum_mul.
  - apply poly_sum with (F := fun k i => a k * rsum i (fun t => INR t ^ k)).
    intros k Hk. apply poly_scale.
    pose proof (sum_pow k) as Hp.
    assert (Hm : exists d, (S m = S (S k) + d)%nat) by (exists (m - S k)%nat; lia).
    destruct Hm as [d ->]. clear -Hp. induction d; [now rewrite Nat.add_0_r|].
    rewrite Nat.add_succ_r. now apply poly_mono.
Qed.

(** If the m-th differences vanish the sequence is a polynomial of degree below m. *)
Lemma deltas_zero_poly m : forall n b,
  (forall l, (l < n)%nat -> rdeltas m b l = 0) ->
  exists f, poly m f /\ forall i, (i < n + m)%nat -> b i = f i.
Proof.
  induction m; intros n b H.
  - exists (fun _ => 0). split; [apply poly_zero|]. intros i Hi. apply (H i). lia.
  - destruct (IHm n (fun i => b (S i) - b i)) as [g [Hg Eg]].
    { exact H. }
    exists (fun i => b O * 1 + rsum i g). split.
    + apply poly_add.
      * apply poly_scale. apply poly_ext with (f := fun i => INR i ^ 0); [reflexivity|].
        apply poly_pow_le. lia.
      * now apply poly_partial_sum.
    + induction i; intros Hi.
      * unfold nsum. simpl. ring.
      * rewrite rsum_S, <- Eg by lia. rewrite <- Rplus_assoc, <- IHi by lia. ring.
Qed.

Lemma is_poly_iff n m b : (m <= n)%nat ->
  (forall l, (l < n - m)%nat -> rdeltas m b l = 0) <-> is_poly n m b.
Proof.
  intros Hmn. split.
  - intros H. destruct (deltas_zero_poly m (n - m) b H) as [f [[a Ha] Ef]].
    exists a. intros i Hi. rewrite Ef by lia. apply Ha.
  - intros [a Ha] l Hl.
    rewrite (deltas_ext m (n - m) b (fun i => rsum m (fun k => a k * INR i ^ k))).
    + apply deltas_poly. now exists a.
    + intros i Hi. apply Ha. lia.
    + assumption.
Qed.
