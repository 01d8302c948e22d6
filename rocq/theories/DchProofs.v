From Coq Require Import Reals List Bool Arith Lia Lra Wf_nat.
From Coquelicot Require Import Coquelicot.
From Verif Require Import GlsModel GlsSpec GlsProofs GlsProofs2 GlsProofs3 MvnModel MvnProofs HazProofs.
From Verif Require Import DchModel DchSpec.
Import ListNotations.
Local Open Scope R_scope.

Lemma sumf_cut n m f : (m <= n)%nat -> (forall k, (m <= k < n)%nat -> f k = 0) -> sumf n f = sumf m f.
Proof.
  induction n as [|n IH]; intros L Z; [replace m with 0%nat by lia; reflexivity|].
  destruct (Nat.eq_dec m (S n)) as [->|N]; [reflexivity|].
  cbn [sumf]; rewrite IH by (intros; try apply Z; lia); rewrite (Z n) by lia; ring.
Qed.

Lemma half b r : 0.5 * b / r = b / (2 * r).
Proof. unfold Rdiv; rewrite Rinv_mult; lra. Qed.

(** ** The recurrence *)
Section Dchol.
Variables (n : nat) (M A : nat -> nat -> R).

Definition Bf (dC : nat -> nat -> R) (i j : nat) : R :=
  A i j - sumf i (fun k => dC k i * M k j + M k i * dC k j).

Lemma dchol_B_eq dC i j : dchol_B M A dC i j = Bf dC i j.
Proof.
  unfold dchol_B, Bf; destruct (Nat.ltb_spec 0 i); [rewrite nsum_sumf; reflexivity|].
  replace i with 0%nat by lia; cbn; ring.
Qed.

Lemma Bf_ext dC dC' i j : (forall k c, (k < i)%nat -> dC k c = dC' k c) -> Bf dC i j = Bf dC' i j.
Proof. intros E; unfold Bf; f_equal; apply sumf_ext; intros k Hk; rewrite !E by lia; reflexivity. Qed.

(** What the row must look like. *)
Definition row_ok (dC : nat -> nat -> R) (i : nat) : Prop :=
  (forall j, (j < i)%nat -> dC i j = 0) /\
  dC i i = Bf dC i i / (2 * M i i) /\
  (forall j, (i < j)%nat -> dC i j = (Bf dC i j - M i j * dC i i) / M i i).

Lemma dchol_loop k :
  let dC := fold_left (dchol_row M A) (seq 0 k) (fun _ _ => 0) in
  (forall i, (i < k)%nat -> row_ok dC i) /\ (forall i j, (k <= i)%nat -> dC i j = 0).
Proof.
  induction k as [|k [IH Z]]; cbn zeta in *; [split; [lia|reflexivity]|].
  rewrite seq_S, fold_left_app; cbn [fold_left]; change (0 + k)%nat with k.
  set (dC := fold_left _ _ _) in *; clearbody dC.
  assert (old : forall r j, r <> k -> dchol_row M A dC k r j = dC r j).
  { intros r j N; unfold dchol_row; destruct (Nat.eqb_spec r k); [lia|reflexivity]. }
  split.
  - intros i Hi; destruct (Nat.eq_dec i k) as [->|N].
    + assert (E : forall j, Bf (dchol_row M A dC k) k j = Bf dC k j).
      { intros j; apply Bf_ext; intros; apply old; lia. }
      assert (D : dchol_row M A dC k k k = Bf dC k k / (2 * M k k)).
      { unfold dchol_row; rewrite Nat.eqb_refl, Nat.leb_refl; cbn; rewrite dchol_B_eq.
        apply half. }
      split; [|split].
      * intros j Hj; unfold dchol_row; rewrite Nat.eqb_refl.
        destruct (Nat.leb_spec k j) as [|]; [lia|]; cbn [andb]; apply Z; lia.
      * rewrite E; exact D.
      * intros j Hj; rewrite E, D; unfold dchol_row; rewrite Nat.eqb_refl.
        destruct (Nat.leb_spec k j); [|lia]; cbn; destruct (Nat.eqb_spec k j); [lia|].
        rewrite !dchol_B_eq, half; reflexivity.
    + destruct (IH i ltac:(lia)) as [R1 [R2 R3]].
      assert (E : forall j, Bf (dchol_row M A dC k) i j = Bf dC i j).
      { intros j; apply Bf_ext; intros; apply old; lia. }
      split; [|split]; intros; rewrite ?E, !old by lia; [apply R1; lia|exact R2|apply R3; lia].
  - intros i j Hi; rewrite old by lia; apply Z; lia.
Qed.

Lemma dchol_rows i : (i < n)%nat -> row_ok (dchol n M A) i.
Proof. intros Hi; apply (dchol_loop n); exact Hi. Qed.

Lemma dchol_upper : upper (dchol n M A).
Proof.
  intros i j Hj; destruct (lt_dec i n) as [L|G].
  - apply (dchol_rows i L); exact Hj.
  - apply (dchol_loop n); lia.
Qed.

Hypothesis up : upper M.
Hypothesis nz : forall i, (i < n)%nat -> M i i <> 0.

(** The defining equation, first on and above the diagonal. *)
Lemma cross_sum (D : nat -> nat -> R) i j : upper D -> (i <= j)%nat -> (i < n)%nat ->
  sumf n (fun k => D k i * M k j + M k i * D k j)
  = sumf i (fun k => D k i * M k j + M k i * D k j) + (D i i * M i j + M i i * D i j).
Proof.
  intros uD L Hi; rewrite (sumf_cut n (S i)); [reflexivity|lia|].
  intros k Hk; rewrite (uD k i), (up k i) by lia; ring.
Qed.

Lemma dchol_eq_upper i j : (i <= j)%nat -> (i < n)%nat ->
  sumf n (fun k => dchol n M A k i * M k j + M k i * dchol n M A k j) = A i j.
Proof.
  intros L Hi; rewrite cross_sum by (auto using dchol_upper).
  destruct (dchol_rows i Hi) as [_ [D R3]]; pose proof (nz i Hi).
  destruct (Nat.eq_dec i j) as [<-|N].
  - rewrite D; unfold Bf; field; auto.
  - rewrite (R3 j) by lia; unfold Bf; field; auto.
Qed.

Hypothesis sym : forall i j, (i < n)%nat -> (j < n)%nat -> A i j = A j i.

Lemma dchol_eq i j : (i < n)%nat -> (j < n)%nat ->
  sumf n (fun k => dchol n M A k i * M k j + M k i * dchol n M A k j) = A i j.
Proof.
  intros Hi Hj; destruct (le_lt_dec i j) as [L|L]; [apply dchol_eq_upper; auto|].
  rewrite sym, <- (dchol_eq_upper j i) by lia; apply sumf_ext; intros; ring.
Qed.

(** It has no other upper triangular solution. *)
Lemma dchol_unique (X : nat -> nat -> R) : upper X ->
  (forall i j, (i < n)%nat -> (j < n)%nat -> sumf n (fun k => X k i * M k j + M k i * X k j) = A i j) ->
  forall i j, (i < n)%nat -> (j < n)%nat -> X i j = dchol n M A i j.
Proof.
  intros uX eX i; induction i as [i IH] using lt_wf_ind; intros j Hi Hj.
  pose proof (nz i Hi) as Rn; destruct (dchol_rows i Hi) as [R1 [R2 R3]].
  assert (Bx : forall j, (j < n)%nat -> Bf X i j = Bf (dchol n M A) i j).
  { intros c Hc; unfold Bf; f_equal; apply sumf_ext; intros k Hk; rewrite !IH by lia; reflexivity. }
  assert (diag : X i i = dchol n M A i i).
  { pose proof (eX i i Hi Hi) as E; rewrite cross_sum in E by auto; rewrite R2, <- (Bx i Hi); unfold Bf.
    rewrite <- E; field; auto. }
  destruct (lt_eq_lt_dec j i) as [[L|Eij]|G]; [rewrite R1, uX by lia; reflexivity|rewrite Eij; exact diag|].
  pose proof (eX i j Hi Hj) as E; rewrite cross_sum in E by (auto; lia).
  rewrite R3, <- (Bx j Hj), <- diag by lia; unfold Bf; rewrite <- E; field; auto.
Qed.
End Dchol.

(** ** It is the derivative of the factor *)
Section Derive.
Variable n : nat.
Variables (T M : R -> nat -> nat -> R) (t0 : R) (T' : nat -> nat -> R).
Hypothesis fac : locally t0 (fun t => chol_factor n (T t) (M t)).
Hypothesis dT : mat_derive n T t0 T'.

Let M0 := M t0.
Lemma fac0 : chol_factor n (T t0) M0.
Proof. apply (locally_singleton _ _ fac). Qed.

Lemma factor_sum t i j : chol_factor n (T t) (M t) -> (i <= j < n)%nat ->
  sumf i (fun k => M t k i * M t k j) + M t i i * M t i j = T t i j.
Proof.
  intros [u [_ e]] L; rewrite <- e by lia; symmetry; rewrite (sumf_cut n (S i)); [reflexivity|lia|].
  intros k Hk; rewrite (u k i) by lia; ring.
Qed.

Lemma sqrt_derive (f : R -> R) (x a : R) : is_derive f x a -> 0 < f x ->
  is_derive (fun s => sqrt (f s)) x (a / (2 * sqrt (f x))).
Proof.
  intros d p; apply (is_derive_eq _ _ (scal a (/ (2 * sqrt (f x))))); [|reflexivity].
  apply (is_derive_comp sqrt f); [|exact d]. apply is_derive_Reals. apply derivable_pt_lim_sqrt; exact p.
Qed.

Lemma cross_derive i j (D : nat -> nat -> R) : (i < n)%nat -> (j < n)%nat ->
  (forall k, (k < i)%nat -> is_derive (fun t => M t k i) t0 (D k i)) ->
  (forall k, (k < i)%nat -> is_derive (fun t => M t k j) t0 (D k j)) ->
  is_derive (fun t => T t i j - sumf i (fun k => M t k i * M t k j)) t0
    (T' i j - sumf i (fun k => D k i * M0 k j + M0 k i * D k j)).
Proof.
  intros Hi Hj d1 d2; apply (is_derive_minus (fun t => T t i j) (fun t => sumf i (fun k => M t k i * M t k j))).
  - apply dT; auto.
  - apply (is_derive_sumf i (fun k t => M t k i * M t k j)); intros k Hk.
    apply (is_derive_mult (fun t => M t k i) (fun t => M t k j)); auto; intros; apply Rmult_comm.
Qed.

Lemma chol_derive : forall i j, (i < n)%nat -> (j < n)%nat ->
  is_derive (fun t => M t i j) t0 (dchol n M0 T' i j).
Proof.
  intros i; induction i as [i IH] using lt_wf_ind; intros j Hi Hj.
  set (D := dchol n M0 T'); destruct (dchol_rows n M0 T' i Hi) as [R1 [R2 R3]]; fold D in R1, R2, R3.
  destruct fac0 as [u0 [pos0 e0]].
  assert (diag : is_derive (fun t => M t i i) t0 (D i i)).
  { apply (is_derive_ext_loc (fun t => sqrt (T t i i - sumf i (fun k => M t k i * M t k i)))).
    - refine (filter_imp _ _ _ fac); intros t F; rewrite <- (factor_sum t i i F) by lia.
      replace (_ + _ - _) with (M t i i * M t i i) by ring.
      apply sqrt_square; left; apply F; exact Hi.
    - assert (S0 : T t0 i i - sumf i (fun k => M t0 k i * M t0 k i) = M0 i i * M0 i i).
      { rewrite <- (factor_sum t0 i i fac0) by lia; fold M0; ring. }
      eapply is_derive_eq.
      + apply sqrt_derive; [apply (cross_derive i i D); auto; intros; apply IH; lia|].
        rewrite S0; apply Rmult_lt_0_compat; apply pos0; exact Hi.
      + cbv beta; rewrite S0, sqrt_square by (left; apply pos0; exact Hi).
        rewrite R2; unfold Bf; reflexivity. }
  destruct (lt_eq_lt_dec j i) as [[L|Eij]|G]; [|rewrite Eij; exact diag|].
  - rewrite R1 by lia; apply (is_derive_ext_loc (fun _ => 0)).
    + refine (filter_imp _ _ _ fac); intros t [u _]; symmetry; apply u; exact L.
    + apply (is_derive_const (V := R_NormedModule)).
  - assert (nz : M0 i i <> 0) by (pose proof (pos0 i Hi); lra).
    apply (is_derive_ext_loc (fun t => (T t i j - sumf i (fun k => M t k i * M t k j)) / M t i i)).
    + refine (filter_imp _ _ _ fac); intros t F; rewrite <- (factor_sum t i j F) by lia.
      destruct F as [_ [p _]]; pose proof (p i Hi); req; field; lra.
    + eapply is_derive_eq.
      * apply div_derive; [apply (cross_derive i j D); auto; intros; apply IH; lia|exact diag|exact nz].
      * cbv beta; fold M0; rewrite (R3 j G); unfold Bf.
        replace (T t0 i j) with (sumf i (fun k => M0 k i * M0 k j) + M0 i i * M0 i j)
          by (apply (factor_sum t0 i j fac0); lia).
        fold M0; field; exact nz.
Qed.

(** ** and of its inverse, up to sign *)
Variable Mi : R -> nat -> nat -> R.
Hypothesis inv : locally t0 (fun t => inverse n (M t) (Mi t)).

Lemma sumf_from m i f : (i < m)%nat -> (forall k, (k < i)%nat -> f k = 0) ->
  sumf m f = f i + sumf (m - S i) (fun k => f (S i + k)%nat).
Proof.
  induction m as [|m IH]; intros L Z; [lia|].
  destruct (Nat.eq_dec i m) as [->|N].
  - cbn [sumf]; rewrite Nat.sub_diag; cbn; rewrite (sumf_zero m f) by auto; ring.
  - cbn [sumf]; rewrite IH by (auto; lia); replace (S m - S i)%nat with (S (m - S i)) by lia.
    cbn [sumf]; replace (S i + (m - S i))%nat with m by lia; ring.
Qed.

Lemma inv_entry t i j : chol_factor n (T t) (M t) -> inverse n (M t) (Mi t) -> (i < n)%nat -> (j < n)%nat ->
  Mi t i j = (ident i j - sumf (n - S i) (fun k => M t i (S i + k)%nat * Mi t (S i + k)%nat j)) / M t i i.
Proof.
  intros [u [p _]] v Hi Hj; rewrite <- (v i j) by auto; unfold prod.
  rewrite (sumf_from n i) by (auto; intros k Hk; rewrite u by lia; ring).
  pose proof (p i Hi); field; lra.
Qed.

Lemma inv_derivable d : forall i j, (n - i = d)%nat -> (i < n)%nat -> (j < n)%nat ->
  exists v, is_derive (fun t => Mi t i j) t0 v.
Proof.
  induction d as [d IH] using lt_wf_ind; intros i j Ed Hi Hj.
  assert (dk : forall k, exists v, (k < n - S i)%nat -> is_derive (fun t => Mi t (S i + k)%nat j) t0 v).
  { intros k; destruct (lt_dec k (n - S i)) as [L|]; [|exists 0; lia].
    destruct (IH (n - (S i + k))%nat ltac:(lia) (S i + k)%nat j ltac:(lia) ltac:(lia) Hj) as [v Hv].
    exists v; auto. }
  assert (fam : exists g : nat -> R, forall k, (k < n - S i)%nat -> is_derive (fun t => Mi t (S i + k)%nat j) t0 (g k)).
  { clear - dk; induction (n - S i)%nat as [|m IHm]; [exists (fun _ => 0); lia|].
    destruct IHm as [g Hg]; [intros k; destruct (dk k) as [v Hv]; exists v; intros; apply Hv; lia|].
    destruct (dk m) as [v Hv]; exists (fun k => if (k =? m)%nat then v else g k); intros k Hk.
    destruct (Nat.eqb_spec k m) as [->|N]; [apply Hv; lia|apply Hg; lia]. }
  destruct fam as [g Hg].
  eexists; apply (is_derive_ext_loc (fun t => (ident i j - sumf (n - S i) (fun k => M t i (S i + k)%nat * Mi t (S i + k)%nat j)) / M t i i)).
  - refine (filter_imp _ _ _ (filter_and _ _ fac inv)); intros t [F V]; symmetry; apply inv_entry; auto.
  - apply (div_derive (fun t => ident i j - sumf (n - S i) (fun k => M t i (S i + k)%nat * Mi t (S i + k)%nat j)) (fun t => M t i i)).
    + apply (is_derive_minus (fun _ => ident i j) (fun t => sumf (n - S i) (fun k => M t i (S i + k)%nat * Mi t (S i + k)%nat j))).
      * apply (is_derive_const (V := R_NormedModule)).
      * apply (is_derive_sumf (n - S i) (fun k t => M t i (S i + k)%nat * Mi t (S i + k)%nat j)
                 (fun k => dchol n M0 T' i (S i + k)%nat * Mi t0 (S i + k)%nat j + M t0 i (S i + k)%nat * g k)).
        intros k Hk; apply (is_derive_mult (fun t => M t i (S i + k)%nat) (fun t => Mi t (S i + k)%nat j));
          [apply chol_derive; lia|apply Hg; exact Hk|intros; apply Rmult_comm].
    + apply chol_derive; auto.
    + destruct fac0 as [_ [p _]]; pose proof (p i Hi); fold M0; lra.
Qed.
End Derive.
