From Coq Require Import Reals List Bool Arith Lia Lra Wf_nat.
From Coquelicot Require Import Coquelicot.
From Verif Require Import GlsModel GlsSpec GlsProofs GlsProofs2 GlsProofs3 MvnModel MvnProofs HazProofs.
From Verif Require Import DchModel DchSpec DchProofs.
Import ListNotations.
Local Open Scope R_scope.

Lemma sumf_minus n f g : sumf n (fun i => f i - g i) = sumf n f - sumf n g.
Proof. induction n as [|n IH]; cbn; [ring|rewrite IH; ring]. Qed.

(** ** Triangular systems *)
Section Tri.
Variables (n : nat) (M : nat -> nat -> R).
Hypothesis up : upper M.
Hypothesis nz : forall i, (i < n)%nat -> M i i <> 0.

Lemma back_zero (x : nat -> R) :
  (forall i, (i < n)%nat -> sumf n (fun k => M i k * x k) = 0) -> forall i, (i < n)%nat -> x i = 0.
Proof.
  intros e; assert (G : forall d i, (n - i = d)%nat -> (i < n)%nat -> x i = 0).
  { induction d as [d IH] using lt_wf_ind; intros i Ed Hi; pose proof (e i Hi) as E.
    rewrite (sumf_from n i) in E by (auto; intros k Hk; rewrite up by lia; ring).
    rewrite (sumf_zero (n - S i)) in E.
    - pose proof (nz i Hi); rewrite Rplus_0_r in E; destruct (Rmult_integral _ _ E); tauto.
    - intros k Hk; rewrite (IH (n - (S i + k))%nat) by lia; ring. }
  intros i Hi; apply (G (n - i)%nat); auto.
Qed.

Lemma prod_assoc (A B C : nat -> nat -> R) i j :
  prod n (prod n A B) C i j = prod n A (prod n B C) i j.
Proof.
  unfold prod; transitivity (sumf n (fun k => sumf n (fun l => A i l * B l k * C k j))).
  - apply sumf_ext; intros k Hk; rewrite Rmult_comm, <- sumf_scal; apply sumf_ext; intros; ring.
  - rewrite sumf_swap; apply sumf_ext; intros k Hk; rewrite <- sumf_scal; apply sumf_ext; intros; ring.
Qed.

Lemma prod_ext (A A' B B' : nat -> nat -> R) i j :
  (forall k, (k < n)%nat -> A i k = A' i k) -> (forall k, (k < n)%nat -> B k j = B' k j) ->
  prod n A B i j = prod n A' B' i j.
Proof. intros a b; apply sumf_ext; intros k Hk; rewrite a, b by auto; reflexivity. Qed.

Lemma prod_ident_l (B : nat -> nat -> R) i j : (i < n)%nat -> prod n ident B i j = B i j.
Proof.
  intros Hi; unfold prod, ident; rewrite (sumf_single n _ i Hi).
  - rewrite Nat.eqb_refl; ring.
  - intros k _ N; destruct (Nat.eqb_spec i k); [lia|ring].
Qed.

Lemma prod_ident_r (A : nat -> nat -> R) i j : (j < n)%nat -> prod n A ident i j = A i j.
Proof.
  intros Hj; unfold prod, ident; rewrite (sumf_single n _ j Hj).
  - rewrite Nat.eqb_refl; ring.
  - intros k _ N; destruct (Nat.eqb_spec k j); [lia|ring].
Qed.

Variable Mi : nat -> nat -> R.
Hypothesis inv : inverse n M Mi.

(** A right inverse of a triangular matrix is a left inverse. *)
Lemma left_inverse i j : (i < n)%nat -> (j < n)%nat -> prod n Mi M i j = ident i j.
Proof.
  intros Hi Hj; apply Rminus_diag_uniq.
  apply (back_zero (fun k => prod n Mi M k j - ident k j)); [|exact Hi].
  intros r Hr.
  transitivity (prod n M (prod n Mi M) r j - prod n M ident r j).
  { set (a := prod n Mi M); change (sumf n (fun k => M r k * (a k j - ident k j)) =
      sumf n (fun k => M r k * a k j) - sumf n (fun k => M r k * ident k j)).
    rewrite <- sumf_minus; apply sumf_ext; intros; ring. }
  rewrite prod_ident_r, <- prod_assoc by auto.
  rewrite (prod_ext _ ident _ M) by (intros; auto; apply inv; auto).
  rewrite prod_ident_l by auto; ring.
Qed.

(** The inverse is triangular too. *)
Lemma inv_upper i j : (i < n)%nat -> (j < i)%nat -> Mi i j = 0.
Proof.
  assert (G : forall d i, (n - i = d)%nat -> (i < n)%nat -> (j < i)%nat -> Mi i j = 0).
  { induction d as [d IH] using lt_wf_ind; intros r Ed Hr L.
    pose proof (inv r j Hr ltac:(lia)) as E; unfold prod, ident in E.
    destruct (Nat.eqb_spec r j); [lia|].
    rewrite (sumf_from n r) in E by (auto; intros k Hk; rewrite up by lia; ring).
    rewrite (sumf_zero (n - S r)) in E.
    - pose proof (nz r Hr); rewrite Rplus_0_r in E; destruct (Rmult_integral _ _ E); tauto.
    - intros k Hk; rewrite (IH (n - (S r + k))%nat) by lia; ring. }
  intros Hi L; apply (G (n - i)%nat); auto.
Qed.

Lemma prod_upper (A B : nat -> nat -> R) i j :
  (forall i j, (i < n)%nat -> (j < i)%nat -> A i j = 0) ->
  (forall i j, (i < n)%nat -> (j < i)%nat -> B i j = 0) ->
  (i < n)%nat -> (j < i)%nat -> prod n A B i j = 0.
Proof.
  intros a b Hi L; apply sumf_zero; intros k Hk; destruct (le_lt_dec i k) as [G|G].
  - rewrite (b k j) by lia; ring.
  - rewrite (a i k) by lia; ring.
Qed.

(** M^T M x = b is solved by Mi Mi^T b. *)
Lemma solve_gram (x b : nat -> R) :
  (forall i, (i < n)%nat -> sumf n (fun j => sumf n (fun k => M k i * M k j) * x j) = b i) ->
  forall i, (i < n)%nat -> x i = sumf n (fun k => Mi i k * sumf n (fun l => Mi l k * b l)).
Proof.
  intros e i Hi.
  set (y := fun k => sumf n (fun j => M k j * x j)).
  assert (ey : forall i, (i < n)%nat -> sumf n (fun k => M k i * y k) = b i).
  { intros r Hr; rewrite <- (e r Hr); unfold y.
    transitivity (sumf n (fun k => sumf n (fun j => M k r * M k j * x j))).
    - apply sumf_ext; intros k Hk; rewrite <- sumf_scal; apply sumf_ext; intros; ring.
    - rewrite sumf_swap; apply sumf_ext; intros k Hk; rewrite Rmult_comm, <- sumf_scal.
      apply sumf_ext; intros; ring. }
  assert (yk : forall k, (k < n)%nat -> y k = sumf n (fun l => Mi l k * b l)).
  { intros k Hk; transitivity (sumf n (fun l => sumf n (fun m => Mi l k * M m l * y m))).
    - rewrite sumf_swap; rewrite (sumf_single n _ k Hk).
      + transitivity (prod n M Mi k k * y k); [rewrite (inv k k Hk Hk); unfold ident; rewrite Nat.eqb_refl; ring|].
        unfold prod; rewrite Rmult_comm, <- sumf_scal; apply sumf_ext; intros; ring.
      + intros m Hm N; transitivity (prod n M Mi m k * y m).
        * unfold prod; rewrite Rmult_comm, <- sumf_scal; apply sumf_ext; intros; ring.
        * rewrite (inv m k Hm Hk); unfold ident; destruct (Nat.eqb_spec m k); [lia|ring].
    - apply sumf_ext; intros l Hl; rewrite <- (ey l Hl), <- sumf_scal; apply sumf_ext; intros; ring. }
  transitivity (sumf n (fun k => Mi i k * y k)); [|apply sumf_ext; intros; rewrite yk by auto; reflexivity].
  unfold y; transitivity (sumf n (fun k => sumf n (fun j => Mi i k * M k j * x j))).
  - rewrite sumf_swap, (sumf_single n _ i Hi).
    + transitivity (prod n Mi M i i * x i); [rewrite (left_inverse i i Hi Hi); unfold ident; rewrite Nat.eqb_refl; ring|].
      unfold prod; rewrite Rmult_comm, <- sumf_scal; apply sumf_ext; intros; ring.
    + intros j Hj N; transitivity (prod n Mi M i j * x j).
      * unfold prod; rewrite Rmult_comm, <- sumf_scal; apply sumf_ext; intros; ring.
      * rewrite (left_inverse i j Hi Hj); unfold ident; destruct (Nat.eqb_spec i j); [lia|ring].
  - apply sumf_ext; intros k Hk; rewrite <- sumf_scal; apply sumf_ext; intros; ring.
Qed.
End Tri.

Lemma mmul_prod n A B i j : mmul n A B i j = prod n A B i j.
Proof. unfold mmul, prod; apply nsum_sumf. Qed.

Lemma invdchol_prod n M Mi A i j : (i < n)%nat -> (j < n)%nat ->
  invdchol n M Mi A i j = prod n (prod n Mi (dchol n M A)) Mi i j.
Proof.
  intros; unfold invdchol; rewrite mmul_prod; apply prod_ext; intros; rewrite ?mmul_prod; reflexivity.
Qed.

(** ** The derivative of the inverse factor *)
Section InvDerive.
Variable n : nat.
Variables (T M Mi : R -> nat -> nat -> R) (t0 : R) (T' : nat -> nat -> R).
Hypothesis fac : locally t0 (fun t => chol_factor n (T t) (M t)).
Hypothesis dT : mat_derive n T t0 T'.
Hypothesis inv : locally t0 (fun t => inverse n (M t) (Mi t)).
Let fac0 := fac0 n T M t0 fac.
Let inv0 : inverse n (M t0) (Mi t0) := locally_singleton _ _ inv.
Let up0 : upper (M t0) := proj1 fac0.
Lemma nz0 i : (i < n)%nat -> M t0 i i <> 0.
Proof. intros Hi; pose proof (proj1 (proj2 fac0) i Hi); lra. Qed.

Lemma inv_derive_family : exists V, mat_derive n Mi t0 V.
Proof.
  assert (H : forall i j, exists v, (i < n)%nat -> (j < n)%nat -> is_derive (fun t => Mi t i j) t0 v).
  { intros i j; destruct (lt_dec i n) as [Li|]; [|exists 0; lia].
    destruct (lt_dec j n) as [Lj|]; [|exists 0; lia].
    destruct (inv_derivable n T M t0 T' fac dT Mi inv (n - i) i j eq_refl Li Lj) as [v Hv]; exists v; auto. }
  exists (fun i j => Derive (fun t => Mi t i j) t0); intros i j Hi Hj.
  destruct (H i j) as [v Hv]; pose proof (Hv Hi Hj) as Hd.
  apply Derive_correct; exists v; exact Hd.
Qed.

Lemma inv_derive_value V : mat_derive n Mi t0 V ->
  forall i j, (i < n)%nat -> (j < n)%nat -> V i j = - invdchol n (M t0) (Mi t0) T' i j.
Proof.
  intros dV i j Hi Hj; set (D := dchol n (M t0) T').
  rewrite invdchol_prod by auto; fold D.
  cut (V i j + prod n (prod n (Mi t0) D) (Mi t0) i j = 0); [lra|].
  apply (back_zero n (M t0) up0 nz0 (fun k => V k j + prod n (prod n (Mi t0) D) (Mi t0) k j)); [|exact Hi].
  intros r Hr.
  assert (E : sumf n (fun k => D r k * Mi t0 k j + M t0 r k * V k j) = 0).
  { assert (d1 : is_derive (fun t => prod n (M t) (Mi t) r j) t0 (sumf n (fun k => D r k * Mi t0 k j + M t0 r k * V k j))).
    { apply (is_derive_sumf n (fun k t => M t r k * Mi t k j)); intros k Hk.
      apply (is_derive_mult (fun t => M t r k) (fun t => Mi t k j));
        [apply (chol_derive n T M t0 T' fac dT); auto|apply dV; auto|intros; apply Rmult_comm]. }
    assert (d2 : is_derive (fun t => prod n (M t) (Mi t) r j) t0 0).
    { apply (is_derive_ext_loc (fun _ => ident r j)).
      - refine (filter_imp _ _ _ inv); intros t I; symmetry; apply I; auto.
      - apply (is_derive_const (V := R_NormedModule)). }
    rewrite <- (is_derive_unique _ _ _ d1); apply is_derive_unique; exact d2. }
  rewrite sumf_plus in E.
  transitivity (sumf n (fun k => M t0 r k * V k j) + prod n (M t0) (prod n (prod n (Mi t0) D) (Mi t0)) r j).
  { unfold prod at 3; rewrite <- sumf_plus; apply sumf_ext; intros; ring. }
  assert (F : prod n (M t0) (prod n (prod n (Mi t0) D) (Mi t0)) r j = prod n D (Mi t0) r j).
  { rewrite <- prod_assoc; apply prod_ext; [|auto]; intros k Hk.
    rewrite <- prod_assoc; rewrite (prod_ext n _ ident _ D) by (intros; auto; apply inv0; auto).
    apply prod_ident_l; auto. }
  rewrite F; unfold prod; lra.
Qed.
End InvDerive.

(** ** computeV2 *)
Lemma sumf_tail n m f : (m <= n)%nat -> total (map f (seq m (n - m))) = sumf n f - sumf m f.
Proof.
  intros L; assert (E : sumf n f = sumf m f + total (map f (seq m (n - m)))).
  { rewrite <- !total_sumf; replace (seq 0 n) with (seq 0 m ++ seq m (n - m)).
    - rewrite map_app, total_app; reflexivity.
    - rewrite <- seq_app; f_equal; lia. }
  lra.
Qed.

Section V2.
Variables (npen n : nat) (Vpr : nat -> nat -> R) (dR : nat -> nat -> nat -> R).
Hypothesis tri : forall p i j, (p < npen)%nat -> (i < n)%nat -> (j < i)%nat -> dR p i j = 0.

Definition v2_spec (a b : nat) : R :=
  sumf npen (fun k => sumf npen (fun l => Vpr k l * sumf n (fun i => dR k a i * dR l b i))).

Lemma v2_cell_eq a b : (b < n)%nat -> v2_cell npen n Vpr dR a b = v2_spec a b.
Proof.
  intros Hb; unfold v2_cell, v2_spec; rewrite nsum_sumf.
  rewrite (sumf_swap npen npen (fun k l => Vpr k l * sumf n (fun i => dR k a i * dR l b i))).
  apply sumf_ext; intros l Hl; rewrite nsum_sumf; apply sumf_ext; intros k Hk.
  rewrite sumf_tail by lia; rewrite (sumf_zero b).
  - rewrite <- sumf_scal, Rminus_0_r; apply sumf_ext; intros; ring.
  - intros i Hi; rewrite (tri l b i) by lia; ring.
Qed.

Hypothesis sym : forall k l, (k < npen)%nat -> (l < npen)%nat -> Vpr k l = Vpr l k.

Lemma computeV2_eq a b : (a < n)%nat -> (b < n)%nat -> computeV2 npen n Vpr dR a b = v2_spec a b.
Proof.
  intros Ha Hb; unfold computeV2; destruct (Nat.leb_spec a b); [apply v2_cell_eq; auto|].
  rewrite v2_cell_eq by auto; unfold v2_spec.
  rewrite (sumf_swap npen npen (fun k l => Vpr k l * sumf n (fun i => dR k b i * dR l a i))).
  apply sumf_ext; intros l Hl; apply sumf_ext; intros k Hk; rewrite (sym k l) by auto; f_equal.
  apply sumf_ext; intros; ring.
Qed.
End V2.
