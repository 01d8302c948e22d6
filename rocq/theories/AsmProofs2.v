(** Derivatives of a log-likelihood of linear predictors with respect to the coefficients. *)

From Coq Require Import Reals List Lra Lia Arith Bool FunctionalExtensionality.
From Coquelicot Require Import Coquelicot.
From Verif Require Import GlsModel GlsSpec GlsProofs MvnProofs AsmModel AsmSpec AsmProofs.
Import ListNotations.
Local Open Scope R_scope.

Lemma is_derive_affine (g : R -> R) (e0 x t0 v : R) : is_derive g e0 v -> is_derive (fun t => g (e0 + x * (t - t0))) t0 (x * v).
Proof.
  intros H. assert (E : e0 = e0 + x * (t0 - t0)) by ring.
  apply (is_derive_comp g (fun t => e0 + x * (t - t0))).
  - now rewrite <- E.
  - auto_derive; [exact I|ring].
Qed.

Lemma locally_affine (P : R -> Prop) (e0 x t0 : R) : locally e0 P -> locally t0 (fun t => P (e0 + x * (t - t0))).
Proof.
  intros H. assert (C : continuous (fun t => e0 + x * (t - t0)) t0).
  { apply (ex_derive_continuous (fun t => e0 + x * (t - t0))). auto_derive. exact I. }
  apply (C P). now replace (e0 + x * (t0 - t0)) with e0 by ring.
Qed.

Lemma locally_all (n : nat) (P : nat -> R -> Prop) (t0 : R) :
  (forall r, (r < n)%nat -> locally t0 (P r)) -> locally t0 (fun t => forall r, (r < n)%nat -> P r t).
Proof.
  induction n as [|n IH]; intros H.
  - apply filter_forall. intros t r Hr. lia.
  - assert (A : locally t0 (fun t => forall r, (r < n)%nat -> P r t)) by (apply IH; intros; apply H; lia).
    generalize (filter_and _ _ A (H n (Nat.lt_succ_diag_r n))). apply filter_imp. intros t [A1 A2] r Hr.
    destruct (Nat.eq_dec r n) as [->|N]; [assumption|]. apply A1. lia.
Qed.

Section Loglik.
Variables (n m : nat) (l : nat -> (nat -> R) -> R) (D1 : nat -> nat -> (nat -> R) -> R) (D2 : nat -> nat -> nat -> (nat -> R) -> R).
Variables (Dom : nat -> (nat -> R) -> Prop) (cols : nat -> nat) (X : nat -> nat -> nat -> R).
Hypothesis Hopen : forall r e i, Dom r e -> locally (e i) (fun t => Dom r (upd e i t)).
Hypothesis H1 : forall r e i, (r < n)%nat -> (i < m)%nat -> Dom r e -> partial (l r) i e (D1 i r e).
Hypothesis H2 : forall r e i j, (r < n)%nat -> (i < m)%nat -> (j < m)%nat -> Dom r e -> partial (D1 i r) j e (D2 i j r e).

Lemma off_step i j : (i < j)%nat -> (offset cols i + cols i <= offset cols j)%nat.
Proof. induction j as [|j IH]; intros H; [lia|]. cbn [offset]. destruct (Nat.eq_dec i j) as [->|N]; [lia|]. specialize (IH ltac:(lia)). lia. Qed.

Lemma predictor_upd beta r i a t : (a < cols i)%nat ->
  predictor cols X (upd beta (a + offset cols i) t) r =
  upd (predictor cols X beta r) i (predictor cols X beta r i + X i r a * (t - beta (a + offset cols i)%nat)).
Proof.
  intros Ha. apply functional_extensionality. intros k. unfold upd at 2. destruct (Nat.eqb_spec k i) as [->|N].
  - unfold predictor. transitivity (sumf (cols i) (fun c => X i r c * beta (offset cols i + c)%nat + (if (c =? a)%nat then X i r a * (t - beta (a + offset cols i)%nat) else 0))).
    + apply sumf_ext. intros c Hc. unfold upd. destruct (Nat.eqb_spec c a) as [->|Nc].
      * replace (offset cols i + a)%nat with (a + offset cols i)%nat by lia. rewrite Nat.eqb_refl. ring.
      * rewrite (proj2 (Nat.eqb_neq (offset cols i + c) (a + offset cols i))) by lia. ring.
    + rewrite sumf_plus. f_equal. rewrite (sumf_single _ _ a Ha); [now rewrite Nat.eqb_refl|].
      intros c _ Nc. now rewrite (proj2 (Nat.eqb_neq c a)).
  - unfold predictor. apply sumf_ext. intros c Hc. unfold upd.
    rewrite (proj2 (Nat.eqb_neq (offset cols k + c) (a + offset cols i))); [reflexivity|].
    destruct (lt_eq_lt_dec k i) as [[L|E]|L]; [|contradiction|].
    + pose proof (off_step k i L). lia.
    + pose proof (off_step i k L). lia.
Qed.

Definition all_dom (beta : nat -> R) : Prop := forall r, (r < n)%nat -> Dom r (predictor cols X beta r).

Lemma all_dom_near beta i a : (a < cols i)%nat -> all_dom beta ->
  locally (beta (a + offset cols i)%nat) (fun t => all_dom (upd beta (a + offset cols i) t)).
Proof.
  intros Ha HD. apply locally_all. intros r Hr.
  pose proof (Hopen r _ i (HD r Hr)) as L.
  apply (locally_affine _ _ (X i r a) (beta (a + offset cols i)%nat)) in L.
  revert L. apply filter_imp. intros t Ht. now rewrite predictor_upd.
Qed.

Definition slope (beta : nat -> R) (i a : nat) : R := sumf n (fun r => D1 i r (predictor cols X beta r) * X i r a).

Lemma loglik_partial beta i a : (i < m)%nat -> (a < cols i)%nat -> all_dom beta ->
  partial (loglik n l cols X) (a + offset cols i) beta (slope beta i a).
Proof.
  intros Hi Ha HD. unfold partial, loglik, slope.
  apply is_derive_sumf. intros r Hr.
  apply is_derive_ext with (fun t => l r (upd (predictor cols X beta r) i (predictor cols X beta r i + X i r a * (t - beta (a + offset cols i)%nat)))).
  { intros t. now rewrite predictor_upd. }
  rewrite Rmult_comm. apply (is_derive_affine (fun s => l r (upd (predictor cols X beta r) i s))).
  apply H1; [assumption|assumption|]. now apply HD.
Qed.

Lemma slope_partial beta i a j b : (i < m)%nat -> (j < m)%nat -> (b < cols j)%nat -> all_dom beta ->
  is_derive (fun t => slope (upd beta (b + offset cols j) t) i a) (beta (b + offset cols j)%nat)
    (sumf n (fun r => D2 i j r (predictor cols X beta r) * X i r a * X j r b)).
Proof.
  intros Hi Hj Hb HD. unfold slope. apply is_derive_sumf. intros r Hr.
  apply is_derive_ext with (fun t => D1 i r (upd (predictor cols X beta r) j (predictor cols X beta r j + X j r b * (t - beta (b + offset cols j)%nat))) * X i r a).
  { intros t. now rewrite predictor_upd. }
  apply is_derive_eq with (X j r b * D2 i j r (predictor cols X beta r) * X i r a); [|ring].
  apply (is_derive_scal_l (fun t => D1 i r (upd (predictor cols X beta r) j (predictor cols X beta r j + X j r b * (t - beta (b + offset cols j)%nat)))) (beta (b + offset cols j)%nat) (X j r b * D2 i j r (predictor cols X beta r)) (X i r a)).
  apply (is_derive_affine (fun s => D1 i r (upd (predictor cols X beta r) j s))).
  apply H2; [assumption|assumption|assumption|]. now apply HD.
Qed.

Lemma loglik_second beta i a j b : (i < m)%nat -> (a < cols i)%nat -> (j < m)%nat -> (b < cols j)%nat -> all_dom beta ->
  second (loglik n l cols X) (a + offset cols i) (b + offset cols j) beta
    (sumf n (fun r => D2 i j r (predictor cols X beta r) * X i r a * X j r b)).
Proof.
  intros Hi Ha Hj Hb HD. unfold second.
  apply is_derive_ext_loc with (fun t => slope (upd beta (b + offset cols j) t) i a).
  - generalize (all_dom_near beta j b Hb HD). apply filter_imp. intros t Ht. symmetry.
    apply is_derive_unique. now apply loglik_partial.
  - now apply slope_partial.
Qed.
End Loglik.

(** The code's gradient. *)
Lemma row_sum_sumf n f : row_sum n f = sumf n f.
Proof. unfold row_sum. apply (total_sumf n f). Qed.

Section Gradient.
Variables (n : nat) (d1eta : nat -> nat -> R) (Xs : list matrix).
Let grow (i : nat) := map (fun c => row_sum n (fun r => d1eta i r * entry (X_ Xs i) r c)) (seq 0 (cols_ Xs i)).

Lemma gradient_prefix k : length (flat_map grow (seq 0 k)) = offset (cols_ Xs) k.
Proof.
  induction k as [|k IH]; [reflexivity|]. rewrite seq_S, flat_map_app, app_length, IH. cbn [flat_map]. rewrite app_nil_r.
  unfold grow. rewrite map_length, seq_length. reflexivity.
Qed.

Lemma gradient_length : length (gradient n d1eta Xs) = offset (cols_ Xs) (length Xs).
Proof. apply gradient_prefix. Qed.

Lemma gradient_nth i a : (i < length Xs)%nat -> (a < cols_ Xs i)%nat ->
  nth (a + offset (cols_ Xs) i) (gradient n d1eta Xs) 0 = sumf n (fun r => d1eta i r * entry (X_ Xs i) r a).
Proof.
  intros Hi Ha. change (gradient n d1eta Xs) with (flat_map grow (seq 0 (length Xs))).
  replace (length Xs) with (i + S (length Xs - S i))%nat by lia. rewrite seq_app, flat_map_app.
  rewrite app_nth2 by (rewrite gradient_prefix; lia). rewrite gradient_prefix. replace (a + offset (cols_ Xs) i - offset (cols_ Xs) i)%nat with a by lia.
  cbn [seq flat_map plus]. unfold grow at 1. rewrite app_nth1 by (rewrite map_length, seq_length; exact Ha).
  rewrite (nth_indep _ 0 (row_sum n (fun r => d1eta i r * entry (X_ Xs i) r 0%nat))) by (rewrite map_length, seq_length; exact Ha).
  rewrite (map_nth (fun c => row_sum n (fun r => d1eta i r * entry (X_ Xs i) r c))). rewrite seq_nth by exact Ha. apply row_sum_sumf.
Qed.
End Gradient.
