(** Lemmas for tables of parametric terms, wrapped families and the data of log-likelihoods. *)

From Coq Require Import Reals List Bool Arith ZArith Lia Lra.
From Verif Require Import FamModel ResModel ResProofs TabModel TabSpec.
Import ListNotations.
Local Open Scope R_scope.

Lemma two_tails F t : symmetric_cdf F -> (1 - F (Rabs t)) * 2 = two_sided F t /\ 0 <= two_sided F t <= 1.
Proof.
  intros [R1 M1 S1]. unfold two_sided. rewrite S1. split; [ring|].
  pose proof (R1 (Rabs t)) as A. pose proof (M1 (- Rabs t) (Rabs t) ltac:(pose proof (Rabs_pos t); lra)) as B.
  rewrite S1 in B. lra.
Qed.

Lemma signed_stat b v : 0 < v -> sign b * Rabs (b / sqrt v) = b / sqrt v.
Proof.
  intros Hv. assert (H : 0 < sqrt v) by now apply sqrt_lt_R0. unfold Rdiv. rewrite Rabs_mult, (Rabs_pos_eq (/ sqrt v))
    by (left; now apply Rinv_0_lt_compat).
  destruct (sign_cases b) as [[L ->]|[[L ->]|[L ->]]].
  - rewrite Rabs_left by assumption. ring.
  - subst b. ring.
  - rewrite Rabs_pos_eq by lra. ring.
Qed.

Lemma mark_level p : mark p = level p.
Proof.
  unfold mark, level. cbn [filter].
  destruct (Rlt_dec p (1 / 1000)), (Rlt_dec p (1 / 100)), (Rlt_dec p (5 / 100)), (Rlt_dec p (1 / 10)); try lra; reflexivity.
Qed.

Lemma nth_firstn' {A} k (l : list A) d : forall j, (j < k)%nat -> nth j (firstn k l) d = nth j l d.
Proof. revert l. induction k as [|k IH]; intros l j H; [lia|]. destruct l; [now destruct j|]. destruct j; [reflexivity|]. cbn. apply IH. lia. Qed.
Lemma nth_skipn' {A} o (l : list A) d : forall j, nth j (skipn o l) d = nth (o + j) l d.
Proof. revert l. induction o as [|o IH]; intros l j; [reflexivity|]. destruct l; [cbn; now destruct j|]. cbn. apply IH. Qed.

Lemma split_nth v fs par f j : nth_error fs par = Some f -> (j < n_coef f)%nat ->
  nth j (split_at v fs par) 0 = nth (first_of fs par + j) v 0.
Proof. intros E H. unfold split_at. rewrite E, nth_firstn', nth_skipn' by assumption. reflexivity. Qed.

Lemma variance_split lvi fs par f j : nth_error fs par = Some f -> (j < n_coef f)%nat ->
  variance (map (fun row => split_at row fs par) lvi) 1 j = variance lvi 1 (first_of fs par + j).
Proof.
  intros E H. unfold variance. f_equal. induction lvi as [|r l IH]; [reflexivity|].
  cbn [map fold_right]. rewrite IH, (split_nth r fs par f j E H). reflexivity.
Qed.

Lemma linear_le f : (list_sum (map (@length nat) (linear f)) <= n_coef f)%nat.
Proof.
  unfold n_coef, coef_names. rewrite app_length.
  assert (L : forall l : list (list nat), length (concat l) = list_sum (map (@length nat) l)).
  { induction l as [|a l IH]; [reflexivity|]. cbn. rewrite app_length, IH. reflexivity. }
  rewrite L. lia.
Qed.
Lemma concat_len (l : list (list nat)) : length (concat l) = list_sum (map (@length nat) l).
Proof. induction l as [|a l IH]; [reflexivity|]. cbn. rewrite app_length, IH. reflexivity. Qed.

Lemma names_prefix (l r : list nat) : map (fun j => nth j (l ++ r) 0%nat) (seq 0 (length l)) = l.
Proof.
  apply (nth_ext _ _ 0%nat 0%nat); [now rewrite map_length, seq_length|]. intros i Hi. rewrite map_length, seq_length in Hi.
  rewrite (nth_indep _ _ (nth 0 (l ++ r) 0%nat)) by now rewrite map_length, seq_length.
  rewrite (map_nth (fun j => nth j (l ++ r) 0%nat)), seq_nth by assumption. cbn [Nat.add]. now apply app_nth1.
Qed.

Lemma upto_app {A} (a b : list A) : b <> [] -> upto_last (length b) (a ++ b) = a /\ last_k (length b) (a ++ b) = b.
Proof.
  intros H. unfold upto_last, last_k. destruct b as [|x b]; [congruence|]. cbn [length Nat.eqb].
  rewrite app_length. cbn [length]. replace (length a + S (length b) - S (length b))%nat with (length a) by lia.
  rewrite firstn_app, skipn_app, Nat.sub_diag, firstn_all, skipn_all. cbn. now rewrite app_nil_r.
Qed.

Lemma kept_present y : kept true y = present y.
Proof. unfold kept. induction y as [|[x [|]] y IH]; cbn; congruence. Qed.
