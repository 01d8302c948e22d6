(** Lemmas for families with several parameters. *)

From Coq Require Import Reals List Lra Lia Arith Bool FunctionalExtensionality.
From Coquelicot Require Import Coquelicot.
From Verif Require Import Ext FamModel FamSpec FamProofs GlsModel GlsSpec.
Import ListNotations.
Local Open Scope R_scope.

(** ** Sums *)

Lemma total_app a b : total (a ++ b) = total a + total b.
Proof. induction a as [|x a IH]; simpl; [ring|]. unfold total in *. rewrite IH. ring. Qed.

Lemma total_ext {A} (f g : A -> R) l : (forall a, In a l -> f a = g a) -> total (map f l) = total (map g l).
Proof.
  induction l as [|a l IH]; intros H; [reflexivity|]. cbn. rewrite H by now left.
  f_equal. apply IH. intros; apply H; now right.
Qed.

Lemma total_scal {A} c (f : A -> R) l : total (map (fun a => c * f a) l) = c * total (map f l).
Proof. induction l as [|a l IH]; cbn; [ring|]. unfold total in IH. rewrite IH. ring. Qed.

Lemma total_plus {A} (f g : A -> R) l : total (map (fun a => f a + g a) l) = total (map f l) + total (map g l).
Proof. induction l as [|a l IH]; cbn; [ring|]. unfold total in IH. rewrite IH. ring. Qed.

Lemma total_const {A} c (l : list A) : total (map (fun _ => c) l) = INR (length l) * c.
Proof.
  induction l as [|a l IH]; [cbn; ring|]. change (length (a :: l)) with (S (length l)).
  rewrite S_INR. cbn. unfold total in IH. rewrite IH. ring.
Qed.

Lemma total_sumf n f : total (map f (seq 0 n)) = sumf n f.
Proof.
  induction n as [|n IH]; [reflexivity|].
  rewrite seq_S, map_app, total_app, IH. simpl. ring.
Qed.

Lemma sumf_ext n f g : (forall i, (i < n)%nat -> f i = g i) -> sumf n f = sumf n g.
Proof.
  induction n as [|n IH]; intros H; [reflexivity|]. simpl. rewrite H by lia. f_equal. apply IH. intros; apply H; lia.
Qed.

Lemma is_derive_total {A} (f : A -> R -> R) (f' : A -> R) l x :
  (forall a, In a l -> is_derive (f a) x (f' a)) ->
  is_derive (fun t => total (map (fun a => f a t) l)) x (total (map f' l)).
Proof.
  induction l as [|a l IH]; intros H.
  - apply (is_derive_const 0 x).
  - cbn. apply (is_derive_plus (f a) (fun t => total (map (fun a => f a t) l)) x (f' a) (total (map f' l))).
    + apply H. now left.
    + apply IH. intros; apply H; now right.
Qed.

Lemma is_derive_eq (f : R -> R) (x a b : R) : is_derive f x a -> a = b -> is_derive f x b.
Proof. intros H <-. exact H. Qed.

Lemma is_derive_trans (f g : R -> R) (x a b : R) :
  is_derive f x a -> (forall t, f t = g t) -> a = b -> is_derive g x b.
Proof. intros H E <-. now apply is_derive_ext with f. Qed.

(** ** Points *)

Lemma upd_same e i t : upd e i t i = t.
Proof. unfold upd. now rewrite Nat.eqb_refl. Qed.
Lemma upd_other e i t k : k <> i -> upd e i t k = e k.
Proof. intros H. unfold upd. destruct (Nat.eqb_spec k i); [contradiction|reflexivity]. Qed.
Lemma upd_id e i : upd e i (e i) = e.
Proof. apply functional_extensionality. intros k. unfold upd. destruct (Nat.eqb_spec k i); congruence. Qed.
Lemma upd_upd e i s t : upd (upd e i s) i t = upd e i t.
Proof. apply functional_extensionality. intros k. unfold upd. now destruct (k =? i)%nat. Qed.
Lemma upd_comm e i j s t : i <> j -> upd (upd e i s) j t = upd (upd e j t) i s.
Proof.
  intros H. apply functional_extensionality. intros k. unfold upd.
  destruct (Nat.eqb_spec k i), (Nat.eqb_spec k j); congruence.
Qed.

(** Means of linear predictors. *)
Definition means (fi : nat -> R -> R) (eta : nat -> R) : nat -> R := fun k => fi k (eta k).

Lemma means_upd fi eta i t : means fi (upd eta i t) = upd (means fi eta) i (fi i t).
Proof.
  apply functional_extensionality. intros k. unfold means, upd. destruct (Nat.eqb_spec k i); congruence.
Qed.

(** ** Pairs *)

Lemma dpairs_pairs n : dpairs n = pairs n.
Proof.
  unfold dpairs, pairs.
  assert (H : forall k i, (i + k = n)%nat ->
    flat_map (fun i => map (fun j => (i, j)) (seq (i + 1) (n - (i + 1)))) (seq i k) = pairs_from i k).
  { induction k as [|k IH]; intros i Hi; [reflexivity|]. cbn [seq flat_map pairs_from].
    rewrite IH by lia. f_equal. replace (n - (i + 1))%nat with k by lia. clear.
    assert (G : forall s, map (fun j => (i, j)) (seq (i + 1 + s) k) = map (fun d => (i, (i + 1 + d)%nat)) (seq s k)).
    { induction k as [|k IH]; intros s; [reflexivity|]. simpl. f_equal.
      replace (S (i + 1 + s)) with (i + 1 + S s)%nat by lia. apply IH. }
    specialize (G 0%nat). now rewrite Nat.add_0_r in G. }
  apply H. reflexivity.
Qed.

Lemma pairs_length n : (length (pairs n) = n * (n - 1) / 2)%nat.
Proof.
  unfold pairs. assert (H : forall k i, (2 * length (pairs_from i k) = k * (k - 1))%nat).
  { induction k as [|k IH]; intros i; [reflexivity|]. cbn [pairs_from].
    rewrite app_length, map_length, seq_length. specialize (IH (S i)).
    destruct k; [simpl in *; lia|]. replace (S (S k) - 1)%nat with (S k) by lia.
    replace (S k - 1)%nat with k in IH by lia. nia. }
  rewrite <- (H n 0%nat). rewrite Nat.mul_comm. symmetry. apply Nat.div_mul. lia.
Qed.

Lemma pairs_range n i j : In (i, j) (pairs n) <-> (i < j < n)%nat.
Proof.
  unfold pairs. assert (H : forall k a, In (i, j) (pairs_from a k) <-> (a <= i /\ i < j /\ j < a + k)%nat).
  { induction k as [|k IH]; intros a; cbn [pairs_from]; [simpl; lia|].
    rewrite in_app_iff, IH, in_map_iff. split.
    - intros [[d [E Hd]]|H]; [|lia]. apply in_seq in Hd. injection E as E1 E2. lia.
    - intros H. destruct (Nat.eq_dec i a) as [->|N]; [left|right; lia].
      exists (j - a - 1)%nat. split; [f_equal; lia|]. apply in_seq. lia. }
  rewrite H. lia.
Qed.

(** ** The transformation *)

(** The loop state after the remaining pairs. *)
Lemma d2meta_inner n d2m ld1 mui : forall js l k,
  (k + length js <= n * (n - 1) / 2)%nat ->
  fold_left (d2meta_step n d2m ld1 mui) js (Some (l, k))
  = Some (l ++ map (fun q => if Req_EM_T (ld1 mui) 0 then 0 else if Req_EM_T (ld1 (snd q)) 0 then 0
                             else d2m (fst q) * (1 / ld1 mui) * (1 / ld1 (snd q)))
             (combine (seq k (length js)) js), (k + length js)%nat).
Proof.
  induction js as [|j js IH]; intros l k H; cbn [fold_left length combine seq map].
  - rewrite app_nil_r, Nat.add_0_r. reflexivity.
  - cbn [length] in H. unfold d2meta_step at 2. destruct (Nat.ltb_spec k (n * (n - 1) / 2)); [|lia].
    replace (k + 1)%nat with (S k) by lia. rewrite IH by lia. rewrite <- app_assoc.
    replace (S k + length js)%nat with (k + S (length js))%nat by lia. reflexivity.
Qed.

Definition mixed_entry (d2m ld1 : nat -> R) (q : nat * (nat * nat)) : R :=
  if Req_EM_T (ld1 (fst (snd q))) 0 then 0 else if Req_EM_T (ld1 (snd (snd q))) 0 then 0
  else d2m (fst q) * (1 / ld1 (fst (snd q))) * (1 / ld1 (snd (snd q))).

Lemma combine_app_seq {A} (a b : list A) k :
  combine (seq k (length (a ++ b))) (a ++ b)
  = combine (seq k (length a)) a ++ combine (seq (k + length a) (length b)) b.
Proof.
  revert k. induction a as [|x a IH]; intros k; cbn [app length seq combine].
  - now rewrite Nat.add_0_r.
  - rewrite IH. replace (S k + length a)%nat with (k + S (length a))%nat by lia. reflexivity.
Qed.

Lemma combine_map_r {A B C} (g : B -> C) (a : list A) (b : list B) :
  combine a (map g b) = map (fun q => (fst q, g (snd q))) (combine a b).
Proof. revert b. induction a as [|x a IH]; intros [|y b]; cbn; [reflexivity..|]. now rewrite IH. Qed.

Lemma d2meta_eq n d2m ld1 :
  d2meta n d2m ld1
  = Some (map (mixed_entry d2m ld1) (combine (seq 0 (length (pairs n))) (pairs n)), length (pairs n)).
Proof.
  unfold d2meta. pose proof (pairs_length n) as HL.
  rewrite <- dpairs_pairs in *. unfold dpairs in *.
  set (P := fun i => map (fun j => (i, j)) (seq (i + 1) (n - (i + 1)))) in *.
  assert (H : forall is l k, (k + length (flat_map P is) <= n * (n - 1) / 2)%nat ->
    fold_left (fun st mui => fold_left (d2meta_step n d2m ld1 mui) (seq (mui + 1) (n - (mui + 1))) st)
      is (Some (l, k))
    = Some (l ++ map (mixed_entry d2m ld1) (combine (seq k (length (flat_map P is))) (flat_map P is)),
            (k + length (flat_map P is))%nat)).
  { induction is as [|i is IH]; intros l k Hk; cbn [fold_left flat_map].
    - simpl. rewrite app_nil_r, Nat.add_0_r. reflexivity.
    - cbn [flat_map] in Hk. rewrite app_length in Hk.
      assert (Li : length (P i) = length (seq (i + 1) (n - (i + 1)))) by (unfold P; now rewrite map_length).
      rewrite d2meta_inner by lia. rewrite <- Li. rewrite IH by lia.
      rewrite combine_app_seq, map_app, <- app_assoc, app_length.
      rewrite Nat.add_assoc. do 4 f_equal.
      generalize (seq k (length (P i))). intros ks. unfold P. rewrite combine_map_r, map_map. reflexivity. }
  rewrite H by lia. reflexivity.
Qed.

Section Chain.
Variables (l : (nat -> R) -> R) (d1 d2 : nat -> (nat -> R) -> R) (fi dy1 dy2 : nat -> R -> R).
Variable Dom : (nat -> R) -> Prop.
Variable n : nat.
Hypothesis Hopen : forall m i, Dom m -> locally (m i) (fun t => Dom (upd m i t)).
Hypothesis Hd1 : forall m i, (i < n)%nat -> Dom m -> partial l i m (d1 i m).
Hypothesis Hd2 : forall m i, (i < n)%nat -> Dom m -> partial (d1 i) i m (d2 i m).
Hypothesis Hfi : forall i e, (i < n)%nat -> is_derive (fi i) e (1 / dy1 i (fi i e)).
Hypothesis Hnz : forall i e, (i < n)%nat -> dy1 i (fi i e) <> 0.
Hypothesis Hdy : forall i e, (i < n)%nat -> is_derive (dy1 i) (fi i e) (dy2 i (fi i e)).

Notation L := (fun eta => l (means fi eta)).

Lemma chain_first eta i : (i < n)%nat -> Dom (means fi eta) ->
  partial L i eta (d1 i (means fi eta) / dy1 i (fi i (eta i))).
Proof.
  intros Hi HD. unfold partial.
  apply is_derive_ext with (fun t => l (upd (means fi eta) i (fi i t))).
  { intros t. now rewrite means_upd. }
  pose proof (is_derive_comp (fun t => l (upd (means fi eta) i t)) (fi i) (eta i) _ _
                (Hd1 (means fi eta) i Hi HD) (Hfi i (eta i) Hi)) as H.
  eapply is_derive_eq; [exact H|]. unfold scal. simpl. unfold mult. simpl. field. now apply Hnz.
Qed.

Lemma Dom_near eta i : (i < n)%nat -> Dom (means fi eta) ->
  locally (eta i) (fun t => Dom (means fi (upd eta i t))).
Proof.
  intros Hi HD. pose proof (Hopen _ i HD) as H.
  assert (C : continuous (fi i) (eta i)).
  { apply (ex_derive_continuous (fi i) (eta i)). eexists. now apply Hfi. }
  pose proof (C _ H) as G. unfold filtermap in G.
  apply filter_imp with (2 := G). intros t Ht. now rewrite means_upd.
Qed.

Lemma chain_second eta i : (i < n)%nat -> Dom (means fi eta) ->
  partial2 L i eta (d2 i (means fi eta) / dy1 i (fi i (eta i)) ^ 2
                    - d1 i (means fi eta) * dy2 i (fi i (eta i)) / dy1 i (fi i (eta i)) ^ 3).
Proof.
  intros Hi HD. unfold partial2.
  apply (is_derive_ext_loc (fun t => d1 i (upd (means fi eta) i (fi i t)) / dy1 i (fi i t))).
  - apply filter_imp with (2 := Dom_near eta i Hi HD). intros t Ht.
    symmetry. apply is_derive_unique.
    pose proof (chain_first (upd eta i t) i Hi Ht) as H. unfold partial in H.
    rewrite upd_same, means_upd in H.
    apply is_derive_ext with (2 := H). intros s. now rewrite upd_upd.
  - set (g := fun m => d1 i (upd (means fi eta) i m) / dy1 i m).
    set (m0 := fi i (eta i)).
    pose proof (Hd2 (means fi eta) i Hi HD) as H2. unfold partial in H2.
    change (means fi eta i) with m0 in H2.
    pose proof (Hnz i (eta i) Hi) as Hz. fold m0 in Hz.
    pose proof (Hdy i (eta i) Hi) as Hy. fold m0 in Hy.
    assert (Hg : is_derive g m0 ((d2 i (means fi eta) * dy1 i m0 - d1 i (means fi eta) * dy2 i m0) / dy1 i m0 ^ 2)).
    { unfold g. pose proof (is_derive_div (fun m => d1 i (upd (means fi eta) i m)) (dy1 i) m0 _ _ H2 Hy Hz) as H.
      eapply is_derive_eq; [exact H|]. cbv beta. change m0 with (means fi eta i) at 2. rewrite upd_id.
      reflexivity. }
    pose proof (is_derive_comp g (fi i) (eta i) _ _ Hg (Hfi i (eta i) Hi)) as H.
    eapply is_derive_eq; [exact H|]. unfold scal. simpl. unfold mult. simpl. fold m0. field. exact Hz.
Qed.

Lemma chain_mixed eta i j v : (i < n)%nat -> (j < n)%nat -> i <> j -> Dom (means fi eta) ->
  partial (d1 i) j (means fi eta) v ->
  partial_mixed L i j eta (v / dy1 i (fi i (eta i)) / dy1 j (fi j (eta j))).
Proof.
  intros Hi Hj Hij HD Hv. unfold partial_mixed.
  apply (is_derive_ext_loc (fun t => d1 i (upd (means fi eta) j (fi j t)) / dy1 i (fi i (eta i)))).
  - apply filter_imp with (2 := Dom_near eta j Hj HD). intros t Ht.
    symmetry. apply is_derive_unique.
    pose proof (chain_first (upd eta j t) i Hi Ht) as H. unfold partial in H.
    rewrite means_upd in H. rewrite upd_other in H by congruence. exact H.
  - unfold partial in Hv. change (means fi eta j) with (fi j (eta j)) in Hv.
    pose proof (is_derive_comp (fun t => d1 i (upd (means fi eta) j t)) (fi j) (eta j) _ _ Hv (Hfi j (eta j) Hj)) as H.
    pose proof (is_derive_scal _ _ (/ dy1 i (fi i (eta i))) _ H) as G.
    eapply is_derive_trans; [exact G| |].
    + intros t. cbv beta. unfold Rdiv. apply Rmult_comm.
    + unfold scal. simpl. unfold mult. simpl. field. split; now apply Hnz.
Qed.
End Chain.
