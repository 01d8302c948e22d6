(** Lemmas for FinProps. *)
From Coq Require Import List Arith Reals Lra Lia Bool.
From Verif Require Import GfitModel GfitSpec GfitProofs FinModel FinSpec.
Import ListNotations.
Local Open Scope R_scope.

Definition val (f : option (nat -> R)) (i : nat) : R := match f with None => 1 | Some g => g (i + 1)%nat end.

Lemma entry_app : forall a b i j, entry (a ++ b) i j = entry a i j + entry b i j.
Proof. induction a as [|((v, r), c) a IH]; intros; cbn; [lra|]. rewrite IH. lra. Qed.

Lemma entry_diagonal : forall f n i j, entry (diagonal f n) i j = if ((i =? j) && (i <? n))%nat%bool then val f i else 0.
Proof.
  intros f n i j. induction n.
  - cbn. rewrite andb_false_r. reflexivity.
  - unfold diagonal in *. rewrite seq_S, map_app, entry_app, IHn. cbn [map entry]. change (0 + n)%nat with n. fold (val f n).
    destruct (Nat.eqb_spec n i), (Nat.eqb_spec n j), (Nat.eqb_spec i j), (Nat.ltb_spec i n), (Nat.ltb_spec i (S n));
      cbn; subst; try lia; try lra; reflexivity.
Qed.

Lemma sum_ext : forall n g h, (forall k, (k < n)%nat -> g k = h k) -> sum_n n g = sum_n n h.
Proof. induction n; intros; cbn; [reflexivity|]. rewrite (IHn g h), H; auto. Qed.
Lemma sum_one : forall n i a, sum_n n (fun k => if (k =? i)%nat then a else 0) = if (i <? n)%nat then a else 0.
Proof.
  induction n; intros; cbn [sum_n]; [reflexivity|]. rewrite IHn.
  destruct (Nat.eqb_spec n i), (Nat.ltb_spec i n), (Nat.ltb_spec i (S n)); try lia; lra.
Qed.
Lemma sum_at : forall n i g, (i < n)%nat -> (forall k, k <> i -> g k = 0) -> sum_n n g = g i.
Proof.
  intros n i g H H0. rewrite (sum_ext _ _ (fun k => if (k =? i)%nat then g i else 0)).
  - rewrite sum_one. destruct (Nat.ltb_spec i n); [reflexivity|lia].
  - intros k _. destruct (Nat.eqb_spec k i); [subst; reflexivity|auto].
Qed.
Lemma sum_shift : forall n g, sum_n (S n) g = g O + sum_n n (fun k => g (S k)).
Proof. induction n; intros; cbn [sum_n] in *; [lra|]. rewrite IHn. lra. Qed.

Lemma root_diagonal : forall f n, root_of n (entry (diagonal f n)) (entry (diagonal f n)) <->
  forall i, (i < n)%nat -> val f i = 0 \/ val f i = 1.
Proof.
  intros f n. split.
  - intros H i Hi. specialize (H i i Hi Hi). rewrite (sum_at n i) in H; auto.
    + rewrite entry_diagonal in H. destruct (Nat.eqb_spec i i), (Nat.ltb_spec i n); try lia. cbn in H.
      assert (E : val f i * (val f i - 1) = 0) by lra. apply Rmult_integral in E. destruct E; [left|right]; lra.
    + intros k Hk. rewrite entry_diagonal. destruct (Nat.eqb_spec i k); [congruence|]. cbn. lra.
  - intros H i j Hi Hj. rewrite (sum_at n i); auto.
    + rewrite !entry_diagonal. destruct (Nat.eqb_spec i i), (Nat.ltb_spec i n), (Nat.ltb_spec j n); try lia. cbn.
      destruct (Nat.eqb_spec j i), (Nat.eqb_spec i j); try lia; cbn; [|lra]. subst j. destruct (H i Hi) as [E|E]; rewrite E; lra.
    + intros k Hk. rewrite entry_diagonal. destruct (Nat.eqb_spec i k); [congruence|]. cbn. lra.
Qed.

Lemma full_diagonal : forall f n, full_rank n (entry (diagonal f n)) <-> forall i, (i < n)%nat -> val f i <> 0.
Proof.
  intros f n. split.
  - intros H i Hi E. specialize (H (fun k => if (k =? i)%nat then 1 else 0)). cbn beta in H.
    assert (C : (if (i =? i)%nat then 1 else 0) = 0).
    { apply H; auto. intros j Hj. rewrite (sum_at n j); auto.
      - rewrite entry_diagonal. destruct (Nat.eqb_spec j i); [subst j|lra]. destruct (Nat.eqb_spec i i), (Nat.ltb_spec i n); cbn; rewrite ?E; lra.
      - intros k Hk. rewrite entry_diagonal. destruct (Nat.eqb_spec j k); [congruence|]. cbn. lra. }
    rewrite Nat.eqb_refl in C. lra.
  - intros H v Hv i Hi. specialize (Hv i Hi). rewrite (sum_at n i) in Hv; auto.
    + rewrite entry_diagonal in Hv. destruct (Nat.eqb_spec i i), (Nat.ltb_spec i n); try lia. cbn in Hv.
      apply Rmult_integral in Hv. destruct Hv as [E|E]; [destruct (H i Hi E)|exact E].
    + intros k Hk. rewrite entry_diagonal. destruct (Nat.eqb_spec i k); [congruence|]. cbn. lra.
Qed.

Lemma dot_sum : forall x b, length x = length b -> dot x b = sum_n (length b) (fun k => nth k x 0 * nth k b 0).
Proof.
  induction x; destruct b; cbn [length]; intros; try lia; [reflexivity|]. rewrite sum_shift. unfold dot in *. cbn. rewrite IHx; [lra|lia].
Qed.

Lemma mv_predictor : forall X b, predictor X b (mv X b).
Proof.
  intros X b. split; [apply map_length|]. intros i Hi HF. unfold mv.
  rewrite (nth_indep _ 0 (dot [] b)) by (rewrite map_length; exact Hi). rewrite (map_nth (fun x => dot x b)). apply dot_sum.
  rewrite Forall_forall in HF. apply HF. apply nth_In. exact Hi.
Qed.

Lemma nth_error_combine : forall A B (l : list A) (m : list B) i a b,
  nth_error l i = Some a -> nth_error m i = Some b -> nth_error (combine l m) i = Some (a, b).
Proof. induction l; destruct m, i; cbn; intros; try discriminate; [congruence|]. eapply IHl; eauto. Qed.

Lemma wres_nth : forall y X b i, (i < length y)%nat -> (i < length X)%nat ->
  nth i (wres y X b) 0 = nth i y 0 - nth i (mv X b) 0.
Proof.
  intros y X b i Hy HX. unfold wres.
  assert (E : nth_error (combine y (mv X b)) i = Some (nth i y 0, nth i (mv X b) 0)).
  { apply nth_error_combine; apply nth_error_nth'; [exact Hy|unfold mv; rewrite map_length; exact HX]. }
  apply nth_error_nth. rewrite nth_error_map, E. reflexivity.
Qed.
