(** Lemmas for DiscModel: unique values, positions, splitting rows by series. *)
From Coq Require Import List Bool Arith ZArith Reals Lia Lra Sorting.Sorted Sorting.Permutation.
From Verif Require Import DiscModel DiscSpec.
Import ListNotations.
Local Open Scope nat_scope.

(** A comparison that decides equality and is a strict order. *)
Record good {A} (cmp : A -> A -> comparison) : Prop := {
  g_eq : forall x y, cmp x y = Eq <-> x = y;
  g_gt : forall x y, cmp x y = Gt -> cmp y x = Lt;
  g_tr : forall x y z, cmp x y = Lt -> cmp y z = Lt -> cmp x z = Lt
}.
Arguments g_eq {A cmp}.
Arguments g_gt {A cmp}.
Arguments g_tr {A cmp}.

Lemma good_Z : good Z.compare.
Proof.
  split; intros.
  - apply Z.compare_eq_iff.
  - apply Z.compare_gt_iff in H. now apply Z.compare_lt_iff.
  - rewrite Z.compare_lt_iff in *. lia.
Qed.
Lemma good_nat : good Nat.compare.
Proof.
  split; intros.
  - apply Nat.compare_eq_iff.
  - apply Nat.compare_gt_iff in H. now apply Nat.compare_lt_iff.
  - rewrite Nat.compare_lt_iff in *. lia.
Qed.
Lemma lex_eq : forall x y, lex x y = Eq <-> x = y.
Proof.
  induction x as [|a x IH]; intros [|b y]; cbn; try (split; congruence).
  destruct (Z.compare_spec a b); subst.
  - rewrite IH. split; congruence.
  - split; try congruence. intros [= -> _]. lia.
  - split; try congruence. intros [= -> _]. lia.
Qed.
Lemma good_lex : good lex.
Proof.
  split.
  - apply lex_eq.
  - induction x as [|a x IH]; intros [|b y]; cbn; try congruence.
    destruct (Z.compare_spec a b); subst.
    + rewrite Z.compare_refl. apply IH.
    + congruence.
    + intros _. destruct (Z.compare_spec b a); try lia. reflexivity.
  - induction x as [|a x IH]; intros [|b y] [|c z]; cbn; try congruence.
    destruct (Z.compare_spec a b); subst; try congruence.
    + destruct (Z.compare_spec b c); subst; try congruence. apply IH.
    + intros _. destruct (Z.compare_spec b c); subst; try congruence; intros _;
      destruct (Z.compare_spec a c); try lia; reflexivity.
Qed.

Section Unique.
Variable A : Type.
Variable cmp : A -> A -> comparison.
Hypothesis G : good cmp.
Let lt x y := cmp x y = Lt.

Lemma insert_in x l y : In y (insert A cmp x l) <-> y = x \/ In y l.
Proof.
  induction l as [|z l IH]; cbn; [intuition|].
  destruct (cmp x z) eqn:E; cbn.
  - apply (g_eq G) in E. subst. intuition.
  - intuition.
  - rewrite IH. intuition.
Qed.
Lemma unique_in l y : In y (unique A cmp l) <-> In y l.
Proof. induction l; cbn; [tauto|]. unfold unique in *. rewrite insert_in, IHl. intuition. Qed.
Lemma insert_sorted x l : StronglySorted lt l -> StronglySorted lt (insert A cmp x l).
Proof.
  induction 1 as [|z l H IH F]; cbn; [repeat constructor|].
  destruct (cmp x z) eqn:E.
  - now constructor.
  - constructor; [now constructor|]. constructor; [exact E|].
    eapply List.Forall_impl; [|exact F]. intros w Hw. eapply (g_tr G); eassumption.
  - constructor; [exact IH|]. apply List.Forall_forall. intros w Hw. apply insert_in in Hw as [->|Hw].
    + now apply (g_gt G).
    + eapply List.Forall_forall in F; eassumption.
Qed.
Lemma unique_sorted l : StronglySorted lt (unique A cmp l).
Proof. induction l; cbn; [constructor|]. now apply insert_sorted. Qed.

Lemma sorted_ext l : forall k, StronglySorted lt l -> StronglySorted lt k ->
  (forall x, In x l <-> In x k) -> l = k.
Proof.
  assert (irr : forall x, ~ lt x x).
  { intros x H. unfold lt in H. assert (cmp x x = Eq) by now apply (g_eq G). congruence. }
  induction l as [|a l IH]; intros [|b k] Hl Hk HI; trivial.
  - destruct (proj2 (HI b)); now left.
  - destruct (proj1 (HI a)); now left.
  - inversion_clear Hl as [|? ? Sl Fl]. inversion_clear Hk as [|? ? Sk Fk].
    rewrite List.Forall_forall in Fl, Fk.
    assert (a = b).
    { destruct (proj1 (HI a) (or_introl eq_refl)) as [E|E]; [now symmetry|].
      destruct (proj2 (HI b) (or_introl eq_refl)) as [E'|E']; [assumption|].
      specialize (Fl _ E'). specialize (Fk _ E). exfalso. apply (irr a). eapply (g_tr G); eassumption. }
    subst b. f_equal. apply IH; trivial. intros x. specialize (HI x). cbn in HI. split; intros Hx.
    + destruct (proj1 HI (or_intror Hx)) as [->|]; trivial. exfalso. apply (irr x). now apply Fl.
    + destruct (proj2 HI (or_intror Hx)) as [->|]; trivial. exfalso. apply (irr x). now apply Fk.
Qed.
Lemma sorted_nodup l : StronglySorted lt l -> NoDup l.
Proof.
  induction 1 as [|a l _ IH F]; constructor; trivial. intros Hi. rewrite List.Forall_forall in F.
  specialize (F _ Hi). unfold lt in F. assert (cmp a a = Eq) by now apply (g_eq G). congruence.
Qed.
Lemma unique_nodup l : NoDup (unique A cmp l).
Proof. apply sorted_nodup, unique_sorted. Qed.

Lemma cmp_refl x : cmp x x = Eq.
Proof. now apply (g_eq G). Qed.
Lemma position_lt x l : In x l -> position A cmp x l < length l.
Proof.
  induction l as [|y l IH]; cbn; [tauto|]. intros H. destruct (cmp x y) eqn:E; [lia| |];
  (destruct H as [->|H]; [rewrite cmp_refl in E; congruence|]); specialize (IH H); lia.
Qed.
Lemma position_nth x l d : In x l -> nth (position A cmp x l) l d = x.
Proof.
  induction l as [|y l IH]; cbn; [tauto|]. intros H. destruct (cmp x y) eqn:E.
  - symmetry. now apply (g_eq G).
  - destruct H as [->|H]; [rewrite cmp_refl in E; congruence|]. now apply IH.
  - destruct H as [->|H]; [rewrite cmp_refl in E; congruence|]. now apply IH.
Qed.
Lemma position_of_nth l d : NoDup l -> forall i, i < length l -> position A cmp (nth i l d) l = i.
Proof.
  induction 1 as [|y l Hn ND IH]; cbn; [lia|]. intros [|i] Hi; [now rewrite cmp_refl|].
  destruct (cmp (nth i l d) y) eqn:E.
  - apply (g_eq G) in E. exfalso. apply Hn. rewrite <- E. apply nth_In. lia.
  - rewrite IH; lia.
  - rewrite IH; lia.
Qed.
Lemma position_inj x y l : In x l -> In y l -> position A cmp x l = position A cmp y l -> x = y.
Proof. intros Hx Hy E. rewrite <- (position_nth x l x Hx), <- (position_nth y l x Hy), E. reflexivity. Qed.
Lemma position_app_l x l k : In x l -> position A cmp x (l ++ k) = position A cmp x l.
Proof.
  induction l as [|y l IH]; cbn; [tauto|]. intros H. destruct (cmp x y) eqn:E; trivial;
  (destruct H as [->|H]; [rewrite cmp_refl in E; congruence|]); now rewrite IH.
Qed.
Lemma position_app_r x l k : ~ In x l -> position A cmp x (l ++ k) = length l + position A cmp x k.
Proof.
  induction l as [|y l IH]; cbn; trivial. intros H. destruct (cmp x y) eqn:E.
  - apply (g_eq G) in E. exfalso. auto.
  - rewrite IH; auto.
  - rewrite IH; auto.
Qed.

End Unique.

(** Blocks of rows. *)
Section Blocks.
Variable A : Type.
Variable cmp : A -> A -> comparison.
Hypothesis G : good cmp.
Fixpoint starts (k : nat) (bl : list (A * nat)) : list nat :=
  match bl with [] => [] | b :: bl => k :: starts (k + snd b) bl end.
Lemma flat_in (bl : list (A * nat)) x : In x (flat bl) -> In x (map fst bl).
Proof.
  unfold flat. intros H. apply in_flat_map in H as ((a, n) & H & H'). cbn in H'. apply repeat_spec in H'. subst.
  apply in_map_iff. now exists (a, n).
Qed.
Lemma flat_in' (bl : list (A * nat)) x : List.Forall (fun s => 0 < snd s) bl -> In x (map fst bl) -> In x (flat bl).
Proof.
  intros F H. apply in_map_iff in H as ((a, n) & E & H). cbn in E. subst. apply in_flat_map. exists (x, n).
  split; trivial. rewrite List.Forall_forall in F. specialize (F _ H). cbn in *. destruct n; [lia|]. now left.
Qed.
Lemma starts_shift bl : forall k j, map (fun x => j + x) (starts k bl) = starts (j + k) bl.
Proof. induction bl as [|b bl IH]; intros; cbn; trivial. now rewrite IH, Nat.add_assoc. Qed.
Lemma positions_starts bl : NoDup (map fst bl) -> List.Forall (fun s => 0 < snd s) bl ->
  map (fun x => position A cmp x (flat bl)) (map fst bl) = starts 0 bl.
Proof.
  induction bl as [|[a n] bl IH]; cbn; trivial. intros ND F. inversion_clear ND as [|? ? Hn ND'].
  inversion_clear F as [|? ? Hp F']. cbn in Hp. f_equal.
  - destruct n; [lia|]. cbn. now rewrite (cmp_refl A cmp G).
  - fold (flat bl). replace (starts n bl) with (starts (n + 0) bl) by (f_equal; lia). rewrite <- starts_shift, <- IH by trivial.
    rewrite (map_map (fun x => position A cmp x (flat bl)) (fun x => n + x)).
    apply map_ext_in. intros x Hx. rewrite (position_app_r A cmp G).
    + now rewrite repeat_length.
    + intros Hi. apply repeat_spec in Hi. subst. now apply Hn.
Qed.
Lemma starts_ge bl : forall k x, In x (starts k bl) -> k <= x.
Proof. induction bl as [|b bl IH]; cbn; [tauto|]. intros k x [->|H]; [lia|]. apply IH in H. lia. Qed.
Lemma starts_sorted bl : List.Forall (fun s => 0 < snd s) bl ->
  forall k, StronglySorted (fun x y => Nat.compare x y = Lt) (starts k bl).
Proof.
  induction 1 as [|b bl Hb F IH]; intros k; cbn; constructor; trivial. apply List.Forall_forall. intros x Hx.
  apply starts_ge in Hx. apply Nat.compare_lt_iff. lia.
Qed.
Lemma first_rows_blocks bl : NoDup (map fst bl) -> List.Forall (fun s => 0 < snd s) bl ->
  first_rows A cmp (flat bl) = starts 0 bl.
Proof.
  intros ND F. unfold first_rows. apply (sorted_ext nat Nat.compare good_nat).
  - apply (unique_sorted nat Nat.compare good_nat).
  - now apply starts_sorted.
  - intros x. rewrite (unique_in nat Nat.compare good_nat), <- (positions_starts bl ND F), !in_map_iff.
    split; intros (y & Hy & Hy'); exists y; split; trivial.
    + apply flat_in. exact (proj1 (unique_in A cmp G _ _) Hy').
    + apply (unique_in A cmp G). now apply flat_in'.
Qed.
End Blocks.
Arguments starts {A}.
