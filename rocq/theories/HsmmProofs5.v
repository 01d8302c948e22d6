(** Several series; transition and initial probabilities. *)

From Coq Require Import List Bool Arith Reals Lia Lra.
From Verif Require Import Ext HsmmModel HsmmSpec HsmmProofs HsmmProofs2 HsmmProofs3.
Import ListNotations.
Local Open Scope R_scope.

Lemma total_any m L : (0 < n_T m)%nat -> lists_segmentations m L -> lsum L (weight R 1 Rmult m) = total_weight m.
Proof.
  intros Hn [H1 H2]. apply same_elements_sum; [exact H1|apply all_NoDup; exact Hn|]. intros s. rewrite H2. symmetry. apply all_spec. exact Hn.
Qed.

Definition good (x : tables R * list (list segment)) : Prop :=
  (0 < n_T (fst x))%nat /\ nonnegative (fst x) /\ fixed_bumps 0 (fst x) /\ lists_segmentations (fst x) (snd x).
Definition prob (x : tables R * list (list segment)) : R := lsum (snd x) (weight R 1 Rmult (fst x)).

Lemma joint_sum xs : Forall good xs -> forall acc,
  match fold_left (fun a m => esum2 a (llk m)) (map fst xs) acc with
  | Fin v => exists a, acc = Fin a /\ (forall x, In x xs -> prob x > 0) /\ v = a + lsum xs (fun x => ln (prob x))
  | PInf => acc = PInf
  | MInf => acc = MInf \/ exists x, In x xs /\ prob x = 0
  | NaN => acc = NaN \/ acc = PInf \/ exists x, In x xs /\ prob x = 0
  end.
Proof.
  induction 1 as [|x xs (Hn & Hp & Hb & HL) F IH]; intros acc.
  - cbn. destruct acc; auto. exists r. split; [reflexivity|]. split; [intros x []|]. unfold lsum. cbn. ring.
  - cbn [map fold_left]. specialize (IH (esum2 acc (llk (fst x)))).
    assert (P : prob x = total_weight (fst x)) by (apply total_any; assumption).
    destruct (llk_value (fst x) Hb Hp Hn) as [[Hw E]|[Hw E]].
    + rewrite <- P in Hw, E. rewrite E in IH |- *.
      destruct (fold_left _ _ _) as [v| | |].
      * destruct IH as (a & Ea & H1 & H2). destruct acc as [c| | |]; try discriminate Ea. cbn in Ea. injection Ea as <-. exists c. split; [reflexivity|].
        split; [intros y [<-|Hy]; [exact Hw|apply H1; exact Hy]|]. rewrite H2, lsum_cons. ring.
      * destruct acc; cbn in IH; discriminate.
      * destruct IH as [IH|(y & Hy & IH)]; [|right; exists y; split; [right; exact Hy|exact IH]].
        destruct acc; cbn in IH; try discriminate. auto.
      * destruct IH as [IH|[IH|(y & Hy & IH)]]; [| |right; right; exists y; split; [right; exact Hy|exact IH]];
        destruct acc; cbn in IH; try discriminate; auto.
    + assert (Z : exists y, In y (x :: xs) /\ prob y = 0) by (exists x; split; [left; reflexivity|congruence]).
      destruct (fold_left _ _ _) as [v| | |]; auto.
      * destruct IH as (a & Ea & _). destruct E as [E|E]; rewrite E in Ea; destruct acc; discriminate.
      * destruct E as [E|E]; rewrite E in IH; destruct acc; discriminate.
Qed.

Lemma nsum_shift n f : nsum (S n) f = f O + nsum n (fun i => f (S i)).
Proof. rewrite !nsum_lsum. cbn [seq]. rewrite lsum_cons. f_equal. rewrite <- seq_shift, lsum_map. reflexivity. Qed.

Definition ref_first (mu : nat -> R) (c : R) (k : nat) : R := match k with O => 1 / c | S p => mu p / c end.
Lemma ref_first_sum n mu : nsum n mu + 1 <> 0 -> nsum (S n) (ref_first mu (nsum n mu + 1)) = 1.
Proof.
  intros H. rewrite nsum_shift. cbn [ref_first]. unfold Rdiv. rewrite nsum_scal_r. field. exact H.
Qed.

(** Leaving out index j. *)
Lemma nsum_skip n j (g : nat -> R) : (j <= n)%nat ->
  nsum (S n) (fun i => if (i =? j)%nat then 0 else g (if (i <? j)%nat then i else (i - 1)%nat)) = nsum n g.
Proof.
  intros Hj. induction n as [|n IH].
  - assert (j = 0)%nat by lia. subst. rewrite nsum_S. cbn. ring.
  - rewrite nsum_S. destruct (Nat.eq_dec j (S n)) as [->|N].
    + rewrite Nat.eqb_refl, Rplus_0_r. apply nsum_ext. intros i Hi. destruct (Nat.eqb_spec i (S n)); [lia|].
      destruct (Nat.ltb_spec i (S n)); [reflexivity|lia].
    + rewrite IH by lia. destruct (Nat.eqb_spec (S n) j); [lia|]. destruct (Nat.ltb_spec (S n) j); [lia|].
      replace (S n - 1)%nat with n by lia. rewrite nsum_S. reflexivity.
Qed.

Lemma T_row n_S mu j : (2 <= n_S)%nat -> (j < n_S)%nat -> (forall p, 0 < mu j p) ->
  T_entry n_S mu j j = 0 /\ (forall i, 0 <= T_entry n_S mu j i) /\ nsum n_S (T_entry n_S mu j) = 1.
Proof.
  intros Hn Hj Hmu. unfold T_entry. rewrite Nat.eqb_refl. destruct (Nat.ltb_spec 2 n_S) as [L|L].
  - assert (P : 0 <= nsum (n_S - 2) (mu j)) by (apply nsum_nonneg; intros; apply Rlt_le, Hmu).
    split; [reflexivity|]. split.
    + intros i. destruct (i =? j)%nat; [lra|]. destruct (if (i <? j)%nat then i else (i - 1)%nat);
      apply Rlt_le, Rdiv_lt_0_compat; try lra; apply Hmu.
    + pose proof (nsum_skip (n_S - 1) j (ref_first (mu j) (nsum (n_S - 2) (mu j) + 1)) ltac:(lia)) as E.
      replace (S (n_S - 1)) with n_S in E by lia.
      pose proof (ref_first_sum (n_S - 2) (mu j) ltac:(lra)) as E2. replace (S (n_S - 2)) with (n_S - 1)%nat in E2 by lia.
      rewrite E2 in E. etransitivity; [|exact E]. apply nsum_ext. intros i _. destruct (i =? j)%nat; reflexivity.
  - assert (n_S = 2)%nat by lia. subst. split; [reflexivity|]. split; [intros i; destruct (i =? j)%nat; lra|].
    assert (C : j = 0%nat \/ j = 1%nat) by lia. destruct C as [-> | ->]; cbv -[Rplus IZR]; ring.
Qed.
Lemma pi_sum n_S mu : (1 <= n_S)%nat -> (forall p, 0 < mu p) -> (forall j, 0 <= pi_entry n_S mu j) /\ nsum n_S (pi_entry n_S mu) = 1.
Proof.
  intros Hn Hmu. assert (P : 0 <= nsum (n_S - 1) mu) by (apply nsum_nonneg; intros; apply Rlt_le, Hmu). split.
  - intros j. unfold pi_entry. destruct j; apply Rlt_le, Rdiv_lt_0_compat; try lra; apply Hmu.
  - pose proof (ref_first_sum (n_S - 1) mu ltac:(lra)) as E. replace (S (n_S - 1)) with n_S in E by lia. exact E.
Qed.

Section Tpi.
Variables A B : Type.
Variable fx : bool.
Variable computed : nat -> A * B.
Notation stp := (series_Tpi A B fx computed).

Lemma parallel_spec T p n l : parallel_Tpi A B fx computed T p n = Some l ->
  length l = n /\ forall k, (k < n)%nat -> nth_error l k = stp T p k.
Proof.
  unfold parallel_Tpi.
  assert (G : forall n k0 l, fold_right (fun k acc => match stp T p k, acc with Some x, Some l => Some (x :: l) | _, _ => None end)
             (Some []) (seq k0 n) = Some l -> length l = n /\ forall k, (k < n)%nat -> nth_error l k = stp T p (k0 + k)).
  { clear. induction n as [|n IH]; intros k0 l H; cbn in H; [injection H as <-; split; [reflexivity|lia]|].
    destruct (stp T p k0) as [x|] eqn:E; [|discriminate]. destruct (fold_right _ _ _) as [l'|] eqn:E'; [|discriminate]. injection H as <-.
    destruct (IH (S k0) l' E') as [H1 H2]. split; [cbn; congruence|]. intros [|k] Hk; cbn; [rewrite Nat.add_0_r; congruence|].
    rewrite H2 by lia. f_equal. lia. }
  apply (G n 0%nat l).
Qed.
Lemma parallel_total T p n : (forall k, (k < n)%nat -> stp T p k <> None) -> exists l, parallel_Tpi A B fx computed T p n = Some l.
Proof.
  unfold parallel_Tpi. intros H.
  assert (G : forall n k0, (forall k, (k0 <= k < k0 + n)%nat -> stp T p k <> None) ->
    exists l, fold_right (fun k acc => match stp T p k, acc with Some x, Some l => Some (x :: l) | _, _ => None end)
             (Some []) (seq k0 n) = Some l).
  { clear. induction n as [|n IH]; intros k0 H; [eexists; reflexivity|]. cbn. destruct (IH (S k0)) as [l E]; [intros; apply H; lia|].
    rewrite E. destruct (stp T p k0) eqn:E'; [eexists; reflexivity|]. exfalso. apply (H k0); [lia|exact E']. }
  apply (G n 0%nat). intros; apply H; lia.
Qed.
(** Without lists the loop variables do not matter. *)
Lemma serial_parallel T p n : (forall k T' p', stp T p k = Some (T', p') -> forall k', stp T' p' k' = stp T p k') ->
  serial_Tpi A B fx computed T p n = parallel_Tpi A B fx computed T p n.
Proof.
  unfold serial_Tpi, parallel_Tpi.
  assert (G : forall n k0 T p, (forall k T' p', stp T p k = Some (T', p') -> forall k', stp T' p' k' = stp T p k') ->
     serial_from A B fx computed T p k0 n = fold_right (fun k acc => match stp T p k, acc with Some x, Some l => Some (x :: l) | _, _ => None end)
             (Some []) (seq k0 n)).
  { clear. induction n as [|n IH]; intros k0 T p H; [reflexivity|]. cbn [serial_from seq fold_right].
    destruct (stp T p k0) as [[T' p']|] eqn:E; [|reflexivity]. pose proof (H _ _ _ E) as H'.
    rewrite (IH (S k0) T' p').
    - clear IH. assert (F : forall l, fold_right (fun k acc => match stp T' p' k, acc with Some x, Some l0 => Some (x :: l0) | _, _ => None end) (Some []) l
        = fold_right (fun k acc => match stp T p k, acc with Some x, Some l0 => Some (x :: l0) | _, _ => None end) (Some []) l).
      { induction l as [|k l IHl]; [reflexivity|]. cbn [fold_right]. rewrite IHl, H'. reflexivity. }
      rewrite F. destruct (fold_right _ _ _); reflexivity.
    - intros k T2 p2 E2 k'. rewrite H' in E2. rewrite (H _ _ _ E2 k'). symmetry. apply H'. }
  apply G.
Qed.
End Tpi.
