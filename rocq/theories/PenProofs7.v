(** Ranks: merged penalties, and the difference penalty. *)

From Coq Require Import List Arith Bool Lia Permutation Reals Lra.
From Verif Require Import PenModel PenSpec PenSpecR PenProofs PenProofs2 PenProofs3.
Import ListNotations.

Section Merge.
Variable K : Type.
Variables (k0 : K) (kadd : K -> K -> K).

Lemma merged_rank (ps : list (lterm K)) k : 0 < count_id k ps ->
  t_id (merged_term k0 kadd ps k) = Some k /\
  t_rank (merged_term k0 kadd ps k) = fold_right Nat.add 0 (map (@t_rank K) (filter (PenModel.has_id k) ps)).
Proof.
  unfold merged_term, merge_id, count_id. destruct (filter (PenModel.has_id k) ps); simpl; [lia|].
  intros _. split; reflexivity.
Qed.

Lemma combine_rank (ps r : list (lterm K)) : no_single_id ps ->
  combine_shared_penalties kadd ps = Some r ->
  forall q k, In q r -> t_id q = Some k ->
  t_rank q = fold_right Nat.add 0 (map (@t_rank K) (filter (PenModel.has_id k) ps)).
Proof.
  intros Hs Hr q k Hq Hk.
  destruct (create_id_dict ps) as [d|] eqn:Hd.
  - rewrite (combine_form k0 kadd ps Hd) in Hr. injection Hr as <-.
    apply in_app_or in Hq. destruct Hq as [Hq|Hq].
    + exfalso. apply filter_In in Hq. destruct Hq as [Hq Hn].
      rewrite (create_id_dict_Some ps Hd) in Hn. apply not_merged_spec in Hn. rewrite Hk in Hn.
      pose proof (count_pos ps q Hq Hk). specialize (Hs k). rewrite id_count_eq in Hs. lia.
    + apply in_map_iff in Hq. destruct Hq as [k' [<- Hk']].
      destruct (loop_spec ps) as [_ [Hkeys _]]. rewrite (create_id_dict_Some ps Hd) in Hk'.
      apply Hkeys in Hk'. destruct (merged_rank ps k' Hk') as [Hid Hrk].
      rewrite Hid in Hk. injection Hk as <-. exact Hrk.
  - exfalso. unfold combine_shared_penalties in Hr. rewrite Hd in Hr. injection Hr as <-.
    pose proof (count_pos ps q Hq Hk). specialize (Hs k). rewrite id_count_eq in Hs.
    pose proof (proj1 (create_id_dict_None ps) Hd k). lia.
Qed.
End Merge.

Local Open Scope R_scope.
Notation rdeltas := (@deltas R Rminus).

(** The last value enters a difference with weight one. *)
Lemma deltas_top m : forall b b' k, (forall i, (i < k + m)%nat -> b i = b' i) ->
  rdeltas m b k - b (k + m)%nat = rdeltas m b' k - b' (k + m)%nat.
Proof.
  induction m as [|m IH]; intros b b' k H.
  - simpl. rewrite Nat.add_0_r. lra.
  - rewrite !(deltas_S R Rminus).
    pose proof (IH b b' (S k)) as H1. replace (S k + m)%nat with (k + S m)%nat in H1 by lia.
    specialize (H1 H).
    pose proof (IH b b' k) as H2.
    assert (H3 : forall i, (i < k + m)%nat -> b i = b' i) by (intros; apply H; lia).
    specialize (H2 H3). pose proof (H (k + m)%nat ltac:(lia)). lra.
Qed.

Lemma deltas_extend m (v : nat -> R) : forall N, exists b,
  (forall i, (i < m)%nat -> b i = v i) /\ forall l, (l + m < N)%nat -> rdeltas m b l = 0.
Proof.
  induction N as [|N [b [Hb Hz]]].
  - exists v. split; [auto|intros; lia].
  - destruct (le_lt_dec m N) as [HN|HN].
    + exists (fun i => if Nat.eq_dec i N then b N - rdeltas m b (N - m) else b i).
      split.
      * intros i Hi. destruct (Nat.eq_dec i N); [lia|auto].
      * intros l Hl. set (b' := fun i => _).
        assert (A : forall i, (i < l + m)%nat -> b' i = b i).
        { intros i Hi. unfold b'. destruct (Nat.eq_dec i N); [lia|reflexivity]. }
        pose proof (deltas_top m b' b l A) as T.
        destruct (Nat.eq_dec (l + m) N) as [E|E].
        -- unfold b' at 2 in T. destruct (Nat.eq_dec (l + m) N); [|lia].
           replace (N - m)%nat with l in T by lia. rewrite E in T. lra.
        -- unfold b' at 2 in T. destruct (Nat.eq_dec (l + m) N); [lia|].
           rewrite Hz in T by lia. lra.
    + exists b. split; [assumption|]. intros; lia.
Qed.

Lemma deltas_unique m n b b' :
  (forall i, (i < m)%nat -> b i = b' i) ->
  (forall l, (l < n - m)%nat -> rdeltas m b l = 0) ->
  (forall l, (l < n - m)%nat -> rdeltas m b' l = 0) ->
  forall i, (i < n)%nat -> b i = b' i.
Proof.
  intros H0 H1 H2 i. induction i as [i IH] using lt_wf_ind. intros Hi.
  destruct (le_lt_dec m i) as [Hm|Hm]; [|auto].
  assert (A : forall j, (j < (i - m) + m)%nat -> b j = b' j) by (intros; apply IH; lia).
  pose proof (deltas_top m b b' (i - m) A) as T.
  replace (i - m + m)%nat with i in T by lia.
  rewrite H1, H2 in T by lia. lra.
Qed.
