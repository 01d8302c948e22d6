From Coq Require Import List Arith Bool Reals Lra Lia Sorted.
From Verif Require Import ArModel ArSpec ArProofs.
Import ListNotations.
Local Open Scope R_scope.

(** ** Lists *)
Lemma nth_map_lt {A B} (f : A -> B) l d d' k : (k < length l)%nat -> nth k (map f l) d = f (nth k l d').
Proof. intros H. rewrite (nth_indep _ d (f d')) by (rewrite map_length; assumption). apply map_nth. Qed.

Lemma masked_map {A B} (f : A -> B) v mask : masked (map f v) mask = map f (masked v mask).
Proof.
  revert mask. induction v as [|x v IH]; intros [|c mask]; simpl; try reflexivity.
  destruct c; simpl; now rewrite IH.
Qed.

Lemma masked_seq mask : forall a,
  masked (seq a (length mask)) mask = filter (fun i => nth (i - a) mask false) (seq a (length mask)).
Proof.
  induction mask as [|c mask IH]; intros a; [reflexivity|]. cbn [length seq masked filter].
  rewrite Nat.sub_diag. cbn [nth]. rewrite IH.
  rewrite (filter_ext_in (fun i => nth (i - S a) mask false) (fun i => nth (i - a) (c :: mask) false)); [reflexivity|].
  intros i Hi. apply in_seq in Hi. replace (i - a)%nat with (S (i - S a)) by lia. reflexivity.
Qed.

Lemma masked_kept not_na : masked (seq 0 (length not_na)) not_na = kept not_na.
Proof. rewrite masked_seq. unfold kept. apply filter_ext. intros i. now rewrite Nat.sub_0_r. Qed.

Lemma masked_length {A} (v : list A) : forall mask, length v = length mask ->
  length (masked v mask) = length (filter (fun c => c) mask).
Proof.
  induction v as [|x v IH]; intros [|c mask] H; try discriminate; [reflexivity|].
  simpl. simpl in H. destruct c; simpl; rewrite IH by lia; reflexivity.
Qed.

Lemma kept_length not_na : length (kept not_na) = length (filter (fun c => c) not_na).
Proof. rewrite <- masked_kept. apply masked_length. apply seq_length. Qed.

Lemma start_flags_kept not_na s : start_flags not_na s = map (fun i => existsb (Nat.eqb i) s) (kept not_na).
Proof. unfold start_flags. now rewrite masked_map, masked_kept. Qed.

Lemma nth_put v idx x : forall k, (k < length v)%nat ->
  nth k (put v idx x) 0 = if existsb (Nat.eqb k) idx then x else nth k v 0.
Proof.
  intros k Hk. unfold put.
  rewrite (nth_map_lt _ _ 0 (0%nat, 0)) by (rewrite combine_length, seq_length; lia).
  rewrite combine_nth by (apply seq_length). rewrite seq_nth by assumption. reflexivity.
Qed.
Lemma put_length v idx x : length (put v idx x) = length v.
Proof. unfold put. rewrite map_length, combine_length, seq_length. lia. Qed.

Lemma nth_repeat_lt {A} (x d : A) n k : (k < n)%nat -> nth k (repeat x n) d = x.
Proof. revert k. induction n as [|n IH]; intros [|k] H; simpl; try lia; auto. apply IH. lia. Qed.

Lemma in_existsb k l : existsb (Nat.eqb k) l = true <-> In k l.
Proof.
  rewrite existsb_exists. split; [intros (x & H & E); apply Nat.eqb_eq in E; now subst|].
  intros H. exists k. split; [assumption|apply Nat.eqb_refl].
Qed.

Lemma in_where k mask : In k (where_true mask) <-> nth k mask false = true.
Proof.
  unfold where_true. rewrite filter_In, in_seq. split; [tauto|]. intros H. split; [|assumption].
  split; [lia|]. destruct (Nat.lt_ge_cases k (length mask)); [assumption|].
  rewrite nth_overflow in H by assumption. discriminate.
Qed.

Lemma in_kept r not_na : In r (kept not_na) <-> nth r not_na false = true.
Proof. apply (in_where r not_na). Qed.

(** kept is strictly increasing. *)
Lemma sorted_filter_seq f : forall n a, StronglySorted lt (filter f (seq a n)).
Proof.
  induction n as [|n IH]; intros a; simpl; [constructor|]. destruct (f a); [|apply IH].
  constructor; [apply IH|]. apply Forall_forall. intros x Hx. apply filter_In in Hx as [Hx _].
  apply in_seq in Hx. lia.
Qed.
Lemma sorted_nth l : StronglySorted lt l -> forall j k, (j < k)%nat -> (k < length l)%nat -> (nth j l 0 < nth k l 0)%nat.
Proof.
  induction 1 as [|x l Hs IH Hf]; intros j k Hjk Hk; simpl in Hk; [lia|].
  destruct k as [|k]; [lia|]. destruct j as [|j]; simpl.
  - rewrite Forall_forall in Hf. apply Hf. apply nth_In. lia.
  - apply IH; lia.
Qed.
Lemma kept_increasing not_na j k : (j < k)%nat -> (k < length (kept not_na))%nat ->
  (nth j (kept not_na) 0 < nth k (kept not_na) 0)%nat.
Proof. apply sorted_nth. apply sorted_filter_seq. Qed.

(** Kept rows up to the k-th are one of the first k+1. *)
Lemma kept_between not_na k r : (k < length (kept not_na))%nat -> nth r not_na false = true ->
  (r <= nth k (kept not_na) 0)%nat -> exists j, (j <= k)%nat /\ r = nth j (kept not_na) 0%nat.
Proof.
  intros Hk Hr Hle. apply in_kept in Hr. destruct (In_nth _ _ 0%nat Hr) as (j & Hj & E).
  exists j. split; [|now symmetry]. destruct (Nat.le_gt_cases j k); [assumption|].
  pose proof (kept_increasing not_na k j ltac:(assumption) Hj). lia.
Qed.

(** ** Series numbers *)
Lemma series_mono sid r r' : (r <= r')%nat -> (series_of sid r <= series_of sid r')%nat.
Proof.
  intros H. destruct sid as [s|]; simpl; [|lia]. induction s as [|x s IH]; simpl; [lia|].
  destruct (Nat.leb_spec x r); destruct (Nat.leb_spec x r'); simpl; lia.
Qed.
Lemma series_in s r r' : (r < r')%nat -> (exists x, In x s /\ (r < x <= r')%nat) <->
  series_of (Some s) r <> series_of (Some s) r'.
Proof.
  intros H. simpl. induction s as [|x s IH]; simpl.
  - split; [intros (x & [] & _)|congruence].
  - pose proof (series_mono (Some s) r r' ltac:(lia)) as Hm. simpl in Hm.
    destruct (Nat.leb_spec x r); destruct (Nat.leb_spec x r'); simpl; try lia.
    + split; [intros (z & [->|Hz] & Hr); [lia|]|intros Hne].
      * assert (E : exists x0 : nat, In x0 s /\ (r < x0 <= r')%nat) by (exists z; auto).
        apply IH in E. congruence.
      * destruct (proj2 IH) as (z & Hz & Hr); [congruence|]. exists z. auto.
    + split; [lia|]. intros _. exists x. split; [auto|lia].
    + split; [intros (z & [->|Hz] & Hr); [lia|]|intros Hne].
      * apply IH. exists z. auto.
      * destruct (proj2 IH) as (z & Hz & Hr); [congruence|]. exists z. auto.
Qed.

(** ** The result of computeAr1Chol *)
Definition flag (not_na : list bool) (sid : option (list nat)) (k : nat) : bool :=
  match sid with
  | Some s => existsb (Nat.eqb (nth k (kept not_na) 0%nat)) s
  | None => (k =? 0)%nat
  end.

Section Result.
Variables (not_na : list bool) (sid : option (list nat)) (rho : R).
Hypothesis Hstarts : starts_remain not_na sid.
Let n := length (kept not_na).
Let ser := series_at not_na sid.
Let b := flag not_na sid.

Lemma res_mono j k : (j <= k)%nat -> (k < n)%nat -> (ser j <= ser k)%nat.
Proof.
  intros Hjk Hk. apply series_mono. destruct (Nat.eq_dec j k) as [->|]; [lia|].
  apply Nat.lt_le_incl, kept_increasing; [lia|assumption].
Qed.

Lemma kept_row k : (k < n)%nat -> nth (nth k (kept not_na) 0%nat) not_na false = true.
Proof. intros Hk. apply in_kept. now apply nth_In. Qed.

Lemma res_b0 : (0 < n)%nat -> b 0%nat = true.
Proof.
  intros Hn. unfold b, flag. destruct sid as [s|] eqn:E; [|reflexivity]. simpl in Hstarts.
  destruct (Hstarts _ (kept_row 0 Hn)) as (s0 & H1 & H2 & H3 & _).
  apply in_existsb. destruct (kept_between not_na 0 s0 Hn H3 H2) as (j & Hj & ->).
  now replace j with 0%nat in H1 by lia.
Qed.

Lemma res_b k : (S k < n)%nat -> b (S k) = true <-> ser (S k) <> ser k.
Proof.
  intros Hk. unfold b, flag, ser, series_at. pose proof (kept_increasing not_na k (S k) ltac:(lia) Hk) as Hlt.
  destruct sid as [s|]; [|simpl; split; [discriminate|congruence]].
  rewrite in_existsb. split.
  - intros Hin Heq. symmetry in Heq. revert Heq. apply series_in; [assumption|]. eexists. split; [exact Hin|lia].
  - intros Hne. assert (Hne' : series_of (Some s) (nth k (kept not_na) 0%nat) <> series_of (Some s) (nth (S k) (kept not_na) 0%nat)) by congruence.
    apply series_in in Hne' as (x & Hx & Hr); [|assumption].
    destruct (Hstarts _ (kept_row (S k) Hk)) as (s0 & H1 & H2 & H3 & H4).
    destruct (kept_between not_na (S k) s0 Hk H3 H2) as (j & Hj & Ej).
    destruct (Nat.eq_dec j (S k)) as [->|Hn]; [now rewrite Ej in H1|]. exfalso.
    apply (H4 x Hx). split; [|lia].
    destruct (Nat.eq_dec j k) as [->|]; [lia|].
    pose proof (kept_increasing not_na j k ltac:(lia) ltac:(fold n; lia)). lia.
Qed.

(** What computeAr1Chol returns, under the guard on series starts. *)
Lemma chol_entries d0 d1 llc : computeAr1Chol not_na sid rho = Some (d0, d1, llc) ->
  (0 < n)%nat /\ length d0 = n /\
  (forall k, (k < n)%nat -> nth k d0 0 = if b k then 1 else ar_w rho) /\
  (forall k, (S k < n)%nat -> nth k d1 0 = if b (S k) then 0 else - rho * ar_w rho) /\
  llc = rsum n (fun i => if b i then 0 else ln (ar_w rho)).
Proof.
  pose proof res_b0 as Hb0. unfold computeAr1Chol. pose proof (kept_length not_na) as Hlen. fold n in Hlen.
  destruct (length (filter (fun c : bool => c) not_na)) as [|m]; [discriminate|].
  cbv zeta. remember (S m) as q0 eqn:Eq0.
  assert (Hrw : forall q, - rho / sqrt (1 - rho * rho) = q -> q = - rho * ar_w rho) by (intros q <-; unfold ar_w, Rdiv; ring).
  assert (Hcount : forall (st : nat -> bool) q, rsum q (fun i => if st i then 0 else ln (ar_w rho)) =
     (INR q - INR (length (filter (fun c => c) (map st (seq 0 q))))) * ln (ar_w rho)).
  { intros st. induction q as [|q IH]; [simpl; ring|]. rewrite seq_S, map_app, filter_app, app_length. cbn [rsum].
    rewrite IH, plus_INR, S_INR. simpl. destruct (st q); simpl; ring. }
  destruct sid as [s|] eqn:Es; intros E; injection E as <- <- <-.
  - assert (Hst : forall k, (k < n)%nat -> nth k (start_flags not_na s) false = b k).
    { intros k Hk. rewrite start_flags_kept.
      rewrite (nth_map_lt _ _ false 0%nat) by assumption. reflexivity. }
    assert (Hsl : length (start_flags not_na s) = n) by (rewrite start_flags_kept; apply map_length).
    split; [lia|]. split; [rewrite put_length, repeat_length; lia|]. split; [|split].
    + intros k Hk. rewrite nth_put, nth_repeat_lt by (rewrite ?repeat_length; lia).
      rewrite <- Hst by assumption.
      destruct (existsb (Nat.eqb k) (where_true (start_flags not_na s))) eqn:Ex.
      * apply in_existsb, in_where in Ex. now rewrite Ex.
      * destruct (nth k (start_flags not_na s) false) eqn:En; [|reflexivity].
        apply in_where, in_existsb in En. congruence.
    + intros k Hk. rewrite nth_put, nth_repeat_lt by (rewrite ?repeat_length; lia).
      rewrite <- Hst by assumption.
      assert (Hin : In k (map (fun i => (i - 1)%nat) (skipn 1 (where_true (start_flags not_na s)))) <->
                    nth (S k) (start_flags not_na s) false = true).
      { rewrite <- in_where.
        assert (Hw0 : exists rest, where_true (start_flags not_na s) = 0%nat :: rest /\ Forall (lt 0) rest).
        { pose proof (sorted_filter_seq (fun i => nth i (start_flags not_na s) false) (length (start_flags not_na s)) 0) as Hs.
          fold (where_true (start_flags not_na s)) in Hs.
          assert (H0 : In 0%nat (where_true (start_flags not_na s))).
          { apply in_where. rewrite Hst by lia. apply Hb0. lia. }
          destruct (where_true (start_flags not_na s)) as [|z rest]; [destruct H0|].
          inversion Hs as [|? ? Hs' Hf]; subst. destruct H0 as [->|H0]; [exists rest; auto|].
          rewrite Forall_forall in Hf. specialize (Hf _ H0). lia. }
        destruct Hw0 as (rest & -> & Hf). simpl. rewrite Forall_forall in Hf. rewrite in_map_iff. split.
        - intros (x & Ex & Hx). right. specialize (Hf x Hx). now replace (S k) with x by lia.
        - intros [Hx|Hx]; [discriminate|]. exists (S k). split; [lia|assumption]. }
      change (match where_true (start_flags not_na s) with [] => [] | _ :: l => l end) with (skipn 1 (where_true (start_flags not_na s))).
      destruct (existsb (Nat.eqb k) (map (fun i => (i - 1)%nat) (skipn 1 (where_true (start_flags not_na s))))) eqn:Ex.
      * apply in_existsb, Hin in Ex. now rewrite Ex.
      * destruct (nth (S k) (start_flags not_na s) false) eqn:En; [|now apply Hrw].
        apply proj2 in Hin. specialize (Hin eq_refl). apply in_existsb in Hin. congruence.
    + rewrite Hcount. rewrite Hlen. f_equal. f_equal. f_equal. f_equal. f_equal.
      apply (nth_ext _ _ false false).
      * rewrite map_length, seq_length. lia.
      * intros k Hk. rewrite Hsl in Hk. rewrite Hst by assumption.
        rewrite (nth_map_lt _ _ false 0%nat), seq_nth by (rewrite ?seq_length; lia). reflexivity.
  - split; [lia|]. split; [rewrite put_length, repeat_length; lia|]. split; [|split].
    + intros k Hk. rewrite nth_put, nth_repeat_lt by (rewrite ?repeat_length; lia). simpl.
      rewrite orb_false_r. reflexivity.
    + intros k Hk. rewrite nth_repeat_lt by lia. unfold b. simpl. now apply Hrw.
    + rewrite Hcount, Hlen. f_equal. f_equal.
      assert (H0 : forall q a, length (filter (fun c => c) (map (fun k => (k =? 0)%nat) (seq (S a) q))) = 0%nat).
      { induction q as [|q IH]; intros a; [reflexivity|]. simpl. apply IH. }
      unfold b, flag. rewrite Eq0. cbn [seq map Nat.eqb filter length]. rewrite H0. reflexivity.
Qed.
End Result.
