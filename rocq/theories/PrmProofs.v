(** Lemmas for PrmProps. *)
From Coq Require Import List Arith Reals Bool Lra Lia Permutation.
From Verif Require Import PrmModel.
Import ListNotations.
Local Open Scope R_scope.

Lemma acols_in : forall fcols p c, In c (acols fcols p) <-> (c < p)%nat /\ ~ In c fcols.
Proof.
  intros fcols p c. unfold acols. rewrite filter_In, in_seq, negb_true_iff. split.
  - intros [A B]. split; [lia|]. intros I. assert (existsb (Nat.eqb c) fcols = true); [|congruence].
    apply existsb_exists. exists c. split; [exact I|apply Nat.eqb_refl].
  - intros [A B]. split; [lia|]. destruct (existsb (Nat.eqb c) fcols) eqn:E; [|reflexivity]. exfalso. apply B.
    apply existsb_exists in E. destruct E as [d [I E]]. apply Nat.eqb_eq in E. subst. exact I.
Qed.
Lemma tcols_perm : forall fcols p, NoDup fcols -> (forall c, In c fcols -> (c < p)%nat) -> Permutation (tcols fcols p) (seq 0 p).
Proof.
  intros fcols p N H. apply NoDup_Permutation; [|apply seq_NoDup|].
  - unfold tcols. assert (A : NoDup (acols fcols p)) by (apply NoDup_filter, seq_NoDup).
    assert (D : forall c, In c fcols -> ~ In c (acols fcols p)) by (intros c I J; apply acols_in in J; tauto).
    revert A D. generalize (acols fcols p). clear H. induction N as [|c l Hc N IH]; intros q A D; [exact A|].
    cbn. constructor; [|apply IH; [exact A|intros d I; apply D; right; exact I]].
    rewrite in_app_iff. intros [I|I]; [tauto|]. apply (D c); [left; reflexivity|exact I].
  - intros c. unfold tcols. rewrite in_app_iff, acols_in, in_seq. split; [intros [I|I]; [specialize (H c I)|]; lia|].
    intros I. destruct (in_dec Nat.eq_dec c fcols); [left; assumption|right]. split; [lia|assumption].
Qed.

Lemma coo_from : forall rows s i j,
  fold_right (fun rc a => (if ((fst rc =? i) && (snd rc =? j))%nat then 1 else 0) + a) 0 (combine rows (seq s (length rows))) =
  if ((s <=? j) && (j <? s + length rows) && (nth (j - s) rows 0 =? i))%nat then 1 else 0.
Proof.
  induction rows as [|r rows IH]; intros s i j.
  - cbn [length seq combine fold_right]. destruct (Nat.leb_spec s j), (Nat.ltb_spec j (s + 0)); try reflexivity; lia.
  - cbn [length seq combine fold_right fst snd]. rewrite IH. destruct (Nat.eqb_spec s j) as [->|Q].
    + rewrite Nat.sub_diag. cbn [nth]. destruct (Nat.leb_spec (S j) j); [lia|]. destruct (Nat.leb_spec j j); [|lia].
      destruct (Nat.ltb_spec j (j + S (length rows))); [|lia]. cbn. destruct (Nat.eqb_spec r i); cbn; lra.
    + rewrite andb_false_r, Rplus_0_l. destruct (Nat.leb_spec (S s) j), (Nat.leb_spec s j); try lia; [|reflexivity].
      replace (j - s)%nat with (S (j - S s)) by lia. cbn [nth]. replace (s + S (length rows))%nat with (S s + length rows)%nat by lia. reflexivity.
Qed.
Lemma coo_entry : forall rows i j, (j < length rows)%nat -> coo rows i j = if (nth j rows 0 =? i)%nat then 1 else 0.
Proof.
  intros rows i j H. unfold coo. rewrite coo_from, Nat.sub_0_r. cbn [Nat.leb andb Nat.add].
  destruct (Nat.ltb_spec j (length rows)); [|lia]. reflexivity.
Qed.

Lemma sum_ext : forall n (f g : nat -> R), (forall k, (k < n)%nat -> f k = g k) -> sum_n n f = sum_n n g.
Proof.
  intros n f g H. unfold sum_n. assert (A : forall k, In k (seq 0 n) -> f k = g k) by (intros k I; apply H; apply in_seq in I; lia).
  induction (seq 0 n) as [|k l IH]; [reflexivity|]. cbn. rewrite A, IH; [reflexivity| |left; reflexivity]. intros m I. apply A. right. exact I.
Qed.
Lemma fold_one : forall l (f : nat -> R) k, NoDup l -> In k l -> (forall m, In m l -> m <> k -> f m = 0) -> fold_right (fun k s => f k + s) 0 l = f k.
Proof.
  intros l f k N I Z. induction N as [|m l Hm N IH]; [contradiction|]. cbn. destruct (Nat.eq_dec m k) as [->|Q].
  - replace (fold_right (fun k0 s => f k0 + s) 0 l) with 0; [lra|]. symmetry.
    assert (Z' : forall d, In d l -> f d = 0) by (intros d J; apply Z; [right; exact J|intros ->; tauto]). clear - Z'.
    induction l as [|d l IH]; [reflexivity|]. cbn. rewrite Z' by (left; reflexivity). rewrite IH; [lra|]. intros e J. apply Z'. right. exact J.
  - rewrite (Z m (or_introl eq_refl) Q), IH; [lra|destruct I; [congruence|assumption]|intros d J; apply Z; right; exact J].
Qed.
Lemma sum_one : forall n (f : nat -> R) k, (k < n)%nat -> (forall m, (m < n)%nat -> m <> k -> f m = 0) -> sum_n n f = f k.
Proof.
  intros n f k H Z. apply fold_one; [apply seq_NoDup|apply in_seq; lia|]. intros m I. apply Z. apply in_seq in I. lia.
Qed.
Lemma sum_zero : forall n (f : nat -> R), (forall m, (m < n)%nat -> f m = 0) -> sum_n n f = 0.
Proof.
  intros n f H. rewrite (sum_ext n f (fun _ => 0) H). unfold sum_n. induction (seq 0 n) as [|k l IH]; [reflexivity|]. cbn. rewrite IH. lra.
Qed.

(** Selecting rows. *)
Lemma inner_entry : forall rows n M a b, (a < length rows)%nat -> (b < length rows)%nat -> (forall c, In c rows -> (c < n)%nat) ->
  inner_prod n (coo rows) M a b = M (nth a rows 0%nat) (nth b rows 0%nat).
Proof.
  intros rows n M a b Ha Hb H. unfold inner_prod.
  rewrite (sum_one n _ (nth a rows 0%nat)).
  - rewrite (sum_one n _ (nth b rows 0%nat)).
    + rewrite !coo_entry, !Nat.eqb_refl by assumption. ring.
    + apply H, nth_In, Hb.
    + intros m _ Q. rewrite (coo_entry rows m b Hb). destruct (Nat.eqb_spec (nth b rows 0%nat) m); [congruence|ring].
  - apply H, nth_In, Ha.
  - intros m _ Q. apply sum_zero. intros k _. rewrite (coo_entry rows m a Ha). destruct (Nat.eqb_spec (nth a rows 0%nat) m); [congruence|ring].
Qed.
Lemma outer_entry : forall rows M a b, NoDup rows -> (a < length rows)%nat -> (b < length rows)%nat ->
  outer_prod (length rows) (coo rows) M (nth a rows 0%nat) (nth b rows 0%nat) = M a b.
Proof.
  intros rows M a b N Ha Hb. unfold outer_prod.
  assert (U : forall x y, (x < length rows)%nat -> (y < length rows)%nat -> x <> y -> nth x rows 0%nat <> nth y rows 0%nat).
  { intros x y Hx Hy Q E. apply Q. apply (proj1 (NoDup_nth rows 0%nat) N); assumption. }
  rewrite (sum_one _ _ a Ha).
  - rewrite (sum_one _ _ b Hb).
    + rewrite !coo_entry, !Nat.eqb_refl by assumption. ring.
    + intros m Hm Q. rewrite (coo_entry rows _ m Hm). destruct (Nat.eqb_spec (nth m rows 0%nat) (nth b rows 0%nat)) as [E|_]; [|ring].
      exfalso. exact (U m b Hm Hb Q E).
  - intros m Hm Q. apply sum_zero. intros k _. rewrite (coo_entry rows _ m Hm).
    destruct (Nat.eqb_spec (nth m rows 0%nat) (nth a rows 0%nat)) as [E|_]; [|ring]. exfalso. exact (U m a Hm Ha Q E).
Qed.
Lemma outer_none : forall rows M i j, ~ In i rows \/ ~ In j rows -> outer_prod (length rows) (coo rows) M i j = 0.
Proof.
  intros rows M i j H. unfold outer_prod. apply sum_zero. intros a Ha. apply sum_zero. intros b Hb. rewrite !coo_entry by assumption.
  destruct H as [H|H].
  - destruct (Nat.eqb_spec (nth a rows 0%nat) i) as [E|_]; [|ring]. exfalso. apply H. rewrite <- E. apply nth_In, Ha.
  - destruct (Nat.eqb_spec (nth b rows 0%nat) j) as [E|_]; [|ring]. exfalso. apply H. rewrite <- E. apply nth_In, Hb.
Qed.
