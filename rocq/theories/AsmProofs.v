(** Lemmas for the assembled Hessian: entries of the triplet list. *)

From Coq Require Import Reals List Lra Lia Arith Bool.
From Coquelicot Require Import Coquelicot.
From Verif Require Import GlsModel GlsSpec GlsProofs MvnProofs AsmModel AsmSpec.
Import ListNotations.
Local Open Scope R_scope.

Definition get (T : list triplet) (p q : nat) : R :=
  total (map (fun t => if (fst (fst t) =? p)%nat && (snd (fst t) =? q)%nat then snd t else 0) T).

Lemma get_app A B p q : get (A ++ B) p q = get A p q + get B p q.
Proof. unfold get. now rewrite map_app, total_app. Qed.

Lemma get_zero T p q : (forall t, In t T -> fst (fst t) <> p \/ snd (fst t) <> q) -> get T p q = 0.
Proof.
  unfold get. induction T as [|t T IH]; intros H; [reflexivity|]. cbn [map total fold_right]. fold (total (map (fun t => if (fst (fst t) =? p)%nat && (snd (fst t) =? q)%nat then snd t else 0) T)).
  rewrite IH by (intros; apply H; now right). destruct (H t (or_introl eq_refl)) as [E|E]; apply Nat.eqb_neq in E; rewrite E; rewrite ?andb_false_r; cbn; lra.
Qed.

Lemma get_flat_map {A} (f : A -> list triplet) l p q : get (flat_map f l) p q = total (map (fun x => get (f x) p q) l).
Proof. induction l as [|x l IH]; [reflexivity|]. cbn [flat_map map total fold_right]. rewrite get_app, IH. reflexivity. Qed.

Lemma total_zero {A} (f : A -> R) l : (forall x, In x l -> f x = 0) -> total (map f l) = 0.
Proof.
  induction l as [|x l IH]; intros H; [reflexivity|]. cbn [map total fold_right]. change (f x + total (map f l) = 0).
  rewrite IH by (intros; apply H; now right). rewrite (H x) by now left. lra.
Qed.

Lemma total_single {A} (f : A -> R) l x : NoDup l -> In x l -> (forall y, In y l -> y <> x -> f y = 0) -> total (map f l) = f x.
Proof.
  induction l as [|y l IH]; intros ND I H; [destruct I|]. cbn [map total fold_right]. change (f y + total (map f l) = f x).
  inversion ND as [|? ? Ny ND']. destruct I as [->|I].
  - rewrite total_zero; [lra|]. intros z Iz. apply H; [now right|]. intros ->. contradiction.
  - rewrite IH; [|assumption|assumption|intros; apply H; [now right|assumption]].
    rewrite (H y); [lra|now left|]. intros ->. contradiction.
Qed.

(** Triplets in one row. *)
Lemma get_row_in R0 hc val cols b : NoDup cols -> In b cols ->
  get (map (fun c => (R0, (c + hc)%nat, val c)) cols) R0 (b + hc) = val b.
Proof.
  intros ND I. unfold get. rewrite map_map. cbn [fst snd].
  rewrite (total_single _ cols b ND I).
  - now rewrite !Nat.eqb_refl.
  - intros y Iy Ny. rewrite (proj2 (Nat.eqb_neq (y + hc) (b + hc))) by lia. now rewrite andb_false_r.
Qed.
Lemma get_col_in R0 hc val cols b : NoDup cols -> In b cols ->
  get (map (fun c => ((c + hc)%nat, R0, val c)) cols) (b + hc) R0 = val b.
Proof.
  intros ND I. unfold get. rewrite map_map. cbn [fst snd].
  rewrite (total_single _ cols b ND I).
  - now rewrite !Nat.eqb_refl.
  - intros y Iy Ny. rewrite (proj2 (Nat.eqb_neq (y + hc) (b + hc))) by lia. reflexivity.
Qed.

Section Cols.
Variables (stored : nat -> nat -> bool) (Xj : matrix).

Definition cols1 (diag : bool) (a : nat) : list nat :=
  let lo := if diag then a else 0%nat in filter (stored a) (seq lo (ncols Xj - lo)).
Definition cols2 (diag : bool) (a : nat) : list nat := if diag then filter (fun c => (a <? c)%nat) (cols1 diag a) else cols1 diag a.

Lemma cols1_in diag a c : In c (cols1 diag a) <-> ((if diag then a else 0) <= c < ncols Xj)%nat /\ stored a c = true.
Proof. unfold cols1. cbv zeta. rewrite filter_In, in_seq. destruct diag; intuition lia. Qed.
Lemma cols1_nodup diag a : NoDup (cols1 diag a).
Proof. apply NoDup_filter, seq_NoDup. Qed.
Lemma cols2_in diag a c : In c (cols2 diag a) <-> In c (cols1 diag a) /\ (if diag then (a < c)%nat else True).
Proof. unfold cols2. destruct diag; [rewrite filter_In, Nat.ltb_lt|]; tauto. Qed.
Lemma cols2_nodup diag a : NoDup (cols2 diag a).
Proof. unfold cols2. destruct diag; [apply NoDup_filter|]; apply cols1_nodup. Qed.

Lemma seq_cols2 a c0 rest : cols1 true a = c0 :: rest -> (c0 = a -> rest = cols2 true a) /\ (c0 <> a -> c0 :: rest = cols2 true a).
Proof.
  intros E. unfold cols2. rewrite E.
  assert (G : forall c, In c (c0 :: rest) -> (a <= c)%nat). { intros c I. rewrite <- E in I. apply cols1_in in I. lia. }
  unfold cols1 in E. cbv zeta in E.
  assert (F : forall s l, filter s (seq a l) = c0 :: rest -> c0 <> a -> forall c, In c (c0 :: rest) -> (a < c)%nat).
  { intros s l Ef Nc. destruct l as [|l]; [discriminate|]. cbn in Ef. destruct (s a) eqn:Es.
    - injection Ef as E1 _. congruence.
    - intros c I. rewrite <- Ef in I. apply filter_In in I. destruct I as [I _]. apply in_seq in I. lia. }
  assert (A : forall l, (forall c, In c l -> (a < c)%nat) -> filter (fun c => (a <? c)%nat) l = l).
  { induction l as [|c l IH]; intros H; [reflexivity|]. cbn [filter]. rewrite (proj2 (Nat.ltb_lt a c)) by (apply H; now left).
    now rewrite IH by (intros; apply H; now right). }
  split; intros C.
  - cbn [filter]. subst c0. rewrite Nat.ltb_irrefl. symmetry. apply A.
    assert (ND : NoDup (a :: rest)). { rewrite <- E. apply NoDup_filter, seq_NoDup. }
    inversion ND as [|? ? Na _]. intros c I. assert (a <= c)%nat by (apply G; now right). assert (c <> a) by congruence. lia.
  - symmetry. apply A. intros c I. eapply F; eassumption.
Qed.

End Cols.

Section Block.
Variables (n : nat) (stored : nat -> nat -> bool) (d2 : nat -> R) (Xi Xj : matrix).
Definition val (a c : nat) : R := row_sum n (fun r => d2 r * entry Xi r a * entry Xj r c).
Notation cols1 := (cols1 stored Xj).
Notation cols2 := (cols2 stored Xj).

Lemma block_row_eq diag hr hc a : (diag = true -> hr = hc) ->
  block_row n diag hr hc stored d2 Xi Xj a =
  map (fun c => ((a + hr)%nat, (c + hc)%nat, val a c)) (cols1 diag a) ++
  map (fun c => ((c + hc)%nat, (a + hr)%nat, val a c)) (cols2 diag a).
Proof.
  intros Hd. unfold block_row. fold (cols1 diag a).
  change (fun c => row_sum n (fun r => d2 r * entry Xi r a * entry Xj r c)) with (val a).
  destruct (cols1 diag a) as [|c0 rest] eqn:E.
  - unfold cols2. rewrite E. now destruct diag.
  - destruct diag; cbn [andb].
    + rewrite (Hd eq_refl). destruct (Nat.eqb_spec (c0 + hc) (a + hc)) as [C|C].
      * destruct (seq_cols2 stored Xj a c0 rest E) as [H _]. rewrite <- H by lia. reflexivity.
      * destruct (seq_cols2 stored Xj a c0 rest E) as [_ H]. rewrite <- H by lia. reflexivity.
    + unfold cols2. rewrite E. reflexivity.
Qed.

Lemma block_positions diag hr hc t : (diag = true -> hr = hc) -> In t (block n diag hr hc stored d2 Xi Xj) ->
  exists a c, (a < ncols Xi)%nat /\ (c < ncols Xj)%nat /\
    (fst t = ((a + hr)%nat, (c + hc)%nat) \/ fst t = ((c + hc)%nat, (a + hr)%nat)).
Proof.
  intros Hd I. unfold block in I. apply in_flat_map in I. destruct I as [a [Ia I]]. apply in_seq in Ia.
  rewrite block_row_eq in I by assumption. apply in_app_or in I.
  destruct I as [I|I]; apply in_map_iff in I; destruct I as [c [<- Ic]].
  - apply cols1_in in Ic. exists a, c. cbn. intuition lia.
  - apply cols2_in in Ic. destruct Ic as [Ic _]. apply cols1_in in Ic. exists a, c. cbn. intuition lia.
Qed.

Hypothesis Hstored : forall a c, (a < ncols Xi)%nat -> (c < ncols Xj)%nat -> stored a c = false -> val a c = 0.

(** Off the diagonal. *)
Lemma block_upper hr hc a c : (a < ncols Xi)%nat -> (c < ncols Xj)%nat -> (hr + ncols Xi <= hc)%nat ->
  get (block n false hr hc stored d2 Xi Xj) (a + hr) (c + hc) = val a c.
Proof.
  intros Ha Hc Hs. unfold block. rewrite get_flat_map.
  rewrite (total_single _ (seq 0 (ncols Xi)) a); [|apply seq_NoDup|apply in_seq; lia|].
  - rewrite block_row_eq by discriminate. rewrite get_app, (get_zero (map (fun c => ((c + hc)%nat, _, _)) _)).
    + destruct (stored a c) eqn:E.
      * rewrite get_row_in; [lra|apply cols1_nodup|apply cols1_in; split; [lia|assumption]].
      * rewrite get_zero; [rewrite (Hstored a c Ha Hc E); lra|].
        intros t I. apply in_map_iff in I. destruct I as [b [<- Ib]]. cbn. apply cols1_in in Ib.
        right. intros C. assert (b = c) by lia. subst. destruct Ib. congruence.
    + intros t I. apply in_map_iff in I. destruct I as [b [<- Ib]]. cbn. left. lia.
  - intros y Iy Ny. apply in_seq in Iy. rewrite block_row_eq by discriminate. rewrite get_app, !get_zero; [lra| |].
    + intros t I. apply in_map_iff in I. destruct I as [b [<- Ib]]. cbn. left. lia.
    + intros t I. apply in_map_iff in I. destruct I as [b [<- Ib]]. cbn. left. lia.
Qed.

Lemma block_lower hr hc a c : (a < ncols Xi)%nat -> (c < ncols Xj)%nat -> (hr + ncols Xi <= hc)%nat ->
  get (block n false hr hc stored d2 Xi Xj) (c + hc) (a + hr) = val a c.
Proof.
  intros Ha Hc Hs. unfold block. rewrite get_flat_map.
  rewrite (total_single _ (seq 0 (ncols Xi)) a); [|apply seq_NoDup|apply in_seq; lia|].
  - rewrite block_row_eq by discriminate. rewrite get_app, (get_zero (map (fun c => ((_ + hr)%nat, _, _)) _)).
    + destruct (stored a c) eqn:E.
      * rewrite get_col_in; [lra|apply cols2_nodup|apply cols2_in; split; [apply cols1_in; split; [lia|assumption]|exact I]].
      * rewrite get_zero; [rewrite (Hstored a c Ha Hc E); lra|].
        intros t I. apply in_map_iff in I. destruct I as [b [<- Ib]]. cbn. apply cols2_in in Ib. destruct Ib as [Ib _]. apply cols1_in in Ib.
        left. intros C. assert (b = c) by lia. subst. destruct Ib. congruence.
    + intros t I. apply in_map_iff in I. destruct I as [b [<- Ib]]. cbn. left. lia.
  - intros y Iy Ny. apply in_seq in Iy. rewrite block_row_eq by discriminate. rewrite get_app, !get_zero; [lra| |].
    + intros t I. apply in_map_iff in I. destruct I as [b [<- Ib]]. cbn. right. lia.
    + intros t I. apply in_map_iff in I. destruct I as [b [<- Ib]]. cbn. left. lia.
Qed.
End Block.

(** On the diagonal. *)
Lemma val_sym n d2 X a c : val n d2 X X a c = val n d2 X X c a.
Proof. unfold val, row_sum. f_equal. apply map_ext. intros r. ring. Qed.

Lemma block_diagonal n stored d2 X h a c :
  (forall a c, (a < ncols X)%nat -> (c < ncols X)%nat -> stored a c = false -> val n d2 X X a c = 0) ->
  (a < ncols X)%nat -> (c < ncols X)%nat ->
  get (block n true h h stored d2 X X) (a + h) (c + h) = val n d2 X X a c.
Proof.
  intros Hs Ha Hc. unfold block. rewrite get_flat_map.
  destruct (le_lt_dec a c) as [L|L].
  - rewrite (total_single _ (seq 0 (ncols X)) a); [|apply seq_NoDup|apply in_seq; lia|].
    + rewrite block_row_eq by reflexivity. rewrite get_app, (get_zero (map (fun c => ((c + h)%nat, _, _)) _)).
      * destruct (stored a c) eqn:E.
        -- rewrite get_row_in; [lra|apply cols1_nodup|apply cols1_in; split; [lia|assumption]].
        -- rewrite get_zero; [rewrite (Hs a c Ha Hc E); lra|].
           intros t I. apply in_map_iff in I. destruct I as [b [<- Ib]]. cbn. apply cols1_in in Ib.
           right. intros C. assert (b = c) by lia. subst. destruct Ib. congruence.
      * intros t I. apply in_map_iff in I. destruct I as [b [<- Ib]]. cbn. apply cols2_in in Ib. lia.
    + intros y Iy Ny. apply in_seq in Iy. rewrite block_row_eq by reflexivity. rewrite get_app, !get_zero; [lra| |].
      * intros t I. apply in_map_iff in I. destruct I as [b [<- Ib]]. cbn. apply cols2_in in Ib. lia.
      * intros t I. apply in_map_iff in I. destruct I as [b [<- Ib]]. cbn. left. lia.
  - rewrite val_sym. rewrite (total_single _ (seq 0 (ncols X)) c); [|apply seq_NoDup|apply in_seq; lia|].
    + rewrite block_row_eq by reflexivity. rewrite get_app, (get_zero (map (fun c => ((_ + h)%nat, (c + h)%nat, _)) (cols1 _ _ _ _))).
      * destruct (stored c a) eqn:E.
        -- rewrite get_col_in; [lra|apply cols2_nodup|apply cols2_in; split; [apply cols1_in; split; [lia|assumption]|lia]].
        -- rewrite get_zero; [rewrite (Hs c a Hc Ha E); lra|].
           intros t I. apply in_map_iff in I. destruct I as [b [<- Ib]]. cbn. apply cols2_in in Ib. destruct Ib as [Ib _]. apply cols1_in in Ib.
           left. intros C. assert (b = a) by lia. subst. destruct Ib. congruence.
      * intros t I. apply in_map_iff in I. destruct I as [b [<- Ib]]. cbn. left. lia.
    + intros y Iy Ny. apply in_seq in Iy. rewrite block_row_eq by reflexivity. rewrite get_app, !get_zero; [lra| |].
      * intros t I. apply in_map_iff in I. destruct I as [b [<- Ib]]. cbn. right. lia.
      * intros t I. apply in_map_iff in I. destruct I as [b [<- Ib]]. cbn. apply cols1_in in Ib. lia.
Qed.

Lemma block_ext n diag hr hc stored d2 d2' Xi Xj : (forall r, (r < n)%nat -> d2 r = d2' r) ->
  block n diag hr hc stored d2 Xi Xj = block n diag hr hc stored d2' Xi Xj.
Proof.
  intros H. assert (E : forall a c, val n d2 Xi Xj a c = val n d2' Xi Xj a c).
  { intros a c. unfold val, row_sum. f_equal. apply map_ext_in. intros r I. apply in_seq in I. now rewrite H by lia. }
  unfold block. apply flat_map_ext. intros a. unfold block_row.
  change (fun c => row_sum n (fun r => d2 r * entry Xi r a * entry Xj r c)) with (val n d2 Xi Xj a).
  change (fun c => row_sum n (fun r => d2' r * entry Xi r a * entry Xj r c)) with (val n d2' Xi Xj a).
  cbv zeta. destruct (filter _ _) as [|c0 rest]; [reflexivity|].
  assert (E1 : forall l, map (fun c => ((a + hr)%nat, (c + hc)%nat, val n d2 Xi Xj a c)) l = map (fun c => ((a + hr)%nat, (c + hc)%nat, val n d2' Xi Xj a c)) l).
  { intros l. apply map_ext. intros c. now rewrite E. }
  assert (E2 : forall l, map (fun c => ((c + hc)%nat, (a + hr)%nat, val n d2 Xi Xj a c)) l = map (fun c => ((c + hc)%nat, (a + hr)%nat, val n d2' Xi Xj a c)) l).
  { intros l. apply map_ext. intros c. now rewrite E. }
  rewrite E1, !E2. reflexivity.
Qed.

(** ** The loops *)
Section Loops.
Variables (n : nat) (stored : nat -> nat -> nat -> nat -> bool) (d2eta d2meta : nat -> nat -> R) (Xs : list matrix).
Variable d2 : nat -> nat -> nat -> R.
Notation no_matrix := (Mat 0 (fun _ _ => 0)).
Definition X_ (i : nat) : matrix := nth i Xs no_matrix.
Definition cols_ (i : nat) : nat := ncols (X_ i).
Notation m := (length Xs).

Definition the_block (i j : nat) : list triplet :=
  block n (i =? j)%nat (offset cols_ i) (offset cols_ j) (stored i j) (d2 i j) (X_ i) (X_ j).

Lemma inner_after i : (i < m)%nat -> forall k s mixed, (i < s)%nat -> (s + k = m)%nat ->
  (forall d r, (d < k)%nat -> (r < n)%nat -> d2meta (mixed + d)%nat r = d2 i (s + d)%nat r) ->
  inner_loop n stored d2eta d2meta Xs i (offset cols_ i) mixed (offset cols_ s) (seq s k) =
  ((mixed + k)%nat, flat_map (the_block i) (seq s k)).
Proof.
  intros Hi. induction k as [|k IH]; intros s mixed Hs Hk Hd.
  - cbn. f_equal. lia.
  - cbn [seq inner_loop flat_map].
    rewrite (proj2 (Nat.ltb_ge s i)) by lia. rewrite (proj2 (Nat.eqb_neq i s)) by lia. cbv zeta.
    change (offset cols_ s + ncols (nth s Xs no_matrix))%nat with (offset cols_ (S s)).
    rewrite IH; [|lia|lia|].
    + f_equal; [lia|]. f_equal. unfold the_block. rewrite (proj2 (Nat.eqb_neq i s)) by lia.
      apply block_ext. intros r Hr. specialize (Hd 0%nat r ltac:(lia) Hr). now rewrite !Nat.add_0_r in Hd.
    + intros d r Hdk Hr. specialize (Hd (S d) r ltac:(lia) Hr). replace (S mixed + d)%nat with (mixed + S d)%nat by lia.
      replace (S s + d)%nat with (s + S d)%nat by lia. exact Hd.
Qed.

Lemma inner_at i mixed : (i < m)%nat ->
  (forall r, (r < n)%nat -> d2eta i r = d2 i i r) ->
  (forall d r, (d < m - S i)%nat -> (r < n)%nat -> d2meta (mixed + d)%nat r = d2 i (S i + d)%nat r) ->
  inner_loop n stored d2eta d2meta Xs i (offset cols_ i) mixed (offset cols_ i) (seq i (m - i)) =
  ((mixed + (m - S i))%nat, flat_map (the_block i) (seq i (m - i))).
Proof.
  intros Hi He Hm. replace (m - i)%nat with (S (m - S i)) by lia. cbn [seq inner_loop flat_map].
  rewrite Nat.ltb_irrefl, Nat.eqb_refl. cbv zeta.
  change (offset cols_ i + ncols (nth i Xs no_matrix))%nat with (offset cols_ (S i)).
  rewrite inner_after; [|assumption|lia|lia|assumption]. f_equal. f_equal. unfold the_block. rewrite Nat.eqb_refl.
  apply block_ext. assumption.
Qed.

Lemma inner_before i mixed : (i < m)%nat -> forall k s, (s + k = i)%nat ->
  inner_loop n stored d2eta d2meta Xs i (offset cols_ i) mixed (offset cols_ s) (seq s (m - s)) =
  inner_loop n stored d2eta d2meta Xs i (offset cols_ i) mixed (offset cols_ i) (seq i (m - i)).
Proof.
  intros Hi. induction k as [|k IH]; intros s Hs.
  - replace s with i by lia. reflexivity.
  - replace (m - s)%nat with (S (m - S s)) by lia. cbn [seq inner_loop].
    rewrite (proj2 (Nat.ltb_lt s i)) by lia.
    change (offset cols_ s + ncols (nth s Xs no_matrix))%nat with (offset cols_ (S s)).
    apply IH. lia.
Qed.

Lemma pairs_from_first i k d : (d < k)%nat -> nth_error (pairs_from i (S k)) d = Some (i, (S i + d)%nat).
Proof.
  intros H. cbn [pairs_from]. rewrite nth_error_app1 by (rewrite map_length, seq_length; exact H).
  rewrite (map_nth_error _ d (seq 0 k) (d:=d)); [f_equal; f_equal; lia|].
  rewrite (nth_error_nth' _ 0%nat) by (rewrite seq_length; exact H). rewrite seq_nth by exact H. reflexivity.
Qed.
Lemma pairs_from_rest i k d : nth_error (pairs_from i (S k)) (k + d) = nth_error (pairs_from (S i) k) d.
Proof.
  cbn [pairs_from]. rewrite nth_error_app2 by (rewrite map_length, seq_length; lia). rewrite map_length, seq_length.
  f_equal. lia.
Qed.

Lemma outer_eq : forall k i mixed, (i + k = m)%nat ->
  (forall i r, (i < m)%nat -> (r < n)%nat -> d2eta i r = d2 i i r) ->
  (forall d i' j' r, nth_error (pairs_from i k) d = Some (i', j') -> (r < n)%nat -> d2meta (mixed + d)%nat r = d2 i' j' r) ->
  outer_loop n stored d2eta d2meta Xs mixed (offset cols_ i) (seq i k) =
  flat_map (fun i => flat_map (the_block i) (seq i (m - i))) (seq i k).
Proof.
  induction k as [|k IH]; intros i mixed Hk He Hm; [reflexivity|].
  cbn [seq outer_loop flat_map].
  change 0%nat with (offset cols_ 0) at 1. replace (seq 0 m) with (seq 0 (m - 0)) by (f_equal; lia).
  rewrite (inner_before i mixed ltac:(lia) i 0%nat) by lia.
  rewrite inner_at; [|lia|intros; apply He; lia|].
  - cbv beta zeta iota.
    change (offset cols_ i + ncols (nth i Xs no_matrix))%nat with (offset cols_ (S i)).
    rewrite IH; [reflexivity|lia|assumption|].
    intros d i' j' r Hd Hr. replace (m - S i)%nat with k by lia. rewrite <- Nat.add_assoc. apply Hm; [|assumption].
    rewrite pairs_from_rest. exact Hd.
  - intros d r Hd Hr. apply Hm; [|assumption]. apply pairs_from_first. lia.
Qed.

Hypothesis He : forall i r, (i < m)%nat -> (r < n)%nat -> d2eta i r = d2 i i r.
Hypothesis Hm : forall k i j r, nth_error (pairs m) k = Some (i, j) -> (r < n)%nat -> d2meta k r = d2 i j r.

Definition the_triplets : list triplet := flat_map (fun i => flat_map (the_block i) (seq i (m - i))) (seq 0 m).
Lemma triplets_eq : outer_loop n stored d2eta d2meta Xs 0 0 (seq 0 m) = the_triplets.
Proof. apply (outer_eq m 0 0); [reflexivity|exact He|]. intros d i' j' r. apply Hm. Qed.

Lemma offset_step i j : (i < j)%nat -> (offset cols_ i + cols_ i <= offset cols_ j)%nat.
Proof. induction j as [|j IH]; intros H; [lia|]. cbn [offset]. destruct (Nat.eq_dec i j) as [->|N]; [lia|]. specialize (IH ltac:(lia)). lia. Qed.
Lemma offset_unique i j a b : (a < cols_ i)%nat -> (b < cols_ j)%nat -> (a + offset cols_ i = b + offset cols_ j)%nat -> i = j /\ a = b.
Proof.
  intros Ha Hb E. destruct (lt_eq_lt_dec i j) as [[L| ->]|L]; [exfalso|split; [reflexivity|lia]|exfalso].
  - pose proof (offset_step i j L). lia.
  - pose proof (offset_step j i L). lia.
Qed.

Lemma the_block_positions i j t : In t (the_block i j) ->
  exists a c, (a < cols_ i)%nat /\ (c < cols_ j)%nat /\
    (fst t = ((a + offset cols_ i)%nat, (c + offset cols_ j)%nat) \/ fst t = ((c + offset cols_ j)%nat, (a + offset cols_ i)%nat)).
Proof.
  intros I. apply block_positions in I; [exact I|]. intros E. apply Nat.eqb_eq in E. now subst.
Qed.

Lemma the_block_other i j i0 j0 a c : (i <= j)%nat -> (i0 <= j0)%nat -> (a < cols_ i0)%nat -> (c < cols_ j0)%nat -> (i, j) <> (i0, j0) ->
  get (the_block i j) (a + offset cols_ i0) (c + offset cols_ j0) = 0 /\
  get (the_block i j) (c + offset cols_ j0) (a + offset cols_ i0) = 0.
Proof.
  intros Hij Hij0 Ha Hc N.
  split; apply get_zero; intros t I; apply the_block_positions in I; destruct I as (x & y & Hx & Hy & E).
  - destruct (Nat.eq_dec (fst (fst t)) (a + offset cols_ i0)) as [E1|]; [|now left].
    destruct (Nat.eq_dec (snd (fst t)) (c + offset cols_ j0)) as [E2|]; [|now right]. exfalso.
    destruct E as [E|E]; rewrite E in E1, E2; cbn in E1, E2.
    + apply offset_unique in E1; [|assumption|assumption]. apply offset_unique in E2; [|assumption|assumption]. apply N. f_equal; tauto.
    + apply offset_unique in E1; [|assumption|assumption]. apply offset_unique in E2; [|assumption|assumption]. apply N.
      destruct E1, E2. f_equal; lia.
  - destruct (Nat.eq_dec (snd (fst t)) (a + offset cols_ i0)) as [E1|]; [|now right].
    destruct (Nat.eq_dec (fst (fst t)) (c + offset cols_ j0)) as [E2|]; [|now left]. exfalso.
    destruct E as [E|E]; rewrite E in E1, E2; cbn in E1, E2.
    + apply offset_unique in E1; [|assumption|assumption]. apply offset_unique in E2; [|assumption|assumption]. apply N.
      destruct E1, E2. f_equal; lia.
    + apply offset_unique in E1; [|assumption|assumption]. apply offset_unique in E2; [|assumption|assumption]. apply N. f_equal; tauto.
Qed.

Lemma get_triplets i j p q : (i <= j < m)%nat ->
  (forall i' j', (i' <= j')%nat -> (i', j') <> (i, j) -> get (the_block i' j') p q = 0) ->
  get the_triplets p q = get (the_block i j) p q.
Proof.
  intros H Z. unfold the_triplets. rewrite get_flat_map.
  rewrite (total_single _ (seq 0 m) i); [|apply seq_NoDup|apply in_seq; lia|].
  - rewrite get_flat_map. rewrite (total_single _ (seq i (m - i)) j); [reflexivity|apply seq_NoDup|apply in_seq; lia|].
    intros y Iy Ny. apply in_seq in Iy. apply Z; [lia|congruence].
  - intros y Iy Ny. rewrite get_flat_map. apply total_zero. intros z Iz. apply in_seq in Iz. apply Z; [lia|congruence].
Qed.

Hypothesis Hstored : forall i j a b, (i <= j < m)%nat -> (a < cols_ i)%nat -> (b < cols_ j)%nat -> stored i j a b = false ->
  val n (d2 i j) (X_ i) (X_ j) a b = 0.

Lemma entry_upper i j a c : (i <= j < m)%nat -> (a < cols_ i)%nat -> (c < cols_ j)%nat ->
  get the_triplets (a + offset cols_ i) (c + offset cols_ j) = val n (d2 i j) (X_ i) (X_ j) a c.
Proof.
  intros H Ha Hc. rewrite (get_triplets i j); [|assumption|].
  - unfold the_block. destruct (Nat.eqb_spec i j) as [->|N].
    + apply block_diagonal; [|assumption|assumption]. intros a' c' Ha' Hc' E. now apply (Hstored j j).
    + apply block_upper; [|assumption|assumption|apply offset_step; lia]. intros a' c' Ha' Hc' E. now apply (Hstored i j).
  - intros i' j' Hij N. apply (the_block_other i' j' i j a c); (assumption || lia).
Qed.
Lemma entry_lower i j a c : (i <= j < m)%nat -> (a < cols_ i)%nat -> (c < cols_ j)%nat ->
  get the_triplets (c + offset cols_ j) (a + offset cols_ i) = val n (d2 i j) (X_ i) (X_ j) a c.
Proof.
  intros H Ha Hc. rewrite (get_triplets i j); [|assumption|].
  - unfold the_block. destruct (Nat.eqb_spec i j) as [->|N].
    + rewrite val_sym. apply block_diagonal; [|assumption|assumption]. intros a' c' Ha' Hc' E. now apply (Hstored j j).
    + apply block_lower; [|assumption|assumption|apply offset_step; lia]. intros a' c' Ha' Hc' E. now apply (Hstored i j).
  - intros i' j' Hij N. apply (the_block_other i' j' i j a c); (assumption || lia).
Qed.

Lemma triplets_range t : In t the_triplets -> (fst (fst t) < offset cols_ m)%nat /\ (snd (fst t) < offset cols_ m)%nat.
Proof.
  intros I. unfold the_triplets in I. apply in_flat_map in I. destruct I as [i [Ii I]]. apply in_flat_map in I. destruct I as [j [Ij I]].
  apply in_seq in Ii, Ij. apply the_block_positions in I. destruct I as (a & c & Ha & Hc & E).
  pose proof (offset_step i m ltac:(lia)). pose proof (offset_step j m ltac:(lia)).
  destruct E as [E|E]; rewrite E; cbn; lia.
Qed.

Lemma triplets_outside p q : (offset cols_ m <= p \/ offset cols_ m <= q)%nat -> get the_triplets p q = 0.
Proof. intros H. apply get_zero. intros t I. apply triplets_range in I. lia. Qed.

(** Every coefficient belongs to a parameter. *)
Lemma locate : forall k p, (p < offset cols_ k)%nat -> exists i a, (i < k)%nat /\ (a < cols_ i)%nat /\ p = (a + offset cols_ i)%nat.
Proof.
  induction k as [|k IH]; intros p H; [cbn in H; lia|]. cbn [offset] in H.
  destruct (lt_dec p (offset cols_ k)) as [L|L].
  - destruct (IH p L) as (i & a & Hi & Ha & E). exists i, a. repeat split; [lia|assumption|assumption].
  - exists k, (p - offset cols_ k)%nat. lia.
Qed.

Lemma triplets_symmetric p q : get the_triplets p q = get the_triplets q p.
Proof.
  destruct (le_lt_dec (offset cols_ m) p) as [L|L]; [rewrite !triplets_outside by lia; reflexivity|].
  destruct (le_lt_dec (offset cols_ m) q) as [L'|L']; [rewrite !triplets_outside by lia; reflexivity|].
  destruct (locate m p L) as (i & a & Hi & Ha & ->). destruct (locate m q L') as (j & c & Hj & Hc & ->).
  destruct (le_lt_dec i j) as [O|O].
  - rewrite entry_upper, entry_lower by (assumption || lia). reflexivity.
  - rewrite entry_lower, entry_upper by (assumption || lia). reflexivity.
Qed.

Lemma list_max_le_in l x : In x l -> (x <= list_max l)%nat.
Proof. induction l as [|y l IH]; intros H; [destruct H|]. cbn. destruct H as [->|H]; [lia|]. specialize (IH H). apply (Nat.le_trans _ _ _ IH). apply Nat.le_max_r. Qed.
Lemma list_max_bound l b : l <> [] -> (forall x, In x l -> (x < b)%nat) -> (list_max l < b)%nat.
Proof.
  destruct l as [|x l]; [congruence|intros _]. revert x. induction l as [|y l IH]; intros x H.
  - cbn. rewrite Nat.max_0_r. apply H. now left.
  - change (Nat.max x (list_max (y :: l)) < b)%nat. specialize (IH y). specialize (IH (fun z Hz => H z (or_intror Hz))).
    specialize (H x (or_introl eq_refl)). lia.
Qed.

(** Positions come in mirrored pairs, so the inferred shape is square. *)
Lemma mirrored t : In t the_triplets -> exists t', In t' the_triplets /\ fst t' = (snd (fst t), fst (fst t)).
Proof.
  intros I. unfold the_triplets in *. apply in_flat_map in I. destruct I as [i [Ii I]]. apply in_flat_map in I. destruct I as [j [Ij I]].
  assert (B : exists t', In t' (the_block i j) /\ fst t' = (snd (fst t), fst (fst t))).
  { unfold the_block, block in *. apply in_flat_map in I. destruct I as [a [Ia I]].
    assert (Hd : (i =? j)%nat = true -> offset cols_ i = offset cols_ j) by (intros E; apply Nat.eqb_eq in E; now subst).
    rewrite block_row_eq in I by assumption. apply in_app_or in I.
    destruct I as [I|I]; apply in_map_iff in I; destruct I as [c [<- Ic]]; cbn [fst snd].
    - destruct (Bool.bool_dec (i =? j)%nat true) as [E|E].
      + destruct (Nat.eq_dec a c) as [->|N].
        * exists ((c + offset cols_ i)%nat, (c + offset cols_ j)%nat, val n (d2 i j) (X_ i) (X_ j) c c). split; [|cbn; rewrite (Hd E); reflexivity].
          apply in_flat_map. exists c. split; [assumption|]. rewrite block_row_eq by assumption. apply in_or_app. left.
          apply in_map_iff. exists c. auto.
        * exists ((c + offset cols_ j)%nat, (a + offset cols_ i)%nat, val n (d2 i j) (X_ i) (X_ j) a c). split; [|reflexivity].
          apply in_flat_map. exists a. split; [assumption|]. rewrite block_row_eq by assumption. apply in_or_app. right.
          apply in_map_iff. exists c. split; [reflexivity|]. apply cols2_in. split; [assumption|]. rewrite E in *. apply cols1_in in Ic. lia.
      + exists ((c + offset cols_ j)%nat, (a + offset cols_ i)%nat, val n (d2 i j) (X_ i) (X_ j) a c). split; [|reflexivity].
        apply in_flat_map. exists a. split; [assumption|]. rewrite block_row_eq by assumption. apply in_or_app. right.
        apply in_map_iff. exists c. split; [reflexivity|]. apply cols2_in. split; [assumption|]. apply not_true_is_false in E. rewrite E. exact Logic.I.
    - apply cols2_in in Ic. destruct Ic as [Ic _].
      exists ((a + offset cols_ i)%nat, (c + offset cols_ j)%nat, val n (d2 i j) (X_ i) (X_ j) a c). split; [|reflexivity].
      apply in_flat_map. exists a. split; [assumption|]. rewrite block_row_eq by assumption. apply in_or_app. left.
      apply in_map_iff. exists c. auto. }
  destruct B as [t' [It' Et']]. exists t'. split; [|assumption].
  apply in_flat_map. exists i. split; [assumption|]. apply in_flat_map. exists j. split; assumption.
Qed.

Lemma list_max_mono l l' : (forall x, In x l -> In x l') -> (list_max l <= list_max l')%nat.
Proof. intros H. apply list_max_le. apply Forall_forall. intros x I. apply list_max_le_in. now apply H. Qed.

Lemma shape_square : list_max (map (fun t => fst (fst t)) the_triplets) = list_max (map (fun t => snd (fst t)) the_triplets).
Proof.
  apply Nat.le_antisymm; apply list_max_mono; intros x I; apply in_map_iff in I; destruct I as [t [<- I]];
    destruct (mirrored t I) as [t' [I' E]]; apply in_map_iff; exists t'; rewrite E; auto.
Qed.

(** An explicit entry in the last row and column fixes the shape. *)
Lemma shape_full i a b : (i <= m - 1)%nat -> (0 < m)%nat -> (a < cols_ i)%nat -> (S b = cols_ (m - 1))%nat -> stored i (m - 1) a b = true ->
  the_triplets <> [] /\ S (list_max (map (fun t => fst (fst t)) the_triplets)) = offset cols_ m.
Proof.
  intros Hi H0 Ha Hb Hs.
  assert (I : exists t, In t the_triplets /\ snd (fst t) = (b + offset cols_ (m - 1))%nat).
  { exists ((a + offset cols_ i)%nat, (b + offset cols_ (m - 1))%nat, val n (d2 i (m - 1)%nat) (X_ i) (X_ (m - 1)) a b).
    split; [|reflexivity].
    unfold the_triplets. apply in_flat_map. exists i. split; [apply in_seq; lia|]. apply in_flat_map. exists (m - 1)%nat. split; [apply in_seq; lia|].
    unfold the_block, block. apply in_flat_map. exists a. split; [apply in_seq; unfold cols_ in *; lia|].
    rewrite block_row_eq by (intros E; apply Nat.eqb_eq in E; now subst). apply in_or_app. left. apply in_map_iff. exists b.
    split; [reflexivity|]. apply cols1_in. split; [|assumption]. fold (cols_ (m - 1)).
    destruct (Nat.eqb_spec i (m - 1)) as [->|]; lia. }
  destruct I as [t [I E]]. assert (NE : the_triplets <> []) by (intros C; rewrite C in I; destruct I).
  split; [assumption|]. rewrite shape_square.
  assert (Em : offset cols_ m = (offset cols_ (m - 1) + cols_ (m - 1))%nat).
  { replace m with (S (m - 1)) at 1 by lia. reflexivity. }
  assert (L1 : (list_max (map (fun t => snd (fst t)) the_triplets) < offset cols_ m)%nat).
  { apply list_max_bound.
    - intros C. apply map_eq_nil in C. contradiction.
    - intros x Ix. apply in_map_iff in Ix. destruct Ix as [t' [<- It']]. apply triplets_range in It'. tauto. }
  assert (L2 : (b + offset cols_ (m - 1) <= list_max (map (fun t => snd (fst t)) the_triplets))%nat).
  { apply list_max_le_in. apply in_map_iff. exists t. auto. }
  lia.
Qed.
End Loops.
