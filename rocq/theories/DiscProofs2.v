(** Lemmas for DiscModel: numbers of series, counts, clusters. *)
From Coq Require Import String List Bool Arith ZArith Reals Lia Lra Sorting.Sorted Sorting.Permutation.
From Verif Require Import DiscModel DiscSpec DiscProofs.
Import ListNotations.
Local Open Scope nat_scope.

Definition cnt (st : list nat) (r : nat) : nat := length (filter (fun s => s <=? r) st).
Lemma cnt_none st r : (forall x, In x st -> r < x) -> cnt st r = 0.
Proof.
  unfold cnt. induction st as [|a st IH]; cbn; trivial. intros H.
  assert (r < a) by (apply H; now left). destruct (Nat.leb_spec a r); [lia|]. apply IH. intros x Hx. apply H. now right.
Qed.
Lemma map_const {A B} (f : A -> B) (c : B) l : (forall x, In x l -> f x = c) -> map f l = repeat c (length l).
Proof. induction l; cbn; trivial. intros H. rewrite IHl, (H a); auto. Qed.

Lemma cnt_blocks {A} (bl : list (A * nat)) : forall k c b,
  map (fun r => c + cnt (starts (k + snd b) bl) r) (seq k (snd b + length (flat bl)))
  = flat (combine (seq c (S (length bl))) (map snd (b :: bl))).
Proof.
  induction bl as [|b' bl IH]; intros k c b.
  - unfold flat; cbn. rewrite (map_const _ c) by (intros; cbn; lia). now rewrite seq_length, ?app_nil_r, ?Nat.add_0_r.
  - rewrite seq_app, map_app.
    transitivity (repeat c (snd b) ++ flat (combine (seq (S c) (S (length bl))) (map snd (b' :: bl)))).
    + f_equal.
      * rewrite (map_const _ c); [now rewrite seq_length|]. intros r Hr. apply in_seq in Hr.
        rewrite cnt_none; [lia|]. intros x Hx. apply starts_ge in Hx. lia.
      * rewrite <- IH with (k := k + snd b). unfold flat at 1; cbn [flat_map]. rewrite app_length, repeat_length.
        fold (flat bl). apply map_ext_in. intros r Hr. apply in_seq in Hr. cbn [starts]. unfold cnt at 1. cbn [filter].
        destruct (Nat.leb_spec (k + snd b) r); [|lia]. cbn [length]. unfold cnt. lia.
    + reflexivity.
Qed.
Lemma part_blocks {A} (bl : list (A * nat)) :
  id_col (length (flat bl)) (starts 0 bl) = flat (combine (seq 0 (length bl)) (map snd bl)).
Proof.
  destruct bl as [|b bl]; trivial. etransitivity; [|exact (cnt_blocks bl 0 0 b)]. unfold id_col, flat at 1; cbn [flat_map].
  rewrite app_length, repeat_length. fold (flat bl). apply map_ext. intros r. reflexivity.
Qed.

Lemma flat_length {A} (bl : list (A * nat)) : length (flat bl) = list_sum (map snd bl).
Proof. unfold flat. induction bl as [|b bl IH]; cbn; trivial. now rewrite app_length, repeat_length, IH. Qed.
Lemma flat_map_length' {A B} (f : A -> list B) l : length (flat_map f l) = list_sum (map (fun x => length (f x)) l).
Proof. induction l; cbn; trivial. now rewrite app_length, IHl. Qed.

(** Rows that are equal to a number. *)
Definition count (v : nat) (l : list nat) : nat := length (filter (fun x => x =? v) l).
Lemma count_app v l k : count v (l ++ k) = count v l + count v k.
Proof. unfold count. now rewrite filter_app, app_length. Qed.
Lemma count_repeat v c n : count v (repeat c n) = if c =? v then n else 0.
Proof. unfold count. destruct (c =? v) eqn:E; induction n; cbn; trivial; rewrite E; cbn; now rewrite ?IHn. Qed.
Lemma count_numbered lens : forall c s, c <= s ->
  count s (flat (combine (seq c (length lens)) lens)) = nth (s - c) lens 0.
Proof.
  induction lens as [|n lens IH]; intros c s H.
  - cbn. now destruct (s - c).
  - change (flat (combine (seq c (length (n :: lens))) (n :: lens)))
      with (repeat c n ++ flat (combine (seq (S c) (length lens)) lens)).
    rewrite count_app, count_repeat.
    destruct (Nat.eqb_spec c s).
    + subst. rewrite Nat.sub_diag. cbn [nth]. assert (E : count s (flat (combine (seq (S s) (length lens)) lens)) = 0); [|lia].
      unfold count.
      destruct (filter _ _) as [|x l] eqn:E; trivial. assert (Hx : In x (x :: l)) by now left. rewrite <- E in Hx.
      apply filter_In in Hx as [Hx Hs]. apply Nat.eqb_eq in Hs. subst. apply flat_in in Hx.
      apply in_map_iff in Hx as ((a, b) & Ha & Hb). cbn in Ha. subst. apply in_combine_l, in_seq in Hb. lia.
    + rewrite IH by lia. destruct (s - c) eqn:E; [lia|]. cbn [nth plus]. f_equal. lia.
Qed.
Lemma count_blocks (bl : list (nat * nat)) : NoDup (map fst bl) -> forall i, i < length bl ->
  count (fst (nth i bl (0, 0))) (flat bl) = snd (nth i bl (0, 0)).
Proof.
  induction bl as [|[a n] bl IH]; cbn [length map fst]; [lia|]. intros ND i Hi. inversion_clear ND as [|? ? Hn ND'].
  change (flat ((a, n) :: bl)) with (repeat a n ++ flat bl).
  rewrite count_app, count_repeat. destruct i as [|i]; cbn [nth fst snd].
  - rewrite Nat.eqb_refl. assert (E : count a (flat bl) = 0); [|lia].
    unfold count. destruct (filter _ _) as [|x l] eqn:E; trivial. assert (Hx : In x (x :: l)) by now left.
    rewrite <- E in Hx. apply filter_In in Hx as [Hx Hs]. apply Nat.eqb_eq in Hs. subst. apply flat_in in Hx. tauto.
  - rewrite IH by (trivial; lia). destruct (Nat.eqb_spec a (fst (nth i bl (0, 0)))); trivial.
    exfalso. apply Hn. rewrite e. apply in_map, nth_In. lia.
Qed.

(** Sorted numbers are blocks. *)
Definition lt' (x y : nat) : Prop := Nat.compare x y = Lt.
Lemma sorted_blocks ids : StronglySorted le ids ->
  exists bl : list (nat * nat), flat bl = ids /\ StronglySorted lt' (map fst bl) /\ List.Forall (fun s => 0 < snd s) bl.
Proof.
  induction 1 as [|x ids HS IH F].
  - exists []. repeat constructor.
  - destruct IH as ([|[a n] bl] & E & SS & P).
    + exists [(x, 1)]. cbn in *. subst. repeat constructor.
    + inversion_clear SS as [|? ? SS' SF]. inversion_clear P as [|? ? Pn P']. cbn in Pn.
      assert (Ha : x <= a).
      { rewrite List.Forall_forall in F. apply F. rewrite <- E. unfold flat; cbn. destruct n; [lia|]. now left. }
      destruct (Nat.eq_dec x a) as [->|Hne].
      * exists ((a, S n) :: bl). split; [|split].
        -- unfold flat in *; cbn in *. now rewrite E.
        -- now constructor.
        -- constructor; trivial. cbn. lia.
      * exists ((x, 1) :: (a, n) :: bl). split; [|split].
        -- unfold flat in *; cbn in *. now rewrite E.
        -- cbn. constructor; [now constructor|]. assert (lt' x a) by (apply Nat.compare_lt_iff; lia).
           constructor; trivial. rewrite List.Forall_forall in SF |- *. intros y Hy.
           eapply (g_tr good_nat); [exact H|]. now apply SF.
        -- repeat constructor; trivial.
Qed.
Lemma sid_idx_blocks (bl : list (nat * nat)) : StronglySorted lt' (map fst bl) -> List.Forall (fun s => 0 < snd s) bl ->
  sid_idx (flat bl) = map fst bl.
Proof.
  intros SS P. apply (sorted_ext nat Nat.compare good_nat).
  - apply (unique_sorted nat Nat.compare good_nat).
  - exact SS.
  - intros x. rewrite (unique_in nat Nat.compare good_nat). split; [apply flat_in|now apply flat_in'].
Qed.
Lemma fact_s_idx_blocks (bl : list (nat * nat)) : StronglySorted lt' (map fst bl) ->
  List.Forall (fun s => 0 < snd s) bl -> fact_s_idx (flat bl) = starts 0 bl.
Proof.
  intros SS P. unfold fact_s_idx. fold (sid_idx (flat bl)). rewrite sid_idx_blocks by trivial.
  apply (positions_starts nat Nat.compare good_nat); trivial.
  now apply (sorted_nodup nat Nat.compare good_nat).
Qed.
Lemma filter_count (f : nat -> nat) s l : length (filter (fun r => f r =? s) l) = count s (map f l).
Proof. unfold count. induction l; cbn; trivial. destruct (f a =? s); cbn; now rewrite IHl. Qed.

(** Rows of the i-th series of a part. *)
Lemma part_rows ids : StronglySorted le ids -> forall i, i < length (sid_idx ids) ->
  length (filter (fun r => part (fact_s_idx ids) r =? i) (seq 0 (length ids))) = count (nth i (sid_idx ids) 0) ids.
Proof.
  intros S i Hi. destruct (sorted_blocks ids S) as (bl & <- & SS & P).
  rewrite fact_s_idx_blocks, filter_count by trivial.
  fold (id_col (length (flat bl)) (starts 0 bl)). rewrite part_blocks.
  rewrite sid_idx_blocks in Hi |- * by trivial. rewrite map_length in Hi.
  rewrite <- (map_length snd bl). rewrite count_numbered by lia. rewrite Nat.sub_0_r.
  change 0 with (fst (0, 0)) at 2. change 0 with (snd (0, 0)) at 1. rewrite !map_nth.
  symmetry. apply count_blocks; trivial. now apply (sorted_nodup nat Nat.compare good_nat).
Qed.

(** Sums of tables. *)
Lemma total_INR l : total (map INR l) = INR (list_sum l).
Proof. unfold total. induction l as [|x l IH]; cbn [map fold_right list_sum]; trivial. rewrite IH. change (list_sum (x :: l)) with (x + list_sum l). now rewrite plus_INR. Qed.
Lemma list_sum_add {A} (f g : A -> nat) l : list_sum (map (fun x => f x + g x) l) = list_sum (map f l) + list_sum (map g l).
Proof. induction l as [|a l IH]; trivial. cbn [map]. change (list_sum (?x :: ?l)) with (x + list_sum l). rewrite IH. lia. Qed.
Lemma list_sum_zero {A} (f : A -> nat) l : (forall x, In x l -> f x = 0) -> list_sum (map f l) = 0.
Proof. induction l; cbn; trivial. intros H. rewrite (H a) by now left. apply IHl. auto. Qed.
Lemma sum_delta k j m : list_sum (map (fun c => if j =? c then 1 else 0) (seq k m)) = if (k <=? j) && (j <? k + m) then 1 else 0.
Proof.
  revert k. induction m as [|m IH]; intros k; cbn [seq map].
  - change (list_sum []) with 0. destruct (Nat.leb_spec k j), (Nat.ltb_spec j (k + 0)); cbn [andb]; lia.
  - change (list_sum (?x :: ?l)) with (x + list_sum l). rewrite IH.
    destruct (Nat.eqb_spec j k), (Nat.leb_spec (S k) j), (Nat.leb_spec k j), (Nat.ltb_spec j (S k + m)), (Nat.ltb_spec j (k + S m)); cbn [andb]; lia.
Qed.
Lemma sum_bins (f : nat -> nat) (P : nat -> bool) m : forall l, (forall r, In r l -> f r < m) ->
  list_sum (map (fun c => length (filter P (filter (fun r => f r =? c) l))) (seq 0 m)) = length (filter P l).
Proof.
  induction l as [|r l IH]; intros H; cbn [filter].
  - apply list_sum_zero. reflexivity.
  - transitivity (list_sum (map (fun c => (if P r then if f r =? c then 1 else 0 else 0) + length (filter P (filter (fun r => f r =? c) l))) (seq 0 m))).
    + f_equal. apply map_ext. intros c. destruct (f r =? c); cbn [filter]; destruct (P r); cbn [length]; lia.
    + rewrite list_sum_add, IH by (intros; apply H; now right). destruct (P r).
      * rewrite sum_delta. cbn [length]. assert (f r < m) by (apply H; now left).
        destruct (Nat.leb_spec 0 (f r)), (Nat.ltb_spec (f r) (0 + m)); cbn [andb]; lia.
      * rewrite list_sum_zero; trivial.
Qed.
Lemma sum_occurrences ms starts n s m :
  (forall x, In x ms -> forall r, r < n -> nth r (snd x) 0 < m) ->
  list_sum (map (occurrences ms starts n s) (seq 0 m))
  = length ms * length (filter (fun r => part starts r =? s) (seq 0 n)).
Proof.
  unfold occurrences. induction ms as [|x ms IH]; intros H; cbn [flat_map length].
  - rewrite list_sum_zero; trivial.
  - transitivity (list_sum (map (fun c =>
      length (filter (fun r => part starts r =? s) (filter (fun r => nth r (snd x) 0 =? c) (seq 0 n))) +
      length (filter (fun r => part starts r =? s) (flat_map (fun m0 => filter (fun r => nth r (snd m0) 0 =? c) (seq 0 n)) ms))) (seq 0 m))).
    + f_equal. apply map_ext. intros c. now rewrite filter_app, app_length.
    + rewrite list_sum_add, IH by (intros; apply H; trivial; now right).
      rewrite sum_bins; [lia|]. intros r Hr. apply in_seq in Hr. apply H; [now left|lia].
Qed.

Definition uniform (n : nat) (cols : list (string * list Z)) : Prop := List.Forall (fun c => length (snd c) = n) cols.
Lemma members_bound o n cols : has_stat o = false -> uniform n cols -> forall prev x, In x (members o prev cols) ->
  forall r, r < n -> nth r (snd x) 0 < prev + list_sum (map fst (members o prev cols)).
Proof.
  intros Hs. induction 1 as [|[name col] cols Hc U IH]; cbn -[list_sum]; [tauto|]. intros prev x.
  rewrite Hs. cbn -[list_sum]. change (list_sum (?x :: ?l)) with (x + list_sum l). cbn in Hc.
  intros [<-|Hx] r Hr.
  - cbn. rewrite nth_indep with (d' := prev + position Z Z.compare 0%Z (unique Z Z.compare col)) by (rewrite map_length; lia).
    rewrite (map_nth (fun x => prev + position Z Z.compare x (unique Z Z.compare col))).
    assert (position Z Z.compare (nth r col 0%Z) (unique Z Z.compare col) < length (unique Z Z.compare col)); [|lia].
    apply (position_lt Z Z.compare good_Z). apply (unique_in Z Z.compare good_Z). apply nth_In. lia.
  - specialize (IH _ _ Hx _ Hr). lia.
Qed.
Lemma members_length o prev cols : length (members o prev cols) = length cols.
Proof. revert prev. induction cols as [|[name col] cols IH]; intros; cbn; trivial. now rewrite IH. Qed.

(** Row sums of the table of a part. *)
Lemma table_length o p : plain o -> length (table o p) = length (sid_idx (p_ids p)).
Proof. intros [Hs Hn]. unfold table. rewrite Hs, Hn. unfold count_table. now rewrite map_length, seq_length. Qed.
Lemma table_total o p i : plain o -> uniform (length (p_ids p)) (p_cols p) -> StronglySorted le (p_ids p) ->
  i < length (sid_idx (p_ids p)) ->
  total (nth i (table o p) []) = INR (length (p_cols p) * count (nth i (sid_idx (p_ids p)) 0) (p_ids p)).
Proof.
  intros [Hs Hn] U S Hi. unfold table. rewrite Hs, Hn. unfold count_table.
  match goal with |- total (nth i (map ?f _) []) = _ => rewrite nth_indep with (d' := f 0) by (now rewrite map_length, seq_length); rewrite (map_nth f) end.
  rewrite seq_nth by trivial. cbn [plus].
  rewrite <- (map_map (occurrences (members o 0 (p_cols p)) (fact_s_idx (p_ids p)) (length (p_ids p)) i) INR).
  rewrite total_INR, sum_occurrences, members_length, part_rows; trivial.
  intros x Hx r Hr. exact (members_bound o _ _ Hs U 0 x Hx r Hr).
Qed.

(** np.argmax *)
Lemma argmax_spec l : l <> [] -> argmax l < length l /\ (forall x, In x l -> (x <= nth (argmax l) l 0)%R).
Proof.
  induction l as [|x t IH]; [congruence|]. intros _. destruct t as [|y t].
  - cbn. split; [lia|]. intros z [->|[]]. lra.
  - destruct IH as [IH1 IH2]; [congruence|].
    change (argmax (x :: y :: t)) with (if Rlt_dec x (nth (argmax (y :: t)) (y :: t) 0%R) then S (argmax (y :: t)) else 0).
    destruct (Rlt_dec x (nth (argmax (y :: t)) (y :: t) 0%R)) as [H|H].
    + split; [cbn [length] in *; lia|]. change (nth (S (argmax (y :: t))) (x :: y :: t) 0%R) with (nth (argmax (y :: t)) (y :: t) 0%R).
      intros z [->|Hz]; [lra|now apply IH2].
    + split; [cbn; lia|]. change (nth 0 (x :: y :: t) 0%R) with x. intros z [->|Hz]; [lra|]. specialize (IH2 _ Hz). lra.
Qed.

(** Groups of rows with the same label. *)
Lemma grouped_nonempty labels g : In g (grouped labels) -> g <> [].
Proof.
  unfold grouped. intros H. apply in_map_iff in H as (k & <- & Hk). apply (proj1 (unique_in nat Nat.compare good_nat _ _)) in Hk.
  apply In_nth with (d := 0) in Hk as (i & Hi & E). intros N. assert (In i []); [|easy]. rewrite <- N. apply filter_In.
  split; [apply in_seq; lia|]. now apply Nat.eqb_eq.
Qed.
Lemma grouped_in labels g i : In g (grouped labels) -> In i g -> i < length labels.
Proof. unfold grouped. intros H Hi. apply in_map_iff in H as (k & <- & Hk). apply filter_In in Hi as [Hi _]. apply in_seq in Hi. lia. Qed.
Lemma filters_perm {A} (f : A -> nat) ks : NoDup ks -> forall l, (forall x, In x l -> In (f x) ks) ->
  Permutation (concat (map (fun k => filter (fun x => f x =? k) l) ks)) l.
Proof.
  induction 1 as [|k ks Hk ND IH]; intros l H.
  - destruct l as [|x l]; [constructor|]. destruct (H x). now left.
  - cbn. transitivity (filter (fun x => f x =? k) l ++ filter (fun x => negb (f x =? k)) l).
    + apply Permutation_app_head.
      transitivity (concat (map (fun k0 => filter (fun x => f x =? k0) (filter (fun x => negb (f x =? k)) l)) ks)).
      * assert (E : map (fun k0 => filter (fun x => f x =? k0) l) ks
                  = map (fun k0 => filter (fun x => f x =? k0) (filter (fun x => negb (f x =? k)) l)) ks); [|now rewrite E].
        apply map_ext_in. intros k0 Hk0. clear - Hk Hk0.
        assert (Hne : k0 <> k) by congruence. induction l as [|x l IHl]; cbn; trivial.
        destruct (Nat.eqb_spec (f x) k); cbn.
        -- destruct (Nat.eqb_spec (f x) k0); [congruence|exact IHl].
        -- destruct (Nat.eqb_spec (f x) k0); cbn; now rewrite IHl.
      * apply IH. intros x Hx. apply filter_In in Hx as [Hx Hn]. destruct (H x Hx) as [E|]; trivial.
        subst. now rewrite Nat.eqb_refl in Hn.
    + clear. induction l as [|x l IHl]; cbn; [constructor|]. destruct (f x =? k); cbn.
      * now constructor.
      * rewrite <- Permutation_middle. now constructor.
Qed.
Lemma grouped_perm labels : Permutation (concat (grouped labels)) (seq 0 (length labels)).
Proof.
  unfold grouped. apply (filters_perm (fun i => nth i labels 0)).
  - apply (unique_nodup nat Nat.compare good_nat).
  - intros i Hi. apply in_seq in Hi. apply (unique_in nat Nat.compare good_nat). apply nth_In. lia.
Qed.
Lemma map_nth_seq {A} (l : list A) d : map (fun i => nth i l d) (seq 0 (length l)) = l.
Proof.
  induction l as [|x l IH]; cbn; trivial. f_equal. rewrite <- seq_shift, map_map. exact IH.
Qed.
