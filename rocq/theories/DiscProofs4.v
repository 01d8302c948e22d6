(** Lemmas for DiscModel: entries of the table, sub-groups, levels. *)
From Coq Require Import String List Bool Arith ZArith Reals Lia Lra Sorting.Sorted Sorting.Permutation.
From Verif Require Import DiscModel DiscSpec DiscProofs DiscProofs2 DiscProofs3.
Import ListNotations.
Local Open Scope nat_scope.

Lemma part_number ids : StronglySorted le ids -> forall r i, r < length ids -> i < length (sid_idx ids) ->
  (part (fact_s_idx ids) r =? i) = (nth r ids 0 =? nth i (sid_idx ids) 0).
Proof.
  intros S r i Hr Hi. destruct (sorted_blocks ids S) as (bl & <- & SS & P).
  rewrite sid_idx_blocks in Hi |- * by trivial. rewrite fact_s_idx_blocks by trivial.
  assert (E : part (starts 0 bl) r = nth r (flat (combine (seq 0 (length bl)) (map snd bl))) 0).
  { rewrite <- part_blocks. unfold id_col.
    rewrite nth_indep with (d' := part (starts 0 bl) 0) by (now rewrite map_length, seq_length).
    now rewrite map_nth, seq_nth. }
  assert (L : length (flat (combine (seq 0 (length bl)) (map snd bl))) = length (flat bl)).
  { rewrite <- part_blocks. unfold id_col. now rewrite map_length, seq_length. }
  assert (B : part (starts 0 bl) r < length bl).
  { rewrite E. assert (H : In (nth r (flat (combine (seq 0 (length bl)) (map snd bl))) 0) (flat (combine (seq 0 (length bl)) (map snd bl)))) by (apply nth_In; lia).
    apply flat_in in H. rewrite map_fst_combine in H by (now rewrite seq_length, map_length). apply in_seq in H. lia. }
  assert (E' : nth r (flat bl) 0 = nth (part (starts 0 bl) r) (map fst bl) 0).
  { rewrite (flat_numbered bl (0, 0) 0) at 1.
    rewrite nth_indep with (d' := fst (nth (0 - 0) bl (0, 0))) by (now rewrite map_length, L).
    rewrite (map_nth (fun i => fst (nth (i - 0) bl (0, 0)))), Nat.sub_0_r, <- E.
    symmetry. exact (map_nth fst bl (0, 0) _). }
  rewrite E'. rewrite map_length in Hi. apply Bool.eq_iff_eq_true. rewrite !Nat.eqb_eq. split; [congruence|].
  intros H. assert (ND : NoDup (map fst bl)) by now apply (sorted_nodup nat Nat.compare good_nat).
  rewrite NoDup_nth with (d := 0) in ND. apply ND; trivial; now rewrite map_length.
Qed.

Lemma filter_filter {A} (p q : A -> bool) l : filter p (filter q l) = filter (fun x => p x && q x) l.
Proof.
  induction l as [|x l IH]; cbn; trivial. destruct (q x); cbn; [|now rewrite andb_false_r].
  destruct (p x); cbn; now rewrite IH.
Qed.
Lemma length_filter_seq {A} (P : A -> bool) l d : length (filter (fun r => P (nth r l d)) (seq 0 (length l))) = length (filter P l).
Proof.
  assert (H : forall k, length (filter (fun r => P (nth r l d)) k) = length (filter P (map (fun i => nth i l d) k))).
  { induction k as [|x k IH]; cbn; trivial. destruct (P (nth x l d)); cbn; now rewrite IH. }
  now rewrite H, map_nth_seq.
Qed.
Lemma filter_length_ext {A} (p q : A -> bool) l : (forall x, In x l -> p x = q x) -> length (filter p l) = length (filter q l).
Proof. intros H. f_equal. now apply filter_ext_in. Qed.

(** The values of a column and its bins. *)
Lemma lt_sorted l : StronglySorted Z.lt l -> StronglySorted (fun x y => Z.compare x y = Lt) l.
Proof.
  trivial.
Qed.
Lemma ascending_unique col vals : ascending_values col vals -> unique Z Z.compare col = vals.
Proof.
  intros (S & I). apply (sorted_ext Z Z.compare good_Z).
  - apply (unique_sorted Z Z.compare good_Z).
  - now apply lt_sorted.
  - intros x. now rewrite (unique_in Z Z.compare good_Z), I.
Qed.

(** Rows of series [i] in bin [c] of a column whose bins start at [prev]. *)
Lemma bin_rows ids col vals prev i c : StronglySorted le ids -> length col = length ids -> ascending_values col vals ->
  i < length (sid_idx ids) ->
  length (filter (fun r => part (fact_s_idx ids) r =? i)
    (filter (fun r => nth r (map (fun x => prev + position Z Z.compare x vals) col) 0 =? c) (seq 0 (length ids))))
  = if (prev <=? c) && (c <? prev + length vals) then rows_with ids col (nth i (sid_idx ids) 0) (nth (c - prev) vals 0%Z) else 0.
Proof.
  intros S L A Hi. pose proof (ascending_unique _ _ A) as U. destruct A as (SV & IV).
  assert (ND : NoDup vals) by (rewrite <- U; apply (unique_nodup Z Z.compare good_Z)).
  rewrite filter_filter.
  assert (M : forall r, r < length ids -> nth r (map (fun x => prev + position Z Z.compare x vals) col) 0
                = prev + position Z Z.compare (nth r col 0%Z) vals).
  { intros r Hr. rewrite nth_indep with (d' := prev + position Z Z.compare 0%Z vals) by (rewrite map_length; lia).
    now rewrite (map_nth (fun x => prev + position Z Z.compare x vals)). }
  assert (Q : forall r, r < length ids -> In (nth r col 0%Z) vals) by (intros r Hr; apply IV, nth_In; lia).
  destruct (Nat.leb_spec prev c), (Nat.ltb_spec c (prev + length vals)); cbn [andb].
  - unfold rows_with. rewrite <- (length_filter_seq _ (combine ids col) (0, 0%Z)), combine_length, L, Nat.min_id.
    apply filter_length_ext. intros r Hr. apply in_seq in Hr. rewrite combine_nth by now symmetry. cbn [fst snd].
    rewrite part_number, M by (trivial; lia). f_equal. apply Bool.eq_iff_eq_true. rewrite Nat.eqb_eq, Z.eqb_eq. split.
    + intros E. rewrite <- (position_nth Z Z.compare good_Z (nth r col 0%Z) vals 0%Z) by (apply Q; lia). f_equal. lia.
    + intros ->. rewrite (position_of_nth Z Z.compare good_Z) by (trivial; lia). lia.
  - rewrite (filter_length_ext _ (fun _ => false)); [now induction (seq 0 (length ids))|].
    intros r Hr. apply in_seq in Hr. rewrite M by lia. apply andb_false_iff. right. apply Nat.eqb_neq.
    pose proof (position_lt Z Z.compare good_Z _ _ (Q r ltac:(lia))). lia.
  - rewrite (filter_length_ext _ (fun _ => false)); [now induction (seq 0 (length ids))|].
    intros r Hr. apply in_seq in Hr. rewrite M by lia. apply andb_false_iff. right. apply Nat.eqb_neq. lia.
  - lia.
Qed.

Lemma seq_from prev m : seq prev m = map (fun c => prev + c) (seq 0 m).
Proof.
  assert (H : forall m b, seq (prev + b) m = map (fun c => prev + c) (seq b m)).
  { induction m0 as [|m0 IH]; intros b; cbn; trivial. f_equal. rewrite <- IH. f_equal. lia. }
  rewrite <- H. f_equal. lia.
Qed.
Lemma map_nth_shift (f : Z -> R) vals prev : map (fun c => f (nth (c - prev) vals 0%Z)) (seq prev (length vals)) = map f vals.
Proof.
  rewrite seq_from, map_map. rewrite <- (map_nth_seq vals 0%Z) at 2. rewrite map_map. apply map_ext. intros c.
  do 2 f_equal. lia.
Qed.

(** Rows of the table for one or two covariates. *)
Lemma table_row o ids cols i : plain o -> StronglySorted le ids -> i < length (sid_idx ids) ->
  nth i (table o (Part cols ids)) [] =
  map (fun c => INR (occurrences (members o 0 cols) (fact_s_idx ids) (length ids) i c))
      (seq 0 (list_sum (map fst (members o 0 cols)))).
Proof.
  intros [Hs Hn] S Hi. unfold table. rewrite Hs, Hn. unfold count_table. cbn [p_ids p_cols].
  match goal with |- nth i (map ?f _) [] = _ => rewrite nth_indep with (d' := f 0) by (now rewrite map_length, seq_length); rewrite (map_nth f) end.
  now rewrite seq_nth.
Qed.
Lemma table_one o ids name col vals i : plain o -> StronglySorted le ids -> length col = length ids ->
  ascending_values col vals -> i < length (sid_idx ids) ->
  nth i (table o (Part [(name, col)] ids)) [] = map (fun v => INR (rows_with ids col (nth i (sid_idx ids) 0) v)) vals.
Proof.
  intros Ho S L A Hi. rewrite table_row by trivial. destruct Ho as [Hs Hn]. cbn [members]. rewrite Hs.
  rewrite (ascending_unique _ _ A). cbn [map fst list_sum fold_right]. rewrite Nat.add_0_r.
  rewrite <- (map_nth_shift _ vals 0). apply map_ext_in. intros c Hc. apply in_seq in Hc. f_equal.
  unfold occurrences. cbn [flat_map snd]. rewrite app_nil_r.
  rewrite (bin_rows ids col vals 0 i c) by trivial. cbn [Nat.leb andb].
  destruct (Nat.ltb_spec c (0 + length vals)); [reflexivity|lia].
Qed.
Lemma table_two o ids name1 col1 vals1 name2 col2 vals2 i : plain o -> StronglySorted le ids ->
  length col1 = length ids -> length col2 = length ids ->
  ascending_values col1 vals1 -> ascending_values col2 vals2 -> i < length (sid_idx ids) ->
  nth i (table o (Part [(name1, col1); (name2, col2)] ids)) [] =
  map (fun v => INR (rows_with ids col1 (nth i (sid_idx ids) 0) v)) vals1 ++
  map (fun v => INR (rows_with ids col2 (nth i (sid_idx ids) 0) v)) vals2.
Proof.
  intros Ho S L1 L2 A1 A2 Hi. rewrite table_row by trivial. destruct Ho as [Hs Hn]. cbn [members]. rewrite Hs.
  rewrite (ascending_unique _ _ A1), (ascending_unique _ _ A2). cbn [map fst list_sum fold_right]. rewrite Nat.add_0_r.
  rewrite seq_app, map_app.
  assert (O : forall c, occurrences [(length vals1, map (fun x => 0 + position Z Z.compare x vals1) col1);
                                     (length vals2, map (fun x => length vals1 + position Z Z.compare x vals2) col2)]
                          (fact_s_idx ids) (length ids) i c
     = (if (0 <=? c) && (c <? 0 + length vals1) then rows_with ids col1 (nth i (sid_idx ids) 0) (nth (c - 0) vals1 0%Z) else 0) +
       (if (length vals1 <=? c) && (c <? length vals1 + length vals2) then rows_with ids col2 (nth i (sid_idx ids) 0) (nth (c - length vals1) vals2 0%Z) else 0)).
  { intros c. unfold occurrences. cbn [flat_map snd]. rewrite app_nil_r, filter_app, app_length.
    rewrite (bin_rows ids col1 vals1 0 i c), (bin_rows ids col2 vals2 (length vals1) i c) by trivial. reflexivity. }
  f_equal.
  - rewrite <- (map_nth_shift _ vals1 0). apply map_ext_in. intros c Hc. apply in_seq in Hc. f_equal. etransitivity; [apply O|].
    destruct (Nat.leb_spec 0 c), (Nat.ltb_spec c (0 + length vals1)), (Nat.leb_spec (length vals1) c); cbn [andb]; try lia.
  - cbn [plus]. rewrite <- (map_nth_shift _ vals2 (length vals1)). apply map_ext_in. intros c Hc. apply in_seq in Hc. f_equal.
    etransitivity; [apply O|].
    destruct (Nat.leb_spec 0 c), (Nat.ltb_spec c (0 + length vals1)), (Nat.leb_spec (length vals1) c),
      (Nat.ltb_spec c (length vals1 + length vals2)); cbn [andb]; try lia.
Qed.

(** Sub-groups: the rows that are kept, by series. *)
Definition trues (mask : list bool) : nat := length (filter (fun b => b) mask).
Fixpoint kept (mask : list bool) (lens : list nat) : list nat :=
  match lens with [] => [] | n :: lens => trues (firstn n mask) :: kept (skipn n mask) lens end.
Lemma select_repeat {A} (a : A) n : forall mask l, select mask (repeat a n ++ l) = repeat a (trues (firstn n mask)) ++ select (skipn n mask) l.
Proof.
  induction n as [|n IH]; intros mask l; [reflexivity|]. destruct mask as [|b mask]; [reflexivity|].
  cbn [firstn skipn repeat app select]. rewrite IH. unfold trues. cbn [filter]. now destruct b.
Qed.
Lemma select_flat {A} (bl : list (A * nat)) : forall mask,
  select mask (flat bl) = flat (combine (map fst bl) (kept mask (map snd bl))).
Proof.
  induction bl as [|[a n] bl IH]; intros mask; [destruct mask; reflexivity|].
  change (flat ((a, n) :: bl)) with (repeat a n ++ flat bl). rewrite select_repeat, IH. reflexivity.
Qed.
Definition positive {A} (bl : list (A * nat)) := filter (fun b => 0 <? snd b) bl.
Lemma flat_positive {A} (bl : list (A * nat)) : flat (positive bl) = flat bl.
Proof.
  induction bl as [|[a n] bl IH]; trivial. unfold positive in *. cbn [filter snd].
  change (flat ((a, n) :: bl)) with (repeat a n ++ flat bl). destruct (Nat.ltb_spec 0 n).
  - change (repeat a n ++ flat (filter (fun b => 0 <? snd b) bl) = repeat a n ++ flat bl). now rewrite IH.
  - replace n with 0 by lia. exact IH.
Qed.
Lemma positive_pos {A} (bl : list (A * nat)) : List.Forall (fun s => 0 < snd s) (positive bl).
Proof. apply List.Forall_forall. intros x Hx. apply filter_In in Hx as [_ Hx]. now apply Nat.ltb_lt. Qed.
Lemma positive_nodup {A} (bl : list (A * nat)) : NoDup (map fst bl) -> NoDup (map fst (positive bl)).
Proof.
  unfold positive. induction bl as [|b bl IH]; intros ND; [constructor|]. cbn [map] in ND. cbn [filter].
  inversion_clear ND as [|? ? Hn ND']. destruct (0 <? snd b); [|auto]. cbn [map]. constructor; [|auto]. intros Hi. apply Hn. apply in_map_iff in Hi as (c & E & Hc). apply filter_In in Hc as [Hc _].
  rewrite <- E. now apply in_map.
Qed.
Lemma positive_snd {A B} (l : list A) (k : list B) lens : length l = length lens -> length k = length lens ->
  map snd (positive (combine l lens)) = map snd (positive (combine k lens)).
Proof.
  revert l k. induction lens as [|n lens IH]; intros [|a l] [|b k] H1 H2; try discriminate; trivial.
  injection H1 as H1. injection H2 as H2. unfold positive in *. cbn [combine filter snd]. destruct (0 <? n); cbn [map snd].
  - f_equal. now apply IH.
  - now apply IH.
Qed.
Lemma starts_snd {A B} (bl : list (A * nat)) (cl : list (B * nat)) : map snd bl = map snd cl -> forall k, starts k bl = starts k cl.
Proof.
  revert cl. induction bl as [|b bl IH]; intros [|c cl] H k; try discriminate; trivial. injection H as H1 H2. cbn.
  rewrite H1. now rewrite (IH cl).
Qed.
Lemma kept_length mask lens : length (kept mask lens) = length lens.
Proof. revert mask. induction lens; intros; cbn; trivial. now rewrite IHlens. Qed.

Lemma subgroup_rows series mask : by_series series ->
  exists series', by_series series' /\ select mask (flat series) = flat series' /\
    first_rows nat Nat.compare (select mask (id_col (length (flat series)) (first_rows Z Z.compare (flat series))))
    = first_rows Z Z.compare (flat series') /\
    length (select mask (id_col (length (flat series)) (first_rows Z Z.compare (flat series)))) = length (flat series').
Proof.
  intros (ND & P). set (lens := kept mask (map snd series)).
  assert (K : length lens = length series) by (unfold lens; now rewrite kept_length, map_length).
  assert (N1 : NoDup (map fst (positive (combine (map fst series) lens)))).
  { apply positive_nodup. rewrite map_fst_combine; [exact ND|]. now rewrite map_length. }
  exists (positive (combine (map fst series) lens)).
  assert (E : select mask (flat series) = flat (positive (combine (map fst series) lens))).
  { rewrite flat_positive. apply select_flat. }
  split; [split; [exact N1|apply positive_pos]|]. split; [exact E|].
  rewrite (first_rows_blocks Z Z.compare good_Z series ND P), part_blocks.
  rewrite (first_rows_blocks Z Z.compare good_Z _ N1 (positive_pos _)).
  rewrite select_flat, map_fst_combine, map_snd_combine by (now rewrite seq_length, map_length).
  fold lens. rewrite <- (flat_positive (combine (seq 0 (length series)) lens)). split.
  - rewrite (first_rows_blocks nat Nat.compare good_nat).
    + apply starts_snd. apply positive_snd; rewrite ?seq_length, ?map_length; congruence.
    + apply positive_nodup. rewrite map_fst_combine by (rewrite seq_length; congruence). apply seq_NoDup.
    + apply positive_pos.
  - rewrite !flat_length. f_equal. apply positive_snd; rewrite ?seq_length, ?map_length; congruence.
Qed.

Definition masked (mask : list bool) (v : variable) : variable := Variable_ (v_name v) (v_factor v) (select mask (v_col v)).
Lemma column_of_masked mask vars name : column_of (map (masked mask) vars) name = select mask (column_of vars name).
Proof.
  unfold column_of. induction vars as [|v vars IH]; cbn; [now destruct mask|]. destruct (String.eqb (v_name v) name); trivial.
Qed.
Lemma subgroup_split o vars series mask dig : by_series series -> length (split_by o) <= 1 ->
  exists series', by_series series' /\ select mask (flat series) = flat series' /\
    split_discretize o vars (length (flat series)) (first_rows Z Z.compare (flat series)) (Some mask) dig
    = split_discretize o (map (masked mask) vars) (length (flat series')) (first_rows Z Z.compare (flat series')) None
        (map (fun c => (fst c, select mask (snd c))) dig).
Proof.
  intros B Hl. destruct (subgroup_rows series mask B) as (series' & B' & E & F & L). exists series'.
  split; [exact B'|]. split; [exact E|]. unfold split_discretize. rewrite F, L.
  destruct (split_by o) as [|name [|? ?]]; [reflexivity| |cbn in Hl; lia].
  cbn [map]. unfold paired. cbn [length Nat.eqb]. now rewrite column_of_masked.
Qed.

(** Levels of a factor and numbers of series. *)
Lemma levels_follow series : by_series series -> StronglySorted Z.lt (map fst series) ->
  map (fun x => position Z Z.compare x (unique Z Z.compare (flat series))) (flat series)
  = id_col (length (flat series)) (first_rows Z Z.compare (flat series)).
Proof.
  intros (ND & P) S. rewrite (first_rows_blocks Z Z.compare good_Z series ND P), part_blocks.
  assert (U : unique Z Z.compare (flat series) = map fst series).
  { apply ascending_unique. split; [exact S|]. intros x. split; [now apply flat_in'|apply flat_in]. }
  rewrite U. rewrite (flat_numbered series (0%Z, 0) 0) at 1. rewrite map_map. rewrite <- map_id. apply map_ext_in.
  intros i Hi. apply flat_in in Hi. rewrite map_fst_combine in Hi by (now rewrite seq_length, map_length).
  apply in_seq in Hi. rewrite Nat.sub_0_r. pose proof (map_nth fst series (0%Z, 0) i) as E. cbn [fst] in E.
  rewrite <- E. apply (position_of_nth Z Z.compare good_Z); [exact ND|]. rewrite map_length. lia.
Qed.

(** Dictionaries. *)
Lemma cluster_terms_other terms : forall h d, ~ In d (map fst terms) -> cluster_terms h terms d = h d.
Proof.
  induction terms as [|t terms IH]; intros h d Hd; trivial.
  change (cluster_terms h (t :: terms)) with (cluster_terms (store h (fst t) (snd t)) terms). rewrite IH.
  - unfold store. destruct (Nat.eqb_spec d (fst t)); trivial. exfalso. apply Hd. now left.
  - intros Hi. apply Hd. now right.
Qed.
Lemma cluster_terms_own terms : NoDup (map fst terms) -> forall h t, In t terms -> cluster_terms h terms (fst t) = snd t.
Proof.
  induction terms as [|t terms IH]; cbn [map]; intros ND h u Hu; [destruct Hu|]. inversion_clear ND as [|? ? Hn ND'].
  change (cluster_terms h (t :: terms)) with (cluster_terms (store h (fst t) (snd t)) terms). destruct Hu as [<-|Hu].
  - rewrite cluster_terms_other by trivial. unfold store. now rewrite Nat.eqb_refl.
  - now apply IH.
Qed.
Lemma own_clusters terms : NoDup (map fst terms) -> clust_of_penalties terms = map snd terms.
Proof. intros ND. unfold clust_of_penalties. apply map_ext_in. intros t Ht. now apply cluster_terms_own. Qed.
