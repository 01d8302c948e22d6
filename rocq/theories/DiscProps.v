(** Properties of DiscModel. *)
From Coq Require Import String List Bool Arith ZArith Reals Lia Lra Sorting.Sorted Sorting.Permutation.
From Verif Require Import DiscModel DiscSpec DiscProofs DiscProofs2 DiscProofs3 DiscProofs4.
Import ListNotations.
Local Open Scope nat_scope.

(** Every row has a value of every variable, and some covariate is to be used. *)
Definition data_ok (o : options) (vars : list variable) (n : nat) : Prop :=
  List.Forall (fun v => List.length (v_col v) = n) vars /\
  exists v, In v vars /\ v_factor v = false /\ ~ In (v_name v) (excl o).

Lemma mem_in s l : mem s l = true <-> In s l.
Proof.
  unfold mem. rewrite existsb_exists. split.
  - intros (x & Hx & E). apply String.eqb_eq in E. now subst.
  - intros H. exists s. split; [exact H|apply String.eqb_refl].
Qed.
Lemma data_discretized o vars n : data_ok o vars n -> uniform n (discretize o vars) /\ discretize o vars <> [].
Proof.
  intros (F & v & Hv & Hf & He). split.
  - unfold uniform, discretize. apply Forall_forall. intros c Hc. apply in_map_iff in Hc.
    destruct Hc as (w & <- & Hw). apply filter_In in Hw. rewrite Forall_forall in F. specialize (F w (proj1 Hw)). cbn [snd].
    destruct (mem (v_name w) (no_disc o)); [exact F|]. unfold digitize. now rewrite map_length.
  - intros E. apply map_eq_nil in E. assert (H : In v []); [|easy]. rewrite <- E. apply filter_In. split; [exact Hv|].
    rewrite Hf, orb_false_r. destruct (mem (v_name v) (excl o)) eqn:M; [|reflexivity]. now apply mem_in in M.
Qed.

(** Clusters found for a factor smooth: a partition of the series, each represented by its longest series. *)
Theorem C136_clusters kmeans o vars series :
  labels_all kmeans -> plain o -> by_series series -> data_ok o vars (List.length (flat series)) ->
  (forall name, In name (split_by o) -> constant_within (flat series) (column_of vars name)) ->
  0 < restarts o ->
  exists ps clusters,
    split_discretize o vars (List.length (flat series)) (first_rows Z Z.compare (flat series)) None (discretize o vars) = Done ps /\
    cluster_discretize kmeans o ps = Some clusters /\
    clustered (List.length series) (fun s => snd (nth s series (0%Z, 0))) clusters.
Proof.
  intros Hk Ho B D C Hr. destruct (data_discretized _ _ _ D) as [U N].
  destruct (split_discretize o vars (List.length (flat series)) (first_rows Z Z.compare (flat series)) None (discretize o vars)) as [ps|] eqn:E.
  - destruct (discretize_clusters kmeans o vars series _ ps Hk Ho B U N C E Hr) as (cl & H1 & H2). now exists ps, cl.
  - exfalso. unfold split_discretize in E. destruct (split_by o); discriminate.
Qed.

(** The same for a smooth of a sub-group: series of the rows that are kept, with at most one factor to split by. *)
Theorem C136_subgroup kmeans o vars series mask :
  labels_all kmeans -> plain o -> by_series series -> data_ok o vars (List.length (flat series)) ->
  List.length mask = List.length (flat series) -> List.length (split_by o) <= 1 ->
  (forall name, In name (split_by o) -> constant_within (select mask (flat series)) (select mask (column_of vars name))) ->
  0 < restarts o ->
  exists series' ps clusters, by_series series' /\ flat series' = select mask (flat series) /\
    split_discretize o vars (List.length (flat series)) (first_rows Z Z.compare (flat series)) (Some mask) (discretize o vars) = Done ps /\
    cluster_discretize kmeans o ps = Some clusters /\
    clustered (List.length series') (fun s => snd (nth s series' (0%Z, 0))) clusters.
Proof.
  intros Hk Ho B D Lm Hs C Hr. destruct (data_discretized _ _ _ D) as [U N].
  destruct (subgroup_split o vars series mask (discretize o vars) B Hs) as (series' & B' & E & S).
  exists series'. rewrite S. set (dig := map (fun c => (fst c, select mask (snd c))) (discretize o vars)) in *.
  assert (SL : forall A (m : list bool) (l k : list A), List.length l = List.length m -> List.length k = List.length m ->
             List.length (select m l) = List.length (select m k)).
  { intros A m. induction m as [|b m IH]; intros [|x l] [|y k] H1 H2; try discriminate; trivial.
    injection H1 as H1. injection H2 as H2. cbn. destruct b; cbn; now rewrite (IH l k). }
  assert (U' : uniform (List.length (flat series')) dig).
  { unfold uniform, dig. apply Forall_forall. intros c Hc. apply in_map_iff in Hc. destruct Hc as (w & <- & Hw). cbn [snd].
    rewrite <- E. unfold uniform in U. rewrite Forall_forall in U. specialize (U w Hw). apply SL; congruence. }
  assert (N' : dig <> []). { unfold dig. intros H. apply map_eq_nil in H. contradiction. }
  assert (C' : forall name, In name (split_by o) -> constant_within (flat series') (column_of (map (masked mask) vars) name)).
  { intros name Hn. rewrite column_of_masked, <- E. now apply C. }
  destruct (split_discretize o (map (masked mask) vars) (List.length (flat series')) (first_rows Z Z.compare (flat series')) None dig) as [ps|] eqn:Es.
  - destruct (discretize_clusters kmeans o (map (masked mask) vars) series' dig ps Hk Ho B' U' N' C' Es Hr) as (cl & H1 & H2).
    exists ps, cl. repeat (split; [now auto|]). exact H2.
  - exfalso. unfold split_discretize in Es. destruct (split_by o); discriminate.
Qed.

Definition one_label (call : nat) (t : list (list R)) (k : nat) : list (list R) * list nat :=
  ([hd [] t], repeat 0 (List.length t)).
Example one_label_all : labels_all one_label.
Proof. intros call t k. apply repeat_length. Qed.
Definition opts (splits : list string) : options := Options [] [] splits 2 (fun _ => None) false false.
(** Two series with three and two rows, a covariate and a factor. *)
Definition two_series : list (Z * nat) := [(7%Z, 3); (4%Z, 2)].
Definition vars2 : list variable :=
  [Variable_ "x" false [1; 2; 3; 1; 2]%Z; Variable_ "g" true [0; 0; 0; 1; 1]%Z].
Example two_series_ok : by_series two_series.
Proof. split; [repeat constructor; cbn; intuition congruence|repeat constructor]. Qed.
Example vars2_ok splits : data_ok (opts splits) vars2 5.
Proof. split; [repeat constructor|]. eexists. split; [left; reflexivity|]. split; [reflexivity|]. cbn. tauto. Qed.
Example vars2_constant name : In name ["g"%string] -> constant_within (flat two_series) (column_of vars2 name).
Proof.
  intros [<-|[]] r r' Hr Hr'. cbn in Hr, Hr'.
  do 5 (destruct r as [|r]; [do 5 (destruct r' as [|r']; [cbn; congruence|]); lia|]). lia.
Qed.
Example C136_clusters_case : exists ps clusters,
  split_discretize (opts ["g"%string]) vars2 5 (first_rows Z Z.compare (flat two_series)) None (discretize (opts ["g"%string]) vars2) = Done ps /\
  cluster_discretize one_label (opts ["g"%string]) ps = Some clusters /\
  clustered 2 (fun s => snd (nth s two_series (0%Z, 0))) clusters.
Proof.
  exact (C136_clusters one_label (opts ["g"%string]) vars2 two_series one_label_all (conj eq_refl eq_refl) two_series_ok (vars2_ok _)
           vars2_constant (le_S _ _ (le_n _))).
Qed.
Example C136_subgroup_case : exists series' ps clusters, by_series series' /\
  flat series' = select [true; false; true; true; true] (flat two_series) /\
  split_discretize (opts []) vars2 5 (first_rows Z Z.compare (flat two_series)) (Some [true; false; true; true; true])
    (discretize (opts []) vars2) = Done ps /\
  cluster_discretize one_label (opts []) ps = Some clusters /\
  clustered (List.length series') (fun s => snd (nth s series' (0%Z, 0))) clusters.
Proof.
  apply (C136_subgroup one_label (opts []) vars2 two_series); try exact two_series_ok; try exact one_label_all;
    try (now split); try apply vars2_ok; cbn; try lia; try reflexivity; now intros ? [].
Qed.

(** A factor that is split by and changes within a series: the series is in two clusters. *)
Definition one_series : list (Z * nat) := [(0%Z, 2)].
Definition vars_within : list variable := [Variable_ "x" false [5; 5]%Z; Variable_ "g" true [0; 1]%Z].
Theorem C136_twice_refuted : exists o vars series, plain o /\ by_series series /\ data_ok o vars (List.length (flat series)) /\
  0 < restarts o /\
  forall kmeans, labels_all kmeans -> exists ps clusters,
    split_discretize o vars (List.length (flat series)) (first_rows Z Z.compare (flat series)) None (discretize o vars) = Done ps /\
    cluster_discretize kmeans o ps = Some clusters /\
    ~ clustered (List.length series) (fun s => snd (nth s series (0%Z, 0))) clusters.
Proof.
  exists (Options [] [] ["g"%string] 1 (fun _ => None) false false), vars_within, one_series.
  split; [now split|]. split; [split; [repeat constructor; cbn; tauto|repeat constructor]|].
  split; [split; [repeat constructor|]; eexists; split; [left; reflexivity|]; split; [reflexivity|]; cbn; tauto|].
  split; [cbn; lia|]. intros kmeans Hk.
  set (o := Options [] [] ["g"%string] 1 (fun _ => None) false false).
  assert (E : exists d1 d2, split_discretize o vars_within 2 (first_rows Z Z.compare (flat one_series)) None (discretize o vars_within)
              = Done [Part [("x"%string, [d1])] [0]; Part [("x"%string, [d2])] [0]]) by (do 2 eexists; vm_compute; reflexivity).
  destruct E as (d1 & d2 & E). change (List.length (flat one_series)) with 2. rewrite E. do 2 eexists. split; [reflexivity|].
  unfold cluster_discretize. cbn [restarts o restart option_map repetition].
  set (t1 := table o _). set (t2 := table o (Part [("x"%string, [d2])] [0])).
  assert (L1 : List.length t1 = 1) by reflexivity. assert (L2 : List.length t2 = 1) by reflexivity.
  pose proof (Hk 0 t1 (n_clusters (Part [("x"%string, [d1])] [0]))) as K1.
  pose proof (Hk 1 t2 (n_clusters (Part [("x"%string, [d2])] [0]))) as K2.
  destruct (kmeans 0 t1 _) as [c1 l1]. destruct (kmeans 1 t2 _) as [c2 l2]. cbn [snd] in K1, K2. rewrite L1 in K1. rewrite L2 in K2.
  destruct l1 as [|a [|]]; try discriminate. destruct l2 as [|b [|]]; try discriminate.
  assert (G : forall a, grouped [a] = [[0]]). { intros x. unfold grouped. cbn. now rewrite Nat.eqb_refl. }
  rewrite !G. cbn [map app fst]. split; [reflexivity|].
  intros (ms & Pm & F2). inversion F2 as [|m1 s1 ms1 ? (I1 & _) F2']; subst. inversion F2' as [|m2 s2 ms2 ? (I2 & _) F2'']; subst.
  inversion F2''; subst. cbn [List.length one_series concat] in Pm. rewrite app_nil_r in Pm.
  apply Permutation_length in Pm. rewrite app_length in Pm. cbn [List.length seq] in Pm.
  destruct m1 as [|? m1]; [destruct I1|]. destruct m2 as [|? m2]; [destruct I2|]. cbn in Pm. lia.
Qed.

(** Two factors to split by, for a smooth of a sub-group: an exception. *)
Definition vars3 : list variable := vars2 ++ [Variable_ "h" true [0; 0; 0; 0; 0]%Z].
Theorem C136_subgroup_refuted : exists o vars series mask, plain o /\ by_series series /\ data_ok o vars (List.length (flat series)) /\
  List.length mask = List.length (flat series) /\
  (forall name, In name (split_by o) -> constant_within (flat series) (column_of vars name)) /\ 0 < restarts o /\
  split_discretize o vars (List.length (flat series)) (first_rows Z Z.compare (flat series)) (Some mask) (discretize o vars) = IndexError.
Proof.
  exists (opts ["g"%string; "h"%string]), vars3, two_series, [true; true; true; true; true].
  split; [now split|]. split; [exact two_series_ok|].
  split; [split; [repeat constructor|]; eexists; split; [left; reflexivity|]; split; [reflexivity|]; cbn; tauto|].
  split; [reflexivity|]. split; [|split; [cbn; lia|vm_compute; reflexivity]].
  intros name [<-|[<-|[]]].
  - exact (vars2_constant "g"%string (or_introl eq_refl)).
  - intros r r' Hr Hr' _. cbn in Hr, Hr'.
    do 5 (destruct r as [|r]; [do 5 (destruct r' as [|r']; [reflexivity|]); lia|]). lia.
Qed.

(** Which columns are used: those of covariates that are neither factors nor excluded; discretised unless asked not to. *)
Theorem C137_columns o vars name col : In (name, col) (discretize o vars) <->
  exists v, In v vars /\ v_name v = name /\ v_factor v = false /\ ~ In name (excl o) /\
    (In name (no_disc o) -> col = v_col v) /\ (~ In name (no_disc o) -> col = digitize (v_col v)).
Proof.
  unfold discretize. rewrite in_map_iff. split.
  - intros (v & [= <- <-] & H). apply filter_In in H. destruct H as [Hv H]. exists v. split; [exact Hv|]. split; [reflexivity|].
    apply negb_true_iff, orb_false_iff in H. destruct H as [He Hf]. split; [exact Hf|]. split.
    { intros Hi. apply mem_in in Hi. congruence. }
    destruct (mem (v_name v) (no_disc o)) eqn:M.
    + split; [reflexivity|]. intros Hn. apply mem_in in M. contradiction.
    + split; [|reflexivity]. intros Hn. apply mem_in in Hn. congruence.
  - intros (v & Hv & <- & Hf & He & H1 & H2). exists v. split.
    + f_equal. destruct (mem (v_name v) (no_disc o)) eqn:M.
      * symmetry. apply H1. now apply mem_in.
      * symmetry. apply H2. intros Hn. apply mem_in in Hn. congruence.
    + apply filter_In. split; [exact Hv|]. rewrite Hf, orb_false_r. destruct (mem (v_name v) (excl o)) eqn:M; [|reflexivity].
      apply mem_in in M. contradiction.
Qed.
Example C137_columns_case : In ("x"%string, digitize [1; 2; 3; 1; 2]%Z) (discretize (opts []) vars2).
Proof. left. reflexivity. Qed.

(** Discretised values are numbers of equally wide bins, as many as the root of the number of distinct values. *)
Lemma count_threshold m k : List.length (filter (fun j => j <=? m) (seq 0 k)) = Nat.min k (S m).
Proof.
  induction k as [|k IH]; [reflexivity|]. rewrite seq_S, filter_app, app_length, IH. cbn [filter Nat.add].
  destruct (Nat.leb_spec k m); cbn [List.length]; lia.
Qed.
Theorem C137_bins lo hi k x : (lo < hi)%Z -> (lo <= x <= hi)%Z -> 0 < k ->
  digit lo hi k x = (1 + (x - lo) * (Z.of_nat k - 1) / (hi - lo))%Z.
Proof.
  intros L X K. unfold digit. set (q := ((x - lo) * (Z.of_nat k - 1) / (hi - lo))%Z).
  assert (Q : (0 <= q <= Z.of_nat k - 1)%Z).
  { unfold q. split; [apply Z.div_pos; nia|]. apply Z.div_le_upper_bound; nia. }
  rewrite (filter_ext _ (fun j => j <=? Z.to_nat q)).
  - rewrite count_threshold. lia.
  - intros j. apply Bool.eq_iff_eq_true. rewrite Z.leb_le, Nat.leb_le. unfold q. split; intros H.
    + assert (Z.of_nat j <= (x - lo) * (Z.of_nat k - 1) / (hi - lo))%Z by (apply Z.div_le_lower_bound; nia). lia.
    + assert (Hj : (Z.of_nat j <= q)%Z) by (unfold q; lia).
      pose proof (Z.mul_div_le ((x - lo) * (Z.of_nat k - 1)) (hi - lo) ltac:(lia)). fold q in H0. nia.
Qed.
Example C137_bins_case : digit 0 10 3 5 = 2%Z /\ digit 0 10 3 10 = 3%Z /\ digit 0 10 3 0 = 1%Z.
Proof. repeat split. Qed.
Theorem C137_discretized col : exists lo hi,
  (forall x, In x col -> (lo <= x <= hi)%Z) /\ (col <> [] -> In lo col /\ In hi col) /\
  forall vals, ascending_values col vals -> digitize col = map (digit lo hi (Nat.sqrt (List.length vals))) col.
Proof.
  exists (fold_right Z.min (hd 0%Z col) col), (fold_right Z.max (hd 0%Z col) col). split; [|split].
  - intros x Hx. generalize (hd 0%Z col). intros d. induction col as [|y col IH]; [destruct Hx|]. cbn.
    destruct Hx as [<-|Hx]; [lia|]. specialize (IH Hx). lia.
  - intros N. assert (H : forall d l, In (fold_right Z.min d l) (d :: l) /\ In (fold_right Z.max d l) (d :: l)).
    { intros d l. induction l as [|y l [H1 H2]]; [cbn; tauto|]. cbn [fold_right]. split.
      - destruct (Z.min_spec y (fold_right Z.min d l)) as [[_ ->]|[_ ->]]; [cbn; tauto|]. destruct H1; cbn; tauto.
      - destruct (Z.max_spec y (fold_right Z.max d l)) as [[_ ->]|[_ ->]]; [|cbn; tauto]. destruct H2; cbn; tauto. }
    destruct col as [|y col]; [contradiction|]. cbn [hd]. destruct (H y (y :: col)) as [[E1|H1] [E2|H2]].
    + rewrite <- E1, <- E2. cbn. tauto.
    + rewrite <- E1. split; [now left|exact H2].
    + rewrite <- E2. split; [exact H1|now left].
    + now split.
  - intros vals A. unfold digitize. now rewrite (ascending_unique _ _ A).
Qed.

(** What is clustered: for every series the number of rows for every value of the covariate. *)
Theorem C137_one o ids name col vals i : plain o -> StronglySorted le ids -> List.length col = List.length ids ->
  ascending_values col vals -> i < List.length (sid_idx ids) ->
  nth i (table o (Part [(name, col)] ids)) [] = map (fun v => INR (rows_with ids col (nth i (sid_idx ids) 0) v)) vals.
Proof. apply table_one. Qed.

(** For two covariates: the numbers for the first one, then those for the second one. *)
Theorem C137_two o ids name1 col1 vals1 name2 col2 vals2 i : plain o -> StronglySorted le ids ->
  List.length col1 = List.length ids -> List.length col2 = List.length ids ->
  ascending_values col1 vals1 -> ascending_values col2 vals2 -> i < List.length (sid_idx ids) ->
  nth i (table o (Part [(name1, col1); (name2, col2)] ids)) [] =
  map (fun v => INR (rows_with ids col1 (nth i (sid_idx ids) 0) v)) vals1 ++
  map (fun v => INR (rows_with ids col2 (nth i (sid_idx ids) 0) v)) vals2.
Proof. apply table_two. Qed.
Example C137_case : nth 1 (table (opts []) (Part [("x"%string, [1; 2; 1; 1]%Z); ("y"%string, [0; 0; 4; 4]%Z)] [0; 0; 3; 3])) [] =
  [INR 2; INR 0] ++ [INR 0; INR 2].
Proof.
  rewrite (C137_two (opts []) [0; 0; 3; 3] "x" [1; 2; 1; 1]%Z [1; 2]%Z "y" [0; 0; 4; 4]%Z [0; 4]%Z 1); try reflexivity; try (now split).
  - repeat constructor.
  - split; [repeat constructor|]. intros x. cbn. intuition.
  - split; [repeat constructor|]. intros x. cbn. intuition.
  - vm_compute. lia.
Qed.

(** Three covariates: series 0 has the value 0 of b and 1 of c, series 1 has the value 1 of b and 0 of c.  Their rows
    of the table are the same, because both covariates are counted in the same columns. *)
Definition three : part_of_data :=
  Part [("a"%string, [0; 1; 0; 1]%Z); ("b"%string, [0; 0; 1; 1]%Z); ("c"%string, [1; 1; 0; 0]%Z)] [0; 0; 1; 1].
Theorem C137_three_refuted : exists o p, plain o /\ StronglySorted le (p_ids p) /\
  (forall c, In c (p_cols p) -> List.length (snd c) = List.length (p_ids p)) /\
  nth 0 (table o p) [] = nth 1 (table o p) [] /\
  exists name col v, In (name, col) (p_cols p) /\ rows_with (p_ids p) col 0 v <> rows_with (p_ids p) col 1 v.
Proof.
  exists (opts []), three. split; [now split|]. split; [repeat constructor|]. split; [intros c [<-|[<-|[<-|[]]]]; reflexivity|].
  split.
  - unfold three. rewrite !table_row; try (now split); try (repeat constructor; fail); try (vm_compute; lia).
  - exists "b"%string, [0; 0; 1; 1]%Z, 0%Z. split; [cbn; tauto|]. vm_compute. discriminate.
Qed.

(** Numbers of series are the numbers of levels if series are ordered like the levels of the factor. *)
Theorem C138_numbers series : by_series series -> StronglySorted Z.lt (map fst series) ->
  map (fun x => position Z Z.compare x (unique Z Z.compare (flat series))) (flat series)
  = id_col (List.length (flat series)) (first_rows Z Z.compare (flat series)).
Proof. apply levels_follow. Qed.
Example C138_numbers_case : by_series [(2%Z, 1); (5%Z, 3)] /\ StronglySorted Z.lt (map fst [(2%Z, 1); (5%Z, 3)]).
Proof. split; [split; [repeat constructor; cbn; intuition congruence|repeat constructor]|repeat constructor]. Qed.
Theorem C138_order_refuted : exists series, by_series series /\
  map (fun x => position Z Z.compare x (unique Z Z.compare (flat series))) (flat series)
  <> id_col (List.length (flat series)) (first_rows Z Z.compare (flat series)).
Proof. exists two_series. split; [exact two_series_ok|]. vm_compute. discriminate. Qed.

(** Every smooth uses the clusters found for it, if no dictionary is used for two smooths. *)
Theorem C139_own terms : NoDup (map fst terms) -> clust_of_penalties terms = map snd terms.
Proof. apply own_clusters. Qed.
Example C139_own_case : clust_of_penalties [(0, Some [(1, [])]); (1, Some [(2, [])])] = [Some [(1, [])]; Some [(2, [])]].
Proof. apply (C139_own [(0, Some [(1, [])]); (1, Some [(2, [])])]). repeat constructor; cbn; intuition congruence. Qed.
Theorem C139_shared_refuted : exists terms, clust_of_penalties terms <> map snd terms.
Proof. exists [(0, Some [(1, [])]); (0, Some [(2, [])])]. cbn. discriminate. Qed.

(** Restarts: the clusters kept are those of a repetition with the smallest error. *)
Theorem C139_best kmeans o ps : 0 < restarts o ->
  exists j, j < restarts o /\
    cluster_discretize kmeans o ps = Some (fst (repetition kmeans o (j * List.length ps) ps)) /\
    forall k, k < restarts o ->
      (snd (repetition kmeans o (j * List.length ps) ps) <= snd (repetition kmeans o (k * List.length ps) ps))%R.
Proof.
  intros Hr. unfold cluster_discretize. destruct (restart_best kmeans o ps (restarts o) 0 None) as (H & _ & H').
  destruct H as [H|(j & Hj & H)].
  - destruct (H' 0 Hr) as (b & Hb & _). congruence.
  - exists j. split; [exact Hj|]. rewrite H. split; [reflexivity|]. intros k Hk. destruct (H' k Hk) as (b & Hb & Lb).
    rewrite H in Hb. injection Hb as <-. exact Lb.
Qed.
(** The error of a repetition: squared distances of all series to the centroid of their cluster, summed over the parts;
    part number i is clustered with call number call + i of the routine. *)
Definition distance (x c : list R) : R := total (map (fun vc => ((fst vc - snd vc) * (fst vc - snd vc))%R) (combine x c)).
Lemma total_app a b : total (a ++ b) = (total a + total b)%R.
Proof. unfold total. induction a as [|x a IH]; cbn; [lra|]. rewrite IH. lra. Qed.
Lemma total_pick (f : R) k l : total (map (fun j => if k =? j then f else 0%R) (seq l (S k - l))) = if l <=? k then f else 0%R.
Proof.
  destruct (Nat.leb_spec l k) as [H|H].
  - replace (S k - l) with (S (k - l)) by lia. rewrite seq_S, map_app, total_app. cbn [map].
    replace (l + (k - l)) with k by lia. rewrite Nat.eqb_refl.
    assert (Z : forall m a, a + m <= k -> total (map (fun j => if k =? j then f else 0%R) (seq a m)) = 0%R).
    { induction m as [|m IH]; intros a Ha; [reflexivity|]. cbn [seq map]. unfold total. cbn [fold_right].
      fold (total (map (fun j => if k =? j then f else 0%R) (seq (S a) m))). rewrite IH by lia.
      destruct (Nat.eqb_spec k a); [lia|]. lra. }
    rewrite Z by lia. unfold total. cbn. lra.
  - replace (S k - l) with 0 by lia. reflexivity.
Qed.
Lemma total_pick_all (f : R) k n : k < n -> total (map (fun j => if k =? j then f else 0%R) (seq 0 n)) = f.
Proof.
  intros H. replace n with ((S k - 0) + (n - S k)) by lia. rewrite seq_app, map_app, total_app, total_pick. cbn [Nat.leb].
  replace (0 + (S k - 0)) with (S k) by lia.
  assert (Z : forall m a, k < a -> total (map (fun j => if k =? j then f else 0%R) (seq a m)) = 0%R).
  { induction m as [|m IH]; intros a Ha; [reflexivity|]. cbn [seq map]. unfold total. cbn [fold_right].
    fold (total (map (fun j => if k =? j then f else 0%R) (seq (S a) m))). rewrite IH by lia.
    destruct (Nat.eqb_spec k a); [lia|]. lra. }
  rewrite Z by lia. lra.
Qed.
Lemma total_plus (f g : nat -> R) l : total (map (fun j => (f j + g j)%R) l) = (total (map f l) + total (map g l))%R.
Proof. unfold total. induction l as [|x l IH]; cbn; [lra|]. rewrite IH. lra. Qed.
Theorem C139_loss t centroids labels : List.Forall (fun l => l < List.length centroids) labels ->
  loss t centroids labels = total (map (fun xl => distance (fst xl) (nth (snd xl) centroids [])) (combine t labels)).
Proof.
  assert (Z : forall l : list nat, total (map (fun _ => total (map (fun _ : list R * nat => 0%R) [])) l) = 0%R).
  { intros l. unfold total. induction l as [|k l IHl]; [reflexivity|]. cbn in *. lra. }
  unfold loss. revert t. induction labels as [|l labels IH]; intros [|x t] F; cbn [combine]; try exact (Z _). cbn [map].
  inversion_clear F as [|? ? Hl F']. cbn [fst snd]. specialize (IH t F').
  transitivity (total (map (fun k => ((if l =? k then distance x (nth l centroids []) else 0) +
     total (map (fun xl => if snd xl =? k then distance (fst xl) (nth k centroids []) else 0%R) (combine t labels)))%R)
     (seq 0 (List.length centroids)))).
  - f_equal. apply map_ext. intros k. unfold total at 1. cbn [fold_right].
    destruct (Nat.eqb_spec l k) as [->|]; reflexivity.
  - rewrite total_plus, total_pick_all by exact Hl. etransitivity; [apply f_equal; exact IH|]. reflexivity.
Qed.
Theorem C139_error kmeans o ps : forall call,
  snd (repetition kmeans o call ps) =
  total (map (fun ip => let t := table o (snd ip) in
                        let r := kmeans (call + fst ip) t (n_clusters (snd ip)) in loss t (fst r) (snd r))
             (combine (seq 0 (List.length ps)) ps)).
Proof.
  induction ps as [|p ps IH]; intros call; [reflexivity|]. cbn [repetition List.length seq combine map].
  cbn [fst snd]. rewrite Nat.add_0_r. specialize (IH (S call)).
  destruct (kmeans call (table o p) (n_clusters p)) as [c l]. destruct (repetition kmeans o (S call) ps) as [rest e].
  cbn [snd fst] in *. unfold total. cbn [fold_right]. f_equal. rewrite IH. unfold total. f_equal.
  rewrite <- seq_shift. generalize (seq 0 (List.length ps)). clear. intros l. revert l.
  induction ps as [|p ps IH]; intros [|i l]; cbn [map combine]; trivial. cbn [fst snd]. f_equal; [|apply IH].
  now replace (S call + i) with (call + S i) by lia.
Qed.
Example C139_loss_case : loss [[1%R]; [3%R]] [[2%R]] [0; 0] = 2%R.
Proof. rewrite C139_loss by (repeat constructor). unfold distance, total. cbn. lra. Qed.
Example C139_best_case : 0 < restarts (opts []).
Proof. cbn. lia. Qed.

Print Assumptions C136_clusters.
Print Assumptions C136_subgroup.
Print Assumptions C136_twice_refuted.
Print Assumptions C136_subgroup_refuted.
Print Assumptions C137_one.
Print Assumptions C137_two.
Print Assumptions C137_three_refuted.
Print Assumptions C138_numbers.
Print Assumptions C138_order_refuted.
Print Assumptions C139_own.
Print Assumptions C139_shared_refuted.
Print Assumptions C139_best.
Print Assumptions C137_columns.
Print Assumptions C137_bins.
Print Assumptions C137_discretized.
Print Assumptions C139_loss.
Print Assumptions C139_error.
