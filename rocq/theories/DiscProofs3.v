(** Lemmas for DiscModel: clusters of all parts of the data. *)
From Coq Require Import String List Bool Arith ZArith Reals Lia Lra Sorting.Sorted Sorting.Permutation.
From Verif Require Import DiscModel DiscSpec DiscProofs DiscProofs2.
Import ListNotations.
Local Open Scope nat_scope.

Definition rel (len : nat -> nat) (m : list nat) (c : nat * list R) : Prop :=
  In (fst c) m /\ (forall s, In s m -> len s <= len (fst c)) /\
  snd c = map (fun s => (INR (len s) / INR (len (fst c)))%R) m.
Definition okpart (p : part_of_data) : Prop :=
  uniform (length (p_ids p)) (p_cols p) /\ StronglySorted le (p_ids p) /\ p_cols p <> [].

Lemma count_pos v l : In v l -> 0 < count v l.
Proof.
  unfold count. intros H. destruct (filter _ _) as [|x k] eqn:E; [|cbn; lia].
  assert (In v []); [|easy]. rewrite <- E. apply filter_In. split; trivial. apply Nat.eqb_refl.
Qed.

Lemma summary_rel o p g : plain o -> okpart p -> g <> [] -> (forall i, In i g -> i < length (sid_idx (p_ids p))) ->
  rel (fun s => count s (p_ids p)) (map (fun i => nth i (sid_idx (p_ids p)) 0) g)
      (summary (table o p) (sid_idx (p_ids p)) g).
Proof.
  intros Ho (U & S & C) Hg Hi. unfold summary. set (sids := sid_idx (p_ids p)) in *.
  set (len := fun s => count s (p_ids p)). set (nc := length (p_cols p)).
  assert (Hc : 0 < nc) by (unfold nc; destruct (p_cols p); [congruence|cbn; lia]).
  assert (E : map (fun i => total (nth i (table o p) [])) g = map (fun i => INR (nc * len (nth i sids 0))) g).
  { apply map_ext_in. intros i Hin. unfold nc, len, sids. apply table_total; trivial. now apply Hi. }
  rewrite E. clear E. set (sums := map (fun i => INR (nc * len (nth i sids 0))) g).
  assert (Hs : sums <> []) by (unfold sums; destruct g; [congruence|discriminate]).
  destruct (argmax_spec sums Hs) as [Ha Hm]. unfold maximum. revert Hm. set (k := argmax sums) in *. intros Hm.
  assert (Hk : k < length g) by (unfold sums in Ha; now rewrite map_length in Ha).
  assert (Ek : nth k sums 0%R = INR (nc * len (nth (nth k g 0) sids 0))).
  { unfold sums. rewrite nth_indep with (d' := (fun i => INR (nc * len (nth i sids 0))) 0) by (now rewrite map_length).
    now rewrite (map_nth (fun i => INR (nc * len (nth i sids 0)))). }
  rewrite Ek in Hm |- *. assert (Hkg : In (nth k g 0) g) by now apply nth_In.
  unfold rel. cbn [fst snd]. split; [|split].
  - apply in_map_iff. exists (nth k g 0). now split.
  - intros s Hs'. apply in_map_iff in Hs' as (i & <- & Hin).
    assert (H : (INR (nc * len (nth i sids 0%nat)) <= INR (nc * len (nth (nth k g 0%nat) sids 0%nat)))%R).
    { apply Hm. unfold sums. apply in_map_iff. now exists i. }
    apply INR_le in H. fold (len (nth i sids 0)). fold (len (nth (nth k g 0) sids 0)). nia.
  - unfold sums. rewrite !map_map. apply map_ext_in. intros i Hin. fold (len (nth i sids 0)).
    fold (len (nth (nth k g 0) sids 0)). rewrite !mult_INR.
    assert (Hp : 0 < len (nth (nth k g 0) sids 0)).
    { apply count_pos. apply (unique_in nat Nat.compare good_nat). apply nth_In. now apply Hi. }
    field. split; apply not_0_INR; lia.
Qed.

Lemma part_clusters o p labels : plain o -> okpart p -> length labels = length (table o p) ->
  exists members, Permutation (concat members) (sid_idx (p_ids p)) /\
    Forall2 (rel (fun s => count s (p_ids p))) members (map (summary (table o p) (sid_idx (p_ids p))) (grouped labels)).
Proof.
  intros Ho Hp Hl. rewrite table_length in Hl by trivial.
  exists (map (map (fun i => nth i (sid_idx (p_ids p)) 0)) (grouped labels)). split.
  - rewrite <- concat_map. rewrite (Permutation_map _ (grouped_perm labels)), Hl. now rewrite map_nth_seq.
  - assert (H : forall g, In g (grouped labels) -> g <> [] /\ forall i, In i g -> i < length (sid_idx (p_ids p))).
    { intros g Hg. split; [now apply grouped_nonempty in Hg|]. intros i Hi. rewrite <- Hl. eapply grouped_in; eassumption. }
    induction (grouped labels) as [|g gs IH]; constructor.
    + destruct (H g) as [H1 H2]; [now left|]. now apply summary_rel.
    + apply IH. intros g' Hg'. apply H. now right.
Qed.

Lemma rel_ext len len' m c : (forall s, In s m -> len s = len' s) -> rel len m c -> rel len' m c.
Proof.
  intros E (H1 & H2 & H3). unfold rel. rewrite <- (E (fst c)) by trivial. split; [trivial|split].
  - intros s Hs. rewrite <- E by trivial. now apply H2.
  - rewrite H3. apply map_ext_in. intros s Hs. now rewrite E.
Qed.

Lemma repetition_clusters kmeans o len : labels_all kmeans -> plain o -> forall ps call, List.Forall okpart ps ->
  (forall p s, In p ps -> In s (p_ids p) -> count s (p_ids p) = len s) ->
  exists members, Permutation (concat members) (concat (map (fun p => sid_idx (p_ids p)) ps)) /\
    Forall2 (rel len) members (fst (repetition kmeans o call ps)).
Proof.
  intros Hk Ho. induction ps as [|p ps IH]; intros call F H; cbn [repetition map].
  - exists []. split; constructor.
  - inversion_clear F as [|? ? Hp F']. destruct (kmeans call (table o p) (n_clusters p)) as [centroids labels] eqn:E.
    destruct (IH (S call) F') as (ms & P & R); [intros; apply H; trivial; now right|].
    destruct (repetition kmeans o (S call) ps) as [rest e]. cbn [fst] in *.
    destruct (part_clusters o p labels Ho Hp) as (ms' & P' & R').
    { specialize (Hk call (table o p) (n_clusters p)). now rewrite E in Hk. }
    exists (ms' ++ ms). split.
    + rewrite concat_app. cbn. now apply Permutation_app.
    + apply Forall2_app; trivial.
      assert (X : forall m s, In m ms' -> In s m -> count s (p_ids p) = len s).
      { intros m s Hm Hs. apply H; [now left|]. apply (unique_in nat Nat.compare good_nat).
        apply (Permutation_in _ P'). apply in_concat. now exists m. }
      clear - R' X. induction R' as [|m c ms cs Hmc R IH]; constructor.
      * apply (rel_ext (fun s => count s (p_ids p))); trivial. intros s Hs. now apply (X m); [left|].
      * apply IH. intros m' s Hm' Hs. apply (X m'); trivial. now right.
Qed.

(** Restarts. *)
Lemma restart_best kmeans o ps n : forall call best,
  let r := restart kmeans o ps n call best in
  (r = best \/ exists j, j < n /\ r = Some (repetition kmeans o (call + j * length ps) ps)) /\
  (forall b, best = Some b -> exists b', r = Some b' /\ (snd b' <= snd b)%R) /\
  (forall j, j < n -> exists b', r = Some b' /\ (snd b' <= snd (repetition kmeans o (call + j * length ps) ps))%R).
Proof.
  induction n as [|n IH]; intros call best; cbn [restart].
  - split; [now left|]. split; [|lia]. intros b ->. exists b. split; [reflexivity|lra].
  - set (new := repetition kmeans o call ps).
    set (best' := match best with None => Some new | Some b => if Rlt_dec (snd new) (snd b) then Some new else best end).
    destruct (IH (call + length ps) best') as (A & B & C).
    assert (Hb : (best' = best \/ best' = Some new) /\ (exists b, best' = Some b /\ (snd b <= snd new)%R) /\
                 (forall b, best = Some b -> exists b', best' = Some b' /\ (snd b' <= snd b)%R)).
    { unfold best'. destruct best as [b|].
      - destruct (Rlt_dec (snd new) (snd b)).
        + split; [now right|]. split; [exists new; split; [reflexivity|lra]|]. intros b0 [= <-]. exists new. split; [reflexivity|lra].
        + split; [now left|]. split; [exists b; split; [reflexivity|lra]|]. intros b0 [= <-]. exists b. split; [reflexivity|lra].
      - split; [now right|]. split; [exists new; split; [reflexivity|lra]|]. discriminate. }
    destruct Hb as (D & (b0 & E & E') & F). split; [|split].
    + destruct A as [A|(j & Hj & A)].
      * destruct D as [D|D]; [left; congruence|]. right. exists 0. split; [lia|]. rewrite A, D. unfold new.
        now rewrite Nat.mul_0_l, Nat.add_0_r.
      * right. exists (S j). split; [lia|]. rewrite A. do 2 f_equal. cbn. lia.
    + intros b Hb. destruct (F b Hb) as (b1 & H1 & H2). destruct (B b1 H1) as (b2 & H3 & H4). exists b2. split; trivial. lra.
    + intros [|j] Hj.
      * destruct (B b0 E) as (b2 & H3 & H4). exists b2. split; trivial. rewrite Nat.mul_0_l, Nat.add_0_r. fold new. lra.
      * destruct (C j) as (b2 & H3 & H4); [lia|]. exists b2. split; trivial.
        replace (call + S j * length ps) with (call + length ps + j * length ps) by (cbn; lia). exact H4.
Qed.

(** Numbers of series. *)
Lemma flat_numbered {A} (bl : list (A * nat)) d : forall c,
  flat bl = map (fun i => fst (nth (i - c) bl d)) (flat (combine (seq c (length bl)) (map snd bl))).
Proof.
  induction bl as [|[a n] bl IH]; intros c; trivial.
  change (flat ((a, n) :: bl)) with (repeat a n ++ flat bl).
  change (flat (combine (seq c (length ((a, n) :: bl))) (map snd ((a, n) :: bl))))
    with (repeat c n ++ flat (combine (seq (S c) (length bl)) (map snd bl))).
  rewrite map_app. f_equal.
  - rewrite (map_const _ a); [now rewrite repeat_length|]. intros x Hx. apply repeat_spec in Hx. subst.
    now rewrite Nat.sub_diag.
  - rewrite (IH (S c)). apply map_ext_in. intros i Hi. apply flat_in in Hi.
    apply in_map_iff in Hi as ((x, y) & E & Hi). cbn in E. subst. apply in_combine_l, in_seq in Hi.
    replace (i - c) with (S (i - S c)) by lia. reflexivity.
Qed.
Lemma flat_sorted (bl : list (nat * nat)) : StronglySorted lt (map fst bl) -> StronglySorted le (flat bl).
Proof.
  induction bl as [|[a n] bl IH]; cbn [map fst]; intros S; [constructor|]. inversion_clear S as [|? ? S' F].
  change (flat ((a, n) :: bl)) with (repeat a n ++ flat bl). specialize (IH S').
  assert (H : forall x, In x (flat bl) -> a <= x).
  { intros x Hx. apply flat_in in Hx. rewrite List.Forall_forall in F. specialize (F _ Hx). lia. }
  induction n as [|n IHn]; cbn; trivial. constructor; trivial. apply List.Forall_forall. intros x Hx.
  apply in_app_or in Hx as [Hx|Hx]; [apply repeat_spec in Hx; lia|auto].
Qed.
Lemma seq_sorted n : forall c, StronglySorted lt (seq c n).
Proof. induction n; intros c; cbn; constructor; trivial. apply List.Forall_forall. intros x Hx. apply in_seq in Hx. lia. Qed.
Lemma map_fst_combine {A B} (l : list A) (k : list B) : length l = length k -> map fst (combine l k) = l.
Proof. revert k. induction l as [|a l IH]; intros [|b k] H; try discriminate; trivial. cbn. f_equal. apply IH. now injection H. Qed.
Lemma map_snd_combine {A B} (l : list A) (k : list B) : length l = length k -> map snd (combine l k) = k.
Proof. revert k. induction l as [|a l IH]; intros [|b k] H; try discriminate; trivial. cbn. f_equal. apply IH. now injection H. Qed.

(** A sorted list of numbers, by its values and counts. *)
Lemma numbers series : by_series series ->
  let ids := id_col (length (flat series)) (first_rows Z Z.compare (flat series)) in
  length ids = length (flat series) /\ StronglySorted le ids /\ sid_idx ids = seq 0 (length series) /\
  (forall s, count s ids = snd (nth s series (0%Z, 0))) /\
  (forall r, r < length ids -> nth r (flat series) 0%Z = fst (nth (nth r ids 0) series (0%Z, 0))).
Proof.
  intros (ND & P) ids. unfold ids. rewrite (first_rows_blocks Z Z.compare good_Z series ND P), part_blocks.
  set (bl := combine (seq 0 (length series)) (map snd series)).
  assert (L : length (seq 0 (length series)) = length (map snd series)) by now rewrite seq_length, map_length.
  assert (E1 : map fst bl = seq 0 (length series)) by (apply map_fst_combine; trivial).
  assert (E2 : map snd bl = map snd series) by (apply map_snd_combine; trivial).
  assert (SS : StronglySorted lt (map fst bl)) by (rewrite E1; apply seq_sorted).
  split; [|split; [|split; [|split]]].
  - now rewrite !flat_length, E2.
  - now apply flat_sorted.
  - rewrite sid_idx_blocks; trivial.
    + clear - SS. revert SS. induction (map fst bl) as [|x l IH]; intros S; [constructor|]. inversion_clear S. constructor; auto.
      eapply List.Forall_impl; [|eassumption]. intros y Hy. now apply Nat.compare_lt_iff.
    + apply List.Forall_forall. intros x Hx. apply (in_map snd) in Hx. rewrite E2 in Hx.
      apply in_map_iff in Hx as (y & Hy & Hin). rewrite List.Forall_forall in P. rewrite <- Hy. now apply P.
  - intros s. unfold bl. rewrite <- (map_length snd series), count_numbered, Nat.sub_0_r by lia.
    change 0 with (snd (0%Z, 0)) at 1. now rewrite map_nth.
  - intros r Hr. rewrite (flat_numbered series (0%Z, 0) 0) at 1. fold bl.
    rewrite nth_indep with (d' := fst (nth (0 - 0) series (0%Z, 0))) by (now rewrite map_length).
    rewrite (map_nth (fun i => fst (nth (i - 0) series (0%Z, 0)))). now rewrite Nat.sub_0_r.
Qed.

(** Masks. *)
Lemma select_length {A B} (mask : list bool) : forall (l : list A) (k : list B), length l = length k ->
  length (select mask l) = length (select mask k).
Proof.
  induction mask as [|b mask IH]; intros [|x l] [|y k] H; try discriminate; trivial. cbn. injection H as H.
  destruct b; cbn; now rewrite (IH l k).
Qed.
Lemma select_in {A} (mask : list bool) : forall (l : list A) x d, length mask = length l ->
  (In x (select mask l) <-> exists r, r < length l /\ nth r mask false = true /\ nth r l d = x).
Proof.
  induction mask as [|b mask IH]; intros [|y l] x d H; try discriminate; cbn.
  - split; [tauto|]. intros (r & Hr & _). lia.
  - injection H as H. specialize (IH l x d H). assert (Q : (exists r, r < S (length l) /\ nth r (b :: mask) false = true /\ nth r (y :: l) d = x)
        <-> (b = true /\ y = x) \/ exists r, r < length l /\ nth r mask false = true /\ nth r l d = x).
    { split.
      - intros ([|r] & Hr & H1 & H2); [left; auto|]. right. exists r. repeat split; trivial. lia.
      - intros [[H1 H2]|(r & Hr & H1 & H2)]; [exists 0; repeat split; trivial; lia|]. exists (S r). repeat split; trivial. lia. }
    cbn [length] in Q. rewrite Q, <- IH. destruct b; cbn; intuition congruence.
Qed.
Lemma select_sorted (mask : list bool) : forall l, StronglySorted le l -> StronglySorted le (select mask l).
Proof.
  induction mask as [|b mask IH]; intros l S; [destruct l; constructor|]. destruct S as [|x l S F]; [constructor|]. cbn.
  destruct b; [|auto]. constructor; [auto|]. apply List.Forall_forall. intros y Hy. rewrite List.Forall_forall in F. apply F.
  clear - Hy. revert l Hy. induction mask as [|b mask IH]; intros [|z l] Hy; cbn in Hy; try tauto.
  destruct b; cbn in Hy |- *; [destruct Hy; auto|auto].
Qed.
Lemma select_count (mask : list bool) s : forall l, length mask = length l ->
  (forall r, r < length l -> nth r l 0 = s -> nth r mask false = true) -> count s (select mask l) = count s l.
Proof.
  induction mask as [|b mask IH]; intros [|x l] H F; try discriminate; trivial. injection H as H.
  assert (F' : forall r, r < length l -> nth r l 0 = s -> nth r mask false = true).
  { intros r Hr. apply (F (S r)). cbn. lia. }
  assert (F0 : x = s -> b = true) by (intros E; apply (F 0); [cbn; lia|exact E]).
  specialize (IH l H F'). cbn [select]. unfold count in *. cbn [filter]. destruct (Nat.eqb_spec x s).
  - rewrite (F0 e). cbn [filter]. subst. rewrite Nat.eqb_refl. cbn. now rewrite IH.
  - destruct b; cbn [filter]; trivial. destruct (Nat.eqb_spec x s); [congruence|trivial].
Qed.

Lemma filter_seq_sorted (P : nat -> bool) m : forall c, StronglySorted (fun x y => Nat.compare x y = Lt) (filter P (seq c m)).
Proof.
  induction m as [|m IH]; intros c; cbn; [constructor|]. destruct (P c); [|apply IH].
  constructor; [apply IH|]. apply List.Forall_forall. intros x Hx. apply filter_In in Hx as [Hx _]. apply in_seq in Hx.
  apply Nat.compare_lt_iff. lia.
Qed.

(** Parts of the data, without sub-groups. *)
Lemma split_parts o vars series dig ps : by_series series -> uniform (length (flat series)) dig -> dig <> [] ->
  (forall name, In name (split_by o) -> constant_within (flat series) (column_of vars name)) ->
  split_discretize o vars (length (flat series)) (first_rows Z Z.compare (flat series)) None dig = Done ps ->
  List.Forall okpart ps /\
  (forall p s, In p ps -> In s (p_ids p) -> count s (p_ids p) = snd (nth s series (0%Z, 0))) /\
  Permutation (concat (map (fun p => sid_idx (p_ids p)) ps)) (seq 0 (length series)).
Proof.
  intros B U D C. destruct (numbers series B) as (L & S & I & N & V). revert L S I N V.
  unfold split_discretize. set (n := length (flat series)) in *. set (ids := id_col n (first_rows Z Z.compare (flat series))).
  intros L S I N V. destruct (split_by o) as [|name names] eqn:E.
  - intros [= <-]. split; [|split].
    + constructor; [|constructor]. split; [|split]; cbn; trivial. now rewrite L.
    + intros p s [<-|[]] Hs. cbn. apply N.
    + cbn [map concat p_ids]. rewrite app_nil_r, I. reflexivity.
  - rewrite <- E in *. clear E name names. set (keys := rows n (map (column_of vars) (split_by o))).
    set (combs := unique (list Z) lex keys). intros [= <-].
    set (mask := fun f => map (fun key => position (list Z) lex key combs =? f) keys).
    assert (LK : length keys = n) by (unfold keys, rows; now rewrite map_length, seq_length).
    assert (LM : forall f, length (mask f) = length ids) by (intros f; unfold mask; rewrite map_length; congruence).
    assert (KC : forall r r', r < n -> r' < n -> nth r ids 0 = nth r' ids 0 -> nth r keys [] = nth r' keys []).
    { intros r r' Hr Hr' Hid. unfold keys, rows.
      assert (W : forall r, r < n -> nth r (map (row (map (column_of vars) (split_by o))) (seq 0 n)) [] = row (map (column_of vars) (split_by o)) r).
      { intros q Hq. rewrite nth_indep with (d' := row (map (column_of vars) (split_by o)) 0) by (now rewrite map_length, seq_length).
        rewrite map_nth. now rewrite seq_nth. }
      rewrite !W by trivial. unfold row. rewrite !map_map. apply map_ext_in. intros name Hn. apply (C name Hn); trivial.
      rewrite !V by congruence. now rewrite Hid. }
    set (fs := fun s => position (list Z) lex (nth (position nat Nat.compare s ids) keys []) combs).
    assert (MK : forall f r, r < n -> nth r (mask f) false = (fs (nth r ids 0) =? f)).
    { intros f r Hr. unfold mask. rewrite nth_indep with (d' := position (list Z) lex [] combs =? f) by (rewrite map_length; lia).
      rewrite (map_nth (fun key => position (list Z) lex key combs =? f)). unfold fs. do 2 f_equal.
      assert (Hin : In (nth r ids 0) ids) by (apply nth_In; lia).
      apply KC; trivial.
      - rewrite <- L. now apply (position_lt nat Nat.compare good_nat).
      - now rewrite (position_nth nat Nat.compare good_nat). }
    assert (SI : forall f s, In s (select (mask f) ids) <-> In s ids /\ fs s = f).
    { intros f s. rewrite (select_in (mask f) ids s 0 (LM f)). rewrite L. split.
      - intros (r & Hr & H1 & <-). rewrite MK in H1 by trivial. apply Nat.eqb_eq in H1. split; trivial. apply nth_In. lia.
      - intros (Hs & Hf). apply In_nth with (d := 0) in Hs as (r & Hr & <-). exists r. rewrite MK by lia.
        split; [lia|]. split; trivial. now apply Nat.eqb_eq. }
    split; [|split].
    + apply List.Forall_forall. intros p Hp. apply in_map_iff in Hp as (f & <- & Hf). split; [|split]; cbn.
      * unfold uniform in *. rewrite List.Forall_forall in U |- *. intros c Hc. apply in_map_iff in Hc as (c' & <- & Hc'). cbn.
        apply select_length. rewrite (U c' Hc'). now symmetry.
      * now apply select_sorted.
      * destruct dig; [congruence|discriminate].
    + intros p s Hp Hs. apply in_map_iff in Hp as (f & <- & Hf). cbn in *. rewrite <- N. apply select_count; [apply LM|].
      intros r Hr Hrs. apply SI in Hs as (Hs & Hfs). fold (mask f). rewrite MK by lia. rewrite Hrs. now apply Nat.eqb_eq.
    + rewrite map_map. cbn [p_ids].
      rewrite (map_ext_in _ (fun f => filter (fun s => fs s =? f) (seq 0 (length series)))).
      * apply filters_perm; [apply seq_NoDup|]. intros s Hs. apply in_seq. split; [lia|]. cbn. unfold fs.
        apply (position_lt (list Z) lex good_lex). apply (unique_in (list Z) lex good_lex). apply nth_In.
        rewrite LK, <- L. apply (position_lt nat Nat.compare good_nat). rewrite <- I in Hs.
        exact (proj1 (unique_in nat Nat.compare good_nat _ _) Hs).
      * intros f Hf. apply (sorted_ext nat Nat.compare good_nat).
        -- apply (unique_sorted nat Nat.compare good_nat).
        -- apply filter_seq_sorted.
        -- intros s. unfold sid_idx at 1. rewrite (unique_in nat Nat.compare good_nat), filter_In.
           fold (mask f). rewrite SI, Nat.eqb_eq, <- I. unfold sid_idx. now rewrite (unique_in nat Nat.compare good_nat).
Qed.

Lemma discretize_clusters kmeans o vars series dig ps : labels_all kmeans -> plain o -> by_series series ->
  uniform (length (flat series)) dig -> dig <> [] ->
  (forall name, In name (split_by o) -> constant_within (flat series) (column_of vars name)) ->
  split_discretize o vars (length (flat series)) (first_rows Z Z.compare (flat series)) None dig = Done ps ->
  0 < restarts o ->
  exists clusters, cluster_discretize kmeans o ps = Some clusters /\
    clustered (length series) (fun s => snd (nth s series (0%Z, 0))) clusters.
Proof.
  intros Hk Ho B U D C Hs Hr. destruct (split_parts o vars series dig ps B U D C Hs) as (F & N & P).
  unfold cluster_discretize. destruct (restart_best kmeans o ps (restarts o) 0 None) as (H & _ & H').
  destruct (H' 0 Hr) as (b & Hb & _). destruct H as [H|(j & Hj & H)]; [congruence|].
  rewrite H. eexists. split; [reflexivity|].
  destruct (repetition_clusters kmeans o (fun s => snd (nth s series (0%Z, 0))) Hk Ho ps (0 + j * length ps) F N) as (ms & P' & R).
  exists ms. split; [now rewrite P'|exact R].
Qed.
