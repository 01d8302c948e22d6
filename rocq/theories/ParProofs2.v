(** Proofs about reading files. *)

From Coq Require Import String List Bool Arith Reals Permutation Lia Lra.
From Verif Require Import ParModel ParSpec ParProofs.
Import ListNotations.
Local Open Scope R_scope.

Section Files.
Variable kwargs : Type.
Variable defaults : kwargs.
Variable read_csv : kwargs -> string -> table.

Lemma usable_filter (d : table) : combine (map snd (filter complete d)) (map y_of (filter complete d)) = usable d.
Proof.
  induction d as [|[y c] d IH]; [easy|]. cbn [filter usable flat_map fst snd]. fold (usable d).
  assert (Ec : complete (y, c) = match y with Some _ => forallb (fun v => negb (is_na v)) c | None => false end) by now destruct y.
  rewrite Ec. destruct y as [y|]; [|easy].
  assert (E : forallb (fun v : option R => match v with Some _ => true | None => false end) c = forallb (fun v => negb (is_na v)) c).
  { clear. induction c as [|[x|] c IH]; cbn; auto. }
  rewrite E. destruct (forallb (fun v => negb (is_na v)) c); [|easy]. cbn. now rewrite IH.
Qed.

Lemma rows_of_files files : rows_of (map (file_part kwargs defaults read_csv) files) = usable (flat_map (read_csv defaults) files).
Proof.
  induction files as [|f r IH]; [easy|]. cbn [map flat_map]. unfold rows_of. cbn [flat_map]. fold (rows_of (map (file_part kwargs defaults read_csv) r)).
  rewrite IH. unfold file_part. cbn [fst snd]. rewrite usable_filter. unfold usable. now rewrite flat_map_app.
Qed.

(** ** Outer parts *)

Lemma cut_nonempty A sizes : forall l : list A, Forall (fun s => s <> 0%nat) sizes -> list_sum sizes = List.length l ->
  Forall (fun p => p <> []) (cut sizes l).
Proof.
  induction sizes as [|s r IH]; intros l F H; cbn [cut]; [constructor|]. inversion F as [|? ? F1 F2]; subst.
  change (list_sum (s :: r)) with (s + list_sum r)%nat in H. constructor.
  - destruct l; [cbn in H; lia|]. now destruct s.
  - apply IH; [easy|]. rewrite skipn_length. lia.
Qed.
Lemma sizes_nonzero total n : n <> 0%nat -> (n <= total)%nat -> Forall (fun s => s <> 0%nat) (section_sizes total n).
Proof.
  intros N H. unfold section_sizes. apply Forall_app. split; apply Forall_forall; intros x Hx; apply repeat_spec in Hx; subst x; [easy|].
  intros C. apply Nat.div_small_iff in C; lia.
Qed.

Lemma outer_parts_spec kw files : let d := kept kwargs read_csv kw files in
  files <> [] -> (List.length files <= List.length d)%nat ->
  exists parts, outer_parts kwargs read_csv kw files = Some parts /\
    NoDup (map (fun p => name_of (fst (fst p))) parts) /\ parts <> [] /\
    Forall (fun p => snd (fst p) <> [] /\ List.length (snd (fst p)) = List.length (snd p)) parts /\
    rows_of parts = combine (map snd d) (map y_of d) /\ flat_map snd parts = map y_of d.
Proof.
  intros d N H. unfold outer_parts. fold d.
  assert (Hn : List.length files <> 0%nat) by now destruct files.
  assert (Hl : List.length (map snd d) = List.length (map y_of d)) by now rewrite !map_length.
  unfold array_split. apply Nat.eqb_neq in Hn as Hn'. rewrite Hn', <- Hl.
  set (sz := section_sizes (List.length (map snd d)) (List.length files)).
  assert (Hs : list_sum sz = List.length (map snd d)) by now apply sizes_sum.
  destruct (cut_combine _ _ sz (map snd d) (map y_of d) Hl Hs) as [E F].
  assert (Fn : Forall (fun p => p <> []) (cut sz (map snd d))).
  { apply cut_nonempty; [|easy]. apply sizes_nonzero; [easy|]. now rewrite map_length. }
  assert (L1 : List.length (cut sz (map snd d)) = List.length files) by (rewrite cut_length; now apply sizes_length).
  assert (L2 : List.length (cut sz (map y_of d)) = List.length files) by (rewrite cut_length; now apply sizes_length).
  assert (Ey : concat (cut sz (map y_of d)) = map y_of d) by (apply cut_concat; now rewrite <- Hl).
  clearbody sz. revert E F Fn L1 L2 Ey. generalize (cut sz (map snd d)) (cut sz (map y_of d)). intros cs ys E F Fn L1 L2 Ey.
  eexists. split; [reflexivity|]. rewrite <- E, <- Ey. clear -F Fn L1 L2 Hn.
  assert (L : List.length cs = List.length ys) by congruence. assert (Nc : cs <> []) by (intros ->; cbn in L1; congruence). clear L1 L2 Hn.
  split; [|split; [|split; [|split]]].
  - rewrite map_map. cbn [fst name_of].
    assert (G : map (fun x : nat * (list cov * list R) => OuterSplit (fst x)) (combine (seq 0 (List.length cs)) (combine cs ys)) = map OuterSplit (seq 0 (List.length cs))).
    { rewrite <- (map_map fst OuterSplit). f_equal. clear -L. assert (G : List.length (combine cs ys) = List.length cs) by (rewrite combine_length; lia).
      rewrite <- G. clear. generalize (combine cs ys). intros l. generalize 0%nat. induction l as [|x l IH]; intros k; [easy|]. cbn. now rewrite IH. }
    rewrite G. apply FinFun.Injective_map_NoDup; [intros a b; congruence|apply seq_NoDup].
  - destruct cs, ys; easy.
  - apply Forall_forall. intros p Hp. apply in_map_iff in Hp. destruct Hp as ([k [c y]] & <- & Hp). cbn [fst snd].
    apply in_combine_r in Hp. split.
    + rewrite Forall_forall in Fn. apply Fn. now apply in_combine_l in Hp.
    + rewrite Forall_forall in F. now apply F in Hp.
  - unfold rows_of. generalize (seq 0 (List.length cs)) (seq_length (List.length cs) 0). clear -L. revert ys L.
    induction cs as [|c cs IH]; intros [|y ys] L [|k ks] Hk; cbn in *; try easy. rewrite IH; [easy|lia|lia].
  - generalize (seq 0 (List.length cs)) (seq_length (List.length cs) 0). clear -L. revert ys L.
    induction cs as [|c cs IH]; intros [|y ys] L [|k ks] Hk; cbn in *; try easy. rewrite IH; [easy|lia|lia].
Qed.

Lemma kept_usable kw files : (forall f r, In f files -> In r (read_csv kw f) -> forall v, In v (snd r) -> v <> None) ->
  let d := kept kwargs read_csv kw files in
  combine (map snd d) (map y_of d) = usable (flat_map (read_csv kw) files).
Proof.
  intros H d. rewrite <- usable_filter. unfold d, kept.
  assert (E : filter has_y (flat_map (read_csv kw) files) = filter complete (flat_map (read_csv kw) files)); [|now rewrite E].
  apply filter_ext_in. intros r Hr. apply in_flat_map in Hr. destruct Hr as (f & Hf & Hr). unfold has_y, complete.
  assert (E : forallb (fun v => negb (is_na v)) (snd r) = true); [|now rewrite E, andb_true_r].
  apply forallb_forall. intros v Hv. specialize (H f r Hf Hr v Hv). now destruct v.
Qed.

Lemma usable_y (d : table) : map snd (usable d) = map y_of (filter complete d).
Proof.
  rewrite <- usable_filter. generalize (filter complete d). induction l as [|x l IH]; [easy|]. cbn. now rewrite IH.
Qed.
Lemma flat_map_file_ys files : flat_map snd (map (file_part kwargs defaults read_csv) files) = map snd (usable (flat_map (read_csv defaults) files)).
Proof.
  rewrite usable_y. induction files as [|f r IH]; [easy|]. cbn [map flat_map]. rewrite IH, filter_app, map_app. reflexivity.
Qed.

Lemma fit_files_direct row_of should_cache kw nc order files coefs :
  fair order -> (0 < nc)%nat -> files <> [] ->
  (forall f, In f files -> usable (read_csv defaults f) <> []) ->
  (should_cache = true -> NoDup (map stem files)) ->
  exists pr, fit_files kwargs defaults read_csv row_of should_cache false kw nc order files coefs =
      Some (pr, map snd (usable (flat_map (read_csv defaults) files)),
            map (whole_eta row_of (usable (flat_map (read_csv defaults) files))) coefs) /\
    (forall i j, fst pr i j = whole_XX row_of (usable (flat_map (read_csv defaults) files)) i j) /\
    (forall i, snd pr i = whole_Xy row_of (usable (flat_map (read_csv defaults) files)) i).
Proof.
  intros Ho Hnc N Hu Hs. unfold fit_files. rewrite <- rows_of_files, flat_map_file_ys.
  destruct (fit_calls_spec row_of should_cache nc (map (file_part kwargs defaults read_csv) files)) with (order := order) (coefs := coefs)
    as (pr & E & H1 & H2); try easy.
  - intros SC. rewrite map_map. cbn [file_part fst name_of].
    rewrite <- (map_map stem Stem). apply FinFun.Injective_map_NoDup; [intros a b; congruence|auto].
  - now destruct files.
  - apply Forall_forall. intros p Hp. apply in_map_iff in Hp. destruct Hp as (f & <- & Hf). unfold file_part. cbn [fst snd].
    split; [|now rewrite !map_length]. intros C. apply (Hu f Hf). rewrite <- usable_filter, C. reflexivity.
  - exists pr. split; [|easy]. rewrite E. now rewrite rows_of_files.
Qed.

Lemma fit_files_kept row_of should_cache kw nc order files coefs :
  fair order -> (0 < nc)%nat -> files <> [] ->
  (forall f r, In f files -> In r (read_csv kw f) -> forall v, In v (snd r) -> v <> None) ->
  (List.length files <= List.length (usable (flat_map (read_csv kw) files)))%nat ->
  exists pr, fit_files kwargs defaults read_csv row_of should_cache true kw nc order files coefs =
      Some (pr, map snd (usable (flat_map (read_csv kw) files)),
            map (whole_eta row_of (usable (flat_map (read_csv kw) files))) coefs) /\
    (forall i j, fst pr i j = whole_XX row_of (usable (flat_map (read_csv kw) files)) i j) /\
    (forall i, snd pr i = whole_Xy row_of (usable (flat_map (read_csv kw) files)) i).
Proof.
  intros Ho Hnc N Hc Hl. pose proof (kept_usable kw files Hc) as E. cbn zeta in E. rewrite <- E in *.
  rewrite combine_length, !map_length, Nat.min_id in Hl.
  destruct (outer_parts_spec kw files N Hl) as (parts & E1 & ND & NE & F & Er & Ey).
  unfold fit_files. rewrite E1.
  destruct (fit_calls_spec row_of should_cache nc parts (fun _ => ND) Hnc order coefs Ho NE F) as (pr & E2 & H1 & H2).
  rewrite E2. exists pr. rewrite Er in *. split; [|easy]. f_equal. f_equal. f_equal. rewrite Ey.
  generalize (kept kwargs read_csv kw files). clear. induction l as [|x l IH]; [easy|]. cbn. now rewrite <- IH.
Qed.

(** ** Limits *)

Lemma np_min_some l : forall x, (forall v, In v l -> v <> None) -> exists m,
  fold_left (fun a b => match a, b with Some u, Some v => Some (Rmin u v) | _, _ => None end) l (Some x) = Some m /\
  m <= x /\ (forall v, In (Some v) l -> m <= v) /\ (m = x \/ In (Some m) l).
Proof.
  induction l as [|[v|] l IH]; intros x H; cbn.
  - exists x. repeat split; [lra|easy|now left].
  - destruct (IH (Rmin x v)) as (m & E & H1 & H2 & H3); [intros; apply H; now right|].
    exists m. split; [easy|]. pose proof (Rmin_l x v). pose proof (Rmin_r x v). split; [lra|]. split.
    + intros w [Hw|Hw]; [injection Hw as <-; lra|auto].
    + destruct H3 as [->|H3]; [|right; now right].
      unfold Rmin. destruct (Rle_dec x v); [now left|right; now left].
  - exfalso. apply (H None); [now left|easy].
Qed.
Lemma np_min_spec l : l <> [] -> (forall v, In v l -> v <> None) -> exists m,
  np_min l = Some m /\ In (Some m) l /\ forall v, In (Some v) l -> m <= v.
Proof.
  destruct l as [|[x|] l]; intros N H; [easy| |].
  - destruct (np_min_some l x) as (m & E & H1 & H2 & H3); [intros; apply H; now right|]. exists m. split; [exact E|]. split.
    + destruct H3 as [->|H3]; [now left|now right].
    + intros v [Hv|Hv]; [injection Hv as <-; lra|auto].
  - exfalso. apply (H None); [now left|easy].
Qed.
Lemma np_nanmin_spec l : (exists v, In (Some v) l) -> exists m,
  np_nanmin l = Some m /\ In (Some m) l /\ forall v, In (Some v) l -> m <= v.
Proof.
  intros [v Hv]. unfold np_nanmin.
  destruct (np_min_spec (filter (fun v => negb (is_na v)) l)) as (m & E & H1 & H2).
  - assert (In (Some v) (filter (fun v => negb (is_na v)) l)) by (apply filter_In; now split). now destruct (filter (fun v => negb (is_na v)) l).
  - intros w Hw. apply filter_In in Hw. destruct Hw as [_ Hw]. now destruct w.
  - exists m. split; [easy|]. split; [now apply filter_In in H1|]. intros w Hw. apply H2. apply filter_In. now split.
Qed.

(** ** Constraints *)

Lemma col_sums_app n (a b : rows) : col_sums n (a ++ b) = add_lists (col_sums n a) (col_sums n b).
Proof.
  unfold col_sums, add_lists. generalize (seq 0 n). induction l as [|j l IH]; [easy|]. cbn. rewrite IH. f_equal.
  rewrite map_app. apply sum_app.
Qed.
Lemma add_lists_assoc a b c : add_lists (add_lists a b) c = add_lists a (add_lists b c).
Proof.
  unfold add_lists. revert b c. induction a as [|x a IH]; intros [|y b] [|z c]; cbn; try easy. rewrite IH. f_equal. ring.
Qed.
Lemma constraint_files_from kw n basis files : forall acc,
  fold_left add_lists (map (constraint_single kwargs read_csv kw n basis) files) acc =
  match files with [] => acc | _ => add_lists acc (col_sums n (map (fun r => basis (snd r)) (filter has_y (flat_map (read_csv kw) files)))) end.
Proof.
  induction files as [|f r IH]; intros acc; [easy|]. cbn [map fold_left]. rewrite IH. cbn [flat_map]. rewrite filter_app, map_app.
  unfold constraint_single. destruct r as [|g r].
  - cbn [flat_map filter map]. now rewrite app_nil_r.
  - rewrite (col_sums_app n). now rewrite add_lists_assoc.
Qed.
Lemma add_zero n a : List.length a = n -> add_lists (repeat 0 n) a = a.
Proof.
  intros <-. unfold add_lists. induction a as [|x a IH]; [easy|]. cbn. rewrite IH. f_equal. ring.
Qed.
Lemma constraint_files_spec kw n basis files : constraint_files kwargs read_csv kw n basis files =
  col_sums n (map (fun r => basis (snd r)) (filter has_y (flat_map (read_csv kw) files))).
Proof.
  unfold constraint_files. rewrite constraint_files_from. destruct files as [|f r].
  - unfold col_sums. cbn. generalize 0%nat. induction n as [|n IH]; intros k; [easy|]. cbn. now rewrite (IH (S k)).
  - apply add_zero. unfold col_sums. now rewrite map_length, seq_length.
Qed.
End Files.
