(** C50, C87, C88: computing in blocks and reading from files. *)

From Coq Require Import String List Bool Arith Reals Permutation Lia Lra Sorting.
From Verif Require Import ParModel ParSpec ParProofs ParProofs2.
From Verif Require FormModel FormProofs5 SplModel.
Import ListNotations.
Local Open Scope R_scope.

(** ** C50 *)

(** Products and predictors computed over parts (files, or slices of the data), each split by processes, equal those
    computed in one piece: for every number of processes, every order in which the processes do their work, every
    number of evaluations of the predictor, with and without the cache.  Each part has rows, and with the cache the names
    under which the parts are stored differ. *)
Theorem C50_blocks : forall row_of should_cache nc order parts coefs,
  fair order -> (0 < nc)%nat -> parts <> [] ->
  Forall (fun p => snd (fst p) <> [] /\ List.length (snd (fst p)) = List.length (snd p)) parts ->
  (should_cache = true -> NoDup (map (fun p => name_of (fst (fst p))) parts)) ->
  exists pr, fit_calls row_of should_cache nc order parts coefs = Some (pr, map (whole_eta row_of (rows_of parts)) coefs) /\
    (forall i j, fst pr i j = whole_XX row_of (rows_of parts) i j) /\
    (forall i, snd pr i = whole_Xy row_of (rows_of parts) i).
Proof. intros row_of sc nc order parts coefs Ho Hnc N F D. now apply fit_calls_spec. Qed.

(** Building the model matrix in parallel gives the rows in order. *)
Theorem C50_matrix : forall row_of nc covs, (0 < nc)%nat -> build_parallel row_of nc covs = Some (map row_of covs).
Proof. intros. now apply build_parallel_spec. Qed.

(** A fit that reads files one by one: products, dependent variable and predictors are those of all usable rows. *)
Theorem C50_files : forall (kwargs : Type) (defaults kw : kwargs) read_csv row_of should_cache nc order files coefs,
  fair order -> (0 < nc)%nat -> files <> [] ->
  (forall f, In f files -> usable (read_csv defaults f) <> []) ->
  (should_cache = true -> NoDup (map stem files)) ->
  let data := usable (flat_map (read_csv defaults) files) in
  exists pr, fit_files kwargs defaults read_csv row_of should_cache false kw nc order files coefs =
      Some (pr, map snd data, map (whole_eta row_of data) coefs) /\
    (forall i j, fst pr i j = whole_XX row_of data i j) /\ (forall i, snd pr i = whole_Xy row_of data i).
Proof. intros. now apply fit_files_direct. Qed.

Definition values (c : cov) : list R := map (fun v => match v with Some x => x | None => 0 end) c.
Definition in_order : nat -> nat -> nat -> list nat := fun _ _ n => seq 0 n.
Definition backwards : nat -> nat -> nat -> list nat := fun _ _ n => rev (seq 0 n).
Lemma in_order_fair : fair in_order. Proof. intros a b n. apply Permutation_refl. Qed.
Lemma backwards_fair : fair backwards. Proof. intros a b n. apply Permutation_sym, Permutation_rev. Qed.
Local Open Scope string_scope.

Definition three_parts : list (source * list cov * list R) :=
  [(Outer 0, [[Some 1; Some 2]; [Some 1; Some 3]; [Some 1; Some 4]], [1; 2; 3]); (Outer 1, [[Some 1; Some 5]], [4]);
   (FromFile "x.csv", [[Some 0; Some 1]; [Some 1; Some 0]], [5; 6])].

Example C50_case : exists pr, fit_calls values true 2 backwards three_parts [[1; 1]; [0; 2]] =
    Some (pr, map (whole_eta values (rows_of three_parts)) [[1; 1]; [0; 2]]) /\
  fst pr 0%nat 1%nat = 14 /\ snd pr 1%nat = 45 /\
  whole_eta values (rows_of three_parts) [1; 1] = [3; 4; 5; 6; 1; 1].
Proof.
  destruct (C50_blocks values true 2 backwards three_parts [[1; 1]; [0; 2]]) as (pr & E & H1 & H2).
  - apply backwards_fair.
  - lia.
  - discriminate.
  - repeat constructor; cbn; discriminate.
  - intros _. cbn. repeat constructor; cbn; intuition discriminate.
  - exists pr. split; [exact E|]. rewrite H1, H2. unfold whole_XX, whole_Xy, whole_eta, rows_of, sum, three_parts, values. cbn.
    split; [lra|split; [lra|]]. repeat (f_equal; try lra).
Qed.

(** Files of the same name in different directories share their entries in the cache: the second is replaced by the
    first. *)
Definition two_dirs (kw : unit) (f : string) : table :=
  if String.eqb f "a/x.csv" then [(Some 1, [Some 1])] else [(Some 1, [Some 2])].
Theorem C50_names_refuted : exists (read_csv : unit -> string -> table) row_of nc order files coefs,
  fair order /\ (0 < nc)%nat /\ files <> [] /\ NoDup files /\
  (forall f, In f files -> usable (read_csv tt f) <> []) /\
  let data := usable (flat_map (read_csv tt) files) in
  exists pr ys etas, fit_files unit tt read_csv row_of true false tt nc order files coefs = Some (pr, ys, etas) /\
    fst pr 0%nat 0%nat <> whole_XX row_of data 0 0 /\ etas <> map (whole_eta row_of data) coefs.
Proof.
  exists two_dirs, values, 1%nat, in_order, ["a/x.csv"; "b/x.csv"], [[1]].
  split; [apply in_order_fair|]. split; [lia|]. split; [discriminate|]. split; [repeat constructor; cbn; intuition discriminate|].
  split; [intros f [<-|[<-|[]]]; discriminate|].
  do 3 eexists. split; [reflexivity|]. split.
  - cbn. unfold whole_XX, sum. cbn. lra.
  - cbn. unfold whole_eta, sum. cbn. intros C. injection C. lra.
Qed.

(** A file, or a slice of the data, without usable rows stops the fit with an exception. *)
Definition one_empty (kw : unit) (f : string) : table :=
  if String.eqb f "a.csv" then [(Some 1, [Some 1])] else [(None, [Some 2])].
Theorem C50_empty_refuted : exists (read_csv : unit -> string -> table) row_of nc order files coefs,
  fair order /\ (0 < nc)%nat /\ NoDup (map stem files) /\ usable (flat_map (read_csv tt) files) <> [] /\
  fit_files unit tt read_csv row_of false false tt nc order files coefs = None /\
  fit_files unit tt read_csv row_of false true tt nc order files coefs = None.
Proof.
  exists one_empty, values, 1%nat, in_order, ["a.csv"; "b.csv"], [].
  split; [apply in_order_fair|]. split; [lia|]. split; [cbn; repeat constructor; cbn; intuition discriminate|].
  split; [discriminate|]. split; reflexivity.
Qed.

(** With impulse response terms the model matrix cannot be built by more than one process: every process builds these
    terms for all series, and their rows do not fit those of its subset. *)
Theorem C50_irf_refuted : exists levels limits cov tol terms nc m,
  build_parallel_irf 1 4 levels limits limits cov tol terms = Some m /\ (1 < nc)%nat /\
  build_parallel_irf nc 4 levels limits limits cov tol terms = None.
Proof.
  exists (fun _ => 1%nat), (fun _ => None), [[[0]; [2]; [4]; [6]]], 0,
    [(SplModel.Irf [0%nat] [2%nat] [SplModel.Kw (Some 0) (Some 6) true 1] None [1%nat], true)], 2%nat.
  eexists. split; [reflexivity|]. split; [lia|]. reflexivity.
Qed.

(** ** C87 *)

(** If no predictor is missing and the loading options change nothing, a fit with keep_cov and one without have the same
    products, dependent variable and predictors, those of all usable rows. *)
Theorem C87_same : forall (kwargs : Type) (defaults kw : kwargs) read_csv row_of should_cache nc order files coefs,
  fair order -> (0 < nc)%nat -> files <> [] ->
  (forall f, In f files -> read_csv kw f = read_csv defaults f) ->
  (forall f r, In f files -> In r (read_csv kw f) -> forall v, In v (snd r) -> v <> None) ->
  (forall f, In f files -> usable (read_csv kw f) <> []) ->
  (should_cache = true -> NoDup (map stem files)) ->
  let data := usable (flat_map (read_csv kw) files) in
  forall keep_cov, exists pr, fit_files kwargs defaults read_csv row_of should_cache keep_cov kw nc order files coefs =
      Some (pr, map snd data, map (whole_eta row_of data) coefs) /\
    (forall i j, fst pr i j = whole_XX row_of data i j) /\ (forall i, snd pr i = whole_Xy row_of data i).
Proof.
  intros kwargs defaults kw read_csv row_of sc nc order files coefs Ho Hnc N Hkw Hc Hu Hs data [|].
  - apply fit_files_kept; try easy.
    clear -Hu. induction files as [|f r IH]; [cbn; lia|]. cbn [List.length flat_map]. unfold usable. rewrite flat_map_app, app_length.
    fold (usable (read_csv kw f)) (usable (flat_map (read_csv kw) r)).
    assert (H : usable (read_csv kw f) <> []) by (apply Hu; now left). destruct (usable (read_csv kw f)); [easy|].
    assert (List.length r <= List.length (usable (flat_map (read_csv kw) r)))%nat by (apply IH; intros; apply Hu; now right). cbn. lia.
  - unfold data. assert (E : flat_map (read_csv kw) files = flat_map (read_csv defaults) files).
    { clear -Hkw. induction files as [|f r IH]; [easy|]. cbn. rewrite Hkw by now left. rewrite IH; [easy|]. intros; apply Hkw; now right. }
    rewrite E. apply fit_files_direct; try easy. intros f Hf. rewrite <- Hkw by easy. auto.
Qed.
Definition two_files (kw : nat) (f : string) : table :=
  if String.eqb f "a.csv" then [(Some 1, [Some 1]); (None, [Some 7])] else [(Some 2, [Some 2]); (Some 3, [Some 4])].
Example C87_case : forall keep_cov, exists pr etas,
  fit_files nat 0%nat two_files values true keep_cov 1%nat 3 backwards ["a.csv"; "b.csv"] [[2]] = Some (pr, [1; 2; 3], etas) /\
  fst pr 0%nat 0%nat = 21.
Proof.
  intros keep_cov.
  destruct (C87_same nat 0%nat 1%nat two_files values true 3 backwards ["a.csv"; "b.csv"] [[2]]) with (keep_cov := keep_cov) as (pr & E & H1 & H2); try easy.
  - apply backwards_fair.
  - lia.
  - intros f r Hf Hr v Hv. destruct Hf as [<-|[<-|[]]]; cbn in Hr; intuition subst; cbn in Hv; intuition congruence.
  - intros f [<-|[<-|[]]]; discriminate.
  - intros _. cbn. repeat constructor; cbn; intuition discriminate.
  - exists pr. eexists. split; [exact E|]. rewrite H1. unfold whole_XX, sum. cbn. lra.
Qed.

(** The loading options of the formula are not used when the files are read during the fit: here the option says that 9
    stands for a missing value. *)
Definition na_option (kw : bool) (f : string) : table := [(Some 1, [Some 1]); (if kw then None else Some 9, [Some 2])].
Theorem C87_options_refuted : exists (read_csv : bool -> string -> table) (kw defaults : bool) row_of nc order files,
  fair order /\ (0 < nc)%nat /\ (forall f, In f files -> usable (read_csv kw f) <> []) /\
  (exists pr etas, fit_files bool defaults read_csv row_of false true kw nc order files [] = Some (pr, map snd (usable (flat_map (read_csv kw) files)), etas)) /\
  (exists pr ys etas, fit_files bool defaults read_csv row_of false false kw nc order files [] = Some (pr, ys, etas) /\
     ys <> map snd (usable (flat_map (read_csv kw) files))).
Proof.
  exists na_option, true, false, values, 1%nat, in_order, ["a.csv"].
  split; [apply in_order_fair|]. split; [lia|]. split; [intros f [<-|[]]; discriminate|].
  split; [do 2 eexists; reflexivity|]. do 3 eexists. split; [reflexivity|]. discriminate.
Qed.

(** With keep_cov, rows in which a predictor is missing are kept. *)
Definition na_predictor (kw : unit) (f : string) : table := [(Some 1, [Some 1]); (Some 5, [None])].
Theorem C87_missing_refuted : exists (read_csv : unit -> string -> table) row_of nc order files,
  fair order /\ (0 < nc)%nat /\ (forall f, In f files -> usable (read_csv tt f) <> []) /\
  (exists pr etas, fit_files unit tt read_csv row_of false false tt nc order files [] = Some (pr, map snd (usable (flat_map (read_csv tt) files)), etas)) /\
  (exists pr ys etas, fit_files unit tt read_csv row_of false true tt nc order files [] = Some (pr, ys, etas) /\
     ys <> map snd (usable (flat_map (read_csv tt) files))).
Proof.
  exists na_predictor, values, 1%nat, in_order, ["a.csv"].
  split; [apply in_order_fair|]. split; [lia|]. split; [intros f [<-|[]]; discriminate|].
  split; [do 2 eexists; reflexivity|]. do 3 eexists. split; [reflexivity|]. discriminate.
Qed.

(** ** C88 *)

(** Column sums for constraints accumulated over files are those of the data frame with the same rows. *)
Theorem C88_constraints : forall (kwargs : Type) (kw : kwargs) read_csv n basis files,
  (forall f r, In f files -> In r (read_csv kw f) -> forall v, In v (snd r) -> v <> None) ->
  constraint_files kwargs read_csv kw n basis files = constraint_frame n basis (flat_map (read_csv kw) files).
Proof.
  intros kwargs kw read_csv n basis files H. rewrite constraint_files_spec. unfold constraint_frame.
  do 2 f_equal. apply filter_ext_in. intros r Hr. apply in_flat_map in Hr. destruct Hr as (f & Hf & Hr). unfold has_y, complete.
  assert (E : forallb (fun v => negb (is_na v)) (snd r) = true); [|now rewrite E, andb_true_r].
  apply forallb_forall. intros v Hv. specialize (H f r Hf Hr v Hv). now destruct v.
Qed.
Example C88_constraints_case : constraint_files nat two_files 0%nat 1 values ["a.csv"; "b.csv"] = [7].
Proof.
  rewrite C88_constraints.
  - unfold constraint_frame, col_sums. cbn. f_equal. lra.
  - intros f r Hf Hr v Hv. destruct Hf as [<-|[<-|[]]]; cbn in Hr; intuition subst; cbn in Hv; intuition congruence.
Qed.

(** Limits: the smallest value is found in a data frame with missing values, and in files without. *)
Theorem C88_limits : forall (column : string -> list (option R)) files, let l := flat_map column files in
  (exists v, In (Some v) l) ->
  (exists m, min_frame l = Some m /\ In (Some m) l /\ forall v, In (Some v) l -> m <= v) /\
  ((forall v, In v l -> v <> None) -> min_files column files = min_frame l).
Proof.
  intros column files l H. split; [now apply np_nanmin_spec|]. intros H2. unfold min_files, min_frame, np_nanmin. fold l. f_equal.
  symmetry. clearbody l. clear H. induction l as [|v l IH]; [easy|]. cbn. assert (Hv : v <> None) by (apply H2; now left). destruct v; [|easy]. cbn.
  f_equal. apply IH. intros; apply H2; now right.
Qed.
Example C88_limits_case : min_files (fun f => if String.eqb f "a" then [Some 3; Some 1] else [Some 2]) ["a"; "b"] = Some 1.
Proof.
  destruct (C88_limits (fun f => if String.eqb f "a" then [Some 3; Some 1] else [Some 2]) ["a"; "b"]) as [(m & E & H1 & H2) H]; [exists 3; now left|].
  rewrite H, E.
  - f_equal. assert (m <= 1) by (apply H2; cbn; auto). cbn in H1. destruct H1 as [H1|[H1|[H1|[]]]]; injection H1; intros; lra.
  - intros v Hv. cbn in Hv. intuition congruence.
Qed.
(** One missing value in a file makes the limit undefined. *)
Theorem C88_missing_refuted : exists (column : string -> list (option R)) files m,
  min_frame (flat_map column files) = Some m /\ min_files column files = None.
Proof. exists (fun _ => [Some 1; None]), ["a"]. eexists. split; reflexivity. Qed.

(** Levels read from files are those of the data frame, in some order. *)
Theorem C88_levels : forall (column : string -> list nat) iter files,
  (forall l, Permutation (iter l) l) ->
  Permutation (read_unique column iter files) (FormModel.np_unique (flat_map column files)).
Proof.
  intros column iter files H. unfold read_unique, np_unique_values. eapply Permutation_trans; [apply H|].
  apply NoDup_Permutation; [apply NoDup_nodup|apply FormProofs5.sorted_NoDup, FormProofs5.np_unique_sorted|].
  intros x. now rewrite nodup_In, FormProofs5.np_unique_in.
Qed.
(** The first level, to which dummy coding refers, depends on that order. *)
Theorem C88_reference_refuted : exists (column : string -> list nat) iter files,
  (forall l, Permutation (iter l) l) /\ hd 0%nat (read_unique column iter files) <> hd 0%nat (FormModel.np_unique (flat_map column files)).
Proof.
  exists (fun f => if String.eqb f "a" then [3; 1]%nat else [1; 2]%nat), (@rev nat), ["a"; "b"]. split.
  - intros l. apply Permutation_sym, Permutation_rev.
  - discriminate.
Qed.

Print Assumptions C50_blocks.
Print Assumptions C50_matrix.
Print Assumptions C50_files.
Print Assumptions C50_names_refuted.
Print Assumptions C50_empty_refuted.
Print Assumptions C50_irf_refuted.
Print Assumptions C87_same.
Print Assumptions C87_options_refuted.
Print Assumptions C87_missing_refuted.
Print Assumptions C88_constraints.
Print Assumptions C88_limits.
Print Assumptions C88_missing_refuted.
Print Assumptions C88_levels.
Print Assumptions C88_reference_refuted.
