(** Specifications for DiscModel. *)
From Coq Require Import List Bool Arith ZArith Reals Sorting.Sorted Sorting.Permutation.
From Verif Require Import DiscModel.
Import ListNotations.
Local Open Scope nat_scope.

(** Rows that are ordered by series: every series has an id, and a number of rows that is not zero. *)
Definition flat {A} (series : list (A * nat)) : list A := flat_map (fun s => repeat (fst s) (snd s)) series.
Definition by_series (series : list (Z * nat)) : Prop :=
  NoDup (map fst series) /\ List.Forall (fun s => 0 < snd s) series.

(** Clusters of series 0, ..., n - 1, the s-th of which has [len s] rows: every series belongs to one cluster, the
    series kept for a cluster belongs to it and none in the cluster has more rows, and weights are numbers of rows
    relative to the rows of the series that is kept. *)
Definition clustered (n : nat) (len : nat -> nat) (clusters : list (nat * list R)) : Prop :=
  exists members : list (list nat),
    Permutation (concat members) (seq 0 n) /\
    Forall2 (fun m c => In (fst c) m /\ (forall s, In s m -> len s <= len (fst c)) /\
                        snd c = map (fun s => (INR (len s) / INR (len (fst c)))%R) m) members clusters.

(** What kmeans2 has to return: a label for every row. *)
Definition labels_all (kmeans : nat -> list (list R) -> nat -> list (list R) * list nat) : Prop :=
  forall call t k, List.length (snd (kmeans call t k)) = List.length t.

(** Neither of the statistics, no normalisation. *)
Definition plain (o : options) : Prop := has_stat o = false /\ normalize o = false.

(** Distinct values of a column, in ascending order. *)
Definition ascending_values (col vals : list Z) : Prop :=
  StronglySorted Z.lt vals /\ forall x, In x vals <-> In x col.

(** Number of rows of series [s] that have value [v]. *)
Definition rows_with (ids : list nat) (col : list Z) (s : nat) (v : Z) : nat :=
  List.length (filter (fun iv => (fst iv =? s) && (snd iv =? v)%Z) (combine ids col)).

(** A column is constant within the rows of a series; [sids] is the column of series ids. *)
Definition constant_within (sids col : list Z) : Prop :=
  forall r r', r < List.length sids -> r' < List.length sids ->
    nth r sids 0%Z = nth r' sids 0%Z -> nth r col 0%Z = nth r' col 0%Z.
