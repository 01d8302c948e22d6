(** C147, C148: candidates for smoothing parameters. *)
From Coq Require Import List Arith ZArith QArith Qabs Bool Lia.
From Verif Require Import GridModel GridSpec GridProofs.
Import ListNotations.
Local Open Scope nat_scope.

(** C147: the candidates are the draws, in order, with infinite ones set to b, possibly preceded by the estimate; the
    estimate is among them or a draw is close to it. *)
Theorem C147_grid : forall visited lams minDiag b n rows,
  is_table n (length lams) rows -> 1 <= n -> 1 <= length lams -> ~ (n = 1 /\ length lams = 1) ->
  exists grid, candidates false visited lams minDiag b n rows = Done grid /\
    (let drawn := map (map (fun x => match x with None => b | Some v => v end)) rows in
     (grid = drawn /\ exists row, In row drawn /\ close minDiag row lams) \/
     (grid = lams :: drawn /\ forall row, In row drawn -> ~ close minDiag row lams)).
Proof.
  intros visited lams minDiag b n rows H Hn Hl Hnl. unfold candidates.
  rewrite (p_sample_spec _ _ b _ H Hn Hl Hnl). eexists. split; [reflexivity|]. cbv zeta.
  change (map (map (fun x => match x with None => b | Some v => v end)) rows) with (map (map (finite b)) rows).
  unfold with_current, lams_before. destruct (existsb (near minDiag lams) (map (map (finite b)) rows)) eqn:E.
  - left. split; [reflexivity|]. apply existsb_exists in E as [row [R1 R2]]. exists row. split; [exact R1|].
    apply near_close; [|exact R2]. apply in_map_iff in R1 as [r [<- R1]]. rewrite map_length.
    exact (proj1 (Forall_forall _ _) (proj2 H) r R1).
  - right. split; [reflexivity|]. intros row R C. apply close_near in C.
    assert (existsb (near minDiag lams) (map (map (finite b)) rows) = true) by (apply existsb_exists; now exists row).
    congruence.
Qed.
(** With finite differences the estimate itself is forgotten: a point visited by the differencing takes its place. *)
Theorem C147_fidiff_refuted : exists visited lams minDiag b n rows grid,
  is_table n (length lams) rows /\ candidates true visited lams minDiag b n rows = Done grid /\
  forall row, In row grid -> ~ close minDiag row lams.
Proof.
  exists [[4#1]; [7#2]]%Q, [2#1]%Q, (1#10)%Q, (100#1)%Q, 2, [[Some (9#1)]; [None]]%Q, [[7#2]; [9#1]; [100#1]]%Q.
  split; [repeat constructor|]. split; [vm_compute; reflexivity|].
  intros row H. repeat (destruct H as [<-|H]; [intros C; inversion C; subst; vm_compute in *; congruence|]). easy.
Qed.
(** A draw that is a thousand times smaller than the estimate counts as close to it. *)
Theorem C147_scale_refuted : exists lams minDiag b n rows grid,
  is_table n (length lams) rows /\ candidates false [] lams minDiag b n rows = Done grid /\
  forall row, In row grid -> exists x l, row = [x] /\ lams = [l] /\ (x * (1000#1) <= l)%Q.
Proof.
  exists [1#100]%Q, (1#10)%Q, (100#1)%Q, 2, [[Some (1#100000)]; [Some (1#1000000)]]%Q, [[1#100000]; [1#1000000]]%Q.
  split; [repeat constructor|]. split; [vm_compute; reflexivity|].
  intros row H. destruct H as [<-|[<-|[]]]; do 2 eexists; (split; [reflexivity|]); (split; [reflexivity|]);
    unfold Qle; cbn; lia.
Qed.
(** One draw for one parameter. *)
Theorem C147_single : forall fidiff visited lam minDiag b x, candidates fidiff visited [lam] minDiag b 1 [[x]] = Raised.
Proof. reflexivity. Qed.
Theorem C147_single_refuted : exists lams minDiag b rows, is_table 1 (length lams) rows /\ 1 <= length lams /\
  candidates false [] lams minDiag b 1 rows = Raised.
Proof. exists [2#1]%Q, (1#10)%Q, (100#1)%Q, [[Some (3#1)]]%Q. split; [repeat constructor|]. split; [cbn; lia|reflexivity]. Qed.
Example C147_case :
  is_table 2 2 [[Some 1; None]; [Some 3; Some 4]]%Q /\
  candidates false [] [3#1; 5#1]%Q (1#2)%Q (100#1)%Q 2 [[Some 1; None]; [Some 3; Some 4]]%Q
    = Done [[3#1; 5#1]; [1; 100#1]; [3; 4]]%Q /\
  candidates false [] [3#1; 5#1]%Q (2#1)%Q (100#1)%Q 2 [[Some 1; None]; [Some 3; Some 4]]%Q = Done [[1; 100#1]; [3; 4]]%Q /\
  candidates false [] [3#1; 5#1]%Q (1#2)%Q (100#1)%Q 1 [[Some 1; None]]%Q = Done [[3#1; 5#1]; [1; 100#1]]%Q /\
  candidates false [] [3#1]%Q (1#2)%Q (100#1)%Q 2 [[Some 1]; [None]]%Q = Done [[3#1]; [1]; [100#1]]%Q.
Proof. split; [repeat constructor|]. repeat split. Qed.

(** C148: with one process the result consists of the candidates that have a score, each evaluated at its own
    parameters; if all have one, it does not depend on the number of processes. *)
Theorem C148_serial : forall S (compute : list Q -> option S) n_c lams rows,
  n_c <= 1 -> Forall (fun r => length r = length lams) rows -> scored compute rows <> [] ->
  scores S compute n_c true lams rows = Done (map fst (scored compute rows), map snd (scored compute rows)).
Proof.
  intros S compute n_c lams rows Hn H E. unfold scores.
  rewrite (proj2 (Nat.ltb_ge 1 n_c) Hn), (serial_spec S compute rows lams [] [] H). cbn [app].
  destruct (scored compute rows); [congruence|reflexivity].
Qed.
Theorem C148_processes : forall S (compute : list Q -> option S) n_c general lams rows,
  Forall (fun r => length r = length lams) rows -> Forall (fun r => compute r <> None) rows -> rows <> [] ->
  scores S compute n_c general lams rows = Done (map fst (scored compute rows), rows).
Proof.
  intros S compute n_c general lams rows H F E. unfold scores.
  assert (G : (if 1 <? n_c then parallel S compute lams rows else serial S compute general lams rows [] [])
              = Done (map fst (scored compute rows), rows)).
  { destruct (1 <? n_c); [now apply parallel_all|].
    rewrite (serial_all S compute general rows lams [] [] H F), (serial_spec S compute rows lams [] [] H). cbn [app].
    now rewrite (scored_all S compute rows F). }
  rewrite G. destruct rows as [|r rows]; [congruence|]. apply Forall_cons_iff in F as [F1 _]. cbn [scored].
  destruct (compute r); [reflexivity|congruence].
Qed.
(** A failing candidate is left out with one process, and raises with several or if the family is of class Family. *)
Theorem C148_failing : forall S (compute : list Q -> option S) lams rows good bad,
  Forall (fun r => length r = length lams) rows -> In good rows -> In bad rows -> compute good <> None -> compute bad = None ->
  (exists r, scores S compute 1 true lams rows = Done r) /\
  forall n_c general, 2 <= n_c -> scores S compute n_c general lams rows = Raised.
Proof.
  intros S compute lams rows good bad H Hg Hb Eg Eb. split.
  - eexists. apply C148_serial; [lia|exact H|].
    clear H Hb Eb. induction rows as [|r rows IH]; [easy|]. cbn [scored].
    destruct Hg as [->|Hg]; [destruct (compute good); [discriminate|congruence]|].
    destruct (compute r); [discriminate|now apply IH].
  - intros n_c general Hn. unfold scores. rewrite (proj2 (Nat.ltb_lt 1 n_c)) by lia. unfold parallel.
    rewrite (starmap_fail S compute (map (overwrite lams) rows) bad); [reflexivity| |exact Eb].
    rewrite <- (overwrite_same lams bad); [now apply in_map|].
    symmetry. exact (proj1 (Forall_forall _ _) H bad Hb).
Qed.
Definition score1 (l : list Q) : option nat := match l with [x] => if Qle_bool x 2 then Some 7 else None | _ => None end.
Theorem C148_failing_refuted : exists (compute : list Q -> option nat) lams rows r, Forall (fun r => length r = length lams) rows /\
  scores nat compute 1 true lams rows = Done r /\ scores nat compute 2 true lams rows = Raised.
Proof.
  exists score1, [5#1]%Q, [[1]; [3]; [2]]%Q, ([7; 7], [[1]; [2]]%Q). split; [repeat constructor|]. split; reflexivity.
Qed.
Example C148_case :
  scored score1 [[1]; [3]; [2]]%Q = [(7, [1]%Q); (7, [2]%Q)] /\
  scores nat score1 1 true [5#1]%Q [[1]; [3]; [2]]%Q = Done ([7; 7], [[1]; [2]]%Q) /\
  scores nat score1 4 true [5#1]%Q [[1]; [3]; [2]]%Q = Raised /\ scores nat score1 1 false [5#1]%Q [[1]; [3]; [2]]%Q = Raised /\
  scores nat score1 1 false [5#1]%Q [[1]; [2]]%Q = Done ([7; 7], [[1]; [2]]%Q) /\
  scores nat score1 4 false [5#1]%Q [[1]; [2]]%Q = Done ([7; 7], [[1]; [2]]%Q) /\
  scores nat score1 1 true [5#1]%Q [[3]]%Q = Raised.
Proof. repeat split. Qed.

Print Assumptions C147_grid. Print Assumptions C147_fidiff_refuted. Print Assumptions C147_scale_refuted.
Print Assumptions C147_single. Print Assumptions C147_single_refuted. Print Assumptions C148_serial. Print Assumptions C148_processes.
Print Assumptions C148_failing.
Print Assumptions C148_failing_refuted.
