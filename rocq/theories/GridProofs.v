(** Proofs for GridModel. *)
From Coq Require Import List Arith ZArith QArith Qabs Bool Lia.
From Verif Require Import GridModel GridSpec.
Import ListNotations.
Local Open Scope nat_scope.

Lemma concat_single : forall A (rows : list (list A)), Forall (fun r => length r = 1) rows ->
  map (fun x => [x]) (concat rows) = rows /\ length (concat rows) = length rows.
Proof.
  intros A. induction rows as [|r rows IH]; intros H; [now split|]. apply Forall_cons_iff in H as [H1 H2].
  destruct r as [|x [|y r]]; try discriminate. destruct (IH H2) as [E1 E2]. cbn. now rewrite E1, E2.
Qed.

Lemma p_sample_spec : forall n d b rows, is_table n d rows -> 1 <= n -> 1 <= d -> ~ (n = 1 /\ d = 1) ->
  p_sample n d b rows = Done (map (map (finite b)) rows).
Proof.
  intros n d b rows [H1 H2] Hn Hd Hnd. unfold p_sample.
  destruct n as [|[|n]]; [lia| |].
  - destruct rows as [|r [|r2 rows]]; try discriminate. apply Forall_cons_iff in H2 as [H2 _].
    destruct d as [|[|d]]; [lia|lia|]. cbn. now rewrite app_nil_r.
  - destruct d as [|[|d]]; [lia| |reflexivity].
    destruct (concat_single _ rows H2) as [E1 E2].
    change (reshape (S (S n)) 1 (Arr1 (map (finite b) (concat rows))) = Done (map (map (finite b)) rows)).
    unfold reshape. rewrite map_length, E2, H1, !Nat.eqb_refl. f_equal.
    rewrite <- E1 at 2. rewrite !map_map. reflexivity.
Qed.

Lemma near_close : forall tol lams row, length row = length lams -> near tol lams row = true -> close tol row lams.
Proof.
  intros tol. induction lams as [|a lams IH]; intros [|x row] Hl H; try discriminate; [constructor|].
  unfold near in H. cbn [combine forallb fst snd] in H. apply andb_prop in H as [H1 H2]. constructor.
  - apply Qnot_le_lt. intros C. apply Qle_bool_iff in C. rewrite C in H1. discriminate.
  - apply IH; [now injection Hl|exact H2].
Qed.
Lemma close_near : forall tol lams row, close tol row lams -> near tol lams row = true.
Proof.
  intros tol lams row H. induction H as [|x a row lams H1 H2 IH]; [reflexivity|].
  unfold near. cbn [combine forallb fst snd]. apply andb_true_intro. split; [|exact IH].
  destruct (Qle_bool tol (Qabs (x - a))) eqn:E; [|reflexivity]. apply Qle_bool_iff in E. exfalso.
  exact (Qlt_not_le _ _ H1 E).
Qed.

Lemma overwrite_same : forall lams new, length lams = length new -> overwrite lams new = new.
Proof.
  induction lams as [|a lams IH]; intros [|x new] H; try discriminate; [reflexivity|]. cbn. f_equal. apply IH. now injection H.
Qed.

Section S.
Variable T : Type.
Variable compute : list Q -> option T.

Lemma serial_spec : forall rows lams remls rGrid, Forall (fun r => length r = length lams) rows ->
  serial T compute true lams rows remls rGrid
  = Done (remls ++ map fst (scored compute rows), rGrid ++ map snd (scored compute rows)).
Proof.
  induction rows as [|r rows IH]; intros lams remls rGrid H; [cbn; now rewrite !app_nil_r|].
  apply Forall_cons_iff in H as [H1 H2]. cbn [serial scored]. rewrite (overwrite_same lams r) by congruence.
  assert (H3 : Forall (fun x => length x = length r) rows) by (eapply Forall_impl; [|exact H2]; cbn; intros; congruence).
  unfold candidate. destruct (compute r) as [s|].
  - rewrite (IH r _ _ H3). cbn [map fst snd]. now rewrite <- !app_assoc.
  - now rewrite (IH r _ _ H3).
Qed.
Lemma serial_all : forall general rows lams remls rGrid, Forall (fun r => length r = length lams) rows ->
  Forall (fun r => compute r <> None) rows ->
  serial T compute general lams rows remls rGrid = serial T compute true lams rows remls rGrid.
Proof.
  intros general. induction rows as [|r rows IH]; intros lams remls rGrid H F; [reflexivity|].
  apply Forall_cons_iff in H as [H1 H2]. apply Forall_cons_iff in F as [F1 F2]. cbn [serial].
  rewrite (overwrite_same lams r) by congruence.
  assert (H3 : Forall (fun x => length x = length r) rows) by (eapply Forall_impl; [|exact H2]; cbn; intros; congruence).
  unfold candidate. destruct (compute r) as [s|]; [|congruence]. now apply IH.
Qed.
Lemma scored_all : forall rows, Forall (fun r => compute r <> None) rows -> map snd (scored compute rows) = rows.
Proof.
  induction rows as [|r rows IH]; intros F; [reflexivity|]. apply Forall_cons_iff in F as [F1 F2]. cbn [scored].
  destruct (compute r); [|congruence]. cbn. now rewrite IH.
Qed.
Lemma parallel_all : forall rows lams, Forall (fun r => length r = length lams) rows ->
  Forall (fun r => compute r <> None) rows ->
  parallel T compute lams rows = Done (map fst (scored compute rows), rows).
Proof.
  intros rows lams H F. unfold parallel.
  assert (E : map (overwrite lams) rows = rows).
  { rewrite <- (map_id rows) at 2. apply map_ext_in. intros r Hr. apply overwrite_same.
    symmetry. exact (proj1 (Forall_forall _ _) H r Hr). }
  rewrite E. clear E H.
  assert (G : starmap T compute rows = Done (map fst (scored compute rows))).
  { induction rows as [|r rows IH]; [reflexivity|]. apply Forall_cons_iff in F as [F1 F2]. cbn [starmap scored].
    unfold candidate. destruct (compute r); [|congruence]. now rewrite (IH F2). }
  now rewrite G.
Qed.
Lemma starmap_fail : forall rows r, In r rows -> compute r = None -> starmap T compute rows = Raised.
Proof.
  induction rows as [|x rows IH]; intros r H E; [easy|]. cbn [starmap]. unfold candidate.
  destruct H as [->|H]; [now rewrite E|].
  destruct (compute x); [|reflexivity]. now rewrite (IH r H E).
Qed.
End S.
