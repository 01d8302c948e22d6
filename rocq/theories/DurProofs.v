(** Residuals of durations. *)

From Coq Require Import List Bool Arith Reals Lia.
From Verif Require Import HsmmModel HsmmSpec DurModel DurSpec.
Import ListNotations.

Section Walk.
Variable a : durations.
Hypothesis Hc : forall j, has a (j + n_states a) = has a j.
Hypothesis Hv : varying a = false.

(** What has been stored after the segments [s] (the first of them initial). *)
Fixpoint fill (res : store) (initial : bool) (s : list segment) : store :=
  match s with
  | [] => res
  | (i, e) :: r =>
      let col := if initial || first_starts a then i else i + n_states a in
      fill (if has a col then put res i (match res i with Some l => Some (l ++ [dres a col (S e) 0]) | None => None end) else put res i None) false r
  end.

Definition sane (res : store) : Prop := forall j, has a j = true -> res j <> None.
Lemma record_ok res j e (later : bool) row : sane res ->
  exists res', record_duration a res j (if later then j + n_states a else j) (S e) row = Some res' /\ sane res' /\
    res' = (if has a (if later then j + n_states a else j) then put res j (match res j with Some l => Some (l ++ [dres a (if later then j + n_states a else j) (S e) 0]) | None => None end) else put res j None).
Proof.
  intros HS. unfold record_duration. rewrite Hv. destruct (has a _) eqn:E.
  - assert (H : has a j = true) by (destruct later; [rewrite <- Hc|]; exact E). specialize (HS j H) as Sj. destruct (res j) as [l|]; [|congruence].
    eexists. split; [reflexivity|]. split; [|reflexivity]. intros k Hk. unfold put. destruct (k =? j); [discriminate|]. apply HS. exact Hk.
  - eexists. split; [reflexivity|]. split; [|reflexivity]. intros k Hk. unfold put. destruct (Nat.eqb_spec k j) as [->|]; [|apply HS; exact Hk].
    exfalso. assert (has a j = false) by (destruct later; [rewrite <- Hc|]; exact E). congruence.
Qed.

Lemma walk_repeat w j e : w_j w = j -> fold_left (walk_step a) (repeat j e) w = Walk (w_res w) (w_d w + e) j (w_transitions w) (w_t w + e).
Proof.
  revert w. induction e as [|e IH]; intros w E; cbn [repeat fold_left].
  - destruct w. cbn in *. subst. f_equal; lia.
  - unfold walk_step at 2. rewrite E, Nat.eqb_refl. rewrite IH by reflexivity. cbn. f_equal; lia.
Qed.

(** The loop, from the middle of a segment [(j, e)]. *)
Lemma walk_path s : forall res j e k t, sane res -> alternates ((j, e) :: s) ->
  exists res' i f t', fold_left (walk_step a) (path s) (Walk (Some res) (S e) j k t) = Walk (Some res') (S f) i (k + length s) t' /\ sane res' /\
    (forall x, record_duration a res' i (if first_starts a then i else if k + length s =? 0 then i else i + n_states a) (S f) x
               = Some (fill res (k =? 0) ((j, e) :: s))).
Proof.
  induction s as [|[i f] s IH]; intros res j e k t HS A.
  - exists res, j, e, t. cbn [path flat_map fold_left length]. rewrite Nat.add_0_r. split; [reflexivity|]. split; [exact HS|]. intros x. cbn [fill].
    destruct (record_ok res j e (negb (first_starts a) && negb (k =? 0)) x HS) as (r & E & _ & ->).
    destruct (first_starts a), (k =? 0); cbn [orb negb andb] in *; exact E.
  - destruct A as [N A]. cbn [fst] in N. cbn [path flat_map fst snd]. cbn [repeat app fold_left].
    rewrite fold_left_app. unfold walk_step at 3. cbn [w_j w_transitions w_d w_t w_res].
    destruct (Nat.eqb_spec i j) as [E|_]; [congruence|].
    destruct (record_ok res j e (negb ((k =? 0) || first_starts a)) t HS) as (r & E & Sr & Er).
    replace (if (k =? 0) || first_starts a then j else j + n_states a) with (if negb ((k =? 0) || first_starts a) then j + n_states a else j)
      by (destruct ((k =? 0) || first_starts a); reflexivity).
    rewrite E. rewrite walk_repeat by reflexivity. cbn [w_res w_d w_transitions w_t].
    destruct (IH r i f (k + 1) (t + 1 + f) Sr A) as (r' & i' & f' & t' & E1 & S1 & R1).
    exists r', i', f', t'. split; [|split; [exact S1|]].
    + change (fold_left (walk_step a) (path s) (Walk (Some r) (S f) i (k + 1) (t + 1 + f)) =
        Walk (Some r') (S f') i' (k + S (length s)) t').
      rewrite E1. f_equal. lia.
    + intros x. cbn [length]. specialize (R1 x). replace (k + 1 + length s) with (k + S (length s)) in R1 by lia. rewrite R1.
      replace (k + 1 =? 0) with false by (symmetry; apply Nat.eqb_neq; lia). cbn [fill]. rewrite Er. 
      destruct ((k =? 0) || first_starts a); reflexivity.
Qed.

Lemma dur_fill s : s <> [] -> alternates s -> (first_starts a = true \/ 2 <= length s) ->
  compute_dur_res a (path s) = Some (fill (fun _ => Some []) true s).
Proof.
  destruct s as [|[j e] s]; intros Hs A H; [congruence|].
  destruct (walk_path s (fun _ => Some []) j e 0 (S e)) as (r & i & f & t & E & _ & Q); [intros k _; discriminate|exact A|].
  assert (E0 : fold_left (walk_step a) (path ((j, e) :: s)) (Walk (Some (fun _ => Some [])) 0 (hd 0 (path ((j, e) :: s))) 0 0)
               = Walk (Some r) (S f) i (length s) t).
  { change (path ((j, e) :: s)) with ((j :: repeat j e) ++ path s). cbn [app hd]. 
    change (j :: repeat j e ++ path s) with ((j :: repeat j e) ++ path s). rewrite fold_left_app. cbn [fold_left].
    replace (walk_step a (Walk (Some (fun _ : nat => Some ([] : list R))) 0 j 0 0) j) with (Walk (Some (fun _ : nat => Some ([] : list R))) 1 j 0 1)
      by (unfold walk_step; cbn [w_j]; rewrite Nat.eqb_refl; reflexivity).
    rewrite walk_repeat by reflexivity. exact E. }
  unfold compute_dur_res. rewrite E0. cbn [w_res w_j w_d w_t]. specialize (Q (t - 1)). cbn [Nat.add] in Q. change (0 =? 0) with true in Q. rewrite <- Q.
  destruct (first_starts a); [reflexivity|]. destruct H as [H|H]; [discriminate|]. cbn [length] in H.
  destruct (Nat.eqb_spec (length s) 0); [lia|]. reflexivity.
Qed.

Lemma fill_value s : forall res initial j t, has a j = true -> res j <> None ->
  fill res initial s j = match res j with Some l => Some (l ++ segment_residuals a j t initial s) | None => None end.
Proof.
  induction s as [|[i e] s IH]; intros res initial j t Hj Hr; cbn [fill segment_residuals].
  - destruct (res j); [rewrite app_nil_r|]; reflexivity.
  - rewrite Hv. set (col := if initial || first_starts a then i else i + n_states a).
    replace (if initial || first_starts a then i else n_states a + i) with col by (unfold col; destruct (initial || first_starts a); lia).
    destruct (Nat.eqb_spec i j) as [->|N].
    + assert (E : has a col = true) by (unfold col; destruct (initial || first_starts a); [|rewrite Hc]; exact Hj). rewrite E.
      rewrite (IH _ false j (t + S e) Hj); unfold put; rewrite Nat.eqb_refl; destruct (res j) as [l|]; try congruence.
      rewrite <- app_assoc. reflexivity.
    + destruct (has a col); rewrite (IH _ false j (t + S e) Hj); unfold put; destruct (Nat.eqb_spec j i); try congruence; reflexivity.
Qed.
Lemma fill_none s : forall res initial j, has a j = false -> (res j = None \/ res j = Some []) ->
  fill res initial s j = None \/ fill res initial s j = Some [].
Proof.
  induction s as [|[i e] s IH]; intros res initial j Hj Hr; cbn [fill]; [exact Hr|].
  apply IH; [exact Hj|]. set (col := if initial || first_starts a then i else i + n_states a). destruct (Nat.eq_dec i j) as [->|N].
  - assert (E : has a col = false) by (unfold col; destruct (initial || first_starts a); [|rewrite Hc]; exact Hj). rewrite E.
    unfold put. rewrite Nat.eqb_refl. left. reflexivity.
  - destruct (has a col); unfold put; destruct (Nat.eqb_spec j i); try congruence; exact Hr.
Qed.
End Walk.
