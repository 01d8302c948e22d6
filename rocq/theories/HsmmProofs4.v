(** Viterbi decoding. *)

From Coq Require Import List Bool Arith Reals Lia Lra.
From Verif Require Import Ext HsmmModel HsmmSpec HsmmProofs HsmmProofs2 HsmmProofs3.
Import ListNotations.
Local Open Scope R_scope.

Lemma lle_refl x : lle x x. Proof. destruct x; cbn; [lra|exact I]. Qed.
Lemma lle_trans x y z : lle x y -> lle y z -> lle x z.
Proof. destruct x, y, z; cbn; tauto || lra. Qed.
Lemma lgt_true x y : lgt x y = true -> lle y x /\ x <> None.
Proof.
  destruct x as [a|], y as [c|]; cbn; unfold rltb; try discriminate; try (split; [exact I|discriminate]).
  destruct (Rlt_dec c a); [|discriminate]. split; [lra|discriminate].
Qed.
Lemma lgt_false x y : lgt x y = false -> lle x y.
Proof.
  destruct x as [a|], y as [c|]; cbn; unfold rltb; try discriminate; auto. destruct (Rlt_dec c a); [discriminate|lra].
Qed.
Lemma ladd_mono x y z : lle x y -> lle (ladd x z) (ladd y z).
Proof. destruct x, y, z; cbn; tauto || lra. Qed.
Lemma ladd_assoc x y z : ladd x (ladd y z) = ladd (ladd x y) z.
Proof. destruct x, y, z; cbn; try reflexivity. f_equal. ring. Qed.
Lemma ladd_0_l x : ladd (Some 0) x = x. Proof. destruct x; cbn; [f_equal; ring|reflexivity]. Qed.
Lemma ladd_0_r x : ladd x (Some 0) = x. Proof. destruct x; cbn; [f_equal; ring|reflexivity]. Qed.
Lemma ladd_comm x y : ladd x y = ladd y x. Proof. destruct x, y; cbn; try reflexivity. f_equal. ring. Qed.
Lemma ladd_None_r x : ladd x None = None. Proof. destruct x; reflexivity. Qed.
Lemma ladd_some_l x y : ladd x y <> None -> x <> None. Proof. destruct x; [discriminate|tauto]. Qed.

(** Best candidate. *)
Section Best.
Variable A : Type.
Definition best_of (cs : list (lnum * A)) (r : lnum * option A) : lnum * option A :=
  fold_left (fun best c => keep_max best (fst c) (snd c)) cs r.
Definition sound (cs : list (lnum * A)) (r : lnum * option A) : Prop :=
  (r = (None, None)) \/ exists c, In c cs /\ fst r = fst c /\ snd r = Some (snd c) /\ fst c <> None.

Lemma best_of_spec cs : forall pre r, sound pre r -> (forall c, In c pre -> lle (fst c) (fst r)) ->
  sound (pre ++ cs) (best_of cs r) /\ forall c, In c (pre ++ cs) -> lle (fst c) (fst (best_of cs r)).
Proof.
  induction cs as [|c cs IH]; intros pre r Hs Hm; [rewrite app_nil_r; auto|].
  cbn [best_of fold_left]. change (fold_left _ cs ?x) with (best_of cs x).
  replace (pre ++ c :: cs) with ((pre ++ [c]) ++ cs) by (rewrite <- app_assoc; reflexivity).
  assert (Hs' : forall c', In c' pre -> In c' (pre ++ [c])) by (intros; apply in_app_iff; auto).
  unfold keep_max at 1 2. destruct (lgt (fst c) (fst r)) eqn:G.
  - apply lgt_true in G. destruct G as [G1 G2]. apply IH.
    + right. exists c. split; [apply in_app_iff; right; left; reflexivity|]. auto.
    + intros c' H'. apply in_app_iff in H'. cbn [fst]. destruct H' as [H'|[<-|[]]]; [|apply lle_refl].
      apply lle_trans with (fst r); auto.
  - apply lgt_false in G. apply IH.
    + destruct Hs as [->|(c' & H1 & H2)]; [left; reflexivity|]. right. exists c'. auto.
    + intros c' H'. apply in_app_iff in H'. destruct H' as [H'|[<-|[]]]; auto.
Qed.
Lemma best_spec cs : sound cs (best_of cs (None, None)) /\ forall c, In c cs -> lle (fst c) (fst (best_of cs (None, None))).
Proof. apply (best_of_spec cs [] (None, None)); [left; reflexivity|intros c []]. Qed.
End Best.

Definition lbc (m : tables lnum) t d j : lnum := match b_cont m t d j with Some x => x | None => None end.
Notation LW m s := (wr lnum m (Some 0) ladd s).

Definition candidates (m : tables lnum) (t : nat) (prev : nat -> nat -> lnum) (d j : nat) : list (lnum * nat) :=
  (if (d + 1 <=? D m - 2)%nat then [(ladd (prev (d + 1)%nat j) (lbc m t d j), j)] else [])
  ++ map (fun i => (ladd (ladd (ladd (prev 0%nat i) (T m i j (t - 1))) (b_first m t j)) (ds m d (later m j) t), i))
         (filter (fun i => negb (i =? j)%nat) (seq 0 (n_S m))).

Lemma vit_cell_best m t prev d j : in_range m t d = true -> vit_cell m t prev d j = best_of nat (candidates m t prev d j) (None, None).
Proof.
  intros Hr. unfold vit_cell, best_of, candidates. rewrite Hr, fold_left_app.
  assert (E : (if (d + 1 <=? D m - 2)%nat
                then keep_max (None, None) (match b_cont m t d j with Some x => ladd (prev (d + 1)%nat j) x | None => None end) j
                else (None, None))
    = fold_left (fun best c => keep_max best (fst c) (snd c))
      (if (d + 1 <=? D m - 2)%nat then [(ladd (prev (d + 1)%nat j) (lbc m t d j), j)] else []) (None, None)).
  { destruct (_ <=? _)%nat; [|reflexivity]. cbn [fold_left fst snd]. unfold lbc. destruct (b_cont m t d j); [reflexivity|].
    rewrite ladd_None_r. reflexivity. }
  rewrite E. generalize (fold_left (fun (best : lnum * option nat) (c : lnum * nat) => keep_max best (fst c) (snd c))
     (if (d + 1 <=? D m - 2)%nat then [(ladd (prev (d + 1)%nat j) (lbc m t d j), j)] else []) (None, None)).
  generalize (seq 0 (n_S m)). induction l as [|i l IH]; intros r; [reflexivity|]. cbn [fold_left filter].
  destruct (i =? j)%nat; cbn [negb]; rewrite IH; reflexivity.
Qed.

Section Viterbi.
Variable m : tables lnum.
Hypothesis Hb : @fixed_bumps lnum None m.

Lemma LW_bump n j e r : hmp m = true -> (j < n_S m)%nat -> Nat.odd j = true -> e <> (event_width m - 1)%nat ->
  LW m n ((j, e) :: r) = None.
Proof.
  intros Hh Hj Ho He. destruct (Hb Hh) as [_ H]. to_model. cbn [wr]. destruct r as [|[i e'] r]; cbn [from_of enter fst snd]; to_model.
  - destruct (H e j (span []) Hj Ho He) as [H1 _]. rewrite H1, ladd_None_r. apply ladd_None_r.
  - destruct (H e j (span ((i, e') :: r)) Hj Ho He) as [_ H1]. rewrite H1, ladd_None_r. apply ladd_None_r.
Qed.

Lemma LW_cont t d j s : (d + 1 < D m - 1)%nat -> (j < n_S m)%nat -> prefix lnum m t (d + 1) j s ->
  LW m (S (S t)) s = ladd (LW m (S t) s) (lbc m (S t) d j).
Proof.
  intros Hd Hj (e & r & -> & F & A & E & B). rewrite span_cons in E. cbn [snd] in E.
  assert (Hs : LW m (S (S t)) ((j, e) :: r) = ladd (LW m (S t) ((j, e) :: r)) (observation lnum m (initial r) (span r) (S t - span r) j)).
  { apply wr_step; [apply ladd_assoc|apply ladd_0_l|apply ladd_0_r|lia|lia]. }
  rewrite Hs. unfold lbc, b_cont, observation. destruct (hmp m) eqn:Hh.
  - destruct (Nat.odd j) eqn:Ho.
    + destruct (Nat.eq_dec e (event_width m - 1)) as [He|He]; [|rewrite !LW_bump by assumption; reflexivity].
      destruct (Hb Hh) as [Hw _]. destruct (Nat.leb_spec d (event_width m - 1)); [|lia].
      replace (span r + (S t - span r))%nat with (S t) by lia.
      replace (event_width m - 1 - d)%nat with (S t - span r)%nat by lia. reflexivity.
    + destruct (Nat.eqb_spec (S t - span r) 0); [lia|]. cbn [andb].
      replace (span r + (S t - span r))%nat with (S t) by lia. reflexivity.
  - replace (span r + (S t - span r))%nat with (S t) by lia. reflexivity.
Qed.

Lemma LW_enter t d j i r : prefix lnum m t 0 i r ->
  LW m (S (S t)) ((j, d) :: r) = ladd (ladd (ladd (LW m (S t) r) (T m i j t)) (b_first m (S t) j)) (ds m d (later m j) (S t)).
Proof.
  intros (e & r' & -> & F & A & E & B).
  assert (Hs : LW m (S (S t)) ((j, d) :: (i, e) :: r') = ladd (LW m (S t) ((i, e) :: r'))
    (ladd (enter lnum ladd m (S t) (Some i) (j, d)) (observation lnum m false (S t) 0 j))).
  { rewrite (wr_enter lnum m (Some 0) ladd); [reflexivity|apply ladd_0_r|lia]. }
  rewrite Hs. cbn [enter fst snd]. to_model. replace (S t - 1)%nat with t by lia.
  assert (Ho : observation lnum m false (S t) 0 j = b_first m (S t) j).
  { unfold observation, b_first. rewrite Nat.add_0_r. destruct (hmp m); [|reflexivity].
    rewrite <- Nat.negb_odd. destruct (Nat.odd j); reflexivity. }
  rewrite Ho. rewrite <- !ladd_assoc. f_equal. f_equal. apply ladd_comm.
Qed.

Lemma in_range_prev' t d : in_range m (S t) d = true -> in_range m t (d + 1) = true /\ in_range m t 0 = true.
Proof.
  unfold in_range. destruct (ends_with_last m); cbn [negb orb]; rewrite ?orb_true_r, ?orb_false_r; [|auto].
  rewrite !Nat.ltb_lt. lia.
Qed.

Definition trace (s : list segment) (t : nat) : list (option nat) := map (fun u => Some (state_at (rev s) u)) (rev (seq 0 t)).
Lemma trace_S s t : trace s (S t) = Some (state_at (rev s) t) :: trace s t.
Proof. unfold trace. rewrite seq_S, rev_app_distr. reflexivity. Qed.
Lemma trace_ext s s' t : (forall u, (u < t)%nat -> state_at (rev s) u = state_at (rev s') u) -> trace s t = trace s' t.
Proof.
  intros H. unfold trace. apply map_ext_in. intros u Hu. apply in_rev, in_seq in Hu. rewrite H by lia. reflexivity.
Qed.

Lemma delta_S t d j : in_range m (S t) d = true -> vit m (S t) d j = best_of nat (candidates m (S t) (delta m t) d j) (None, None).
Proof. intros Hr. cbn [vit]. rewrite vit_cell_best by exact Hr. reflexivity. Qed.

Lemma viterbi_cells t : forall d j, (d < D m - 1)%nat -> (j < n_S m)%nat -> in_range m t d = true ->
  (forall s, prefix lnum m t d j s -> lle (LW m (S t) s) (delta m t d j)) /\
  (delta m t d j <> None -> exists s, prefix lnum m t d j s /\ LW m (S t) s = delta m t d j /\
     vit_back m t d (Some j) = Some (trace s t)).
Proof.
  induction t as [|t IH]; intros d j Hd Hj Hr.
  - assert (E : LW m 1 [(j, d)] = delta m 0 d j).
    { rewrite (wr_enter lnum m (Some 0) ladd); [|apply ladd_0_r|reflexivity].
      assert (E : observation lnum m (initial []) 0 0 j = b m 0 0 j)
        by (unfold observation; destruct (hmp m); [destruct (Nat.odd j)|]; reflexivity).
      rewrite E. cbn [wr from_of enter fst snd]. to_model. rewrite ladd_0_l. unfold delta. cbn [vit fst].
      rewrite <- !ladd_assoc. f_equal. apply ladd_comm. }
    assert (P : prefix lnum m 0 d j [(j, d)]) by (apply enum_spec; [assumption|assumption|left; reflexivity]).
    split.
    + intros s Hs. apply enum_spec in Hs; [|assumption|assumption]. destruct Hs as [<-|[]]. rewrite E. apply lle_refl.
    + intros _. exists [(j, d)]. auto.
  - destruct (in_range_prev' _ _ Hr) as [R1 R0]. unfold delta. rewrite delta_S by exact Hr.
    destruct (best_spec nat (candidates m (S t) (delta m t) d j)) as [So Mx]. split.
    + intros s Hs. pose proof Hs as (e & r & -> & F & Al & E & B). rewrite span_cons in E. cbn [snd] in E.
      destruct (Nat.eq_dec (span r) (S t)) as [Er|Er].
      * assert (e = d) by lia. subst e. destruct r as [|[i e'] r]; [cbn in Er; lia|].
        pose proof (Forall_inv_tail F) as F'. destruct (Forall_inv F') as [Hi He']. cbn [fst snd] in Hi, He'.
        destruct Al as [Al1 Al2]. cbn [fst] in Al1.
        assert (Pr : prefix lnum m t 0 i ((i, e') :: r)).
        { exists e', r. split; [reflexivity|]. split; [exact F'|]. split; [exact Al2|]. split; [lia|].
          rewrite span_cons in Er. cbn [snd] in Er. lia. }
        rewrite (LW_enter t d j i _ Pr).
        apply lle_trans with (ladd (ladd (ladd (delta m t 0 i) (T m i j t)) (b_first m (S t) j)) (ds m d (later m j) (S t))).
        -- do 3 apply ladd_mono. apply IH; [lia|lia|exact R0|exact Pr].
        -- apply (Mx (_, i)). unfold candidates. apply in_app_iff. right. apply in_map_iff. exists i.
           split; [replace (S t - 1)%nat with t by lia; reflexivity|]. apply filter_In. split; [apply in_seq; lia|].
           destruct (Nat.eqb_spec i j); [congruence|reflexivity].
      * destruct (Forall_inv F) as [_ He]. cbn [snd] in He.
        assert (Hd1 : (d + 1 < D m - 1)%nat) by lia.
        assert (Pr : prefix lnum m t (d + 1) j ((j, e) :: r)).
        { exists e, r. split; [reflexivity|]. split; [exact F|]. split; [exact Al|]. rewrite span_cons. cbn [snd]. lia. }
        rewrite (LW_cont t d j _ Hd1 Hj Pr).
        apply lle_trans with (ladd (delta m t (d + 1) j) (lbc m (S t) d j)).
        -- apply ladd_mono. apply IH; [lia|lia|exact R1|exact Pr].
        -- apply (Mx (_, j)). unfold candidates. apply in_app_iff. left. destruct (Nat.leb_spec (d + 1) (D m - 2)); [left; reflexivity|lia].
    + intros Hne. destruct So as [So|(c & Hc & E1 & E2 & Nc)]; [rewrite So in Hne; contradiction Hne; reflexivity|].
      unfold candidates in Hc. apply in_app_iff in Hc. destruct Hc as [Hc|Hc].
      * destruct (Nat.leb_spec (d + 1) (D m - 2)); [|destruct Hc]. destruct Hc as [<-|[]]. cbn [fst snd] in *.
        destruct (IH (d + 1)%nat j ltac:(lia) Hj R1) as [_ X]. destruct (X (ladd_some_l _ _ Nc)) as (s & Ps & Ws & Bs).
        exists s. split.
        -- destruct Ps as (e & r & -> & F & A & E & B). exists e, r. split; [reflexivity|]. split; [exact F|]. split; [exact A|]. lia.
        -- split; [rewrite (LW_cont t d j s ltac:(lia) Hj Ps), Ws, E1; reflexivity|].
           cbn [vit_back]. unfold psi. rewrite delta_S by exact Hr. rewrite E2, Nat.eqb_refl. replace (S d) with (d + 1)%nat by lia.
           rewrite Bs. cbn [option_map]. rewrite trace_S. do 3 f_equal.
           destruct Ps as (e & r & -> & F & A & E & B). symmetry. apply state_at_last. lia.
      * apply in_map_iff in Hc. destruct Hc as (i & <- & Hi). apply filter_In in Hi. destruct Hi as [Hi Hij]. apply in_seq in Hi.
        cbn [fst snd] in *. destruct (Nat.eqb_spec i j) as [|N]; [discriminate|].
        destruct (IH 0%nat i ltac:(lia) ltac:(lia) R0) as [_ X].
        destruct (X (ladd_some_l _ _ (ladd_some_l _ _ (ladd_some_l _ _ Nc)))) as (s & Ps & Ws & Bs).
        exists ((j, d) :: s). split; [|split].
        -- destruct Ps as (e & r & -> & F & A & E & B). exists d, ((i, e) :: r). split; [reflexivity|].
           split; [constructor; [split; assumption|exact F]|]. split; [split; [cbn; congruence|exact A]|]. rewrite span_cons. cbn [snd]. lia.
        -- rewrite (LW_enter t d j i s Ps), Ws, E1. replace (S t - 1)%nat with t by lia. reflexivity.
        -- cbn [vit_back]. unfold psi. rewrite delta_S by exact Hr. rewrite E2. destruct (Nat.eqb_spec i j); [contradiction|].
           rewrite Bs. cbn [option_map]. rewrite trace_S.
           destruct Ps as (e & r & -> & F & A & E & B).
           rewrite (trace_ext ((j, d) :: (i, e) :: r) ((i, e) :: r)) by (intros u Hu; apply state_at_before; lia).
           do 3 f_equal. symmetry. rewrite state_at_before by lia. apply state_at_last. lia.
Qed.

(** The last cell. *)
Definition last_cells : list (lnum * (nat * nat)) :=
  map (fun c => (delta m (n_T m - 1) (snd c) (fst c), c))
    (if ends_with_last m then (if ends_in_last m then [] else map (fun j => (j, 0%nat)) (seq 0 (n_S m)))
               else if ends_in_last m then map (fun d => ((n_S m - 1)%nat, d)) (seq 0 (D m - 1))
               else flat_map (fun j => map (fun d => (j, d)) (seq 0 (D m - 1))) (seq 0 (n_S m))).
Lemma last_cells_in j d : (0 < n_T m)%nat -> (0 < n_S m)%nat -> (0 < D m - 1)%nat -> ends_with_last m && ends_in_last m = false ->
  ((exists x, In (x, (j, d)) last_cells) <-> ((j < n_S m)%nat /\ (d < D m - 1)%nat /\ counts m (n_T m - 1) d j = true)).
Proof.
  intros Hn Hs HD Hboth.
  assert (G : forall l, (exists x, In (x, (j, d)) (map (fun c : nat * nat => (delta m (n_T m - 1) (snd c) (fst c), c)) l)) <-> In (j, d) l).
  { intros l. split.
    - intros (x & H). apply in_map_iff in H. destruct H as (c & E & H). injection E as _ ->. exact H.
    - intros H. exists (delta m (n_T m - 1) d j). apply in_map_iff. exists (j, d). auto. }
  unfold last_cells. rewrite G. clear G.
  destruct (Nat.lt_decidable j (n_S m)) as [Hj|Hj].
  2: { split; [|tauto]. destruct (ends_with_last m), (ends_in_last m); cbn in Hboth; try discriminate.
       - rewrite in_map_iff. intros (x & E & H). injection E as -> _. apply in_seq in H. lia.
       - rewrite in_map_iff. intros (x & E & H). injection E as <- _. lia.
       - rewrite in_flat_map. intros (x & H & E). apply in_map_iff in E. destruct E as (y & E & _). injection E as -> _. apply in_seq in H. lia. }
  rewrite counts_last by assumption.
  destruct (ends_with_last m), (ends_in_last m); cbn in Hboth; try discriminate.
  - rewrite in_map_iff. split.
    + intros (x & E & H). injection E as -> <-. repeat split; auto; discriminate.
    + intros (_ & _ & H & _). exists j. rewrite (H eq_refl). split; [reflexivity|apply in_seq; lia].
  - rewrite in_map_iff. split.
    + intros (x & E & H). injection E as <- ->. apply in_seq in H. repeat split; auto; try discriminate; lia.
    + intros (_ & H1 & _ & H). exists d. rewrite (H eq_refl). split; [reflexivity|apply in_seq; lia].
  - rewrite in_flat_map. split.
    + intros (x & H & E). apply in_map_iff in E. destruct E as (y & E & H'). injection E as -> ->. apply in_seq in H'.
      repeat split; auto; try discriminate; lia.
    + intros (_ & H1 & _). exists j. split; [apply in_seq; lia|]. apply in_map_iff. exists d. split; [reflexivity|apply in_seq; lia].
Qed.

Lemma vit_last_spec j0 d0 : (0 < n_T m)%nat -> (j0 < n_S m)%nat -> (d0 < D m - 1)%nat -> counts m (n_T m - 1) d0 j0 = true ->
  delta m (n_T m - 1) d0 j0 <> None ->
  exists j d, vit_last m = (Some j, d) /\ (j < n_S m)%nat /\ (d < D m - 1)%nat /\ counts m (n_T m - 1) d j = true /\
    delta m (n_T m - 1) d j <> None /\
    forall j' d', (j' < n_S m)%nat -> (d' < D m - 1)%nat -> counts m (n_T m - 1) d' j' = true ->
      lle (delta m (n_T m - 1) d' j') (delta m (n_T m - 1) d j).
Proof.
  intros Hn Hj Hd Hc Hne. unfold vit_last. destruct (ends_with_last m && ends_in_last m) eqn:Hboth.
  - apply andb_true_iff in Hboth. destruct Hboth as [E1 E2].
    assert (U : forall j d, (j < n_S m)%nat -> counts m (n_T m - 1) d j = true -> j = (n_S m - 1)%nat /\ d = 0%nat).
    { intros j d H1 H2. apply counts_last in H2; [|assumption|assumption]. destruct H2 as [H2 H3]. auto. }
    destruct (U j0 d0 Hj Hc) as [-> ->]. exists (n_S m - 1)%nat, 0%nat. split; [reflexivity|]. repeat split; auto.
    intros j' d' H1 H2 H3. destruct (U j' d' H1 H3) as [-> ->]. apply lle_refl.
  - assert (E : forall l (r : lnum * option (nat * nat)), fold_left (fun best c => keep_max best (delta m (n_T m - 1) (snd c) (fst c)) c) l r
                = best_of (nat * nat) (map (fun c => (delta m (n_T m - 1) (snd c) (fst c), c)) l) r).
    { unfold best_of. induction l as [|c l IH]; intros r; [reflexivity|]. cbn [map fold_left]. rewrite IH. reflexivity. }
    rewrite E. change (map _ _) with last_cells. destruct (best_spec (nat * nat) last_cells) as [So Mx].
    assert (HD : (0 < D m - 1)%nat) by lia. assert (HS : (0 < n_S m)%nat) by lia.
    assert (Val : forall x c, In (x, c) last_cells -> x = delta m (n_T m - 1) (snd c) (fst c)).
    { intros x c H. apply in_map_iff in H. destruct H as (c' & E' & _). injection E' as <- ->. reflexivity. }
    assert (Mx' : forall j' d', (j' < n_S m)%nat -> (d' < D m - 1)%nat -> counts m (n_T m - 1) d' j' = true ->
      lle (delta m (n_T m - 1) d' j') (fst (best_of (nat * nat) last_cells (None, None)))).
    { intros j' d' H1 H2 H3. destruct (proj2 (last_cells_in j' d' Hn HS HD Hboth) (conj H1 (conj H2 H3))) as (x & Hx).
      pose proof (Mx _ Hx) as L. rewrite (Val _ _ Hx) in L. exact L. }
    destruct So as [So|(c & Hc1 & E1 & E2 & Nc)].
    + pose proof (Mx' j0 d0 Hj Hd Hc) as L. rewrite So in L. destruct (delta m (n_T m - 1) d0 j0); [destruct L|congruence].
    + destruct (best_of (nat * nat) last_cells (None, None)) as [v a]. cbn [fst snd] in *. subst a.
      destruct c as [x [j d]]. cbn [fst snd] in *. exists j, d. split; [reflexivity|].
      destruct (proj1 (last_cells_in j d Hn HS HD Hboth) (ex_intro _ x Hc1)) as (H1 & H2 & H3).
      pose proof (Val _ _ Hc1) as Ex. cbn [fst snd] in Ex. subst v x. repeat split; auto.
Qed.

Lemma segmentation_prefix s : segmentation m s -> exists j,
  prefix lnum m (n_T m - 1) (excess m s) j (rev s) /\ (j < n_S m)%nat /\ (excess m s < D m - 1)%nat /\
  counts m (n_T m - 1) (excess m s) j = true /\ (0 < n_T m)%nat.
Proof.
  intros (Hne & F & Al & [B1 B2] & C1 & C2).
  destruct (rev s) as [|[j e] r] eqn:ER; [apply (f_equal (@rev segment)) in ER; rewrite rev_involutive in ER; cbn in ER; congruence|].
  assert (Es : s = rev ((j, e) :: r)) by (rewrite <- ER, rev_involutive; reflexivity).
  destruct (removelast_rev _ _ _ Es) as [R1 R2]. rewrite R1, span_rev in B1. rewrite R2 in C2. cbn [fst] in C2.
  assert (F' : Forall (fun g => (fst g < n_S m /\ snd g < D m - 1)%nat) ((j, e) :: r)) by (rewrite <- ER; apply Forall_rev; exact F).
  assert (Hsp : span s = (S e + span r)%nat) by (rewrite Es, span_rev; reflexivity).
  destruct (Forall_inv F') as [Hj He]. cbn [fst snd] in Hj, He. exists j. unfold excess. rewrite Hsp in *.
  split.
  { exists e, r. split; [reflexivity|]. split; [exact F'|]. split; [rewrite <- ER; apply alternates_rev; exact Al|].
    rewrite span_cons. cbn [snd]. lia. }
  split; [exact Hj|]. split; [lia|]. split; [|lia].
  apply counts_last; [lia|exact Hj|]. split; [intros H; specialize (C1 H); lia|exact C2].
Qed.
Lemma prefix_segmentation d j s : (0 < n_T m)%nat -> prefix lnum m (n_T m - 1) d j s -> counts m (n_T m - 1) d j = true -> (j < n_S m)%nat ->
  segmentation m (rev s) /\ excess m (rev s) = d.
Proof.
  intros Hn (e & r & -> & F & A & E & B) C Hj. apply counts_last in C; [|assumption|assumption]. destruct C as [C1 C2].
  destruct (removelast_rev _ _ _ eq_refl : removelast (rev ((j, e) :: r)) = _ /\ _) as [R1 R2].
  split; [|unfold excess; rewrite span_rev; lia].
  split; [intros H; apply (f_equal (@rev segment)) in H; rewrite rev_involutive in H; discriminate|].
  split; [apply Forall_rev; exact F|]. split; [apply alternates_rev; exact A|].
  rewrite R1, R2, !span_rev. split; [lia|]. split; [intros H; specialize (C1 H); lia|]. exact C2.
Qed.
Lemma counts_in_range d j : (0 < n_T m)%nat -> (j < n_S m)%nat -> counts m (n_T m - 1) d j = true -> in_range m (n_T m - 1) d = true.
Proof.
  intros Hn Hj Hc. unfold in_range. apply counts_last in Hc; [|lia|lia]. destruct (ends_with_last m); [|apply orb_true_r].
  destruct Hc as [Hc _]. rewrite (Hc eq_refl). apply orb_true_iff. left. apply Nat.ltb_lt. lia.
Qed.

Lemma viterbi_optimal s0 : segmentation m s0 -> weight lnum (Some 0) ladd m s0 <> None ->
  exists s, segmentation m s /\ viterbi m = Some (excess m s, map (fun t => Some (state_at s t)) (seq 0 (n_T m))) /\
    forall s', segmentation m s' -> lle (weight lnum (Some 0) ladd m s') (weight lnum (Some 0) ladd m s).
Proof.
  intros H0 W0. destruct (segmentation_prefix s0 H0) as (j0 & P0 & Hj0 & Hd0 & Hc0 & Hn).
  assert (WE : forall s, weight lnum (Some 0) ladd m s = LW m (S (n_T m - 1)) (rev s)).
  { intros s. unfold weight. rewrite <- (rev_involutive s) at 1. rewrite weight_rev by (apply ladd_assoc || apply ladd_0_l || apply ladd_0_r).
    f_equal. lia. }
  pose proof (viterbi_cells (n_T m - 1) (excess m s0) j0 Hd0 Hj0 (counts_in_range _ _ Hn Hj0 Hc0)) as [M0 _].
  assert (N0 : delta m (n_T m - 1) (excess m s0) j0 <> None).
  { intros Z. specialize (M0 _ P0). rewrite Z, <- WE in M0. destruct (weight lnum (Some 0) ladd m s0); [exact M0|congruence]. }
  destruct (vit_last_spec _ _ Hn Hj0 Hd0 Hc0 N0) as (j & d & EL & Hj & Hd & Hc & Nd & Mx).
  destruct (viterbi_cells (n_T m - 1) d j Hd Hj (counts_in_range _ _ Hn Hj Hc)) as [_ Ex].
  destruct (Ex Nd) as (s & Ps & Ws & Bs). exists (rev s).
  destruct (prefix_segmentation d j s Hn Ps Hc Hj) as [Sg Ee]. split; [exact Sg|]. split.
  - unfold viterbi. rewrite EL, Bs. cbn [option_map]. rewrite Ee. do 2 f_equal. cbn [rev]. unfold trace. rewrite <- map_rev, rev_involutive.
    replace (n_T m) with (S (n_T m - 1)) at 2 by lia. rewrite seq_S, map_app. f_equal. cbn [map Nat.add]. do 2 f_equal.
    destruct Ps as (e & r & -> & _ & _ & E & B). symmetry. apply state_at_last. lia.
  - intros s' H'. destruct (segmentation_prefix s' H') as (j' & P' & Hj' & Hd' & Hc' & _). rewrite !WE, rev_involutive, Ws.
    apply lle_trans with (delta m (n_T m - 1) (excess m s') j'); [|apply Mx; assumption].
    destruct (viterbi_cells (n_T m - 1) (excess m s') j' Hd' Hj' (counts_in_range _ _ Hn Hj' Hc')) as [M' _]. apply M'. exact P'.
Qed.
End Viterbi.

(** States and excess duration identify a segmentation. *)
Lemma path_inj s : forall s', alternates s -> alternates s' -> path s = path s' -> s = s'.
Proof.
  assert (Hd : forall (r : list segment) j, (match r with [] => True | h :: _ => j <> fst h end) -> forall n l, path r = repeat j (S n) ++ l -> False).
  { intros r j H n l E. destruct r as [|h r]; [discriminate|]. cbn in E. injection E as E _. congruence. }
  induction s as [|[j e] r IH]; intros [|[j' e'] r'] A A' E; [reflexivity|discriminate|discriminate|].
  assert (j = j') by (cbn in E; injection E; auto). subst j'.
  assert (Ar : alternates r /\ match r with [] => True | h :: _ => j <> fst h end) by (destruct r; [split; exact I|destruct A; split; assumption]).
  assert (Ar' : alternates r' /\ match r' with [] => True | h :: _ => j <> fst h end) by (destruct r'; [split; exact I|destruct A'; split; assumption]).
  destruct Ar as [A1 A2], Ar' as [A1' A2'].
  change (path ((j, e) :: r)) with (repeat j (S e) ++ path r) in E. change (path ((j, e') :: r')) with (repeat j (S e') ++ path r') in E.
  destruct (lt_eq_lt_dec e e') as [[L|L]|L].
  - exfalso. replace (S e') with (S e + S (e' - e - 1))%nat in E by lia. rewrite repeat_app, <- app_assoc in E. apply app_inv_head in E.
    exact (Hd r j A2 _ _ E).
  - subst e'. apply app_inv_head in E. f_equal. apply IH; assumption.
  - exfalso. replace (S e) with (S e' + S (e - e' - 1))%nat in E by lia. rewrite repeat_app, <- app_assoc in E. apply app_inv_head in E.
    symmetry in E. exact (Hd r' j A2' _ _ E).
Qed.
Lemma segmentation_identified K (m : tables K) s s' : segmentation m s -> segmentation m s' ->
  (forall t, (t < n_T m)%nat -> state_at s t = state_at s' t) -> excess m s = excess m s' -> s = s'.
Proof.
  intros H H' E Ex.
  assert (G : forall s, segmentation m s -> alternates s /\ span s = (n_T m + excess m s)%nat /\
              forall t, (n_T m - 1 <= t < span s)%nat -> state_at s t = state_at s (n_T m - 1)).
  { clear. intros s (Hne & F & Al & [B1 B2] & C1 & C2). split; [exact Al|]. split; [unfold excess; lia|]. intros t Ht.
    destruct (rev s) as [|[j e] r] eqn:ER; [apply (f_equal (@rev segment)) in ER; rewrite rev_involutive in ER; cbn in ER; congruence|].
    assert (Es : s = rev ((j, e) :: r)) by (rewrite <- ER, rev_involutive; reflexivity).
    destruct (removelast_rev _ _ _ Es) as [R1 _]. rewrite R1, span_rev in B1. rewrite Es, span_rev in Ht, B2.
    rewrite Es. rewrite !state_at_last by lia. reflexivity. }
  destruct (G s H) as (A & S1 & L), (G s' H') as (A' & S1' & L').
  assert (Hn : (0 < n_T m)%nat) by (destruct H as (_ & _ & _ & [H _] & _); lia).
  apply path_inj; [exact A|exact A'|]. apply (nth_ext _ _ 0%nat 0%nat); [rewrite !path_length; lia|].
  rewrite path_length. intros t Ht. change (state_at s t = state_at s' t).
  destruct (Nat.lt_decidable t (n_T m)) as [Hlt|Hge]; [apply E; exact Hlt|].
  rewrite L, L' by lia. apply E. lia.
Qed.
