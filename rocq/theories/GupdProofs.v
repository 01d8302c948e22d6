(** Proofs for GupdModel. *)
From Coq Require Import String.
From Coq Require Import List Bool Arith ZArith Reals Lia Lra.
From Verif Require Import Ext StepModel StepSpec StepProofs AsmModel AsmProofs3 UpdModel UpdSpec UpdProofs UpdProofs2 SampModel SampSpec SampProofs GupdModel GupdSpec.
Import ListNotations.
Local Open Scope R_scope.

Section General.
Variable llk : option (list nat) -> list R -> ext.
Variable grad : option (list nat) -> list R -> list R.
Variable llk_check : list nat -> list R -> ext.
Variable newton : option (list nat) -> list R -> list R * R.
Variable Spen : nat -> nat -> R.
Variable rvs : nat -> nat -> list R.
Variable close : ext -> ext -> bool.
Variable identify : list R -> list nat.
Variable extra_coef : option nat.
Variable grad_only identifies : bool.
Variable outer min_inner max_inner : nat.
Hypothesis rvs_length : forall n s, length (rvs n s) = n.
Hypothesis newton_length : forall kp c, length (fst (newton kp c)) = length c.

Notation gen_step := (gen_step llk Spen rvs close grad_only outer).
Notation gen_loop_inner := (gen_loop_inner llk grad llk_check newton Spen rvs close identify extra_coef grad_only identifies outer min_inner max_inner).
Notation update := (update_coef_gen_smooth llk grad llk_check newton Spen rvs close identify extra_coef grad_only identifies outer min_inner max_inner).
Notation proposed := (proposed grad newton Spen grad_only).

(** Values and coefficients fit together. *)
Definition fits (kp : option (list nat)) (st : list R * ext * ext) : Prop :=
  g_llk st = llk kp (g_coef st) /\ g_pen st = pen_at Spen kp (g_coef st) (g_llk st).

Lemma proposed_length kp c a : length (fst (proposed kp c a)) = length c.
Proof. unfold GupdModel.proposed. destruct grad_only; cbn [fst]; [unfold gd_coef_smooth; now rewrite map_length, seq_length|apply newton_length]. Qed.

Lemma mixed_length w : forall a b, length a = length b -> length (mixed w a b) = length a.
Proof. induction a as [|x a IH]; intros [|y b] H; cbn in *; try discriminate; [reflexivity|]. now rewrite IH by lia. Qed.

Lemma restarted_length f q c inner : length (fst (fst (restart_coef f q (rvs (length c)) c NaN NaN inner 0))) = length c.
Proof.
  unfold restart_coef. destruct (restart_loop_spec f q (rvs (length c)) (SampModel.res_scale inner 0) 30 inner c NaN NaN) as [[-> _]|(k & _ & _ & _ & ->)].
  - reflexivity.
  - cbn [fst]. apply mixed_length. now rewrite rvs_length.
Qed.

Lemma gen_step_fits inner kp st a next : length next = length (g_coef st) ->
  fits kp (fst (gen_step inner kp st a next)) /\ length (g_coef (fst (gen_step inner kp st a next))) = length (g_coef st).
Proof.
  intros Hn. unfold GupdModel.gen_step.
  pose proof (gen_step_control (llk kp) (quad_at Spen kp) (g_coef st) next (g_llk st) a (eq_sym Hn)) as C. cbv zeta in C.
  destruct (correct_coef_step_gen_smooth _ _ _ _ _ _) as [[[c l] p] a1].
  destruct C as ([C1 C2] & _ & C3).
  assert (L : length c = length (g_coef st)).
  { destruct C3 as [->|(k & _ & ->)]; [reflexivity|]. now apply partway_length. }
  destruct (_ && _ && _) eqn:E; cbn [fst g_coef g_llk g_pen snd].
  - split; [split; reflexivity|]. rewrite restarted_length. exact L.
  - split; [|exact L]. split; [exact C1|]. rewrite C2. unfold g_llk, g_coef, pen_at. cbn [fst snd]. now rewrite C1.
Qed.

Definition kd_fits (n : nat) (kd : option (list nat * list nat)) : Prop :=
  match kd with None => True | Some (keep, drop) => keep = keep_of n drop end.
Definition size_at (n : nat) (kd : option (list nat * list nat)) : nat :=
  match kd with None => n | Some (keep, _) => length keep end.
Definition drop_ok (n : nat) (kd : option (list nat * list nat)) : Prop :=
  match kd, extra_coef with Some (_, drop), Some e => Forall (fun k => (k < n - e)%nat) drop | _, _ => True end.

Lemma may_be_dropped_ok n l keep : drop_ok n (Some (keep, may_be_dropped extra_coef n l)).
Proof.
  unfold drop_ok, may_be_dropped. destruct extra_coef as [e|]; [|exact I].
  apply Forall_forall. intros k H. apply filter_In in H as [_ H]. now apply Nat.ltb_lt.
Qed.

(** The invariant of the loop. *)
Lemma gen_loop_good n : forall fuel inner may_drop kd st a ran kd' st' m,
  kd_fits n kd -> length (g_coef st) = size_at n kd -> (may_drop = true -> kd = None) ->
  (ran <> None -> fits (option_map fst kd) st) ->
  gen_loop_inner fuel inner may_drop kd st a ran = Some (kd', st', Some m) ->
  kd_fits n kd' /\ length (g_coef st') = size_at n kd' /\ fits (option_map fst kd') st' /\ (kd' = kd \/ kd = None /\ drop_ok n kd').
Proof.
  induction fuel as [|fuel IH]; intros inner may_drop kd st a ran kd' st' m K L M F E; cbn [GupdModel.gen_loop_inner] in E; [discriminate|].
  destruct (max_inner <=? inner)%nat.
  { injection E as <- <- ->. repeat split; auto; apply F; discriminate. }
  pose proof (proposed_length (option_map fst kd) (g_coef st) a) as PL.
  destruct (proposed (option_map fst kd) (g_coef st) a) as [next eps]. cbn [fst] in PL.
  destruct (gen_step_fits inner (option_map fst kd) st a next PL) as [G1 G2].
  destruct (gen_step inner (option_map fst kd) st a next) as [st1 a1]. cbn [fst] in G1, G2. rewrite L in G2.
  destruct (close _ _).
  - destruct (may_drop && identifies) eqn:Em.
    + apply andb_true_iff in Em as [-> _]. specialize (M eq_refl). subst kd. cbn [size_at] in G2. rewrite G2 in E.
      set (drop := may_be_dropped extra_coef n (identify (g_coef st))) in *.
      destruct (length drop =? 0)%nat; [injection E as <- <- _; repeat split; auto; apply G1|].
      destruct (negb _); [injection E as <- <- _; repeat split; auto; apply G1|].
      destruct (n <=? Datatypes.S (length drop))%nat; [injection E as <- <- _; repeat split; auto; apply G1|].
      assert (Fh : fits (Some (keep_of n drop)) (handle_drop_gsmm llk Spen (g_coef st1) (keep_of n drop))) by (split; reflexivity).
      assert (Lh : length (g_coef (handle_drop_gsmm llk Spen (g_coef st1) (keep_of n drop))) = length (keep_of n drop)) by (cbn; apply take_length).
      destruct (stop_now _ _ _ _).
      * injection E as <- <- _. cbn [option_map fst]. split; [reflexivity|]. split; [exact Lh|]. split; [exact Fh|]. right. split; [reflexivity|]. apply may_be_dropped_ok.
      * destruct (IH 0%nat false _ _ _ _ _ _ _ (eq_refl : kd_fits n (Some (keep_of n drop, drop))) Lh ltac:(discriminate) (fun _ => Fh) E) as (R1 & R2 & R3 & R4).
        split; [exact R1|]. split; [exact R2|]. split; [exact R3|]. right. split; [reflexivity|].
        destruct R4 as [->|[? ?]]; [apply may_be_dropped_ok|discriminate].
    + injection E as <- <- _. repeat split; auto; apply G1.
  - destruct (stop_now _ _ _ _).
    + injection E as <- <- _. repeat split; auto; apply G1.
    + apply (IH _ _ _ _ _ _ _ _ _ K G2 M (fun _ => G1) E).
Qed.

Lemma remaining_pad n drop c : length c = length (keep_of n drop) -> kept_of n drop (pad 0 n (keep_of n drop) c) = c.
Proof. intros H. unfold kept_of. rewrite remaining_keep. exact (take_pad n drop c H). Qed.

Lemma pad_zero n drop c k : In k drop -> nth k (pad 0 n (keep_of n drop) c) 0 = 0.
Proof.
  intros H. destruct (lt_dec k n) as [L|L].
  - apply pad_dropped; [exact L|]. intros C. apply keep_in in C. tauto.
  - apply nth_overflow. rewrite pad_length. lia.
Qed.

Lemma update_fits n fuel coef l kd u : length coef = n -> kd_fits n kd -> zero_is_absent n llk ->
  update fuel coef l kd = GDone u ->
  length (gu_coef u) = n /\ gu_llk u = llk None (gu_coef u) /\
  gu_pen u = eadd (gu_llk u) (- (1 / 2 * penalty Spen (gu_coef u))) /\
  kd_fits n (gu_kd u) /\ (forall keep drop k, gu_kd u = Some (keep, drop) -> In k drop -> nth k (gu_coef u) 0 = 0) /\
  (kd = None -> drop_ok n (gu_kd u)).
Proof.
  intros Hc K Z E. unfold update_coef_gen_smooth in E.
  match type of E with match ?o with _ => _ end = _ => destruct o as [[[kd' st'] [m|]]|] eqn:O; try discriminate end.
  2: { destruct kd' as [[? ?]|]; discriminate. }
  assert (G : kd_fits n kd' /\ length (g_coef st') = size_at n kd' /\ fits (option_map fst kd') st' /\ (kd' = kd \/ kd = None /\ drop_ok n kd')).
  { destruct kd as [[keep drop]|].
    - eapply gen_loop_good; [| | |intros F; now contradiction F|exact O]; [exact K|cbn; apply take_length|discriminate].
    - eapply gen_loop_good; [| | |intros F; now contradiction F|exact O]; [exact I|exact Hc|reflexivity]. }
  destruct G as (G1 & G2 & [G3 G4] & G5).
  assert (DO : kd = None -> drop_ok n kd') by (intros ->; destruct G5 as [->|[_ D]]; [exact I|exact D]).
  destruct kd' as [[keep drop]|].
  - destruct grad_only; [discriminate|]. destruct (length keep <? m)%nat; [discriminate|]. injection E as <-. cbn [gu_coef gu_llk gu_pen gu_kd].
    cbn [kd_fits] in G1. subst keep. cbn [size_at] in G2. cbn [option_map fst] in G3, G4. rewrite Hc.
    split; [apply pad_length|]. split.
    { rewrite G3. rewrite <- (Z drop (pad 0 n (keep_of n drop) (g_coef st'))); [|apply pad_length|apply pad_zero].
      rewrite remaining_pad by exact G2. now rewrite remaining_keep. }
    split.
    { rewrite G4. unfold pen_at. f_equal. unfold quad_at, S_at. rewrite <- quad_penalty. now rewrite (quad_reduced Spen n drop _ G2). }
    split; [reflexivity|]. split; [|exact DO]. intros keep0 drop0 k H. injection H as <- <-. apply pad_zero.
  - injection E as <-. cbn [gu_coef gu_llk gu_pen gu_kd]. split; [exact G2|]. split; [exact G3|]. split; [|split; [exact I|split; [discriminate|exact DO]]].
    rewrite G4. unfold pen_at, quad_at. rewrite <- quad_penalty. reflexivity.
Qed.

(** Termination. *)
Lemma gen_terminates_fixed : forall fuel inner kd st a ran, (max_inner - inner < fuel)%nat ->
  gen_loop_inner fuel inner false kd st a ran <> None.
Proof.
  induction fuel as [|fuel IH]; intros inner kd st a ran H; cbn [GupdModel.gen_loop_inner]; [lia|].
  destruct (Nat.leb_spec max_inner inner); [discriminate|].
  destruct (proposed _ _ _) as [next eps]. destruct (gen_step _ _ _ _ _) as [st1 a1]. cbn [andb].
  destruct (close _ _); [discriminate|]. destruct (stop_now _ _ _ _); [discriminate|]. apply IH. lia.
Qed.
Lemma gen_terminates : forall fuel inner kd st a ran, ((max_inner - inner) + max_inner + 1 < fuel)%nat ->
  gen_loop_inner fuel inner true kd st a ran <> None.
Proof.
  induction fuel as [|fuel IH]; intros inner kd st a ran H; cbn [GupdModel.gen_loop_inner]; [lia|].
  destruct (Nat.leb_spec max_inner inner); [discriminate|].
  destruct (proposed _ _ _) as [next eps]. destruct (gen_step _ _ _ _ _) as [st1 a1].
  destruct (close _ _).
  - destruct (true && identifies); [|discriminate].
    destruct (_ =? 0)%nat; [discriminate|]. destruct (negb _); [discriminate|]. destruct (_ <=? _)%nat; [discriminate|].
    destruct (stop_now _ _ _ _); [discriminate|]. apply gen_terminates_fixed. lia.
  - destruct (stop_now _ _ _ _); [discriminate|]. apply IH. lia.
Qed.
Lemma gen_update_terminates fuel coef l kd : (2 * max_inner + 1 < fuel)%nat -> update fuel coef l kd <> GOutOfFuel.
Proof.
  intros H E. unfold update_coef_gen_smooth in E.
  match type of E with match ?o with _ => _ end = _ => destruct o as [[[[[keep drop]|] st'] [m|]]|] eqn:O; try discriminate end.
  - destruct grad_only; [discriminate|]. destruct (_ <? _)%nat; discriminate.
  - destruct kd as [[keep drop]|].
    + eapply gen_terminates_fixed; [|exact O]. lia.
    + eapply gen_terminates; [|exact O]. lia.
Qed.

(** Newton steps. *)
Definition not_below (c c' : list R) : Prop :=
  llk_not_worse (pen_at Spen None c (llk None c)) (pen_at Spen None c' (llk None c')) \/ c' = c.
Lemma not_below_trans a b c : not_below a b -> not_below b c -> not_below a c.
Proof. intros [H1| ->] [H2| ->]; [left; eapply not_worse_trans; eassumption|now left..|now right]. Qed.

Hypothesis newton_only : grad_only = false.
Hypothesis newton_defined : forall c, number (llk None (fst (newton None c))).

Lemma gen_step_better inner st a : g_llk st = llk None (g_coef st) ->
  not_below (g_coef st) (g_coef (fst (gen_step inner None st a (fst (newton None (g_coef st)))))).
Proof.
  intros Hl. unfold GupdModel.gen_step.
  pose proof (gen_step_control (llk None) (quad_at Spen None) (g_coef st) _ (g_llk st) a (eq_sym (newton_length None (g_coef st)))) as C. cbv zeta in C.
  destruct (correct_coef_step_gen_smooth _ _ _ _ _ _) as [[[c l] p] a1]. destruct C as ([C1 C2] & C3 & _).
  rewrite newton_only. cbn [andb orb].
  assert (B : bad (llk None (fst (newton None (g_coef st)))) = false).
  { pose proof (newton_defined (g_coef st)) as N. destruct (llk None (fst (newton None (g_coef st)))); try contradiction. reflexivity. }
  rewrite B, andb_false_r. cbn [fst]. change (g_coef (c, l, p)) with c.
  destruct C3 as [C3|C3]; [|right; exact C3]. left. unfold pen_at. rewrite <- Hl, <- C2. exact C3.
Qed.

Lemma gen_kd_stays : forall fuel inner kd st a ran out, gen_loop_inner fuel inner false kd st a ran = Some out -> fst (fst out) = kd.
Proof.
  induction fuel as [|fuel IH]; intros inner kd st a ran out E; cbn [GupdModel.gen_loop_inner] in E; [discriminate|].
  destruct (max_inner <=? inner)%nat; [injection E as <-; reflexivity|].
  destruct (proposed _ _ _) as [next eps]. destruct (gen_step _ _ _ _ _) as [st1 a1]. cbn [andb] in E.
  destruct (close _ _); [injection E as <-; reflexivity|].
  destruct (stop_now _ _ _ _); [injection E as <-; reflexivity|]. exact (IH _ _ _ _ _ _ E).
Qed.

Lemma gen_loop_better c0 : forall fuel inner st a ran st' ran',
  g_llk st = llk None (g_coef st) -> not_below c0 (g_coef st) ->
  gen_loop_inner fuel inner true None st a ran = Some (None, st', ran') -> not_below c0 (g_coef st').
Proof.
  induction fuel as [|fuel IH]; intros inner st a ran st' ran' Hl B E; cbn [GupdModel.gen_loop_inner option_map] in E; [discriminate|].
  destruct (max_inner <=? inner)%nat; [injection E as <- <-; assumption|].
  assert (PE : proposed None (g_coef st) a = newton None (g_coef st)) by (unfold GupdModel.proposed; now rewrite newton_only).
  rewrite PE in E. clear PE.
  pose proof (gen_step_better inner st a Hl) as G3. pose proof (newton_length None (g_coef st)) as PL.
  destruct (newton None (g_coef st)) as [next eps]. cbn [fst] in G3, PL.
  destruct (gen_step_fits inner None st a next PL) as [[G1 _] G2].
  destruct (gen_step inner None st a next) as [st1 a1]. cbn [fst] in G1, G2, G3.
  pose proof (not_below_trans _ _ _ B G3) as G4.
  destruct (close _ _).
  - destruct (true && identifies) eqn:Em; [|injection E as <- <-; assumption].
    destruct (_ =? 0)%nat; [injection E as <- <-; assumption|].
    destruct (negb _); [injection E as <- <-; assumption|].
    destruct (_ <=? _)%nat; [injection E as <- <-; assumption|].
    destruct (stop_now _ _ _ _); [discriminate|].
    apply gen_kd_stays in E. discriminate.
  - destruct (stop_now _ _ _ _); [injection E as <- <-; assumption|].
    exact (IH _ _ _ _ _ _ G1 G4 E).
Qed.

Lemma gen_update_better fuel coef u : update fuel coef (llk None coef) None = GDone u -> gu_kd u = None -> not_below coef (gu_coef u).
Proof.
  intros E K. unfold update_coef_gen_smooth in E.
  match type of E with match ?o with _ => _ end = _ => destruct o as [[[[[keep drop]|] st'] [m|]]|] eqn:O; try discriminate end.
  - destruct grad_only; [discriminate|]. destruct (_ <? _)%nat; [discriminate|]. injection E as <-. discriminate.
  - injection E as <-. cbn [gu_coef]. eapply gen_loop_better; [| |exact O]; [reflexivity|]. right. reflexivity.
Qed.
End General.

(** ** Pairs *)
Lemma minus_nil_r a : minus_vec a [] = [].
Proof. destruct a; reflexivity. Qed.

Lemma pair_algebra : forall n sx' gx' sx gx : list R, forall N, n = n -> length sx' = N -> length gx' = N -> length sx = N -> length gx = N ->
  minus_vec (minus_vec (minus_vec sx' gx') (minus_vec sx gx)) (minus_vec sx' sx) = minus_vec gx gx'.
Proof.
  intros _ sx' gx' sx gx N _. revert gx' sx gx N.
  induction sx' as [|a sx' IH]; intros [|b gx'] [|c sx] [|d gx] N H1 H2 H3 H4; cbn in *; subst; try discriminate; [reflexivity|].
  f_equal; [lra|]. eapply IH; try reflexivity; lia.
Qed.

Lemma newest_app {A} m (a b : list A) : newest m (newest m a ++ b) = newest m (a ++ b).
Proof.
  unfold newest. destruct (le_lt_dec (length a) m) as [L|L].
  - replace (length a - m)%nat with 0%nat by lia. reflexivity.
  - set (f := firstn (length a - m) a). set (r := skipn (length a - m) a).
    assert (E : a ++ b = f ++ (r ++ b)) by (unfold f, r; now rewrite app_assoc, firstn_skipn).
    assert (Lf : length f = (length a - m)%nat) by (unfold f; rewrite firstn_length; lia).
    assert (Lr : length r = m) by (unfold r; rewrite skipn_length; lia).
    rewrite E, (skipn_app _ f), (skipn_all2 f) by (rewrite !app_length; lia). cbn [app]. f_equal. rewrite !app_length. lia.
Qed.

Lemma combine_app {A B} (a c : list A) (b d : list B) : length a = length b -> combine (a ++ c) (b ++ d) = combine a b ++ combine c d.
Proof. revert b. induction a as [|x a IH]; intros [|y b] H; cbn in *; try discriminate; [reflexivity|]. f_equal. apply IH. lia. Qed.

Lemma combine_tl {A B} (a : list A) (b : list B) : length a = length b -> combine (tl a) (tl b) = tl (combine a b).
Proof. destruct a, b; intros H; try discriminate; reflexivity. Qed.

Lemma merge_spec m : forall new s y, length s = length y -> (length s <= m)%nat -> (1 <= m)%nat ->
  let (s', y') := merge m s y new in length s' = length y' /\ combine s' y' = newest m (combine s y ++ new).
Proof.
  induction new as [|[sk yk] new IH]; intros s y H L M; cbn [merge].
  - split; [exact H|]. rewrite app_nil_r. unfold newest. rewrite combine_length. replace (Nat.min (length s) (length y) - m)%nat with 0%nat by lia. reflexivity.
  - assert (H' : length (s ++ [sk]) = length (y ++ [yk])) by (rewrite !app_length; cbn; lia).
    assert (E : combine s y ++ (sk, yk) :: new = combine (s ++ [sk]) (y ++ [yk]) ++ new).
    { rewrite combine_app by exact H. now rewrite <- app_assoc. }
    rewrite E. destruct (Nat.ltb_spec m (length (s ++ [sk]))) as [G|G].
    + assert (TLn : forall l : list (list R), length (tl l) = (length l - 1)%nat) by (intros [|? ?]; cbn; lia).
      assert (T : length (tl (s ++ [sk])) = length (tl (y ++ [yk]))) by (rewrite !TLn; lia).
      assert (TL : (length (tl (s ++ [sk])) <= m)%nat) by (rewrite TLn, app_length; cbn; lia).
      specialize (IH (tl (s ++ [sk])) (tl (y ++ [yk])) T TL M). destruct (merge m _ _ new) as [s' y']. destruct IH as [I1 I2].
      split; [exact I1|]. rewrite I2, combine_tl by exact H'.
      set (q := combine (s ++ [sk]) (y ++ [yk])) in *.
      assert (Q : length q = S m).
      { unfold q. rewrite combine_length. rewrite !app_length in *. cbn in *. lia. }
      assert (N : tl q = newest m q) by (unfold newest; rewrite Q; replace (S m - m)%nat with 1%nat by lia; destruct q; reflexivity).
      rewrite N. apply newest_app.
    + specialize (IH (s ++ [sk]) (y ++ [yk]) H' G M). destruct (merge m _ _ new) as [s' y']. exact IH.
Qed.
