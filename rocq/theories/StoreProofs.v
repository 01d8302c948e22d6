From Coq Require Import List Arith Bool Lia.
From Verif Require Import StoreModel StoreSpec.
Import ListNotations.

Lemma combine_map_l {A B C} (g : A -> C) (l : list A) (l' : list B) :
  combine (map g l) l' = map (fun p => (g (fst p), snd p)) (combine l l').
Proof. revert l'. induction l as [|a l ih]; intros [|b l']; simpl; auto. now rewrite ih. Qed.

Lemma skipn_skipn' {B} (a b : nat) (l : list B) : skipn a (skipn b l) = skipn (b + a) l.
Proof. revert l. induction b as [|b ih]; intros l; simpl; auto. destruct l; simpl; auto. now rewrite skipn_nil. Qed.

Lemma set_rows_view {B} (done rows : list B) (z : B) n : length rows <= n ->
  set_rows (length done) rows (done ++ repeat z n) = (done ++ rows) ++ repeat z (n - length rows).
Proof.
  intros h. unfold set_rows. rewrite firstn_app, firstn_all, Nat.sub_diag, firstn_O, app_nil_r.
  rewrite skipn_app. replace (length done + length rows - length done) with (length rows) by lia.
  rewrite skipn_all2 by lia. simpl. rewrite <- app_assoc. f_equal. f_equal.
  replace n with (length rows + (n - length rows)) at 1 by lia. rewrite repeat_app, skipn_app, repeat_length, Nat.sub_diag.
  rewrite skipn_all2 by now rewrite repeat_length. reflexivity.
Qed.

Section Store.
Variable A : Type.
Notation cst := (cst A).
Variables (zero : A) (mean : list A -> A).
Variables (n_coef n_scale n_theta n_lam : nat) (sample_rho auto_converge has_arviz : bool).
Variables (n_iter n_steps0 min_iter M_adapt max_j max_j_adapt : nat).
Variable advance : nat -> nat -> nat -> nat -> cst -> block A.
Variable criteria : samples A -> bool.
Hypothesis len : forall c it st mj s, length (fst (advance c it st mj s)) = st.
Hypothesis one : n_scale = 0 \/ n_theta = 0.

Notation steps_at := (steps_at n_iter n_steps0 M_adapt).
Notation max_j_at := (max_j_at M_adapt max_j max_j_adapt).
Notation advance_all := (advance_all A n_iter n_steps0 M_adapt max_j max_j_adapt advance).
Notation after_all := (after_all A).
Notation loop := (loop A mean n_coef n_scale n_theta sample_rho auto_converge has_arviz n_iter n_steps0 min_iter M_adapt max_j max_j_adapt advance criteria).
Notation pool := (pool A mean).
Notation fresh := (fresh A zero n_coef n_scale n_theta n_lam sample_rho n_iter).
Notation sample := (sample A zero mean n_coef n_scale n_theta n_lam sample_rho auto_converge has_arviz n_iter n_steps0 min_iter M_adapt max_j max_j_adapt advance criteria).

Fixpoint ok (it0 mj k : nat) (ss cs : list cst) (rs : list (list (A * list A))) : Prop :=
  match ss, cs, rs with
  | [], [], [] => True
  | s :: ss, c :: cs, r :: rs => run A advance k it0 mj s r c /\ ok it0 mj (S k) ss cs rs
  | _, _, _ => False
  end.

Lemma ok_length it0 mj k ss cs rs : ok it0 mj k ss cs rs -> length cs = length ss /\ length rs = length ss.
Proof.
  clear one. revert k cs rs. induction ss as [|s ss ih]; intros k [|c cs] [|r rs] h; simpl in *; try contradiction; auto.
  destruct h as [_ h]. apply ih in h. lia.
Qed.

Lemma ok_start it0 mj k ss : ok it0 mj k ss ss (map (fun _ => []) ss).
Proof. revert k. induction ss as [|s ss ih]; simpl; auto. intros k. split; auto. constructor. Qed.

Definition outs_from k iter (cs : list cst) : list (block A) :=
  map (fun ks => advance (fst ks) iter (steps_at iter) (max_j_at iter) (snd ks)) (combine (seq k (length cs)) cs).

Definition grow (rs : list (list (A * list A))) (outs : list (block A)) :=
  map (fun ro => fst ro ++ fst (snd ro)) (combine rs outs).

Lemma ok_step it0 k iter ss cs rs : ok it0 (max_j_at iter) k ss cs rs ->
  (forall r, In r rs -> length r = iter - it0) -> it0 <= iter -> 0 < steps_at iter ->
  ok it0 (max_j_at iter) k ss (after_all cs (outs_from k iter cs)) (grow rs (outs_from k iter cs)).
Proof.
  intros h L I P. revert k cs rs h L. induction ss as [|s ss ih]; intros k [|c cs] [|r rs] h L; simpl in *; try contradiction; auto.
  destruct h as [h1 h2]. split; [|apply ih; auto].
  cbn [fst snd]. specialize (L r (or_introl eq_refl)).
  destruct (advance k iter (steps_at iter) (max_j_at iter) c) as [rows [[e eb] hb]] eqn:E.
  assert (LR : length rows = steps_at iter) by (pose proof (len k iter (steps_at iter) (max_j_at iter) c) as q; rewrite E in q; exact q).
  destruct (exists_last (l := rows)) as [rows' [x ->]]; [intros ->; simpl in LR; lia|].
  unfold after. rewrite last_last. cbn [fst]. eapply run_call; eauto.
  replace (it0 + length r) with iter by lia. eassumption.
Qed.

Lemma grow_length rs iter cs k : length rs = length cs -> forall a, (forall r, In r rs -> length r = a) ->
  forall r, In r (grow rs (outs_from k iter cs)) -> length r = a + steps_at iter.
Proof.
  intros _ a h r. unfold grow. rewrite in_map_iff. intros [[r0 o] [<- i]]. cbn [fst snd].
  rewrite app_length, (h r0) by now apply in_combine_l in i. f_equal.
  apply in_combine_r in i. unfold outs_from in i. rewrite in_map_iff in i. destruct i as [? [<- _]]. apply len.
Qed.

Lemma pool_ext cs : pool cs = pooled A mean cs. Proof. reflexivity. Qed.

Lemma steps_pos iter : iter < n_iter + M_adapt -> 0 < steps_at iter.
Proof.
  unfold steps_at, StoreModel.steps_at, n_steps. intros h. destruct (Nat.ltb_spec iter M_adapt).
  - destruct (Nat.leb_spec (iter + Nat.max n_steps0 2) M_adapt); lia.
  - destruct (Nat.leb_spec (iter + Nat.max n_steps0 2) (n_iter + M_adapt)); lia.
Qed.
Lemma steps_warm iter : iter < M_adapt -> iter + steps_at iter <= M_adapt.
Proof.
  unfold steps_at, StoreModel.steps_at, n_steps. intros h. destruct (Nat.ltb_spec iter M_adapt); [|lia].
  destruct (Nat.leb_spec (iter + Nat.max n_steps0 2) M_adapt); lia.
Qed.
Lemma steps_main iter : M_adapt <= iter -> iter < n_iter + M_adapt -> iter + steps_at iter <= n_iter + M_adapt.
Proof.
  unfold steps_at, StoreModel.steps_at, n_steps. intros h h'. destruct (Nat.ltb_spec iter M_adapt); [lia|].
  destruct (Nat.leb_spec (iter + Nat.max n_steps0 2) (n_iter + M_adapt)); lia.
Qed.

Lemma warm_up fuel iter inits cs rs sm : iter < M_adapt -> n_iter + M_adapt - iter <= fuel ->
  ok 0 max_j_adapt 0 inits cs rs -> (forall r, In r rs -> length r = iter) ->
  exists fuel' cs' rs', n_iter <= fuel' /\ loop fuel iter cs sm = loop fuel' M_adapt (pool cs') sm /\
    ok 0 max_j_adapt 0 inits cs' rs' /\ forall r, In r rs' -> length r = M_adapt.
Proof.
  revert iter cs rs. induction fuel as [|fuel ih]; intros iter cs rs im fu o L; [lia|].
  assert (it : iter < n_iter + M_adapt) by lia.
  assert (sp := steps_pos _ it). assert (sw := steps_warm _ im).
  assert (mj : max_j_at iter = max_j_adapt) by (unfold StoreModel.max_j_at; now rewrite (proj2 (Nat.ltb_lt _ _) im)).
  assert (o' := ok_step 0 0 iter inits cs rs). rewrite mj in o'.
  specialize (o' o). rewrite Nat.sub_0_r in o'. specialize (o' L (Nat.le_0_l _) sp).
  assert (L' := grow_length rs iter cs 0). 
  destruct (ok_length _ _ _ _ _ _ o) as [l1 l2]. specialize (L' ltac:(congruence) _ L).
  cbn [StoreModel.loop]. rewrite (proj2 (Nat.ltb_lt _ _) it).
  rewrite (proj2 (Nat.leb_gt _ _) im). rewrite (proj2 (Nat.ltb_ge _ _) sw). cbn [andb].
  change (advance_all iter cs) with (outs_from 0 iter cs).
  destruct (Nat.eqb_spec (iter + steps_at iter) M_adapt) as [e|ne].
  - rewrite e. eexists fuel, _, _. split; [lia|]. split; [reflexivity|]. split; [exact o'|].
    intros r hr. rewrite (L' _ hr). exact e.
  - eapply ih; [| |exact o'|exact L']; lia.
Qed.

(** The arrays when the rows [rs] have been stored. *)
Definition view_array (f : A * list A -> list A) (w : nat) (rs : list (list (A * list A))) : array A :=
  map (fun r => map f r ++ repeat (repeat zero w) (n_iter - length r)) rs.
Definition view (rs : list (list (A * list A))) : samples A :=
  Samples A (view_array (llk_part A) 1 rs) (view_array (coef_part A n_coef) n_coef rs)
    (if 0 <? n_scale then Some (view_array (scale_part A n_coef n_scale) n_scale rs) else None)
    (if 0 <? n_theta then Some (view_array (theta_part A n_coef n_theta) n_theta rs) else None)
    (if sample_rho then Some (view_array (rho_part A n_coef n_scale n_theta) n_lam rs) else None).

Lemma put_view f w rs outs a st : (forall r, In r rs -> length r = a) ->
  (forall o, In o outs -> length (fst o) = st) -> a + st <= n_iter ->
  put A f a (view_array f w rs) outs = view_array f w (grow rs outs).
Proof.
  clear one. intros L O I. unfold put, view_array, grow. rewrite combine_map_l, !map_map. apply map_ext_in.
  intros [r o] i. cbn [fst snd]. assert (lr := L _ (in_combine_l _ _ _ _ i)). assert (lo := O _ (in_combine_r _ _ _ _ i)).
  rewrite <- (map_length f) in lr. rewrite <- lr at 1. rewrite set_rows_view by (rewrite !map_length; rewrite map_length in lr; lia).
  rewrite map_app, !map_length, app_length. f_equal. f_equal. lia.
Qed.

Lemma store_view rs outs a st : (forall r, In r rs -> length r = a) ->
  (forall o, In o outs -> length (fst o) = st) -> a + st <= n_iter ->
  store A n_coef n_scale n_theta sample_rho a outs (view rs) = view (grow rs outs).
Proof.
  intros L O I. unfold store, view. cbn [lps coefs lscales thetas rhos]. rewrite !(put_view _ _ _ _ _ _ L O I). f_equal.
  - destruct (0 <? n_scale); auto. cbn [option_map]. now rewrite (put_view _ _ _ _ _ _ L O I).
  - destruct one as [e | e]; rewrite e.
    + change (0 <? 0) with false. cbv iota. destruct (0 <? n_theta); auto. cbn [option_map]. now rewrite (put_view _ _ _ _ _ _ L O I).
    + change (0 <? 0) with false. now destruct (0 <? n_scale).
  - destruct sample_rho; auto. cbn [option_map]. now rewrite (put_view _ _ _ _ _ _ L O I).
Qed.

Lemma cut_view f w rs it lo : (forall r, In r rs -> length r = it) -> lo <= it ->
  cut A lo it (view_array f w rs) = traces A f lo it rs.
Proof.
  intros L I. unfold cut, view_array, traces. rewrite map_map. apply map_ext_in. intros r hr. unfold slice.
  assert (lr := L _ hr). rewrite <- (map_length f) in lr. rewrite firstn_app, <- lr, Nat.sub_diag, firstn_O, app_nil_r, firstn_all.
  rewrite <- firstn_map, <- skipn_map. symmetry. apply firstn_all2. rewrite skipn_length. lia.
Qed.

Lemma whole_view f w rs : (forall r, In r rs -> length r = n_iter) -> view_array f w rs = traces A f 0 n_iter rs.
Proof.
  intros L. unfold view_array, traces. apply map_ext_in. intros r hr. rewrite (L _ hr), Nat.sub_diag, app_nil_r.
  rewrite Nat.sub_0_r. cbn [skipn]. rewrite firstn_all2; auto. rewrite (L _ hr). auto.
Qed.

Definition shown (lo hi : nat) (rs : list (list (A * list A))) : samples A :=
  Samples A (traces A (llk_part A) lo hi rs) (traces A (coef_part A n_coef) lo hi rs)
    (if 0 <? n_scale then Some (traces A (scale_part A n_coef n_scale) lo hi rs) else None)
    (if 0 <? n_theta then Some (traces A (theta_part A n_coef n_theta) lo hi rs) else None)
    (if sample_rho then Some (traces A (rho_part A n_coef n_scale n_theta) lo hi rs) else None).

(** What the decision to stop is based on. *)
Definition monitored (it : nat) (rs : list (list (A * list A))) : samples A :=
  Samples A (traces A (llk_part A) 0 it rs) (coefs A (shown (it / 2) it rs)) (lscales A (shown (it / 2) it rs))
    (thetas A (shown (it / 2) it rs)) (rhos A (shown (it / 2) it rs)).

Lemma half_le it : it / 2 <= it. Proof. apply Nat.div_le_upper_bound; lia. Qed.

Lemma main_phase fuel iter starts cs rs : M_adapt <= iter -> iter <= n_iter + M_adapt -> n_iter + M_adapt - iter <= fuel ->
  ok M_adapt max_j 0 starts cs rs -> (forall r, In r rs -> length r = iter - M_adapt) ->
  exists cs' rs' lo hi, ok M_adapt max_j 0 starts cs' rs' /\ (forall r, In r rs' -> length r = hi) /\
    loop fuel iter cs (view rs) = shown lo hi rs' /\
    (lo = 0 /\ hi = n_iter \/
     auto_converge = true /\ lo = hi / 2 /\ hi <= n_iter /\ 2 * min_iter <= hi /\ 2 * length starts < hi / 4 /\ criteria (monitored hi rs') = true).
Proof.
  revert iter cs rs. induction fuel as [|fuel ih]; intros iter cs rs mi im fu o L.
  - exists cs, rs, 0, n_iter. assert (e : iter - M_adapt = n_iter) by lia. rewrite e in L. split; auto. split; auto. split; [|now left].
    cbn [StoreModel.loop]. unfold view, shown. rewrite !whole_view by assumption. reflexivity.
  - cbn [StoreModel.loop]. destruct (Nat.ltb_spec iter (n_iter + M_adapt)) as [it|ge].
    2:{ exists cs, rs, 0, n_iter. assert (e : iter - M_adapt = n_iter) by lia. rewrite e in L. split; auto. split; auto. split; [|now left].
        unfold view, shown. rewrite !whole_view by assumption. reflexivity. }
    assert (sp := steps_pos _ it). assert (sm := steps_main _ mi it).
    assert (mj : max_j_at iter = max_j) by (unfold StoreModel.max_j_at; now rewrite (proj2 (Nat.ltb_ge _ _) mi)).
    assert (o' := ok_step M_adapt 0 iter starts cs rs). rewrite mj in o'. specialize (o' o L mi sp).
    destruct (ok_length _ _ _ _ _ _ o) as [l1 l2].
    assert (L' := grow_length rs iter cs 0 ltac:(congruence) _ L).
    change (advance_all iter cs) with (outs_from 0 iter cs).
    rewrite (proj2 (Nat.leb_le _ _) mi).
    assert (O : forall x, In x (outs_from 0 iter cs) -> length (fst x) = steps_at iter).
    { intros x i. unfold outs_from in i. rewrite in_map_iff in i. destruct i as [? [<- _]]. apply len. }
    rewrite (store_view rs _ _ _ L O) by lia.
    set (rs1 := grow rs (outs_from 0 iter cs)) in *. set (hi := iter + steps_at iter - M_adapt).
    assert (L1 : forall r, In r rs1 -> length r = hi) by (intros r hr; rewrite (L' _ hr); unfold hi; lia).
    replace (M_adapt <? iter + steps_at iter) with true by (symmetry; apply Nat.ltb_lt; lia). cbn [andb].
    destruct (stops A n_scale n_theta sample_rho auto_converge has_arviz min_iter criteria hi (length cs) (view rs1)) eqn:E.
    + exists (after_all cs (outs_from 0 iter cs)), rs1, (hi / 2), hi. split; auto. split; auto.
      assert (hh := half_le hi).
      split.
      * unfold second_half, view, shown. cbn [lps coefs lscales thetas rhos]. rewrite !cut_view by assumption. f_equal.
        -- destruct (0 <? n_scale); auto. simpl. now rewrite cut_view by assumption.
        -- destruct (0 <? n_theta); auto. simpl. now rewrite cut_view by assumption.
        -- destruct sample_rho; auto. simpl. now rewrite cut_view by assumption.
      * right. unfold stops in E. rewrite !andb_true_iff in E. destruct E as [[[[E1 E2] E3] E4] E5].
        apply Nat.ltb_lt in E1. apply Nat.leb_le in E3. rewrite l1 in E1.
        split; auto. split; auto. split; [unfold hi; lia|]. split; auto. split; auto.
        rewrite <- E4. f_equal. unfold monitored, conv_samples, view, shown. cbn [lps coefs lscales thetas rhos]. rewrite E5.
        rewrite !cut_view by (assumption || lia). f_equal.
        -- destruct (0 <? n_scale); auto. simpl. now rewrite cut_view by assumption.
        -- destruct (0 <? n_theta); auto. simpl. now rewrite cut_view by assumption.
        -- destruct sample_rho; auto. simpl. now rewrite cut_view by assumption.
    + replace (iter + steps_at iter =? M_adapt) with false by (symmetry; apply Nat.eqb_neq; lia).
      apply ih; auto; lia.
Qed.

Lemma map_const_repeat {B C} (z : C) (l : list B) : map (fun _ => z) l = repeat z (length l).
Proof. induction l; simpl; congruence. Qed.

Lemma fresh_view (inits : list cst) : fresh (length inits) = view (map (fun _ => []) inits).
Proof.
  assert (E : forall f w, view_array f w (map (fun _ => []) inits) = zeros A zero n_iter (length inits) w).
  { intros f w. unfold view_array, zeros. rewrite map_map. simpl. now rewrite Nat.sub_0_r, map_const_repeat. }
  unfold StoreModel.fresh, view. now rewrite !E.
Qed.

(** The states in which sampling starts. *)
Definition warmed (inits starts : list cst) : Prop :=
  if M_adapt =? 0 then starts = inits else
  exists cs rs, ok 0 max_j_adapt 0 inits cs rs /\ (forall r, In r rs -> length r = M_adapt) /\ starts = pooled A mean cs.

Lemma ok_lists it0 mj k ss cs rs : ok it0 mj k ss cs rs -> forall i s r, nth_error ss i = Some s -> nth_error rs i = Some r ->
  exists c, nth_error cs i = Some c /\ run A advance (k + i) it0 mj s r c.
Proof.
  revert k cs rs. induction ss as [|s ss ih]; intros k [|c cs] [|r rs] h i s0 r0 hs hr; simpl in h; try contradiction; [now destruct i|].
  destruct h as [h1 h2]. destruct i as [|i]; simpl in *.
  - inversion hs; inversion hr; subst. exists c. rewrite Nat.add_0_r. auto.
  - destruct (ih _ _ _ h2 _ _ _ hs hr) as [c' [e q]]. exists c'. rewrite Nat.add_succ_r. auto.
Qed.

Lemma sample_runs inits :
  exists starts cs rs lo hi, warmed inits starts /\ length starts = length inits /\ ok M_adapt max_j 0 starts cs rs /\ (forall r, In r rs -> length r = hi) /\
    sample inits = shown lo hi rs /\
    (lo = 0 /\ hi = n_iter \/
     auto_converge = true /\ lo = hi / 2 /\ hi <= n_iter /\ 2 * min_iter <= hi /\ 2 * length inits < hi / 4 /\ criteria (monitored hi rs) = true).
Proof.
  unfold StoreModel.sample, warmed. rewrite fresh_view. destruct (Nat.eqb_spec M_adapt 0) as [z|nz].
  - exists inits. destruct (main_phase (n_iter + M_adapt) 0 inits inits (map (fun _ => []) inits)) as [cs [rs [lo [hi h]]]]; try lia.
    + rewrite z. apply ok_start.
    + intros r hr. rewrite in_map_iff in hr. destruct hr as [? [<- _]]. reflexivity.
    + exists cs, rs, lo, hi. tauto.
  - destruct (warm_up (n_iter + M_adapt) 0 inits inits (map (fun _ => []) inits) (view (map (fun _ => []) inits)))
      as [fuel [cs0 [rs0 [f0 [e [o L]]]]]]; try lia.
    + apply ok_start.
    + intros r hr. rewrite in_map_iff in hr. destruct hr as [? [<- _]]. reflexivity.
    + rewrite e. destruct (ok_length _ _ _ _ _ _ o) as [l1 l2].
      assert (lp : length (pool cs0) = length inits) by (unfold StoreModel.pool; now rewrite map_length).
      destruct (main_phase fuel M_adapt (pool cs0) (pool cs0) (map (fun _ => []) inits)) as [cs [rs [lo [hi h]]]]; try lia.
      * assert (q := ok_start M_adapt max_j 0 (pool cs0)). rewrite map_const_repeat, lp, <- map_const_repeat in q. exact q.
      * intros r hr. rewrite in_map_iff in hr. destruct hr as [? [<- _]]. simpl. lia.
      * exists (pool cs0), cs, rs, lo, hi. split; [exists cs0, rs0; auto|]. split; auto. rewrite lp in h. tauto.
Qed.

(** Calls that can be joined. *)
Lemma run_joined (sp : splits A advance) c it0 mj s rows s' : run A advance c it0 mj s rows s' ->
  advance c it0 (length rows) mj s = (rows, (epsilon _ s', epsilonbar _ s', Hbar _ s')) /\
  (cL _ s', omega _ s') = last rows (cL _ s, omega _ s).
Proof.
  induction 1 as [|rows s1 steps rows' e eb h x R [ih1 ih2] E].
  - destruct (sp c it0 mj s) as [z _]. auto.
  - assert (le : steps = length (rows' ++ [x])).
    { rewrite <- (len c (it0 + length rows) steps mj s1), E. reflexivity. }
    split; cbn [epsilon epsilonbar Hbar cL omega].
    2:{ rewrite app_assoc, last_last. now destruct x. }
    destruct rows as [|y rows].
    + simpl in *. rewrite Nat.add_0_r in E. inversion R as [q1 q2|]; subst.
      * exact E.
      * match goal with H : _ ++ _ ++ [_] = [] |- _ => apply app_eq_nil in H; destruct H as [_ H]; apply app_eq_nil in H; destruct H as [_ H]; discriminate H end.
    + destruct (sp c it0 mj s) as [_ z]. specialize (z (length (y :: rows)) steps _ _ _ _ (Nat.lt_0_succ _) ih1). cbv zeta in z.
      rewrite <- ih2 in z. cbn [fst snd] in z. 
      assert (q : Cst A (cL A s1) (omega A s1) (epsilon A s1) (epsilonbar A s1) (Hbar A s1) = s1) by now destruct s1.
      rewrite q, E in z. rewrite app_length, <- le. exact z.
Qed.

Lemma run_same (sp : splits A advance) c it0 mj s r1 s1 r2 s2 :
  run A advance c it0 mj s r1 s1 -> run A advance c it0 mj s r2 s2 -> length r1 = length r2 -> r1 = r2 /\ s1 = s2.
Proof.
  intros R1 R2 e. destruct (run_joined sp _ _ _ _ _ _ R1) as [a1 b1]. destruct (run_joined sp _ _ _ _ _ _ R2) as [a2 b2].
  rewrite e, a2 in a1. inversion a1; subst. rewrite <- b2 in b1. split; auto. destruct s1, s2; simpl in *. congruence.
Qed.
End Store.

Lemma ok_same A advance (len : forall c it st mj s, length (fst (advance c it st mj s)) = st) (sp : splits A advance) it0 mj k ss cs1 rs1 cs2 rs2 a :
  ok A advance it0 mj k ss cs1 rs1 -> ok A advance it0 mj k ss cs2 rs2 ->
  (forall r, In r rs1 -> length r = a) -> (forall r, In r rs2 -> length r = a) -> cs1 = cs2 /\ rs1 = rs2.
Proof.
  revert k cs1 rs1 cs2 rs2. induction ss as [|s ss ih]; intros k [|c1 cs1] [|r1 rs1] [|c2 cs2] [|r2 rs2] h1 h2 L1 L2; simpl in *; try contradiction; auto.
  destruct h1 as [h1 h1'], h2 as [h2 h2'].
  destruct (run_same A advance len sp _ _ _ _ _ _ _ _ h1 h2) as [-> ->]; [rewrite L1, L2; auto|].
  destruct (ih _ _ _ _ _ h1' h2') as [-> ->]; auto.
Qed.
