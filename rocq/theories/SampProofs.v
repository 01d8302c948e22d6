(** Proofs for SampModel. *)
From Coq Require Import String.
From Coq Require Import List Arith Bool Reals Lra Lia Sorted.
From Verif Require Import Ext StepModel StepSpec StepProofs SampModel SampSpec.
Import ListNotations.
Local Open Scope R_scope.

Lemma vsub_minus a b : vsub a b = minus_vec a b.
Proof. unfold vsub. revert b. induction a as [|x a IH]; intros [|z b]; simpl; try reflexivity. now rewrite IH. Qed.

Lemma mem_add_fits maxcor s y r m : (length (m_s m) < maxcor)%nat ->
  length (m_y m) = length (m_s m) -> length (m_rho m) = length (m_s m) ->
  mem_add maxcor s y r m = mkMem (m_y m ++ [y]) (m_s m ++ [s]) (m_rho m ++ [r]).
Proof.
  intros H Hy Hr. unfold mem_add. destruct m as [ys ss rs]. cbn [m_y m_s m_rho] in *.
  destruct ss as [|s0 ss].
  - destruct ys; [|discriminate]. destruct rs; [|discriminate]. cbn [length app] in *.
    destruct (Nat.ltb_spec maxcor 1); [lia|reflexivity].
  - destruct (Nat.ltb_spec maxcor (length ((s0 :: ss) ++ [s]))) as [L|L]; [|reflexivity].
    rewrite app_length in L. cbn [length] in *. lia.
Qed.

Lemma sorted_app_last l (x : nat) : StronglySorted lt l -> Forall (fun k => k < x)%nat l -> StronglySorted lt (l ++ [x]).
Proof.
  induction l as [|a l IH]; intros S F; simpl; [repeat constructor|].
  inversion S; subst. inversion F; subst. constructor; [now apply IH|].
  apply Forall_app. split; auto.
Qed.

Section Loop.
Variable grad : list R -> list R.
Variable LVt : list R -> list R.
Variable z : nat -> list R.
Variable test_SR1 : list R -> list R -> R -> list (list R) -> list (list R) -> list R -> bool.
Variable coef : list R.
Variable r : R.

Definition step_of k := times_vec r (LVt (z k)).
Definition diff_of k := minus_vec (grad (minus_vec coef (step_of k))) (grad coef).
Definition held (ks : list nat) (m : mem) : Prop :=
  m_s m = map step_of ks /\ m_y m = map diff_of ks /\ m_rho m = map (fun k => / inner (diff_of k) (step_of k)) ks.

Lemma sample_loop_spec maxcor : forall n k m u ks,
  held ks m -> u = length ks -> StronglySorted lt ks -> Forall (fun j => j < k)%nat ks -> (length ks + n <= maxcor)%nat ->
  Forall (fun j => inner (diff_of j) (step_of j) <> 0) ks ->
  exists ks', 
    let res := sample_loop grad LVt z test_SR1 coef r maxcor n k m u in
    held (ks ++ ks') (fst res) /\ snd res = length (ks ++ ks') /\ StronglySorted lt (ks ++ ks') /\
    Forall (fun j => k <= j < k + n)%nat ks' /\
    Forall (fun j => inner (diff_of j) (step_of j) <> 0) ks' /\
    ((forall a b c d e f, test_SR1 a b c d e f = false) ->
       forall j, (k <= j < k + n)%nat -> inner (diff_of j) (step_of j) <> 0 -> In j ks').
Proof.
  induction n as [|n IH]; intros k m u ks H U SO B L NZ.
  - exists []. rewrite !app_nil_r. cbn. repeat split; try apply H; auto. intros _ j J. lia.
  - cbn [sample_loop]. unfold update_ys_qefs.
    rewrite vsub_neg, !vscale_times, vsub_minus, dot_inner.
    change (times_vec r (LVt (z k))) with (step_of k).
    change (minus_vec (grad (minus_vec coef (step_of k))) (grad coef)) with (diff_of k).
    assert (B' : Forall (fun j => j < S k)%nat ks) by (eapply Forall_impl; [|exact B]; cbn; intros; lia).
    destruct (Req_EM_T (inner (diff_of k) (step_of k)) 0) as [E|E].
    + cbn [orb]. destruct (IH (S k) m u ks H U SO B' ltac:(lia) NZ) as [ks' (A1 & A2 & A3 & A4 & A5 & A6)].
      exists ks'. split; [exact A1|split; [exact A2|split; [exact A3|split; [|split; [exact A5|]]]]].
      * eapply Forall_impl; [|exact A4]. cbn. intros. lia.
      * intros T j J NZj. destruct (Nat.eq_dec j k) as [->|]; [contradiction|]. apply A6; auto. lia.
    + cbn [orb]. destruct (test_SR1 _ _ _ _ _ _) eqn:T.
      * destruct (IH (S k) m u ks H U SO B' ltac:(lia) NZ) as [ks' (A1 & A2 & A3 & A4 & A5 & A6)].
        exists ks'. split; [exact A1|split; [exact A2|split; [exact A3|split; [|split; [exact A5|]]]]].
        -- eapply Forall_impl; [|exact A4]. cbn. intros. lia.
        -- intros T'. rewrite T' in T. discriminate.
      * destruct H as (Hs & Hy & Hr).
        rewrite mem_add_fits by (rewrite ?Hs, ?Hy, ?Hr, !map_length; lia).
        destruct (IH (S k) (mkMem (m_y m ++ [diff_of k]) (m_s m ++ [step_of k]) (m_rho m ++ [/ inner (diff_of k) (step_of k)]))
                     (S u) (ks ++ [k])) as [ks' (A1 & A2 & A3 & A4 & A5 & A6)].
        -- unfold held. cbn [m_s m_y m_rho]. rewrite !map_app, Hs, Hy, Hr. auto.
        -- rewrite app_length. simpl. lia.
        -- apply sorted_app_last; auto.
        -- apply Forall_app. split; [exact B'|repeat constructor].
        -- rewrite app_length. simpl. lia.
        -- apply Forall_app. split; [exact NZ|repeat constructor; exact E].
        -- exists (k :: ks'). rewrite <- app_assoc in A1, A2, A3. cbn [app] in A1, A2, A3.
           split; [exact A1|split; [exact A2|split; [exact A3|split; [|split]]]].
           ++ constructor; [lia|]. eapply Forall_impl; [|exact A4]. cbn. intros. lia.
           ++ constructor; auto.
           ++ intros T' j J NZj. destruct (Nat.eq_dec j k) as [->|]; [now left|]. right. apply A6; auto. lia.
Qed.
End Loop.

Section PearlLoop.
Variable z : nat -> list R.
Variable test_SR1 : list R -> list R -> R -> list (list R) -> list (list R) -> list R -> bool.
Variable pearl : list R -> list R.

Definition held1 (ks : list nat) (m : mem) : Prop :=
  m_s m = map z ks /\ m_y m = map (fun k => pearl (z k)) ks /\ m_rho m = map (fun k => / inner (pearl (z k)) (z k)) ks.

Lemma pearl_loop_spec maxcor : forall n k m u ks,
  held1 ks m -> u = length ks -> StronglySorted lt ks -> Forall (fun j => j < k)%nat ks -> (length ks + n <= maxcor)%nat ->
  exists ks', 
    let res := pearl_loop z test_SR1 pearl maxcor n k m u in
    held1 (ks ++ ks') (fst res) /\ snd res = length (ks ++ ks') /\ StronglySorted lt (ks ++ ks') /\
    Forall (fun j => k <= j < k + n)%nat ks' /\
    ((forall a b c d e f, test_SR1 a b c d e f = false) -> forall j, (k <= j < k + n)%nat -> In j ks').
Proof.
  induction n as [|n IH]; intros k m u ks H U SO B L.
  - exists []. rewrite !app_nil_r. cbn. repeat split; try apply H; auto. intros _ j J. lia.
  - cbn [pearl_loop]. unfold update_ys_qefs_given. rewrite dot_inner. cbn [orb].
    assert (B' : Forall (fun j => j < S k)%nat ks) by (eapply Forall_impl; [|exact B]; cbn; intros; lia).
    destruct (test_SR1 _ _ _ _ _ _) eqn:T.
    + destruct (IH (S k) m u ks H U SO B' ltac:(lia)) as [ks' (A1 & A2 & A3 & A4 & A6)].
      exists ks'. split; [exact A1|split; [exact A2|split; [exact A3|split]]].
      -- eapply Forall_impl; [|exact A4]. cbn. intros. lia.
      -- intros T'. rewrite T' in T. discriminate.
    + destruct H as (Hs & Hy & Hr).
      rewrite mem_add_fits by (rewrite ?Hs, ?Hy, ?Hr, !map_length; lia).
      destruct (IH (S k) (mkMem (m_y m ++ [pearl (z k)]) (m_s m ++ [z k]) (m_rho m ++ [/ inner (pearl (z k)) (z k)]))
                   (S u) (ks ++ [k])) as [ks' (A1 & A2 & A3 & A4 & A6)].
      -- unfold held1. cbn [m_s m_y m_rho]. rewrite !map_app, Hs, Hy, Hr. auto.
      -- rewrite app_length. simpl. lia.
      -- apply sorted_app_last; auto.
      -- apply Forall_app. split; [exact B'|repeat constructor].
      -- rewrite app_length. simpl. lia.
      -- exists (k :: ks'). rewrite <- app_assoc in A1, A2, A3. cbn [app] in A1, A2, A3.
         split; [exact A1|split; [exact A2|split; [exact A3|split]]].
         ++ constructor; [lia|]. eapply Forall_impl; [|exact A4]. cbn. intros. lia.
         ++ intros T' j J. destruct (Nat.eq_dec j k) as [->|]; [now left|]. right. apply A6; auto. lia.
Qed.
End PearlLoop.

(** ** The radius *)
Section Radius.
Variable llk : list R -> ext.
Variable quad_S : list R -> R.
Variable LVt : list R -> list R.
Variable z : nat -> list R.
Variable coef : list R.
Variables (init_r T delta : R).
Local Notation mu := (ln (10 * init_r)).
Local Notation step := (adapt_step llk quad_S LVt z coef mu T delta).
Local Notation acc := (acceptance llk quad_S LVt z coef T).

Lemma acceptance_metropolis r k a :
  metropolis T (pen_llk llk quad_S coef) (pen_llk llk quad_S (minus_vec coef (times_vec r (LVt (z k))))) = Some a ->
  acc r k = a.
Proof.
  unfold metropolis, acceptance. rewrite vsub_minus, vscale_times.
  destruct (pen_llk llk quad_S coef) as [x| | |]; try discriminate;
    destruct (pen_llk llk quad_S (minus_vec _ _)) as [y| | |]; try discriminate; intros E; injection E as <-.
  - cbn [esub ediv eexp]. unfold py_min_one. cbn [eltb].
    destruct (rltb (exp ((y - x) / T)) 1) eqn:L.
    + apply rltb_true in L. rewrite Rmin_right; [reflexivity|lra].
    + apply rltb_false in L. rewrite Rmin_left; [reflexivity|lra].
  - cbn [esub ediv eexp]. unfold py_min_one. cbn [eltb].
    replace (rltb 0 1) with true; [reflexivity|symmetry; apply rltb_true; lra].
Qed.

(** The sum of the code is the average of Hoffman and Gelman times t + t0. *)
Lemma hg_average_sum t0 d : 0 < t0 -> forall l,
  hg_average t0 d l = 1 / (INR (length l) + t0) * fold_right (fun a s => s + (d - a)) 0 l.
Proof.
  intros H. induction l as [|a l IH]; [cbn; lra|].
  cbn [hg_average fold_right]. rewrite IH. 
  assert (P := pos_INR (length l)). cbn [length]. rewrite S_INR. field. split; lra.
Qed.

(** States reached, with the acceptance rates of the draws (latest first). *)
Definition follows (alphas : list R) (st : radius) : Prop :=
  h_bar st = fold_right (fun a s => s + (delta - a)) 0 alphas /\
  r_now st = (match alphas with [] => init_r | _ => exp (hg_log mu (5 / 100) 10 delta alphas) end) /\
  r_bar st = exp (hg_log_bar mu (5 / 100) 10 (75 / 100) delta alphas).

Lemma step_follows alphas st : follows alphas st ->
  follows (acc (r_now st) (length alphas) :: alphas) (step (S (length alphas)) st).
Proof.
  intros (H1 & H2 & H3). unfold follows, adapt_step. cbn [h_bar r_now r_bar].
  replace (S (length alphas) - 1)%nat with (length alphas) by lia.
  set (a := acc (r_now st) (length alphas)).
  assert (L : mu - sqrt (INR (S (length alphas))) / (5 / 100) * (1 / (INR (S (length alphas)) + 10)) * (h_bar st + (delta - a))
              = hg_log mu (5 / 100) 10 delta (a :: alphas)).
  { unfold hg_log. rewrite hg_average_sum by lra. cbn [length fold_right]. rewrite H1. ring. }
  rewrite L. cbn [fold_right]. split; [now rewrite H1|split; [reflexivity|]].
  cbn [hg_log_bar length]. rewrite H3, ln_exp. reflexivity.
Qed.

(** The radius at which the k-th draw is made, given the acceptance rates before (latest first). *)
Definition radius_after (alphas : list R) : R :=
  match alphas with [] => init_r | _ => exp (hg_log mu (5 / 100) 10 delta alphas) end.

Lemma loop_follows : forall n alphas st, follows alphas st ->
  exists more, length more = n /\
    follows (rev more ++ alphas) (adapt_loop llk quad_S LVt z coef mu T delta (S (length alphas)) n st) /\
    forall j, (j < n)%nat ->
      nth j more 0 = acc (radius_after (rev (firstn j more) ++ alphas)) (length alphas + j).
Proof.
  induction n as [|n IH]; intros alphas st F.
  - exists []. cbn. split; [reflexivity|split; [exact F|]]. intros j J. lia.
  - cbn [adapt_loop]. set (a := acc (r_now st) (length alphas)).
    assert (F' := step_follows alphas st F). fold a in F'.
    destruct (IH (a :: alphas) _ F') as (more & M1 & M2 & M3). cbn [length] in M2, M3.
    exists (a :: more). split; [cbn; lia|split].
    + cbn [rev]. rewrite <- app_assoc. cbn [app]. exact M2.
    + intros [|j] J.
      * cbn [nth firstn rev app]. rewrite Nat.add_0_r. destruct F as (_ & F2 & _). unfold a. rewrite F2. reflexivity.
      * cbn [nth firstn rev]. rewrite <- app_assoc. cbn [app]. rewrite (M3 j) by lia. f_equal. lia.
Qed.

Lemma adapted_follows Madapt :
  exists alphas, length alphas = Madapt /\
    adapted llk quad_S LVt z coef init_r T delta true Madapt
      = exp (hg_log_bar mu (5 / 100) 10 (75 / 100) delta (rev alphas)) /\
    forall j, (j < Madapt)%nat -> nth j alphas 0 = acc (radius_after (rev (firstn j alphas))) j.
Proof.
  destruct (loop_follows Madapt [] (mkRad init_r 1 0)) as (more & M1 & M2 & M3).
  { unfold follows. cbn. rewrite exp_0. auto. }
  exists more. split; [exact M1|split].
  - unfold adapted. destruct M2 as (_ & _ & M2). rewrite app_nil_r in M2. exact M2.
  - intros j J. specialize (M3 j J). rewrite app_nil_r in M3. exact M3.
Qed.

(** Bounds. *)
Lemma sum_const l c : (forall a, In a l -> a = c) ->
  fold_right (fun a s => s + (delta - a)) 0 l = INR (length l) * (delta - c).
Proof.
  induction l as [|a l IH]; intros H; [cbn; lra|].
  cbn [fold_right]. rewrite IH by (intros; apply H; now right). rewrite (H a) by now left.
  cbn [length]. rewrite S_INR. ring.
Qed.

Lemma hg_log_const l c : (forall a, In a l -> a = c) ->
  hg_log mu (5 / 100) 10 delta l
  = mu - 20 * sqrt (INR (length l)) * (INR (length l) / (INR (length l) + 10)) * (delta - c).
Proof.
  intros H. unfold hg_log. rewrite hg_average_sum by lra. rewrite (sum_const l c H).
  assert (P := pos_INR (length l)). field. lra.
Qed.

Lemma weight_bounds n : (1 <= n)%nat -> 0 < Rpower (INR n) (- (75 / 100)) <= 1.
Proof.
  intros N. split; [apply exp_pos|]. unfold Rpower.
  rewrite <- exp_0. assert (1 <= INR n) by (apply (le_INR 1); exact N).
  assert (0 <= ln (INR n)). { destruct H as [H|H]; [left; rewrite <- ln_1; apply ln_increasing; lra|rewrite <- H, ln_1; lra]. }
  destruct (Req_dec (- (75 / 100) * ln (INR n)) 0) as [E|E]; [rewrite E; lra|]. left. apply exp_increasing. lra.
Qed.
Lemma weight_one : Rpower (INR 1) (- (75 / 100)) = 1.
Proof. unfold Rpower. change (INR 1) with 1. rewrite ln_1, Rmult_0_r. apply exp_0. Qed.

Lemma shift_pos n : (1 <= n)%nat -> 0 < 20 * sqrt (INR n) * (INR n / (INR n + 10)).
Proof.
  intros N. assert (1 <= INR n) by (apply (le_INR 1); exact N).
  assert (0 < sqrt (INR n)) by (apply sqrt_lt_R0; lra).
  assert (0 < INR n / (INR n + 10)) by (apply Rdiv_lt_0_compat; lra).
  apply Rmult_lt_0_compat; lra.
Qed.

Lemma hg_log_bar_above l : l <> [] -> delta < 1 -> (forall a, In a l -> a = 1) ->
  mu < hg_log_bar mu (5 / 100) 10 (75 / 100) delta l.
Proof.
  intros N D. induction l as [|a l IH]; [congruence|]. intros H. cbn [hg_log_bar].
  rewrite (hg_log_const _ 1 H). cbn [length].
  assert (SP := shift_pos (S (length l)) ltac:(lia)).
  set (sh := 20 * sqrt (INR (S (length l))) * (INR (S (length l)) / (INR (S (length l)) + 10))) in *.
  assert (Q : 0 < sh * (1 - delta)) by (apply Rmult_lt_0_compat; lra).
  destruct l as [|b l].
  - cbn [length]. rewrite weight_one. lra.
  - assert (W := weight_bounds (S (length (b :: l))) ltac:(lia)).
    assert (I : mu < hg_log_bar mu (5 / 100) 10 (75 / 100) delta (b :: l)).
    { apply IH; [discriminate|]. intros; apply H; now right. }
    set (w := Rpower (INR (S (length (b :: l)))) (- (75 / 100))) in *.
    set (g := hg_log_bar _ _ _ _ _ _) in *.
    replace (w * (mu - sh * (delta - 1)) + (1 - w) * g) with (mu + w * (sh * (1 - delta)) + (1 - w) * (g - mu)) by ring.
    assert (0 < w * (sh * (1 - delta))) by (apply Rmult_lt_0_compat; lra).
    assert (0 <= (1 - w) * (g - mu)) by (apply Rmult_le_pos; lra). lra.
Qed.

Lemma hg_log_bar_below l : l <> [] -> 0 < delta -> (forall a, In a l -> a = 0) ->
  hg_log_bar mu (5 / 100) 10 (75 / 100) delta l < mu.
Proof.
  intros N D. induction l as [|a l IH]; [congruence|]. intros H. cbn [hg_log_bar].
  rewrite (hg_log_const _ 0 H). cbn [length].
  assert (SP := shift_pos (S (length l)) ltac:(lia)).
  set (sh := 20 * sqrt (INR (S (length l))) * (INR (S (length l)) / (INR (S (length l)) + 10))) in *.
  assert (Q : 0 < sh * delta) by (apply Rmult_lt_0_compat; lra).
  destruct l as [|b l].
  - cbn [length]. rewrite weight_one. lra.
  - assert (W := weight_bounds (S (length (b :: l))) ltac:(lia)).
    assert (I : hg_log_bar mu (5 / 100) 10 (75 / 100) delta (b :: l) < mu).
    { apply IH; [discriminate|]. intros; apply H; now right. }
    set (w := Rpower (INR (S (length (b :: l)))) (- (75 / 100))) in *.
    set (g := hg_log_bar _ _ _ _ _ _) in *.
    replace (w * (mu - sh * (delta - 0)) + (1 - w) * g) with (mu - w * (sh * delta) - (1 - w) * (mu - g)) by ring.
    assert (0 < w * (sh * delta)) by (apply Rmult_lt_0_compat; lra).
    assert (0 <= (1 - w) * (mu - g)) by (apply Rmult_le_pos; lra). lra.
Qed.

Lemma radius_after_pos l : 0 < init_r -> 0 < radius_after l.
Proof. intros H. destruct l; [exact H|apply exp_pos]. Qed.

Lemma acceptance_nan r k : pen_llk llk quad_S (minus_vec coef (times_vec r (LVt (z k)))) = NaN -> acc r k = 1.
Proof.
  intros E. unfold acceptance. rewrite vsub_minus, vscale_times, E. cbn [esub]. reflexivity.
Qed.

Lemma adapted_const c : forall Madapt, 0 < init_r ->
  (forall r k, 0 < r -> (k < Madapt)%nat -> acc r k = c) ->
  exists alphas, length alphas = Madapt /\ (forall a, In a alphas -> a = c) /\
    adapted llk quad_S LVt z coef init_r T delta true Madapt
      = exp (hg_log_bar mu (5 / 100) 10 (75 / 100) delta alphas).
Proof.
  intros M I H. destruct (adapted_follows M) as (al & L & E & A).
  exists (rev al). rewrite rev_length. split; [exact L|split; [|exact E]].
  intros a Ia. apply in_rev in Ia. apply (In_nth _ _ 0) in Ia as (j & J & <-). rewrite L in J.
  rewrite (A j J). apply H; [|exact J]. now apply radius_after_pos.
Qed.
End Radius.

(** ** Restarts *)
Lemma vadd_mixed w a b : vadd (vscale (1 - w) a) (vscale w b) = mixed (1 - w) a b.
Proof.
  unfold vadd, vscale. revert b. induction a as [|x a IH]; intros [|y b]; simpl; try reflexivity.
  rewrite IH. f_equal. ring.
Qed.

Lemma bad_not_number v : isinf v || isnan v = true <-> ~ a_number v.
Proof. destruct v; cbn; split; intros; try discriminate; tauto. Qed.

Section RestartProofs.
Variable llk : list R -> ext.
Variable quad_S : list R -> R.
Variable rvs : nat -> list R.

Lemma restart_loop_spec scale : forall n seed coef c_llk c_pen,
  let tried k := mixed (1 - scale) coef (rvs (seed + k)%nat) in
  let pen c := eadd (llk c) (- (1 / 2 * quad_S c)) in
  (restart_loop llk quad_S rvs n scale seed coef c_llk c_pen = (coef, c_llk, c_pen) /\
     forall k, (k < n)%nat -> ~ a_number (pen (tried k))) \/
  (exists k, (k < n)%nat /\ (forall j, (j < k)%nat -> ~ a_number (pen (tried j))) /\
     a_number (pen (tried k)) /\
     restart_loop llk quad_S rvs n scale seed coef c_llk c_pen = (tried k, llk (tried k), pen (tried k))).
Proof.
  intros n. induction n as [|n IH]; intros seed coef c_llk c_pen tried pen.
  - left. split; [reflexivity|]. intros; lia.
  - cbn [restart_loop]. rewrite vadd_mixed.
    assert (T0 : mixed (1 - scale) coef (rvs seed) = tried 0%nat) by (unfold tried; now rewrite Nat.add_0_r).
    rewrite T0. fold (pen (tried 0%nat)).
    destruct (isinf (pen (tried 0%nat)) || isnan (pen (tried 0%nat))) eqn:B.
    + apply bad_not_number in B.
      assert (TS : forall k, mixed (1 - scale) coef (rvs (S seed + k)%nat) = tried (S k)).
      { intros k. unfold tried. now rewrite <- Nat.add_succ_comm. }
      destruct (IH (S seed) coef c_llk c_pen) as [[E F]|(k & K & F & G & E)].
      * left. split; [exact E|]. intros [|k] K; [exact B|]. rewrite <- TS. apply F. lia.
      * right. exists (S k). split; [lia|split; [|split]].
        -- intros [|j] J; [exact B|]. rewrite <- TS. apply F. lia.
        -- rewrite <- TS. exact G.
        -- rewrite <- !TS. exact E.
    + right. exists 0%nat. split; [lia|split; [intros; lia|split; [|reflexivity]]].
      destruct (pen (tried 0%nat)); try exact I; discriminate.
Qed.
End RestartProofs.
