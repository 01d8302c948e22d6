(** The properties of the stored samples and of the decision to stop. *)

From Coq Require Import List Arith ZArith Bool Lia Reals Lra.
From Verif Require Import StoreModel StoreSpec StoreProofs ConvModel ConvSpec ConvProofs.
Import ListNotations.

Section Statements.
Variable A : Type.
Notation cst := (cst A).
Variables (zero : A) (mean : list A -> A).
Variables (n_coef n_scale n_theta n_lam : nat) (sample_rho has_arviz : bool).
Variables (n_iter min_iter M_adapt max_j max_j_adapt : nat).
Variable advance : nat -> nat -> nat -> nat -> cst -> block A.
Notation sample auto n_steps criteria := (sample A zero mean n_coef n_scale n_theta n_lam sample_rho auto has_arviz n_iter n_steps min_iter M_adapt max_j max_j_adapt advance criteria).

(** The chains are advanced through the warm-up, continue from there with pooled step sizes, and the arrays hold
    consecutive steps after the warm-up: row k of lps, coefs, lscales, thetas and rhos belongs to the same step.
    Without automatic convergence they are all [n_iter] steps; otherwise they may be the second half of the steps
    done so far. *)
Theorem C104_rows auto n_steps criteria (inits : list cst) :
  (forall c it st mj s, length (fst (advance c it st mj s)) = st) -> n_scale = 0 \/ n_theta = 0 ->
  exists starts runs lo hi,
    (if M_adapt =? 0 then starts = inits else
     exists cs, starts = pooled A mean cs /\ length cs = length inits /\
       forall c s, nth_error inits c = Some s -> exists s' w,
         nth_error cs c = Some s' /\ length w = M_adapt /\ run A advance c 0 max_j_adapt s w s') /\
    length runs = length inits /\
    (forall c s, nth_error starts c = Some s -> exists r s',
       nth_error runs c = Some r /\ length r = hi /\ run A advance c M_adapt max_j s r s') /\
    (lo = 0 /\ hi = n_iter \/ auto = true /\ lo = hi / 2 /\ hi <= n_iter /\ min_iter <= hi - lo) /\
    sample auto n_steps criteria inits =
    Samples A (traces A (fun x => [fst x]) lo hi runs) (traces A (fun x => firstn n_coef (snd x)) lo hi runs)
      (if n_scale =? 0 then None else Some (traces A (fun x => firstn n_scale (skipn n_coef (snd x))) lo hi runs))
      (if n_theta =? 0 then None else Some (traces A (fun x => firstn n_theta (skipn n_coef (snd x))) lo hi runs))
      (if sample_rho then Some (traces A (fun x => skipn (n_coef + (n_scale + n_theta)) (snd x)) lo hi runs) else None).
Proof.
  intros len one.
  destruct (sample_runs A zero mean n_coef n_scale n_theta n_lam sample_rho auto has_arviz n_iter n_steps min_iter M_adapt max_j max_j_adapt advance criteria len one inits)
    as [starts [cs [rs [lo [hi [W [ls [o [L [E D]]]]]]]]]].
  destruct (ok_length _ _ _ _ _ _ _ _ o) as [l1 l2].
  exists starts, rs, lo, hi. split.
  { unfold warmed in W. destruct (M_adapt =? 0); auto. destruct W as [c0 [r0 [o0 [L0 e0]]]].
    destruct (ok_length _ _ _ _ _ _ _ _ o0) as [k1 k2]. exists c0. split; auto. split; auto.
    intros c s hs. assert (exists r, nth_error r0 c = Some r) as [r hr].
    { destruct (nth_error r0 c) eqn:q; eauto. apply nth_error_None in q. assert (c < length inits) by (apply nth_error_Some; congruence). lia. }
    destruct (ok_lists _ _ _ _ _ _ _ _ o0 _ _ _ hs hr) as [s' [q1 q2]]. exists s', r. simpl in q2.
    split; auto. split; auto. apply L0. eapply nth_error_In; eauto. }
  split; [congruence|]. split.
  { intros c s hs. assert (exists r, nth_error rs c = Some r) as [r hr].
    { destruct (nth_error rs c) eqn:q; eauto. apply nth_error_None in q. assert (c < length starts) by (apply nth_error_Some; congruence). lia. }
    destruct (ok_lists _ _ _ _ _ _ _ _ o _ _ _ hs hr) as [s' [q1 q2]]. exists r, s'. split; auto. split; auto.
    apply L. eapply nth_error_In; eauto. }
  split.
  { destruct D as [D|[D1 [D2 [D3 [D4 _]]]]]; [now left|right]. repeat split; auto. rewrite D2.
    assert (h := Nat.div_mod hi 2 ltac:(lia)). lia. }
  rewrite E. unfold shown. f_equal.
  - now destruct n_scale.
  - now destruct n_theta.
  - unfold rho_part. now rewrite Nat.add_assoc.
Qed.

(** If a call for several steps does what several calls would do, the samples do not depend on n_steps. *)
Theorem C104_steps n1 n2 crit1 crit2 (inits : list cst) :
  (forall c it st mj s, length (fst (advance c it st mj s)) = st) -> n_scale = 0 \/ n_theta = 0 -> splits A advance ->
  sample false n1 crit1 inits = sample false n2 crit2 inits.
Proof.
  intros len one sp.
  destruct (sample_runs A zero mean n_coef n_scale n_theta n_lam sample_rho false has_arviz n_iter n1 min_iter M_adapt max_j max_j_adapt advance crit1 len one inits)
    as [s1 [c1 [r1 [lo1 [hi1 [W1 [_ [o1 [L1 [E1 D1]]]]]]]]]].
  destruct (sample_runs A zero mean n_coef n_scale n_theta n_lam sample_rho false has_arviz n_iter n2 min_iter M_adapt max_j max_j_adapt advance crit2 len one inits)
    as [s2 [c2 [r2 [lo2 [hi2 [W2 [_ [o2 [L2 [E2 D2]]]]]]]]]].
  destruct D1 as [[-> ->]|[D1 _]]; [|discriminate]. destruct D2 as [[-> ->]|[D2 _]]; [|discriminate].
  rewrite E1, E2. assert (s1 = s2) as <-.
  { unfold warmed in *. destruct (M_adapt =? 0); [congruence|]. destruct W1 as [cs1 [rs1 [p1 [q1 e1]]]], W2 as [cs2 [rs2 [p2 [q2 e2]]]].
    destruct (ok_same A advance len sp _ _ _ _ _ _ _ _ _ p1 p2 q1 q2) as [-> _]. congruence. }
  now destruct (ok_same A advance len sp _ _ _ _ _ _ _ _ _ o1 o2 L1 L2) as [_ ->].
Qed.

(** After the warm-up, all chains use the same step size in all calls, namely the mean of the tuned ones; given that
    advancing a chain after the warm-up leaves equal step sizes as they are (C96_step_size). *)
Theorem C106_common (inits : list cst) : M_adapt <> 0 ->
  (forall c it st mj s, length (fst (advance c it st mj s)) = st) -> n_scale = 0 \/ n_theta = 0 ->
  (forall c it st s rows e eb h, M_adapt <= it -> epsilon _ s = epsilonbar _ s ->
     advance c it st max_j s = (rows, (e, eb, h)) -> e = epsilon _ s /\ eb = epsilon _ s) ->
  forall auto n_steps criteria, exists starts runs lo hi size,
    length starts = length inits /\
    coefs A (sample auto n_steps criteria inits) = traces A (fun x => firstn n_coef (snd x)) lo hi runs /\
    (forall c s r, nth_error starts c = Some s -> nth_error runs c = Some r -> exists s', run A advance c M_adapt max_j s r s') /\
    forall c s r s', nth_error starts c = Some s -> run A advance c M_adapt max_j s r s' -> epsilon _ s' = size.
Proof.
  intros nz len one fr auto n_steps criteria.
  destruct (C104_rows auto n_steps criteria inits len one) as [starts [runs [lo [hi [W [lr [R [_ E]]]]]]]].
  destruct (Nat.eqb_spec M_adapt 0) as [|_]; [contradiction|]. destruct W as [cs [W1 [W2 _]]].
  exists starts, runs, lo, hi, (mean (map (epsilonbar _) cs)). split; [rewrite W1; unfold pooled; now rewrite map_length|].
  rewrite E. split; [reflexivity|]. split.
  - intros c s r hs hr. destruct (R c s hs) as [r' [s' [e [_ q]]]]. exists s'. congruence.
  - intros c s r s' hs run'.
    assert (es : epsilon _ s = mean (map (epsilonbar _) cs) /\ epsilonbar _ s = mean (map (epsilonbar _) cs)).
    { rewrite W1 in hs. unfold pooled in hs. apply nth_error_In, in_map_iff in hs. destruct hs as [s0 [<- _]]. auto. }
    enough (q : epsilon _ s' = mean (map (epsilonbar _) cs) /\ epsilonbar _ s' = mean (map (epsilonbar _) cs)) by tauto.
    induction run' as [|rows s1 steps rows' e eb h x run' ih Ea]; auto.
    destruct ih as [i1 i2]. apply fr in Ea; [|lia|congruence]. cbn [epsilon epsilonbar]. destruct Ea as [-> ->]. auto.
Qed.
End Statements.

(** A chain that repeats its step size in all rows and keeps it. *)
Definition steady (c it st mj : nat) (s : cst nat) : block nat :=
  (repeat (epsilon _ s, [c]) st, (epsilon _ s, epsilonbar _ s, Hbar _ s)).
Example C106_case : (forall c it st mj s, length (fst (steady c it st mj s)) = st) /\
  (forall c it st s rows e eb h, 1 <= it -> epsilon _ s = epsilonbar _ s ->
     steady c it st 5 s = (rows, (e, eb, h)) -> e = epsilon _ s /\ eb = epsilon _ s) /\
  coefs nat (sample nat 0 (fun l => list_sum l / length l) 1 0 0 0 false false true 2 2 0 1 5 5 steady (fun _ => false)
    [Cst nat 0 [] 4 4 0; Cst nat 0 [] 8 8 0]) = [[[0]; [0]]; [[1]; [1]]] /\
  lps nat (sample nat 0 (fun l => list_sum l / length l) 1 0 0 0 false false true 2 2 0 1 5 5 steady (fun _ => false)
    [Cst nat 0 [] 4 4 0; Cst nat 0 [] 8 8 0]) = [[[6]; [6]]; [[6]; [6]]].
Proof.
  split; [intros; apply repeat_length|]. split; [|split; reflexivity].
  unfold steady. intros c it st s rows e eb h _ E H. injection H as <- <- <- <-. auto.
Qed.

Section Convergence.
Variables (A : Type) (dummy : A).
Variables (zero : A) (mean : list A -> A).
Variables (n_coef n_scale n_theta n_lam : nat) (sample_rho auto has_arviz : bool).
Variables (n_iter n_steps min_iter M_adapt max_j max_j_adapt : nat).
Variable advance : nat -> nat -> nat -> nat -> cst A -> block A.
Variables (good_ess good_rhat : list (list A) -> bool).

(** The decision of sample_mssm. *)
Definition decide type split_idx forms (sm : samples A) : bool :=
  met (check_convergence A bool dummy good_ess n_coef n_scale n_theta n_lam type split_idx forms sm)
      (check_convergence A bool dummy good_rhat n_coef n_scale n_theta n_lam type split_idx forms sm).

(** With convergence_type 0 the decision takes into account both halves of every chain for every parameter. *)
Theorem C105_all split_idx forms sm :
  let good h := good_ess h && good_rhat h in
  decide 0 split_idx forms sm = true <->
  all_meet A dummy good n_coef (coefs A sm) /\ all_meet A dummy good 1 (lps A sm) /\
  (forall a, lscales A sm = Some a -> all_meet A dummy good n_scale a) /\
  (forall a, thetas A sm = Some a -> all_meet A dummy good n_theta a) /\
  (forall a, rhos A sm = Some a -> all_meet A dummy good n_lam a).
Proof.
  cbv zeta. unfold decide, met, check_convergence. cbn [Nat.eqb].
  assert (both : forall w a, all_meet A dummy (fun h => good_ess h && good_rhat h) w a <-> all_meet A dummy good_ess w a /\ all_meet A dummy good_rhat w a).
  { intros w a. unfold all_meet. split.
    - intros H. split; intros p h pw hh; specialize (H p h pw hh); apply andb_true_iff in H; tauto.
    - intros [H1 H2] p h pw hh. apply andb_true_iff. split; [eapply H1|eapply H2]; eauto. }
  rewrite andb_true_iff, !forallb_app, !andb_true_iff, !opt_meet, !stats_meet.
  split.
  - intros [[? [? [? [? ?]]]] [? [? [? [? ?]]]]]. rewrite !both. repeat split; auto; intros; try apply both; auto.
  - intros [h1 [h2 [h3 [h4 h5]]]]. rewrite !both in *. repeat split; try tauto; intros a ha; ((apply both, h3) || (apply both, h4) || (apply both, h5)); exact ha.
Qed.

(** With convergence_type 1 the coefficients whose column in the design matrix of the selected terms has a positive
    sum are taken into account. *)
Theorem C105_selected_partial forms sm : n_coef = list_sum (map fst forms) -> length forms <> 0 ->
  lscales A sm = None -> thetas A sm = None -> rhos A sm = None ->
  let good h := good_ess h && good_rhat h in
  decide 1 (cuts 0 (map fst forms)) forms sm = true <->
  (forall f w X k h, nth_error forms f = Some (w, X) -> k < w -> (0 < column_sum X k)%Z ->
     halved A (trace_of A dummy (start_of 0 (map fst forms) f + k) (coefs A sm)) h -> good h = true) /\
  all_meet A dummy good 1 (lps A sm).
Proof.
  intros nc nf e1 e2 e3. cbv zeta. unfold decide, met, check_convergence. cbn [Nat.eqb]. rewrite e1, e2, e3. cbn [app].
  rewrite !forallb_app, andb_true_iff, !andb_true_iff, !stats_meet.
  assert (ls : forall st, 0 + list_sum (map fst forms) = length (stats A bool dummy st n_coef (coefs A sm))).
  { intros st. unfold stats. rewrite map_length, seq_length. simpl. congruence. }
  rewrite !(pick_meet _ _ _ (ls _)).
  assert (place : forall f w X k, nth_error forms f = Some (w, X) -> k < w -> start_of 0 (map fst forms) f + k < n_coef).
  { rewrite nc. clear. intros f w X k e kw. replace (list_sum (map fst forms)) with (0 + list_sum (map fst forms)) by lia. generalize 0.
    revert f e. induction forms as [|[w0 X0] l ih]; intros [|f] e from; simpl in *; try discriminate.
    - injection e as -> ->. lia.
    - specialize (ih f e (from + w0)). lia. }
  assert (look : forall st p, p < n_coef -> nth_error (stats A bool dummy st n_coef (coefs A sm)) p = Some (st (values A dummy p (halves A (coefs A sm))))).
  { intros st p pn. unfold stats. rewrite (map_nth_error _ p (seq 0 n_coef) (d := p)); auto.
    rewrite nth_error_nth' with (d := 0) by now rewrite seq_length. now rewrite seq_nth. }
  unfold all_meet. split.
  - intros [[H1 H2] [H3 H4]]. split.
    + intros f w X k h e kw cs hh. specialize (H1 f w X k e kw cs). specialize (H3 f w X k e kw cs).
      rewrite look in H1, H3 by eauto. injection H1 as H1. injection H3 as H3. apply andb_true_iff.
      split; [apply (proj1 (good_meet A dummy good_ess _ _) H1)|apply (proj1 (good_meet A dummy good_rhat _ _) H3)]; auto.
    + intros p h pw hh. apply andb_true_iff. split; [eapply H2|eapply H4]; eauto.
  - intros [H1 H2]. split; split.
    + intros f w X k e kw cs. rewrite look by eauto. f_equal. apply good_meet. intros h hh.
      specialize (H1 f w X k h e kw cs hh). apply andb_true_iff in H1. tauto.
    + intros p h pw hh. specialize (H2 p h pw hh). apply andb_true_iff in H2. tauto.
    + intros f w X k e kw cs. rewrite look by eauto. f_equal. apply good_meet. intros h hh.
      specialize (H1 f w X k h e kw cs hh). apply andb_true_iff in H1. tauto.
    + intros p h pw hh. specialize (H2 p h pw hh). apply andb_true_iff in H2. tauto.
Qed.

(** If sampling stops early, the returned samples of all parameters meet the criteria, and there are at least min_iter
    of them; for the log-densities this holds of all samples so far, of which those returned are the second half. *)
Theorem C105_stopped_partial type split_idx forms (inits : list (cst A)) :
  (forall c it st mj s, length (fst (advance c it st mj s)) = st) -> n_scale = 0 \/ n_theta = 0 ->
  let r := sample A zero mean n_coef n_scale n_theta n_lam sample_rho auto has_arviz n_iter n_steps min_iter M_adapt max_j max_j_adapt advance
             (decide type split_idx forms) inits in
  (forall rows, In rows (lps A r) -> length rows = n_iter) \/
  (auto = true /\ (forall rows, In rows (lps A r) -> min_iter <= length rows) /\
   exists all, decide type split_idx forms (Samples A all (coefs A r) (lscales A r) (thetas A r) (rhos A r)) = true /\
     lps A r = map (fun rows => skipn (length rows / 2) rows) all).
Proof.
  intros len one. cbv zeta. set (criteria := decide type split_idx forms).
  destruct (sample_runs A zero mean n_coef n_scale n_theta n_lam sample_rho auto has_arviz n_iter n_steps min_iter M_adapt max_j max_j_adapt advance criteria len one inits)
    as [s1 [c1 [r1 [lo [hi [_ [_ [o1 [L1 [E1 D1]]]]]]]]]].
  rewrite E1. destruct D1 as [[-> ->]|[D1 [-> [D3 [D4 [D5 D6]]]]]]; [left|right].
  - intros rows i. cbn [shown lps] in i. unfold traces in i. apply in_map_iff in i. destruct i as [r [<- i]].
    rewrite map_length, firstn_length, skipn_length, (L1 _ i). lia.
  - split; auto. assert (h := Nat.div_mod hi 2 ltac:(lia)). assert (h2 := Nat.mod_upper_bound hi 2 ltac:(lia)). split.
    + intros rows i. cbn [shown lps] in i. unfold traces in i. apply in_map_iff in i. destruct i as [r [<- i]].
      rewrite map_length, firstn_length, skipn_length, (L1 _ i). lia.
    + exists (traces A (llk_part A) 0 hi r1). split; [exact D6|]. cbn [shown lps]. unfold traces. rewrite map_map. apply map_ext_in.
      intros r i. rewrite Nat.sub_0_r. cbn [skipn]. rewrite map_length, firstn_length, (L1 _ i), Nat.min_id.
      rewrite (firstn_all2 (n := hi)) by (rewrite (L1 _ i); auto). rewrite firstn_all2 by (rewrite skipn_length, (L1 _ i); auto).
      symmetry. apply skipn_map.
Qed.
End Convergence.

(** ** Cases *)

(** A chain on the natural numbers: chain c moves by c + 1 in every step; the log-density of x is x * x. *)
Fixpoint walk (c st x : nat) : list (nat * list nat) :=
  match st with 0 => [] | S st => let y := x + c + 1 in (y * y, [y]) :: walk c st y end.
Definition walker (c it st mj : nat) (s : cst nat) : block nat :=
  (walk c st (nth 0 (omega _ s) 0), (epsilon _ s, epsilonbar _ s, Hbar _ s)).

Lemma walk_length c st x : length (walk c st x) = st.
Proof. revert x. induction st as [|st ih]; intros x; simpl; auto. Qed.

Lemma walk_app c a b : forall x d, nth 0 (snd d) 0 = x -> walk c (a + b) x = walk c a x ++ walk c b (nth 0 (snd (last (walk c a x) d)) 0).
Proof.
  induction a as [|a ih]; intros x d e; [cbn [walk Nat.add app last]; now rewrite e|].
  cbn [walk Nat.add app]. f_equal. set (y := x + c + 1). rewrite (ih y (y * y, [y]) eq_refl). f_equal.
  destruct (walk c a y) as [|p l]; [reflexivity|]. do 3 f_equal.
  change (last ((y * y, [y]) :: p :: l) d) with (last (p :: l) d).
  revert p. induction l as [|q l il]; intros p; [reflexivity|]. exact (il q).
Qed.

(** All hypotheses of C104_rows, C104_steps and C106_common can hold at once. *)
Example C104_case : (forall c it st mj s, length (fst (walker c it st mj s)) = st) /\ splits nat walker /\
  (forall c it st s rows e eb h, epsilon _ s = epsilonbar _ s -> walker c it st 3 s = (rows, (e, eb, h)) -> e = epsilon _ s /\ eb = epsilon _ s).
Proof.
  split; [intros; apply walk_length|]. split.
  - intros c it mj s. split; [reflexivity|]. intros a b rows e eb h a0 [= <- <- <- <-]. cbv zeta.
    unfold walker. cbn [omega fst snd epsilon epsilonbar Hbar]. f_equal.
    rewrite (walk_app c a b (nth 0 (omega _ s) 0) (cL _ s, omega _ s) eq_refl). reflexivity.
  - intros c it st s rows e eb h q [= _ <- <- _]. auto.
Qed.

(** Two chains, a warm-up of 3 steps and 5 samples in calls of 2 steps. *)
Example C104_ex : let s := Cst nat 0 [0] 1 1 0 in
  coefs nat (sample nat 0 (fun _ => 7) 1 0 0 0 false false true 5 2 1 3 4 4 walker (fun _ => true) [s; s])
  = [[[4]; [5]; [6]; [7]; [8]]; [[8]; [10]; [12]; [14]; [16]]].
Proof. reflexivity. Qed.

(** ** Refutations *)

(** How often a trace moves. *)
Fixpoint moves (l : list nat) : nat :=
  match l with a :: ((b :: _) as l) => (if Nat.eqb a b then 0 else 1) + moves l | _ => 0 end.
Definition enough (h : list (list nat)) : bool := 3 <=? list_sum (map moves h).

(** A chain whose density does not change after the first six steps. *)
Definition ridge (c it st mj : nat) (s : cst nat) : block nat :=
  (map (fun i => (Nat.min (it + i) 6, [it + i])) (seq 1 st), (0, 0, 0)).

(** Sampling stops because the traces move often enough, but the returned trace of the log-density does not move: the
    criterion was evaluated for the log-densities of all steps. *)
Theorem C105_density_refuted : exists (advance : nat -> nat -> nat -> nat -> cst nat -> block nat) (good : list (list nat) -> bool) (inits : list (cst nat)) n_iter,
  (forall c it st mj s, length (fst (advance c it st mj s)) = st) /\
  let decide := decide nat 0 1 0 0 0 good good 0 [] [] in
  let r := sample nat 0 (fun _ => 0) 1 0 0 0 false true true n_iter 12 1 0 5 5 advance decide inits in
  (forall rows, In rows (lps nat r) -> length rows < n_iter) /\ decide r = false /\ ~ all_meet nat 0 good 1 (lps nat r).
Proof.
  exists ridge, enough, [Cst nat 0 [0] 0 0 0], 24. split; [intros; unfold ridge; cbn [fst]; now rewrite map_length, seq_length|].
  cbv zeta. match goal with |- context [decide _ _ _ _ _ _ _ _ _ _ _ ?x = false] => set (r := x) end.
  assert (e : lps nat r = [[[6]; [6]; [6]; [6]; [6]; [6]]]) by reflexivity.
  split; [rewrite e; intros rows [<-|[]]; simpl; lia|]. split; [reflexivity|].
  rewrite e. intros H. specialize (H 0 [[6; 6; 6]; [6; 6; 6]] ltac:(lia)). assert (q : enough [[6; 6; 6]; [6; 6; 6]] = true); [|discriminate].
  apply H. unfold trace_of. simpl. apply (halved_even nat [6;6;6] [6;6;6] [] []); [reflexivity|constructor].
Qed.

(** The hypotheses of the theorems on stopping: sampling stops after 12 of 24 steps, for good traces. *)
Definition climb (c it st mj : nat) (s : cst nat) : block nat :=
  (map (fun i => (it + i, [it + i])) (seq 1 st), (0, 0, 0)).
Example C105_case : let decide := decide nat 0 1 0 0 0 enough enough 0 [] [] in
  let r := sample nat 0 (fun _ => 0) 1 0 0 0 false true true 24 12 1 0 5 5 climb decide [Cst nat 0 [0] 0 0 0] in
  (forall c it st mj s, length (fst (climb c it st mj s)) = st) /\
  coefs nat r = [[[7]; [8]; [9]; [10]; [11]; [12]]] /\ decide r = true.
Proof. split; [intros; unfold climb; cbn [fst]; now rewrite map_length, seq_length|]. split; reflexivity. Qed.

(** Two formulas, an intercept and a column that is not selected each: the second coefficients are not monitored. *)
Example C105_selected_case :
  let forms := [(2, [[1%Z; 0%Z]; [1%Z; 0%Z]]); (2, [[1%Z; 0%Z]; [1%Z; 0%Z]])] in
  let sm := Samples nat [[[1]; [2]; [3]; [4]; [5]; [6]]] [[[1; 1; 1; 1]; [2; 1; 2; 1]; [3; 1; 3; 1]; [4; 1; 4; 1]; [5; 1; 5; 1]; [6; 1; 6; 1]]] None None None in
  4 = list_sum (map fst forms) /\ decide nat 0 4 0 0 0 enough enough 1 (cuts 0 (map fst forms)) forms sm = true /\
  decide nat 0 4 0 0 0 enough enough 0 (cuts 0 (map fst forms)) forms sm = false.
Proof. split; [reflexivity|split; reflexivity]. Qed.

(** A model with one coefficient, that of a centred covariate: with convergence_type 1 it is not monitored, although
    it is a fixed effect. *)
Theorem C105_selected_refuted : exists (X : list (list Z)) (good : list (list nat) -> bool) (sm : samples nat),
  (forall row, In row X -> length row = 1) /\ (exists row, In row X /\ nth 0 row 0%Z <> 0%Z) /\
  decide nat 0 1 0 0 0 good good 1 [] [(1, X)] sm = true /\ ~ all_meet nat 0 good 1 (coefs nat sm).
Proof.
  exists [[-1]; [1]]%Z, enough, (Samples nat [[[1]; [2]; [3]; [4]; [5]; [6]]] [[[1]; [1]; [1]; [1]; [1]; [1]]] None None None).
  split; [intros row [<-|[<-|[]]]; reflexivity|]. split; [exists [-1]%Z; split; [now left|discriminate]|]. split; [reflexivity|].
  intros H. specialize (H 0 [[1; 1; 1]; [1; 1; 1]] ltac:(lia)). assert (q : enough [[1; 1; 1]; [1; 1; 1]] = true); [|discriminate].
  apply H. unfold trace_of. simpl. apply (halved_even nat [1;1;1] [1;1;1] [] []); [reflexivity|constructor].
Qed.

From Verif Require Import NutsModel NutsSpec NutsProofs NutsProofs5 NutsProps.

(** Without a warm-up the step size that was searched for is used for one step only; from then on it is 1 (the
    initial value of epsilonbar, mcmc.py:1116), whatever the density. *)
Theorem C106_no_warm_up_refuted : exists n Minv llk grad x r e,
  find_reasonable_epsilon n Minv llk grad 1 x r (llk x) = Some e /\ e <> 1%R /\
  forall max_j mu delta kappa gamma t0 junk d draws,
    always (fun out => eps (snd out) = 1%R)
      (advance_chain n Minv llk grad 0 max_j mu delta kappa gamma t0 junk (d :: draws) (Chain 0 (llk x) x e 1 0)).
Proof.
  exists 1, one, steep, flat_grad, (fun _ => 0%R), (fun _ => 1%R), (1 / 10 * / 2)%R.
  split; [exact C96_ex|]. split; [lra|]. intros max_j mu delta kappa gamma t0 junk [r0 e0] draws.
  cbn [advance_chain]. rewrite always_bind. apply always_true. intros s. rewrite always_bind.
  set (c' := adapt _ _ _ _ _ _ _ _ _).
  assert (F := advance_frozen 1 one steep flat_grad 0 max_j mu delta kappa gamma t0 junk draws c' (Nat.le_0_l _) eq_refl).
  revert F. apply always_impl. intros [l cc]. cbn [always fst snd]. intros [h _]. rewrite h. reflexivity.
Qed.

Print Assumptions C104_rows.
Print Assumptions C104_steps.
Print Assumptions C105_all.
Print Assumptions C105_selected_partial.
Print Assumptions C105_stopped_partial.
Print Assumptions C105_density_refuted.
Print Assumptions C105_selected_refuted.
Print Assumptions C106_common.
Print Assumptions C106_no_warm_up_refuted.
