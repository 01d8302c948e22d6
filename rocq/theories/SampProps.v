(** Theorems about sampled update vectors and restarts (C149-C152). *)
From Coq Require Import String.
From Coq Require Import List Arith Bool Reals Lra Lia Sorted.
From Verif Require Import Ext StepModel StepSpec StepProofs SampModel SampSpec SampProofs.
Import ListNotations.
Local Open Scope R_scope.

(** ** C149: pairs *)

(** The radius handed to the draws. *)
Notation the_radius llk quad_S LVt z coef kw :=
  (adapted llk quad_S LVt z coef (or_else (k_r kw) 10) (or_else (k_T kw) 1) (or_else (k_delta kw) (80 / 100))
           (or_else (k_adapt kw) true) (or_else (k_Madapt kw) 100%nat)).

(** Version 1: the pairs belong to different draws made after the adaptation, in their order; each step is the radius
    times the draw, each difference the change of the gradient along it, each factor its inverse product; the number
    of updates is their number and there are at most n_samples (maxcor without that option).  If no pair is refused by
    the test, every draw with a nonzero product is used. *)
Theorem C149_pairs : forall grad llk quad_S LVt z test_SR1 coef pearl maxcor kw,
  let n := or_else (k_n kw) maxcor in
  let from := if or_else (k_adapt kw) true then or_else (k_Madapt kw) 100%nat else 0%nat in
  let r := the_radius llk quad_S LVt z coef kw in
  exists m u ks,
    sample_ys_qefs grad llk quad_S LVt z test_SR1 coef pearl maxcor 0 kw = Some (m, u) /\
    u = length ks /\ (u <= n)%nat /\
    StronglySorted lt ks /\ Forall (fun k => from <= k < from + n)%nat ks /\
    m_s m = map (fun k => times_vec r (LVt (z k))) ks /\
    Forall2 (curvature_pair grad coef) (m_s m) (m_y m) /\
    m_rho m = map (fun sy => / inner (snd sy) (fst sy)) (combine (m_s m) (m_y m)) /\
    Forall2 (fun s y => inner y s <> 0) (m_s m) (m_y m) /\
    ((forall a b c d e f, test_SR1 a b c d e f = false) ->
     forall k, (from <= k < from + n)%nat ->
       let s := times_vec r (LVt (z k)) in
       inner (minus_vec (grad (minus_vec coef s)) (grad coef)) s <> 0 -> In k ks).
Proof.
  intros grad llk quad_S LVt z test_SR1 coef pearl maxcor kw n from r.
  destruct (sample_loop_spec grad LVt z test_SR1 coef r n n from (mkMem [] [] []) 0 [])
    as [ks (A1 & A2 & A3 & A4 & A5 & A6)]; try (constructor; fail); try reflexivity.
  { repeat split. }
  cbn [app] in *.
  destruct (sample_loop grad LVt z test_SR1 coef r n n from (mkMem [] [] []) 0) as [m u] eqn:E.
  cbn [fst snd] in *. exists m, u, ks. destruct A1 as (Hs & Hy & Hr).
  assert (LEN : (length ks <= n)%nat).
  { assert (I : incl ks (seq from n)).
    { intros j J. rewrite Forall_forall in A4. apply in_seq. now apply A4. }
    rewrite <- (seq_length n from). apply NoDup_incl_length; [|exact I].
    clear - A3. induction A3 as [|a l S IH F]; constructor; auto.
    intros J. rewrite Forall_forall in F. specialize (F a J). lia. }
  split; [|split; [exact A2|split; [lia|split; [exact A3|split; [exact A4|split; [exact Hs|split; [|split; [|split]]]]]]]].
  - unfold sample_ys_qefs. fold n. fold r. fold from. now rewrite E.
  - rewrite Hs, Hy. clear. induction ks; constructor; auto. reflexivity.
  - rewrite Hs, Hy, Hr. clear. induction ks as [|k ks IH]; [reflexivity|]. cbn. now rewrite IH.
  - rewrite Hs, Hy. clear - A5. induction ks; constructor; inversion A5; auto.
  - intros T k K NZ. apply A6; auto.
Qed.
Print Assumptions C149_pairs.

(** For a quadratic log-likelihood the differences are the negative Hessian times the steps. *)
Theorem C149_quadratic : forall grad A llk quad_S LVt z test_SR1 coef pearl maxcor kw m u,
  quadratic (length coef) grad A ->
  (forall k, length (LVt (z k)) = length coef) ->
  sample_ys_qefs grad llk quad_S LVt z test_SR1 coef pearl maxcor 0 kw = Some (m, u) ->
  m_y m = map A (m_s m).
Proof.
  intros grad A llk quad_S LVt z test_SR1 coef pearl maxcor kw m u Q L E.
  destruct (C149_pairs grad llk quad_S LVt z test_SR1 coef pearl maxcor kw)
    as (m' & u' & ks & E' & _ & _ & _ & _ & Hs & Hy & _).
  rewrite E in E'. injection E' as <- <-. 
  assert (LS : Forall (fun s => length s = length coef) (m_s m)).
  { rewrite Hs. apply Forall_forall. intros s I. apply in_map_iff in I as (k & <- & _).
    rewrite <- vscale_times. unfold vscale. now rewrite map_length. }
  clear - Q LS Hy. induction Hy as [|s y ss yy H Hy IH]; [reflexivity|].
  inversion LS; subst. cbn [map]. rewrite <- IH by assumption. f_equal. rewrite H. now apply Q.
Qed.
Print Assumptions C149_quadratic.

(** Version 2: steps are draws, differences what the finite differencing of the gradient along them gives. *)
Theorem C149_second : forall grad llk quad_S LVt z test_SR1 coef pearl maxcor kw,
  accepted_keys (k_keys kw) = true ->
  (forall k, inner (pearl (z k)) (z k) <> 0) ->
  exists m u ks,
    sample_ys_qefs grad llk quad_S LVt z test_SR1 coef pearl maxcor 1 kw = Some (m, u) /\
    u = length ks /\ (u <= maxcor)%nat /\ StronglySorted lt ks /\ Forall (fun k => k < maxcor)%nat ks /\
    m_s m = map z ks /\ m_y m = map pearl (m_s m) /\
    m_rho m = map (fun s => / inner (pearl s) s) (m_s m) /\
    ((forall a b c d e f, test_SR1 a b c d e f = false) -> forall k, (k < maxcor)%nat -> In k ks).
Proof.
  intros grad llk quad_S LVt z test_SR1 coef pearl maxcor kw K _.
  destruct (pearl_loop_spec z test_SR1 pearl maxcor maxcor 0 (mkMem [] [] []) 0 [])
    as [ks (A1 & A2 & A3 & A4 & A6)]; try (constructor; fail); try reflexivity.
  { repeat split. } 
  cbn [app] in *.
  destruct (pearl_loop z test_SR1 pearl maxcor maxcor 0 (mkMem [] [] []) 0) as [m u] eqn:E.
  cbn [fst snd] in *. exists m, u, ks. destruct A1 as (Hs & Hy & Hr).
  assert (LEN : (length ks <= maxcor)%nat).
  { assert (I : incl ks (seq 0 maxcor)).
    { intros j J. rewrite Forall_forall in A4. apply in_seq. specialize (A4 j J). lia. }
    rewrite <- (seq_length maxcor 0). apply NoDup_incl_length; [|exact I].
    clear - A3. induction A3 as [|a l S IH F]; constructor; auto.
    intros J. rewrite Forall_forall in F. specialize (F a J). lia. }
  split; [|split; [exact A2|split; [lia|split; [exact A3|split; [|split; [exact Hs|split; [|split]]]]]]].
  - unfold sample_ys_qefs. destruct maxcor; [exact (f_equal Some E)|]. rewrite K. now rewrite E.
  - eapply Forall_impl; [|exact A4]. cbn. intros. lia.
  - now rewrite Hs, Hy, map_map.
  - now rewrite Hs, Hr, map_map.
  - intros T k L. apply A6; auto. lia.
Qed.
Print Assumptions C149_second.

(** One coefficient, log-likelihood -x^2: two draws of 1 and 3 with radius 2 and no adaptation. *)
Example C149_case :
  let kw := mkKw (Some 2) (Some false) None None None (Some 2%nat) [] in
  sample_ys_qefs (times_vec (-2)) (fun _ => Fin 0) (fun _ => 0) (fun v => v)
    (fun k => [INR (1 + 2 * k)]) (fun _ _ _ _ _ _ => false) [0] (fun v => v) 1 0 kw
  = Some (mkMem [[4]; [12]] [[2]; [6]] [/ 8; / 72], 2%nat).
Proof.
  cbv zeta. unfold sample_ys_qefs. cbn [or_else k_adapt k_Madapt k_n k_r k_T k_delta k_keys adapted].
  cbn [sample_loop]. unfold update_ys_qefs, vscale, vsub, dot.
  cbn [map combine fst snd times_vec fold_right]. 
  replace (INR (1 + 2 * 0)) with 1 by (cbn; ring). replace (INR (1 + 2 * 1)) with 3 by (cbn; ring).
  destruct (Req_EM_T _ 0) as [E|E]; [exfalso; lra|]. cbn [orb].
  destruct (Req_EM_T _ 0) as [E2|E2]; [exfalso; lra|]. cbn [orb].
  unfold mem_add. cbn [m_s m_y m_rho length app Nat.ltb Nat.leb].
  repeat first [f_equal; try lra].
Qed.

(** ** C150: the radius *)

(** Dual averaging: the radius is the averaged radius of Hoffman and Gelman for the acceptance rates at the draws, each
    at the radius that belongs to the rates before; the rates are those of Metropolis wherever these are defined. *)
Theorem C150_radius : forall llk quad_S LVt z coef init_r T delta Madapt,
  let pen := penalised llk quad_S in
  let log_r := hg_log (ln (10 * init_r)) (5 / 100) 10 delta in
  exists alphas, length alphas = Madapt /\
    adapted llk quad_S LVt z coef init_r T delta true Madapt
      = exp (hg_log_bar (ln (10 * init_r)) (5 / 100) 10 (75 / 100) delta (rev alphas)) /\
    forall j, (j < Madapt)%nat ->
      let r := match j with O => init_r | _ => exp (log_r (rev (firstn j alphas))) end in
      forall a, metropolis T (pen coef) (pen (minus_vec coef (times_vec r (LVt (z j))))) = Some a ->
        nth j alphas 0 = a.
Proof.
  intros llk quad_S LVt z coef init_r T delta Madapt pen log_r.
  destruct (adapted_follows llk quad_S LVt z coef init_r T delta Madapt) as (al & L & E & A).
  exists al. split; [exact L|split; [exact E|]].
  intros j J r a M. rewrite (A j J). apply acceptance_metropolis.
  assert (PE : forall c, pen_llk llk quad_S c = pen c).
  { intros c. unfold pen, penalised, pen_llk, eadd. destruct (llk c); try reflexivity. f_equal. lra. }
  rewrite !PE.
  replace (radius_after init_r delta (rev (firstn j al))) with r; [exact M|].
  unfold r, radius_after. destruct j as [|j]; [reflexivity|].
  destruct al as [|x al]; [cbn in L; lia|]. cbn [firstn rev].
  destruct (rev (firstn j al) ++ [x]) eqn:Q; [|reflexivity]. destruct (rev (firstn j al)); discriminate.
Qed.
Print Assumptions C150_radius.

(** Without adaptation it is the one given. *)
Theorem C150_given : forall llk quad_S LVt z coef init_r T delta Madapt,
  adapted llk quad_S LVt z coef init_r T delta false Madapt = init_r.
Proof. reflexivity. Qed.
Print Assumptions C150_given.

(** If every draw has log-likelihood minus infinity the radius stays below ten times the initial one. *)
Theorem C150_impossible : forall llk quad_S LVt z coef init_r T delta Madapt p,
  0 < init_r -> 0 < delta -> (1 <= Madapt)%nat ->
  llk coef = Fin p ->
  (forall r k, 0 < r -> llk (minus_vec coef (times_vec r (LVt (z k)))) = MInf) ->
  adapted llk quad_S LVt z coef init_r T delta true Madapt < 10 * init_r.
Proof.
  intros llk quad_S LVt z coef init_r T delta Madapt p I D M P H.
  destruct (adapted_const llk quad_S LVt z coef init_r T delta 0 Madapt I) as (al & L & C & ->).
  { intros r k R0 K. apply acceptance_metropolis. unfold pen_llk. rewrite P, (H r k R0). reflexivity. }
  rewrite <- (exp_ln (10 * init_r)) at 2 by lra. apply exp_increasing.
  apply hg_log_bar_below; auto. intros ->. cbn in L. lia.
Qed.
Print Assumptions C150_impossible.

(** Finding: a draw at which the likelihood is undefined counts as accepted.  However many such draws there are, the
    radius ends up larger than ten times the initial one. *)
Theorem C150_undefined_refuted :
  exists llk quad_S LVt z coef,
    a_number (llk coef) /\
    (forall r k, 0 < r -> llk (minus_vec coef (times_vec r (LVt (z k)))) = NaN) /\
    forall init_r T delta Madapt, 0 < init_r -> 0 < T -> 0 < delta < 1 -> (1 <= Madapt)%nat ->
      10 * init_r < adapted llk quad_S LVt z coef init_r T delta true Madapt.
Proof.
  exists (fun c => match c with [x] => if Req_EM_T x 0 then Fin 0 else NaN | _ => NaN end).
  exists (fun _ => 0), (fun v => v), (fun _ => [1]), [0].
  assert (N : forall r (k : nat), 0 < r -> (match minus_vec [0] (times_vec r [1]) with
             | [x] => if Req_EM_T x 0 then Fin 0 else NaN | _ => NaN end) = NaN).
  { intros r k R0. cbn. destruct (Req_EM_T (0 - r * 1) 0); [lra|reflexivity]. }
  split; [|split].
  - destruct (Req_EM_T 0 0); [exact I|congruence].
  - exact N.
  - intros init_r T delta Madapt I T0 D M.
    match goal with |- _ < adapted ?l ?q ?v ?zz ?c _ _ _ _ _ =>
      destruct (adapted_const l q v zz c init_r T delta 1 Madapt I) as (al & L & C & ->) end.
    { intros r k R0 K. apply acceptance_nan. unfold pen_llk. rewrite (N r k R0). reflexivity. }
    rewrite <- (exp_ln (10 * init_r)) at 1 by lra. apply exp_increasing.
    apply hg_log_bar_above; [|apply D|exact C]. intros ->. cbn in L. lia.
Qed.
Print Assumptions C150_undefined_refuted.

(** Draws that all have the likelihood of the estimate: after one step the radius is above ten times the initial one. *)
Example C150_case :
  metropolis 1 (Fin 0) (Fin 0) = Some 1 /\ metropolis 1 (Fin 0) MInf = Some 0 /\
  hg_log (ln (10 * 10)) (5 / 100) 10 (80 / 100) [1] = ln 100 + 4 / 11 /\
  hg_log (ln (10 * 10)) (5 / 100) 10 (80 / 100) [0] = ln 100 - 16 / 11.
Proof.
  unfold metropolis, hg_log, hg_average. cbn [length INR]. rewrite sqrt_1.
  replace ((0 - 0) / 1) with 0 by lra. rewrite exp_0, Rmin_left by lra.
  replace (10 * 10) with 100 by ring. repeat split; lra.
Qed.

(** ** C151: options of the second version *)

(** Called with options of the finite differencing only it runs. *)
Theorem C151_direct : forall grad llk quad_S LVt z test_SR1 coef pearl maxcor kw,
  (forall k, In k (k_keys kw) -> In k ["tolerances"; "maxiter"; "order"; "initial_step"; "step_factor"; "step_direction"]%string) ->
  exists m u, sample_ys_qefs grad llk quad_S LVt z test_SR1 coef pearl maxcor 1 kw = Some (m, u) /\ (u <= maxcor)%nat.
Proof.
  intros grad llk quad_S LVt z test_SR1 coef pearl maxcor kw H.
  assert (K : accepted_keys (k_keys kw) = true).
  { unfold accepted_keys. apply forallb_forall. intros k I. apply existsb_exists. exists k. split; [now apply H|apply String.eqb_refl]. }
  unfold sample_ys_qefs. destruct maxcor as [|n]; [exists (mkMem [] [] []), 0%nat; auto|]. rewrite K.
  destruct (pearl_loop_spec z test_SR1 pearl (S n) (S n) 0 (mkMem [] [] []) 0 [])
    as [ks (A1 & A2 & A3 & A4 & A6)]; try (constructor; fail); try reflexivity.
  { repeat split. }
  destruct (pearl_loop z test_SR1 pearl (S n) (S n) 0 (mkMem [] [] []) 0) as [m u]. exists m, u. split; [reflexivity|].
  cbn [fst snd app] in A2, A3, A4. rewrite A2.
  assert (IN : incl ks (seq 0 (S n))).
  { intros j J. rewrite Forall_forall in A4. apply in_seq. specialize (A4 j J). lia. }
  rewrite <- (seq_length (S n) 0). apply NoDup_incl_length; [|exact IN].
  clear - A3. induction A3 as [|a l S IH F]; constructor; auto.
  intros J. rewrite Forall_forall in F. specialize (F a J). lia.
Qed.
Print Assumptions C151_direct.

(** Finding: fitting adds the option n_samples, which the finite differencing does not know, so the second version
    fails whatever options the user gives. *)
Theorem C151_fit_refuted :
  exists method, method = 1%nat /\ forall user grad llk quad_S LVt z test_SR1 coef pearl maxcor N_u N_b, (1 <= maxcor)%nat ->
      sample_ys_qefs grad llk quad_S LVt z test_SR1 coef pearl maxcor method (from_fit user N_u N_b) = None.
Proof.
  exists 1%nat. split; [reflexivity|]. intros user grad llk quad_S LVt z test_SR1 coef pearl maxcor N_u N_b M. destruct maxcor as [|n]; [lia|].
  assert (K : In "n_samples"%string (k_keys (from_fit user N_u N_b))).
  { unfold from_fit. set (kw := match user with Some kw => kw | None => _ end). clearbody kw.
    destruct (existsb (String.eqb "n_samples") (k_keys kw)) eqn:E.
    - apply existsb_exists in E as (k & I & E). apply String.eqb_eq in E. now subst k.
    - cbn [k_keys]. apply in_or_app. right. now left. }
  unfold sample_ys_qefs.
  assert (F : accepted_keys (k_keys (from_fit user N_u N_b)) = false).
  { destruct (accepted_keys _) eqn:E; [|reflexivity]. unfold accepted_keys in E. rewrite forallb_forall in E.
    specialize (E _ K). discriminate. }
  rewrite F. reflexivity.
Qed.
Print Assumptions C151_fit_refuted.

(** The first version receives what the user gave. *)
Theorem C151_passed : forall kw N_u N_b,
  let kw' := from_fit (Some kw) N_u N_b in
  k_r kw' = k_r kw /\ k_adapt kw' = k_adapt kw /\ k_T kw' = k_T kw /\ k_Madapt kw' = k_Madapt kw /\
  k_delta kw' = k_delta kw /\
  (In "n_samples"%string (k_keys kw) -> k_n kw' = k_n kw) /\ (~ In "n_samples"%string (k_keys kw) -> k_n kw' = Some N_u).
Proof.
  intros kw N_u N_b. cbv zeta. unfold from_fit.
  destruct (existsb (String.eqb "n_samples") (k_keys kw)) eqn:E; cbn; repeat split; auto; intros H; exfalso.
  - apply existsb_exists in E as (k & I & E). apply String.eqb_eq in E. subst k. contradiction.
  - assert (X : existsb (String.eqb "n_samples") (k_keys kw) = true).
    { apply existsb_exists. eexists. split; [exact H|]. apply String.eqb_refl. }
    congruence.
Qed.
Print Assumptions C151_passed.

Example C151_case :
  k_keys (from_fit None 3 4) = ["delta"; "n_samples"]%string /\
  accepted_keys ["order"; "maxiter"]%string = true /\ accepted_keys ["delta"]%string = false.
Proof. repeat split. Qed.

(** ** C152: restarts of a general model *)

(** Either all of the 30 mixtures tried have no finite penalised log-likelihood and nothing is changed, or the first one
    that has is returned, together with its own likelihood and penalised likelihood. *)
Theorem C152_restart : forall llk quad_S rvs coef c_llk c_pen outer restarts,
  let w := if (outer <=? 10)%nat then 1 / 2 else 1 - / (INR restarts + 2) in
  let tried k := mixed w coef (rvs (outer + k)%nat) in
  let pen c := eadd (llk c) (- (1 / 2 * quad_S c)) in
  (restart_coef llk quad_S rvs coef c_llk c_pen outer restarts = (coef, c_llk, c_pen) /\
     forall k, (k < 30)%nat -> ~ a_number (pen (tried k))) \/
  (exists k, (k < 30)%nat /\ (forall j, (j < k)%nat -> ~ a_number (pen (tried j))) /\
     a_number (pen (tried k)) /\
     restart_coef llk quad_S rvs coef c_llk c_pen outer restarts = (tried k, llk (tried k), pen (tried k))).
Proof.
  intros llk quad_S rvs coef c_llk c_pen outer restarts w tried pen.
  assert (W : w = 1 - res_scale outer restarts).
  { unfold w, res_scale. destruct (outer <=? 10)%nat; [lra|]. rewrite plus_INR. cbn [INR]. unfold Rdiv. 
    replace (1 + 1) with 2 by ring. ring. }
  unfold tried. rewrite W. apply restart_loop_spec.
Qed.
Print Assumptions C152_restart.

(** The weight of the estimate grows with the number of restarts and is always below 1. *)
Theorem C152_weight : forall outer restarts,
  0 < res_scale outer restarts <= 1 / 2 /\
  ((10 < outer)%nat -> res_scale outer (S restarts) < res_scale outer restarts).
Proof.
  intros outer restarts. unfold res_scale. assert (P := pos_INR restarts).
  split.
  - destruct (outer <=? 10)%nat; [lra|]. rewrite plus_INR. cbn [INR]. split.
    + apply Rdiv_lt_0_compat; lra.
    + unfold Rdiv. rewrite !Rmult_1_l. apply Rinv_le_contravar; lra.
  - intros H. destruct (Nat.leb_spec outer 10); [lia|]. rewrite !plus_INR, S_INR. cbn [INR].
    unfold Rdiv. rewrite !Rmult_1_l. apply Rinv_lt_contravar; [|lra].
    apply Rmult_lt_0_compat; lra.
Qed.
Print Assumptions C152_weight.

(** Likelihood undefined for negative coefficients; the first numbers are negative, the second ones are not. *)
Example C152_case :
  let llk c := match c with [x] => if Rlt_dec x 0 then NaN else Fin x | _ => NaN end in
  let rvs k := match k with O => [-3] | _ => [1] end in
  restart_coef llk (fun _ => 0) rvs [1] NaN NaN 0 0
  = (mixed (1 / 2) [1] [1], Fin 1, Fin 1).
Proof.
  cbv zeta. unfold restart_coef. cbn [restart_loop].
  rewrite !vadd_mixed. cbn [mixed].
  change (res_scale 0 0) with (1 / 2).
  destruct (Rlt_dec _ 0) as [L|L]; [|exfalso; apply L; lra]. cbn [eadd isinf isnan orb].
  destruct (Rlt_dec _ 0) as [L2|L2]; [exfalso; lra|]. cbn [eadd isinf isnan orb].
  replace ((1 - 1 / 2) * 1 + (1 - (1 - 1 / 2)) * 1) with 1 by lra.
  replace (1 / 2 * 1 + (1 - 1 / 2) * 1) with 1 by lra. replace (1 + - (1 / 2 * 0)) with 1 by lra. reflexivity.
Qed.
