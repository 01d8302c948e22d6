(** C117-C119: estimating the coefficients of models with several parameters. *)

From Coq Require Import List Bool Arith ZArith Reals Lra Lia.
From Verif Require Import Ext StepModel StepSpec AsmModel AsmSpec UpdModel UpdSpec UpdProofs UpdProofs2 UpdProofs3.
Import ListNotations.
Local Open Scope R_scope.

(** ** C117 *)

(** Whatever steps are proposed, accepted, halved or restarted, and whatever coefficients are dropped: pieces, predictors, means,
    log-likelihood and penalised log-likelihood that are returned are those of the returned coefficients in the model with all
    columns, and dropped coefficients are zero. *)
Theorem C117_belongs : forall fi llk y draw close propose identify grad_only identifies outer min_inner max_inner
    Xs (S : nat -> nat -> R) fuel coef mus l keep_drop u,
  let n := fold_right Nat.add 0%nat (map (@length (nat -> R)) Xs) in
  (forall n s, length (draw n s) = n) -> (forall d c m a, length (fst (propose d c m a)) = length c) ->
  Xs <> [] -> length coef = n ->
  (forall keep drop, keep_drop = Some (keep, drop) -> keep = remaining n drop) ->
  update_coef_gammlss fi llk (length Xs) y draw close propose identify grad_only identifies outer min_inner max_inner fuel
    (Design Xs (cuts 0 (map (@length _) Xs)) S) coef mus l keep_drop = Done u ->
  belongs fi llk y Xs S (u_coef u) (u_split u) (u_mus u) (u_etas u) (u_llk u) (u_pen u) /\
  forall keep drop, u_kd u = Some (keep, drop) ->
    keep = remaining n drop /\
    forall k, In k drop -> nth k (u_coef u) 0 = 0.
Proof.
  intros fi llk y draw close propose identify grad_only identifies outer min_inner max_inner Xs S fuel coef mus l kd u n Hd Hp NE Hc Hk E.
  destruct (update_belongs fi llk y draw Hd Xs NE S close propose Hp identify grad_only identifies outer min_inner max_inner fuel coef mus l kd u Hc) as [B Z].
  - destruct kd as [[keep drop]|]; [|exact I]. cbn [kd_ok]. rewrite (Hk keep drop eq_refl). apply remaining_keep.
  - exact E.
  - split; [exact B|]. intros keep drop Ek. unfold n. rewrite remaining_keep. now apply Z.
Qed.

(** The loop ends: twice the number of iterations and two is enough. *)
Theorem C117_terminates : forall fi llk y draw close propose identify grad_only identifies outer min_inner max_inner
    Xs S fuel coef mus l keep_drop, (2 * max_inner + 1 < fuel)%nat ->
  update_coef_gammlss fi llk (length Xs) y draw close propose identify grad_only identifies outer min_inner max_inner fuel
    (Design Xs (cuts 0 (map (@length _) Xs)) S) coef mus l keep_drop <> OutOfFuel.
Proof. intros. now apply update_terminates. Qed.

(** Two equal columns: one is dropped, the other takes over. *)
Example C117_case : exists u,
  update_coef_gammlss ident two_means (length three) [0] (fun n _ => repeat 0 n) (within (/ 100)) jump (fun _ _ => [1%nat]) false true 0 5 5 10
    (Design three (cuts 0 (map (@length _) three)) no_penalty) [1; 1; 0] [[Fin 2]; [Fin 0]] (Fin (-1)) None = Done u /\
  u_coef u = [2; 0; 0] /\ u_kd u = Some ([0; 2]%nat, [1%nat]) /\
  (forall n s : nat, length ((fun n (_ : nat) => repeat 0 n) n s) = n) /\ (forall d c m a, length (fst (jump d c m a)) = length c).
Proof.
  destruct (run_drop (/ 100) 5 (fun n _ => repeat 0 n) ltac:(lra)) as (u & E & E1 & E2 & _).
  exists u. split; [exact E|]. split; [exact E1|]. split; [exact E2|]. split; [intros n s; apply repeat_length|].
  intros d c m a. destruct c as [|? [|? [|]]]; reflexivity.
Qed.

(** ** C118 *)

(** With Newton steps and no coefficient dropped the penalised log-likelihood at the returned coefficients is finite and not smaller
    than at those given, or the coefficients have not changed. *)
Theorem C118_not_worse : forall fi llk y draw close propose identify identifies outer min_inner max_inner
    Xs S fuel coef split mus etas l pen u,
  (forall n s, length (draw n s) = n) -> (forall d c m a, length (fst (propose d c m a)) = length c) -> Xs <> [] ->
  belongs fi llk y Xs S coef split mus etas l pen ->
  update_coef_gammlss fi llk (length Xs) y draw close propose identify false identifies outer min_inner max_inner fuel
    (Design Xs (cuts 0 (map (@length _) Xs)) S) coef mus l None = Done u ->
  u_kd u = None ->
  llk_not_worse pen (u_pen u) \/ u_coef u = coef.
Proof.
  intros fi llk y draw close propose identify identifies outer min_inner max_inner Xs S fuel coef split mus etas l pen u Hd Hp NE B E K.
  assert (Hc := proj1 B).
  destruct (belongs_unique fi llk y Xs NE S coef split mus etas l pen B) as (E1 & E2 & E3).
  destruct (update_belongs fi llk y draw Hd Xs NE S close propose Hp identify false identifies outer min_inner max_inner fuel coef mus l None u Hc I E) as [BU _].
  destruct (belongs_unique fi llk y Xs NE S _ _ _ _ _ _ BU) as (_ & _ & F3).
  pose proof (update_better fi llk y draw Hd Xs S close propose Hp identify false identifies outer min_inner max_inner fuel coef mus l u
    eq_refl Hc E1 E2 E K) as [W|W]; [left|now right].
  unfold pen_at in W. rewrite <- E3, <- F3 in W. exact W.
Qed.

Example C118_case : exists u,
  belongs ident quartic [0] one no_penalty [1] [[1]] [[Fin (1 * 1 + 0)]] [[1 * 1 + 0]] (Fin (-2)) (Fin (-2)) /\
  update_coef_gammlss ident quartic (length one) [0] (fun n _ => repeat 0 n) (within (/ 100)) newton4 (fun _ _ => []) false true 1 1 200 3
    (Design one (cuts 0 (map (@length _) one)) no_penalty) [1] [[Fin (1 * 1 + 0)]] (Fin (-2)) None = Done u /\
  u_kd u = None /\ (forall d c m a, length (fst (newton4 d c m a)) = length c) /\ u_coef u <> [1].
Proof.
  destruct (run_early (/ 100) (fun _ _ => []) (fun n _ => repeat 0 n) 0 199 true ltac:(lra)) as (u & E & E1 & E2 & E3).
  exists u. split; [exact start_quartic|]. split; [exact E|]. split; [exact E3|].
  split; [intros; apply map_length|]. rewrite E1. intros C. injection C as C. lra.
Qed.

(** Gradient descent (used before the first smoothing parameter update if prefit_grad) restarts from random coefficients when it has
    converged; with few iterations these are returned, however bad. *)
Theorem C118_restart_refuted : forall tol, 0 < tol <= / 10 ->
  exists llk y draw propose Xs S coef split mus etas l pen u v,
  (forall n s, length (draw n s) = n) /\ (forall d c m a, length (fst (propose d c m a)) = length c) /\
  belongs ident llk y Xs S coef split mus etas l (Fin pen) /\
  update_coef_gammlss ident llk (length Xs) y draw (within tol) propose (fun _ _ => []) true false 0 1 1 3
    (Design Xs (cuts 0 (map (@length _) Xs)) S) coef mus l None = Done u /\
  u_kd u = None /\ u_pen u = Fin v /\ v < pen.
Proof.
  intros tol Ht. destruct (run_restart tol (fun _ _ => []) 1 false Ht) as (u & E & E1 & E2).
  exists quadratic, [0], (fun n _ => repeat 2 n), descend, one, no_penalty, [0], [[0]], [[Fin (1 * 0 + 0)]], [[1 * 0 + 0]], (Fin (-1)), (-1), u.
  eexists. split; [intros; apply repeat_length|]. split; [intros; apply map_length|]. split; [exact start_quadratic|].
  split; [exact E|]. split; [exact E1|]. split; [exact E2|]. lra.
Qed.

(** ** C119 *)

(** The Hessian that is returned was computed from the means of coefficients from which the last step was made: these are not
    better than the returned ones, and the Hessian is that of the returned coefficients if the last step did not change them. *)
Theorem C119_before_last_step : forall fi llk y draw close propose identify identifies outer min_inner max_inner
    Xs S fuel coef split mus etas l pen keep_drop u,
  let n := fold_right Nat.add 0%nat (map (@length (nat -> R)) Xs) in
  (forall n s, length (draw n s) = n) -> (forall d c m a, length (fst (propose d c m a)) = length c) -> Xs <> [] ->
  (forall Xs mus k, In k (identify Xs mus) -> (k < length (concat Xs))%nat) ->
  (forall keep drop, keep_drop = Some (keep, drop) -> keep = remaining n drop) ->
  belongs fi llk y Xs S coef split mus etas l pen ->
  update_coef_gammlss fi llk (length Xs) y draw close propose identify false identifies outer min_inner max_inner fuel
    (Design Xs (cuts 0 (map (@length _) Xs)) S) coef mus l keep_drop = Done u ->
  exists c split' etas' l' pen',
    belongs fi llk y Xs S c split' (snd (u_H u)) etas' l' pen' /\
    (llk_not_worse pen' (u_pen u) \/ (u_coef u = c /\ u_mus u = snd (u_H u))).
Proof.
  intros fi llk y draw close propose identify identifies outer min_inner max_inner Xs S fuel coef split mus etas l pen kd u n Hd Hp NE Hi Hk B E.
  assert (Hc := proj1 B).
  destruct (belongs_unique fi llk y Xs NE S coef split mus etas l pen B) as (E1 & E2 & E3).
  assert (OK : kd_ok Xs kd) by (destruct kd as [[keep drop]|]; [cbn [kd_ok]; rewrite (Hk keep drop eq_refl); apply remaining_keep|exact I]).
  destruct (update_belongs fi llk y draw Hd Xs NE S close propose Hp identify false identifies outer min_inner max_inner fuel coef mus l kd u Hc OK E) as [BU _].
  destruct (belongs_unique fi llk y Xs NE S _ _ _ _ _ _ BU) as (F1 & _ & F3).
  destruct (update_linked fi llk y draw Hd Xs NE S close propose Hp identify false identifies outer min_inner max_inner Hi fuel coef mus l kd u
    eq_refl Hc OK E1 E2 E) as (c & Lc & Em & W).
  pose proof (full_eval_belongs fi llk y Xs NE S c Lc) as BC. cbv zeta in BC.
  exists c. do 4 eexists. split; [rewrite Em; exact BC|].
  destruct W as [W|W]; [left|right].
  - unfold pen_at in W. rewrite <- F3 in W. exact W.
  - split; [exact W|]. now rewrite Em, F1, W.
Qed.

Example C119_case : exists u,
  (forall Xs mus k, In k ((fun (_ : list (list (nat -> R))) (_ : list (list ext)) => @nil nat) Xs mus) -> (k < length (concat Xs))%nat) /\
  belongs ident quartic [0] one no_penalty [1] [[1]] [[Fin (1 * 1 + 0)]] [[1 * 1 + 0]] (Fin (-2)) (Fin (-2)) /\
  update_coef_gammlss ident quartic (length one) [0] (fun n _ => repeat 0 n) (within (/ 100)) newton4 (fun _ _ => []) false true 1 1 200 3
    (Design one (cuts 0 (map (@length _) one)) no_penalty) [1] [[Fin (1 * 1 + 0)]] (Fin (-2)) None = Done u.
Proof.
  destruct (run_early (/ 100) (fun _ _ => []) (fun n _ => repeat 0 n) 0 199 true ltac:(lra)) as (u & E & _).
  exists u. split; [intros Xs mus k []|]. split; [exact start_quartic|]. exact E.
Qed.

(** Any settings, log-likelihood - m^4 - 1 with Newton steps: the coefficients change from t to 2 t / 3 in the last step, the
    Hessian is that of t. *)
Theorem C119_refuted : forall tol identifies outer min_inner max_inner, 0 < tol <= / 10 -> (0 < max_inner)%nat ->
  exists llk y draw propose Xs S coef split mus etas l pen u,
  (forall n s, length (draw n s) = n) /\ (forall d c m a, length (fst (propose d c m a)) = length c) /\
  belongs ident llk y Xs S coef split mus etas l pen /\
  update_coef_gammlss ident llk (length Xs) y draw (within tol) propose (fun _ _ => []) false identifies outer min_inner max_inner 3
    (Design Xs (cuts 0 (map (@length _) Xs)) S) coef mus l None = Done u /\
  snd (u_H u) <> u_mus u.
Proof.
  intros tol ids outer min_inner max_inner Ht Hm. destruct max_inner as [|m]; [lia|].
  destruct (run_converged tol tol (fun n _ => repeat 0 n) outer min_inner m ids Ht ltac:(lra)) as (u & E & E1 & E2 & E3).
  exists quartic, [0], (fun n _ => repeat 0 n), newton4, one, no_penalty. do 6 eexists. exists u.
  split; [intros; apply repeat_length|]. split; [intros; apply map_length|]. split; [exact (start_quartic_at tol)|]. split; [exact E|].
  destruct (update_belongs ident quartic [0] (fun n _ => repeat 0 n) (fun n s => repeat_length 0 n) one ltac:(discriminate) no_penalty (within tol) newton4
    (fun _ _ _ _ => map_length _ _) (fun _ _ => []) false ids outer min_inner (S m) 3 [tol] _ _ None u eq_refl I E) as [(_ & B) _].
  destruct B as (B1 & B2 & B3 & B4 & _). destruct (B4 0%nat ltac:(cbn; lia)) as [G1 G2].
  rewrite E2. cbn [snd]. intros C. rewrite <- C in G2. rewrite G1, B1, E1 in G2. cbn in G2. injection G2 as G2.
  assert (N : -4 * (tol * (tol * (tol * 1))) / (-12 * (tol * (tol * 1))) = tol / 3) by (field; lra). lra.
Qed.

Print Assumptions C117_belongs.
Print Assumptions C117_terminates.
Print Assumptions C118_not_worse.
Print Assumptions C118_restart_refuted.
Print Assumptions C119_before_last_step.
Print Assumptions C119_refuted.
