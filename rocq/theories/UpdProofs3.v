(** Concrete runs for UpdProps. *)

From Coq Require Import List Bool Arith ZArith Reals Lra Lia.
From Verif Require Import Ext StepModel StepSpec StepProofs AsmModel AsmSpec UpdModel UpdSpec UpdProofs UpdProofs2.
Import ListNotations.
Local Open Scope R_scope.

(** |a - b| < tol |a| *)
Definition within (tol : R) (a b : ext) : bool :=
  match a, b with Fin a, Fin b => rltb (Rabs (a - b)) (tol * Rabs a) | _, _ => false end.

Lemma within_same tol a : 0 < tol -> a <> 0 -> within tol (Fin a) (Fin a) = true.
Proof.
  intros H N. apply rltb_true. replace (a - a) with 0 by ring. rewrite Rabs_R0.
  apply Rmult_lt_0_compat; [assumption|]. now apply Rabs_pos_lt.
Qed.

Lemma within_not tol a b : tol <= 1 / 2 -> Rabs a <= 2 * Rabs (a - b) -> within tol (Fin a) (Fin b) = false.
Proof.
  intros H N. apply rltb_false. apply Rle_trans with (1 / 2 * Rabs a); [|lra].
  apply Rmult_le_compat_r; [apply Rabs_pos|assumption].
Qed.

Definition no_penalty : nat -> nat -> R := fun _ _ => 0.
Lemma quad_zero c : quad no_penalty c = 0.
Proof.
  unfold quad, no_penalty.
  assert (Z : forall ks f, (forall k, f k = 0) -> sum_over ks f = 0).
  { intros ks f H. induction ks as [|k ks IH]; cbn; [reflexivity|]. rewrite H, IH. ring. }
  apply Z. intros k. rewrite Z by (intros; ring). ring.
Qed.
Lemma eadd_zero e c : eadd e (- (1 / 2 * quad no_penalty c)) = e.
Proof. rewrite quad_zero. destruct e; cbn; try reflexivity. f_equal. lra. Qed.

Section Accept.
Variables (fi : nat -> R -> ext) (llk : list R -> list (list ext) -> ext) (n_par : nat) (y : list R) (draw : nat -> nat -> list R).
Variables (close : ext -> ext -> bool) (grad_only : bool) (outer : nat).

Lemma accepted d st a next p q :
  eadd (l_llk st) (- (1 / 2 * quad (d_S d) (l_coef st))) = Fin p -> l_pen (eval fi llk n_par y d next) = Fin q -> p <= q ->
  correct_coef_step_gammlss (Xmul y d) fi llk (quad (d_S d)) n_par (d_idx d) y (l_coef st) next (l_llk st) a
    = (eval fi llk n_par y d next, adapt_a 0 a).
Proof.
  intros E1 E2 H. unfold correct_coef_step_gammlss. rewrite E1. cbn [gammlss_loop].
  fold (eval fi llk n_par y d next). rewrite E2. cbn [eleb isinf isnan negb andb]. rewrite (proj2 (rleb_true p q) H). reflexivity.
Qed.

Lemma accepted_step inner d st a next p q : grad_only = false ->
  eadd (l_llk st) (- (1 / 2 * quad (d_S d) (l_coef st))) = Fin p -> l_pen (eval fi llk n_par y d next) = Fin q -> p <= q ->
  one_step fi llk n_par y draw close grad_only outer inner d st a next = (eval fi llk n_par y d next, adapt_a 0 a).
Proof.
  intros NG E1 E2 H. unfold one_step. rewrite (accepted d st a next p q E1 E2 H), NG. reflexivity.
Qed.
End Accept.

(** ** One parameter, one observation with predictor c *)
Definition one : list (list (nat -> R)) := [[fun _ => 1]].
Definition ident : nat -> R -> ext := fun _ => Fin.
(** Log-likelihood with mean m: - m^4 - 1 and - m^2 - 1. *)
Definition quartic (_ : list R) (mus : list (list ext)) : ext := match mus with [[Fin m]] => Fin (- (m ^ 4) - 1) | _ => NaN end.
Definition quadratic (_ : list R) (mus : list (list ext)) : ext := match mus with [[Fin m]] => Fin (- (m ^ 2) - 1) | _ => NaN end.
Definition d_one : design := Design one [] no_penalty.

Lemma eval_one llk c : (forall y m, exists v, llk y [[Fin m]] = Fin v) ->
  eval ident llk 1 [0] d_one [c] = mkLfit [c] [[c]] [[Fin (1 * c + 0)]] [[1 * c + 0]] (llk [0] [[Fin (1 * c + 0)]]) (llk [0] [[Fin (1 * c + 0)]]).
Proof. intros _. unfold eval, gammlss_eval. cbn [d_S d_one d_idx]. rewrite eadd_zero. reflexivity. Qed.

(** ** Two parameters: the first has two equal columns, the second one. *)
Definition three : list (list (nat -> R)) := [[fun _ => 1; fun _ => 1]; [fun _ => 1]].
Definition d_three : design := Design three [2%nat] no_penalty.
(** Log-likelihood - (2 - m1)^2 - m2^2 - 1 *)
Definition two_means (_ : list R) (mus : list (list ext)) : ext :=
  match mus with [[Fin a]; [Fin b]] => Fin (- ((2 - a) ^ 2) - b ^ 2 - 1) | _ => NaN end.
Definition d_two : design := reduce d_three [0; 2]%nat.
Definition jump (_ : design) (c : list R) (_ : list (list ext)) (_ : R) : list R * R := (match c with [_; _] => [2; 0] | _ => c end, 0).

Lemma eval_three a b c :
  eval ident two_means 2 [0] d_three [a; b; c] =
  mkLfit [a; b; c] [[a; b]; [c]] [[Fin (1 * a + (1 * b + 0))]; [Fin (1 * c + 0)]] [[1 * a + (1 * b + 0)]; [1 * c + 0]]
    (Fin (- ((2 - (1 * a + (1 * b + 0))) ^ 2) - (1 * c + 0) ^ 2 - 1)) (Fin (- ((2 - (1 * a + (1 * b + 0))) ^ 2) - (1 * c + 0) ^ 2 - 1)).
Proof. unfold eval, gammlss_eval. cbn [d_S d_three d_idx]. rewrite eadd_zero. reflexivity. Qed.

Lemma eval_two a c :
  eval ident two_means 2 [0] d_two [a; c] =
  mkLfit [a; c] [[a]; [c]] [[Fin (1 * a + 0)]; [Fin (1 * c + 0)]] [[1 * a + 0]; [1 * c + 0]]
    (Fin (- ((2 - (1 * a + 0)) ^ 2) - (1 * c + 0) ^ 2 - 1)) (Fin (- ((2 - (1 * a + 0)) ^ 2) - (1 * c + 0) ^ 2 - 1)).
Proof.
  unfold eval, gammlss_eval. change (d_S d_two) with no_penalty. rewrite eadd_zero. reflexivity.
Qed.

(** All coefficients identified at first, then one of the two equal columns is dropped and the other takes over. *)
Lemma run_drop tol min_inner (draw : nat -> nat -> list R) : 0 < tol <= / 10 ->
  exists u, update_coef_gammlss ident two_means 2 [0] draw (within tol) jump (fun _ _ => [1%nat]) false true 0 min_inner 5 10
      d_three [1; 1; 0] [[Fin 2]; [Fin 0]] (Fin (-1)) None = Done u /\
    u_coef u = [2; 0; 0] /\ u_kd u = Some ([0; 2]%nat, [1%nat]) /\ u_mus u = [[Fin (1 * 2 + 0)]; [Fin (1 * 0 + 0)]] /\
    u_pen u = Fin (- ((2 - (1 * 2 + 0)) ^ 2) - (1 * 0 + 0) ^ 2 - 1).
Proof.
  intros [T1 T2]. unfold update_coef_gammlss.
  (* first iteration *)
  cbn [inner_loop]. replace (5 <=? 0)%nat with false by reflexivity. cbn [jump l_coef l_mus].
  rewrite (accepted_step ident two_means 2 [0] draw (within tol) false 0 0 d_three _ (1 / 10) [1; 1; 0] (-1) (- ((2 - (1 * 1 + (1 * 1 + 0))) ^ 2) - (1 * 0 + 0) ^ 2 - 1) eq_refl);
    [|cbn [l_llk l_coef]; change (d_S d_three) with no_penalty; now rewrite eadd_zero|now rewrite eval_three|lra].
  rewrite eval_three. cbn [l_pen l_llk l_coef]. change (d_S d_three) with no_penalty. rewrite eadd_zero.
  replace (- ((2 - (1 * 1 + (1 * 1 + 0))) ^ 2) - (1 * 0 + 0) ^ 2 - 1) with (-1) by ring.
  rewrite within_same by lra. cbn [andb length Nat.eqb]. change (keep_of 3 [1%nat]) with [0; 2]%nat.
  replace (drop_valid ident two_means 2 [0] d_three [1; 1; 0] [0; 2]%nat) with true by reflexivity.
  cbn [negb]. replace (3 <=? 2)%nat with false by reflexivity.
  unfold handle_drop_gammlss. fold d_two. change (take 0 [1; 1; 0] [0; 2]%nat) with [1; 0].
  replace (stop_early 0 min_inner 0 (-1)) with false by (unfold stop_early; now rewrite andb_comm, andb_assoc, andb_comm).
  (* second *)
  cbn [inner_loop]. replace (5 <=? 0)%nat with false by reflexivity. rewrite eval_two. cbn [jump l_coef l_mus].
  rewrite (accepted_step ident two_means 2 [0] draw (within tol) false 0 0 d_two _ _ [2; 0] (- ((2 - (1 * 1 + 0)) ^ 2) - (1 * 0 + 0) ^ 2 - 1) (- ((2 - (1 * 2 + 0)) ^ 2) - (1 * 0 + 0) ^ 2 - 1) eq_refl);
    [|cbn [l_llk l_coef]; change (d_S d_two) with no_penalty; now rewrite eadd_zero|now rewrite eval_two|lra].
  rewrite eval_two. cbn [l_pen l_llk l_coef l_mus l_etas l_split]. change (d_S d_two) with no_penalty. rewrite eadd_zero.
  rewrite within_not; [|lra|].
  2:{ rewrite !Rabs_left1 by lra || idtac. all: unfold Rabs; repeat destruct Rcase_abs; lra. }
  replace (stop_early 0 min_inner 0 (Z.of_nat 0)) with false by (unfold stop_early; now rewrite andb_comm, andb_assoc, andb_comm).
  (* third *)
  replace (5 <=? 1)%nat with false by reflexivity. cbn [jump l_coef l_mus].
  rewrite (accepted_step ident two_means 2 [0] draw (within tol) false 0 1 d_two _ _ [2; 0] (- ((2 - (1 * 2 + 0)) ^ 2) - (1 * 0 + 0) ^ 2 - 1) (- ((2 - (1 * 2 + 0)) ^ 2) - (1 * 0 + 0) ^ 2 - 1) eq_refl);
    [|cbn [l_llk l_coef]; change (d_S d_two) with no_penalty; now rewrite eadd_zero|now rewrite eval_two|lra].
  rewrite eval_two. cbn [l_pen l_llk l_coef l_mus l_etas l_split]. change (d_S d_two) with no_penalty. rewrite eadd_zero.
  rewrite within_same by lra. cbn [andb].
  replace (length [0; 2]%nat <? length (concat (fst (d_Xs d_two, [[Fin (1 * 2 + 0)]; [Fin (1 * 0 + 0)]]))))%nat with false by reflexivity.
  eexists. split; [reflexivity|]. repeat split.
Qed.

(** A Newton step for - m^4 - 1 from c = 1, after which the smoothing parameters are updated (outer > 0, min_inner = 1). *)
Definition newton4 (_ : design) (c : list R) (_ : list (list ext)) (_ : R) : list R * R := (map (fun x => x - (-4 * x ^ 3) / (-12 * x ^ 2)) c, 0).
Lemma run_early tol identify (draw : nat -> nat -> list R) outer max_inner ids : 0 < tol <= / 10 ->
  exists u, update_coef_gammlss ident quartic 1 [0] draw (within tol) newton4 identify false ids (S outer) 1 (S max_inner) 3
      d_one [1] [[Fin (1 * 1 + 0)]] (Fin (-2)) None = Done u /\ u_coef u = [1 - -4 * 1 ^ 3 / (-12 * 1 ^ 2)] /\
    u_H u = (one, [[Fin (1 * 1 + 0)]]) /\ u_kd u = None.
Proof.
  intros [T1 T2]. unfold update_coef_gammlss. cbn [inner_loop]. replace (S max_inner <=? 0)%nat with false by reflexivity.
  cbn [newton4 map l_coef l_mus]. set (c := 1 - -4 * 1 ^ 3 / (-12 * 1 ^ 2)). assert (Ec : c = 2 / 3) by (unfold c; field).
  assert (Eq : forall y m, exists v, quartic y [[Fin m]] = Fin v) by (intros; eexists; reflexivity).
  assert (V : quartic [0] [[Fin (1 * c + 0)]] = Fin (- 16 / 81 - 1)) by (cbn [quartic]; f_equal; rewrite Ec; field).
  rewrite (accepted_step ident quartic 1 [0] draw (within tol) false (S outer) 0 d_one _ (1 / 10) [c] (-2) (- 16 / 81 - 1) eq_refl);
    [|cbn [l_llk l_coef]; change (d_S d_one) with no_penalty; now rewrite eadd_zero|rewrite eval_one by exact Eq; exact V|lra].
  rewrite eval_one by exact Eq. cbn [l_pen l_llk l_coef]. rewrite V. change (d_S d_one) with no_penalty. rewrite eadd_zero.
  rewrite within_not; [|lra|unfold Rabs; repeat destruct Rcase_abs; lra].
  replace (stop_early (S outer) 1 0 (Z.of_nat 0)) with true.
  2:{ unfold stop_early. rewrite (proj2 (rltb_false 0 0)) by lra. reflexivity. }
  eexists. split; [reflexivity|]. split; [reflexivity|]. split; reflexivity.
Qed.

(** A Newton step for - m^4 - 1 from t close to 0, after which the coefficients have converged. *)
Lemma run_converged tol t (draw : nat -> nat -> list R) outer min_inner max_inner ids : 0 < tol <= / 10 -> 0 < t <= tol ->
  exists u, update_coef_gammlss ident quartic 1 [0] draw (within tol) newton4 (fun _ _ => []) false ids outer min_inner (S max_inner) 3
      d_one [t] [[Fin (1 * t + 0)]] (Fin (- (t ^ 4) - 1)) None = Done u /\ u_coef u = [t - -4 * t ^ 3 / (-12 * t ^ 2)] /\
    u_H u = (one, [[Fin (1 * t + 0)]]) /\ u_kd u = None.
Proof.
  intros [T1 T2] [P1 P2]. unfold update_coef_gammlss. cbn [inner_loop]. replace (S max_inner <=? 0)%nat with false by reflexivity.
  cbn [newton4 map l_coef l_mus]. set (c := t - -4 * t ^ 3 / (-12 * t ^ 2)). assert (Ec : c = 2 / 3 * t) by (unfold c; field; lra).
  assert (Eq : forall y m, exists v, quartic y [[Fin m]] = Fin v) by (intros; eexists; reflexivity).
  assert (V : quartic [0] [[Fin (1 * c + 0)]] = Fin (- 16 / 81 * t ^ 4 - 1)) by (cbn [quartic]; f_equal; rewrite Ec; field).
  assert (Q2 : 0 < t ^ 2 <= tol * / 10) by (simpl; nra).
  assert (Q4 : 0 < t ^ 4 <= tol * / 10). { replace (t ^ 4) with (t ^ 2 * t ^ 2) by ring. nra. }
  rewrite (accepted_step ident quartic 1 [0] draw (within tol) false outer 0 d_one _ (1 / 10) [c] (- (t ^ 4) - 1) (- 16 / 81 * t ^ 4 - 1) eq_refl);
    [|cbn [l_llk l_coef]; change (d_S d_one) with no_penalty; now rewrite eadd_zero|rewrite eval_one by exact Eq; exact V|lra].
  rewrite eval_one by exact Eq. cbn [l_pen l_llk l_coef]. rewrite V. change (d_S d_one) with no_penalty. rewrite eadd_zero.
  replace (within tol (Fin (-16 / 81 * t ^ 4 - 1)) (Fin (- t ^ 4 - 1))) with true.
  2:{ symmetry. apply rltb_true. set (q := t ^ 4) in *. rewrite Rabs_right by lra. rewrite Rabs_left by lra. nra. }
  destruct (true && ids); eexists; (split; [reflexivity|]; split; [reflexivity|]; split; reflexivity).
Qed.

(** Gradient descent from the maximum of - m^2 - 1, with a single iteration and a draw of 2. *)
Definition descend (_ : design) (c : list R) (_ : list (list ext)) (a : R) : list R * R := (map (fun x => x + a * (-2 * x)) c, 0).
Lemma run_restart tol identify min_inner ids : 0 < tol <= / 10 ->
  exists u, update_coef_gammlss ident quadratic 1 [0] (fun n _ => repeat 2 n) (within tol) descend identify true ids 0 min_inner 1 3
      d_one [0] [[Fin (1 * 0 + 0)]] (Fin (-1)) None = Done u /\ u_kd u = None /\
    u_pen u = Fin (- (1 * ((1 - 1 / 2) * (0 + 1 / 10 * (-2 * 0)) + 1 / 2 * 2) + 0) ^ 2 - 1).
Proof.
  intros [T1 T2]. unfold update_coef_gammlss. cbn [inner_loop]. replace (1 <=? 0)%nat with false by reflexivity.
  cbn [descend map l_coef l_mus]. set (c := 0 + 1 / 10 * (-2 * 0)). assert (Ec : c = 0) by (unfold c; ring).
  assert (Eq : forall y m, exists v, quadratic y [[Fin m]] = Fin v) by (intros; eexists; reflexivity).
  assert (V : quadratic [0] [[Fin (1 * c + 0)]] = Fin (-1)) by (cbn [quadratic]; f_equal; rewrite Ec; ring).
  unfold one_step.
  rewrite (accepted ident quadratic 1 [0] d_one _ (1 / 10) [c] (-1) (-1));
    [|cbn [l_llk l_coef]; change (d_S d_one) with no_penalty; now rewrite eadd_zero|rewrite eval_one by exact Eq; exact V|lra].
  rewrite eval_one by exact Eq. cbn [l_pen l_llk l_coef]. rewrite V. change (d_S d_one) with no_penalty. rewrite !eadd_zero.
  rewrite within_same by lra. replace (true && (0 =? 0)%nat && (0 <=? 20)%nat && true) with true by reflexivity. cbv iota.
  unfold restart_coef_gammlss. cbn [restart_loop l_coef]. 
  replace (res_coef (fun n _ => repeat 2 n) 0 0 [c]) with [(1 - 1 / 2) * c + 1 / 2 * 2] by reflexivity.
  set (e := (1 - 1 / 2) * c + 1 / 2 * 2). assert (Ee : e = 1) by (unfold e; rewrite Ec; field).
  rewrite eval_one by exact Eq. cbn [l_pen l_llk l_coef].
  assert (V2 : quadratic [0] [[Fin (1 * e + 0)]] = Fin (- (1 * e + 0) ^ 2 - 1)) by reflexivity. rewrite V2. cbn [isinf isnan orb l_pen].
  rewrite within_not; [|lra|replace (- (1 * e + 0) ^ 2 - 1) with (-2) by (rewrite Ee; ring); unfold Rabs; repeat destruct Rcase_abs; lra].
  replace (stop_early 0 min_inner 0 (Z.of_nat 0)) with false by (unfold stop_early; now rewrite andb_comm, andb_assoc, andb_comm).
  replace (1 <=? 1)%nat with true by reflexivity. eexists. split; [reflexivity|]. split; reflexivity.
Qed.

Lemma start_one llk c v : llk [0] [[Fin (1 * c + 0)]] = Fin v ->
  belongs ident llk [0] one no_penalty [c] [[c]] [[Fin (1 * c + 0)]] [[1 * c + 0]] (Fin v) (Fin v).
Proof.
  intros E. split; [reflexivity|]. split; [reflexivity|]. split; [reflexivity|]. split; [reflexivity|]. split.
  - intros i Hi. cbn in Hi. assert (i = 0)%nat as -> by lia. split; reflexivity.
  - split; [symmetry; exact E|]. rewrite <- quad_penalty. now rewrite eadd_zero.
Qed.
Lemma start_quartic_at t : belongs ident quartic [0] one no_penalty [t] [[t]] [[Fin (1 * t + 0)]] [[1 * t + 0]] (Fin (- (t ^ 4) - 1)) (Fin (- (t ^ 4) - 1)).
Proof. apply start_one. cbn [quartic]. f_equal. ring. Qed.
Lemma start_quartic : belongs ident quartic [0] one no_penalty [1] [[1]] [[Fin (1 * 1 + 0)]] [[1 * 1 + 0]] (Fin (-2)) (Fin (-2)).
Proof. apply start_one. cbn [quartic]. f_equal. ring. Qed.
Lemma start_quadratic : belongs ident quadratic [0] one no_penalty [0] [[0]] [[Fin (1 * 0 + 0)]] [[1 * 0 + 0]] (Fin (-1)) (Fin (-1)).
Proof. apply start_one. cbn [quadratic]. f_equal. ring. Qed.

(** What belongs to coefficients is determined by them. *)
Lemma belongs_unique fi llk y Xs (NE : Xs <> []) S c split mus etas l pen : belongs fi llk y Xs S c split mus etas l pen ->
  let e := eval fi llk (length Xs) y (Design Xs (cuts 0 (map (@length _) Xs)) S) c in
  mus = l_mus e /\ l = l_llk e /\ pen = l_pen e.
Proof.
  intros (Hc & B1 & B2 & B3 & B4 & B5 & B6). cbv zeta.
  destruct (full_eval_belongs fi llk y Xs NE S c Hc) as (_ & F1 & F2 & F3 & F4 & F5 & F6).
  set (e := eval fi llk (length Xs) y (Design Xs (cuts 0 (map (@length _) Xs)) S) c) in *.
  assert (Em : mus = l_mus e).
  { apply nth_ext with (d := []) (d' := []); [congruence|]. intros i Hi. rewrite B3 in Hi.
    destruct (B4 i Hi) as [P1 P2]. destruct (F4 i Hi) as [Q1 Q2]. rewrite P2, Q2, P1, Q1, B1, F1. reflexivity. }
  split; [exact Em|]. assert (El : l = l_llk e) by (rewrite B5, F5, Em; reflexivity). split; [exact El|]. now rewrite B6, F6, El.
Qed.
