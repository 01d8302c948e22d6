(** C184-C187: Davies' routine. *)
From Coq Require Import List Arith ZArith Reals Lia Lra Psatz Sorting.Permutation.
From Coquelicot Require Import Coquelicot.
From Verif Require PrefModel PrefProofs.
From Verif Require Import DavModel DavSpec DavProofs.
Import ListNotations.
Local Open Scope R_scope.

(** ** C184: ranking the weights *)
(** The entries are places of weights, whatever memory held before. *)
Theorem C184_range : forall lb r th0 j, (j < r)%nat -> (order lb r th0 j < r)%nat.
Proof. exact order_range. Qed.
(** Weights that are in order already are ranked. *)
Theorem C184_sorted : forall lb r th0, (forall i, (S i < r)%nat -> Rabs (lb (S i)) <= Rabs (lb i)) -> ranks lb r (order lb r th0).
Proof.
  intros lb r th0 H. pose proof (order_id lb r th0 H) as E. split.
  - replace (map (order lb r th0) (seq 0 r)) with (map (fun x : nat => x) (seq 0 r)); [rewrite map_id; apply Permutation_refl|].
    apply map_ext_in. intros j J. apply in_seq in J. symmetry. apply E. lia.
  - intros i j L J. rewrite !E by lia. clear E J0 || idtac. revert J. induction L as [|m L IH]; intros J; [lra|].
    apply Rle_trans with (Rabs (lb m)); [apply H; lia|apply IH; lia].
Qed.
(** So are the weights 1, v1, v2 used for a known scale. *)
Theorem C184_known : forall v th0, 0 < v < 1 ->
  let lb := fun i => nth i [1; PrefModel.v1 v; PrefModel.v2 v] 0 in ranks lb 3 (order lb 3 th0).
Proof.
  intros v th0 Hv. cbn zeta. set (lb := fun i => _).
  pose proof (PrefProofs.v2_pos v Hv) as P2. pose proof (PrefProofs.sq v Hv) as Q. pose proof (sqrt_pos (1 - v * v)) as SP.
  assert (A1 : 1 < PrefModel.v1 v) by (unfold PrefModel.v1; set (s := sqrt (1 - v * v)) in *; nra).
  assert (A2 : PrefModel.v2 v < 1) by (unfold PrefModel.v2, PrefModel.v1 in *; lra || nra).
  assert (E0 : Rabs (lb 0%nat) = 1) by (unfold lb; cbn; apply Rabs_R1).
  assert (E1 : Rabs (lb 1%nat) = PrefModel.v1 v) by (unfold lb; cbn; apply Rabs_right; lra).
  assert (E2 : Rabs (lb 2%nat) = PrefModel.v2 v) by (unfold lb; cbn; apply Rabs_right; lra).
  assert (O : order lb 3 th0 0%nat = 1%nat /\ order lb 3 th0 1%nat = 0%nat /\ order lb 3 th0 2%nat = 2%nat).
  { unfold order. cbn [seq fold_left]. unfold order_step at 3 6 9. unfold order_step at 2 4 6. cbn [order_step].
    rewrite upd_eq, E0, E1. destruct (Rlt_dec 1 (PrefModel.v1 v)); [|lra].
    rewrite (upd_ne _ 0 _ 1) by lia. rewrite upd_eq, E0, E2. destruct (Rlt_dec 1 (PrefModel.v2 v)); [lra|].
    repeat split. }
  destruct O as [O0 [O1 O2]]. split.
  - cbn [seq map]. rewrite O0, O1, O2. apply perm_swap.
  - intros i j L J. destruct j as [|[|[|j]]]; [| | |lia]; destruct i as [|[|[|i]]]; try lia; rewrite ?O0, ?O1, ?O2, ?E0, ?E1, ?E2; lra.
Qed.
(** With an estimated scale, the fourth weight replaces that of the first rank as soon as it exceeds v2, and v2 counts
    twice: one weight is lost. *)
Theorem C184_scale : forall v w th0, 0 < v < 1 -> PrefModel.v2 v < w ->
  let lb := fun i => nth i [1; PrefModel.v1 v; PrefModel.v2 v; - w] 0 in
  map (order lb 4 th0) (seq 0 4) = [3; 0; 2; 2]%nat.
Proof.
  intros v w th0 Hv Hw. cbn zeta. set (lb := fun i => _).
  pose proof (PrefProofs.v2_pos v Hv) as P2. pose proof (PrefProofs.sq v Hv) as Q. pose proof (sqrt_pos (1 - v * v)) as SP.
  assert (A1 : 1 < PrefModel.v1 v) by (unfold PrefModel.v1; set (s := sqrt (1 - v * v)) in *; nra).
  assert (A2 : PrefModel.v2 v < 1) by (unfold PrefModel.v2, PrefModel.v1 in *; lra || nra).
  assert (E0 : Rabs (lb 0%nat) = 1) by (unfold lb; cbn; apply Rabs_R1).
  assert (E1 : Rabs (lb 1%nat) = PrefModel.v1 v) by (unfold lb; cbn; apply Rabs_right; lra).
  assert (E2 : Rabs (lb 2%nat) = PrefModel.v2 v) by (unfold lb; cbn; apply Rabs_right; lra).
  assert (E3 : Rabs (lb 3%nat) = w) by (unfold lb; cbn; rewrite Rabs_Ropp; apply Rabs_right; lra).
  rewrite order_S, order_S, order_S, order_S. unfold order at 1. cbn [seq fold_left order_step].
  rewrite upd_eq, E0, E1. destruct (Rlt_dec 1 (PrefModel.v1 v)); [|lra].
  rewrite (upd_ne _ 0 _ 1) by lia. rewrite upd_eq, E0, E2. destruct (Rlt_dec 1 (PrefModel.v2 v)); [lra|].
  rewrite upd_eq, E2, E3. destruct (Rlt_dec (PrefModel.v2 v) w); [|lra]. reflexivity.
Qed.
Theorem C184_refuted : exists lb r, forall th0, ~ ranks lb r (order lb r th0).
Proof.
  exists (fun i => nth i [3; 1; 2] 0), 3%nat. intros th0 [P _]. set (lb := fun i => _) in P.
  assert (E : map (order lb 3 th0) (seq 0 3) = [2; 1; 1]%nat).
  { rewrite order_S, order_S, order_S. unfold order at 1. cbn [seq fold_left order_step].
    assert (E0 : Rabs (lb 0%nat) = 3) by (unfold lb; cbn; apply Rabs_right; lra).
    assert (E1 : Rabs (lb 1%nat) = 1) by (unfold lb; cbn; apply Rabs_right; lra).
    assert (E2 : Rabs (lb 2%nat) = 2) by (unfold lb; cbn; apply Rabs_right; lra).
    rewrite upd_eq, E0, E1. destruct (Rlt_dec 3 1); [lra|].
    rewrite upd_eq, E1, E2. destruct (Rlt_dec 1 2); [|lra]. reflexivity. }
  rewrite E in P. assert (I : In 0%nat [2; 1; 1]%nat) by (apply (Permutation_in 0%nat (Permutation_sym P)); now left).
  cbn in I. intuition lia.
Qed.
Example C184_case : let lb := fun i => nth i [3; 2; 1] 0 in (forall i, (S i < 3)%nat -> Rabs (lb (S i)) <= Rabs (lb i)) /\ 0 < 1 / 2 < 1.
Proof.
  cbn zeta. split; [|lra]. intros i H. destruct i as [|[|i]]; [| |lia]; cbn; rewrite !Rabs_right by lra; lra.
Qed.

(** ** C185: the convergence factor *)
(** With the weights ranked: for positive weights and small x all degrees of freedom count, and above 100 of them
    the failure is reported. *)
Theorem C185_small : forall lb nc n r th x, (0 < r)%nat -> ranks lb r th -> 0 < x ->
  (forall i, (i < r)%nat -> 0 < lb i /\ x <= lb i / log28 /\ (0 <= n i)%Z /\ 0 <= nc i) ->
  let N := sum_list (map (fun i => IZR (n i) + nc i) (seq 0 r)) in
  (N <= 100 -> cfe_with lb nc n r th x = (Rpower 2 (N / 4) / (PI * (x * x)), false)) /\
  (100 < N -> cfe_with lb nc n r th x = (1, true)).
Proof.
  intros lb nc n r th x Hr [P _] Hx H. cbv zeta. destruct r as [|k]; [lia|]. unfold cfe_with. cbv zeta.
  destruct (Rlt_dec 0 x); [|lra]. rewrite (Rabs_right x) by lra.
  assert (T : (th k < S k)%nat).
  { assert (I : In (th k) (map th (seq 0 (S k)))) by (apply in_map, in_seq; lia). apply (Permutation_in _ P), in_seq in I. lia. }
  destruct (H _ T) as [L1 [L2 [L3 L4]]]. apply IZR_le in L3.
  cbn [cfe_loop]. cbv zeta. rewrite (Rabs_right (lb (th k))) by lra. rewrite Rmult_1_r.
  destruct (Rlt_dec 0 (lb (th k))); [|lra].
  assert (0 <= lb (th k) * (IZR (n (th k)) + nc (th k))) by (apply Rmult_le_pos; lra).
  destruct (Rlt_dec (lb (th k) / log28) (x - _)); [lra|]. destruct (Rlt_dec (lb (th k) / log28) x); [lra|].
  assert (E : (x - (x - lb (th k) * (IZR (n (th k)) + nc (th k)))) / lb (th k) + sum_list (map (fun i => IZR (n (th i)) + nc (th i)) (seq 0 k))
    = sum_list (map (fun i => IZR (n i) + nc i) (seq 0 (S k)))).
  { rewrite <- (sum_perm (fun i => IZR (n i) + nc i) _ _ P), map_map, seq_S, map_app, sum_app. 
  cbn [map plus sum_list fold_right].
  change (0 + k)%nat with k. field. lra. }
  rewrite E. destruct (Rlt_dec 100 _); split; intros; (reflexivity || lra).
Qed.
Example C185_value_case : let lb := fun i => nth i [2; 1] 0 in let n := fun i => nth i [2; 1]%Z 0%Z in
  ranks lb 2 (fun k => k) /\ cfe_with lb (fun _ => 0) n 2 (fun k => k) 1 = (Rpower 2 (3 / 4) / (PI * (1 * 1)), false).
Proof.
  cbv zeta. assert (A : ranks (fun i => nth i [2; 1] 0) 2 (fun k => k)).
  { split; [rewrite map_id; apply Permutation_refl|]. intros i j Hi Hj. assert (C : j = 0%nat \/ j = 1%nat) by lia.
    destruct C; subst j; [replace i with 0%nat by lia; lra|]. assert (D : i = 0%nat \/ i = 1%nat) by lia.
    destruct D; subst i; cbn; rewrite ?(Rabs_right 2), ?(Rabs_right 1) by lra; lra. }
  split; [exact A|].
  destruct (C185_small _ (fun _ => 0) (fun i => nth i [2; 1]%Z 0%Z) 2 _ 1 ltac:(lia) A ltac:(lra)) as [E _].
  - intros i Hi. unfold log28. destruct i as [|[|i]]; [| |lia]; cbn; repeat split; lra || lia.
  - rewrite E; cbn; [|lra]. f_equal. f_equal. f_equal. lra.
Qed.
(** With the ranking that is computed they do not: the coefficient of the error is too small. *)
Theorem C185_refuted : exists lb nc n r x, (0 < r)%nat /\ 0 < x /\
  (forall i, (i < r)%nat -> 0 < lb i /\ x <= lb i / log28 /\ (0 <= n i)%Z /\ 0 <= nc i) /\
  sum_list (map (fun i => IZR (n i) + nc i) (seq 0 r)) <= 100 /\
  forall th0, fst (cfe lb nc n r th0 x) < Rpower 2 (sum_list (map (fun i => IZR (n i) + nc i) (seq 0 r)) / 4) / (PI * (x * x)).
Proof.
  exists (fun i => nth i [3; 1; 2] 0), (fun _ => 0), (fun i => nth i [5; 1; 1]%Z 0%Z), 3%nat, 1.
  split; [lia|]. split; [lra|]. split.
  { intros i Hi. unfold log28. destruct i as [|[|[|i]]]; [| | |lia]; cbn; repeat split; lra || lia. }
  split; [cbn; lra|]. intros th0. unfold cfe. set (lb := fun i => _). set (th := order lb 3 th0).
  assert (E0 : Rabs (lb 0%nat) = 3) by (unfold lb; cbn; apply Rabs_right; lra).
  assert (E1 : Rabs (lb 1%nat) = 1) by (unfold lb; cbn; apply Rabs_right; lra).
  assert (E2 : Rabs (lb 2%nat) = 2) by (unfold lb; cbn; apply Rabs_right; lra).
  assert (E : th 0%nat = 2%nat /\ th 1%nat = 1%nat /\ th 2%nat = 1%nat).
  { unfold th. rewrite order_S, order_S, order_S. unfold order at 1 2 3. cbn [seq fold_left order_step].
    rewrite upd_eq, E0, E1. destruct (Rlt_dec 3 1); [lra|].
    rewrite upd_eq, E1, E2. destruct (Rlt_dec 1 2); [|lra]. repeat split. }
  destruct E as [T0 [T1 T2]]. unfold cfe_with. cbv zeta. destruct (Rlt_dec 0 1); [|lra]. rewrite Rabs_R1.
  cbn [cfe_loop]. cbv zeta. rewrite T2, E1. assert (L : lb 1%nat = 1) by reflexivity. rewrite L.
  destruct (Rlt_dec 0 (1 * 1)); [|lra]. cbn [nth]. unfold log28.
  destruct (Rlt_dec (1 / (866 / 10000)) _); [lra|]. destruct (Rlt_dec (1 / (866 / 10000)) 1); [lra|].
  cbn [seq map sum_list fold_right]. rewrite T0, T1. cbn [nth].
  destruct (Rlt_dec 100 _); [lra|]. cbn [fst].
  apply Rmult_lt_compat_r; [apply Rinv_0_lt_compat; pose proof PI_RGT_0; lra|].
  apply Rpower_lt; lra.
Qed.
Example C185_case : let lb := fun i => nth i [2; 1] 0 in ranks lb 2 (fun i => i) /\
  forall i, (i < 2)%nat -> 0 < lb i /\ 1 <= lb i / log28.
Proof.
  cbn zeta. split; [split|].
  - apply Permutation_refl.
  - intros i j L J. destruct j as [|[|j]]; [| |lia]; destruct i as [|[|i]]; try lia; cbn; rewrite !Rabs_right by lra; lra.
  - intros i Hi. unfold log28. destruct i as [|[|i]]; [| |lia]; cbn; split; lra.
Qed.

(** ** C186: cutoff points *)
(** The cutoff is the derivative of the cumulant generating function, the bound that of Chernoff at this point (and 0 where
    it is below exp(-50)). *)
Theorem C186_bound : forall vars sigsq u, exists_at vars u ->
  is_derive (cumulant vars sigsq) u (snd (errbd vars sigsq u)) /\
  (- 50 <= cumulant vars sigsq u - u * snd (errbd vars sigsq u) ->
   fst (errbd vars sigsq u) = exp (cumulant vars sigsq u - u * snd (errbd vars sigsq u))) /\
  0 <= fst (errbd vars sigsq u) <= exp (cumulant vars sigsq u - u * snd (errbd vars sigsq u)).
Proof.
  intros vars sigsq u H. destruct (errbd_spec vars sigsq u H) as (s & xc & E & D & K). rewrite E. cbn [fst snd]. rewrite <- K.
  pose proof (exp_pos (- / 2 * s)). split; [exact D|]. unfold exp1. destruct (Rlt_dec _ _); (split; [intros; lra|lra]).
Qed.
Example C186_case : exists_at [(1, 2, 0); (/ 2, 1, 1)] (/ 4).
Proof. repeat constructor; cbn; lra. Qed.

(** ** C187: the routine answers *)
Section Answers.
Variable trunc_err : R -> R -> R -> R.
Variable err_bound : R -> R -> R * R.
Variable cfe_val : R -> R * bool.
Variable integral : Z -> R -> R -> bool -> R -> R * R.
Variable lim : nat.
Variables c acc sigma : R.
Variable vars : list (R * Z * R).
Let run := qf trunc_err err_bound cfe_val integral lim c acc sigma vars.

Lemma three : run = Fault 3 0 -> invalid vars.
Proof.
  unfold run, qf. cbv zeta. rewrite scan_eq. intros E.
  destruct (fold_left scan_step vars (Some (sigma * sigma, 0, 0, 0))) as [[[[sd2 mean] lmax] lmin]|] eqn:S.
  2: { apply (scan_spec vars (sigma * sigma, 0, 0, 0)). exact S. }
  exfalso. destruct (Req_EM_T sd2 0) as [Z|NZ]; [discriminate|].
  destruct (scan_zero vars _ _ _ _ _ _ _ _ (Rle_refl 0) (Rle_refl 0) S) as [_ [_ X]].
  assert (G : forall b : bool, b = false -> (if b then Fault 3 0 else
        bind (findu trunc_err lim lim (/ 2 * acc) (sigma * sigma) (16 / sqrt sd2) 0) (fun utx c1' =>
        bind (factor trunc_err cfe_val lim c acc (if Rlt_dec lmax (- lmin) then - lmin else lmax) (sqrt sd2) (sigma * sigma) utx c1') (fun w c2' =>
        bind (range trunc_err err_bound cfe_val integral lim c lim lmin lmax mean (45 / 10 / sqrt sd2) (- (45 / 10 / sqrt sd2)) (/ 2 * acc) (fst w) (snd w) (INR lim) 0 0 0 0 c2')
          (finish integral acc)))) <> Fault 3 0).
  { intros b -> F.
    assert (ST : sat lim 0 (end_ok lim) (bind (findu trunc_err lim lim (/ 2 * acc) (sigma * sigma) (16 / sqrt sd2) 0) (fun utx c1' =>
        bind (factor trunc_err cfe_val lim c acc (if Rlt_dec lmax (- lmin) then - lmin else lmax) (sqrt sd2) (sigma * sigma) utx c1') (fun w c2' =>
        bind (range trunc_err err_bound cfe_val integral lim c lim lmin lmax mean (45 / 10 / sqrt sd2) (- (45 / 10 / sqrt sd2)) (/ 2 * acc) (fst w) (snd w) (INR lim) 0 0 0 0 c2')
          (finish integral acc))))).
    { eapply sat_bind; [apply sat_findu; lia|]. intros utx c1' Hc1 _. cbv beta.
      eapply sat_bind; [apply sat_factor; lia|]. intros w c2' Hc2 _. cbv beta.
      eapply sat_bind; [apply sat_range; [lia|lia|lra|lra]|]. intros s c3 Hc3 Hs. cbv beta.
      eapply sat_weaken; [|intros ? Y; exact Y|apply sat_finish; [lia|exact Hs]]. lia. }
    rewrite F in ST. cbn in ST. destruct ST as [[B|B] _]; discriminate. }
  revert E. apply G. destruct (Req_EM_T lmin 0) as [-> |]; [|reflexivity]. destruct (Req_EM_T lmax 0) as [-> |]; [|reflexivity].
  destruct (Req_EM_T sigma 0) as [-> |]; [|reflexivity]. destruct (X eq_refl eq_refl) as [Y _]. exfalso. apply NZ. rewrite Y. lra.
Qed.

(** Exactly unusable parameters give code 3. *)
Theorem C187_invalid : (exists k, run = Fault 3 k) <-> invalid vars.
Proof.
  split.
  - intros [k E]. destruct (scan vars (sigma * sigma)) eqn:S.
    + assert (N : scan vars (sigma * sigma) <> None) by congruence.
      destruct (sat_qf lim trunc_err err_bound cfe_val integral c acc sigma vars N) as [A|A].
      * fold run in A. rewrite E in A. cbn in A. destruct A as [[A|A] _]; discriminate.
      * apply three. exact A.
    + apply (scan_spec vars (sigma * sigma, 0, 0, 0)). rewrite <- scan_eq. exact S.
  - intros I. exists 0%nat. unfold run, qf. cbv zeta. apply (scan_spec vars (sigma * sigma, 0, 0, 0)) in I. rewrite scan_eq, I. reflexivity.
Qed.
(** It always returns, with a known code, and with -1 if it could not compute a value. *)
Theorem C187_answers : exists q e, daviesQF trunc_err err_bound cfe_val integral lim c acc sigma vars = Some (q, e) /\
  In e [0; 1; 2; 3; 4]%Z /\ (In e [1; 3; 4]%Z -> q = - 1).
Proof.
  unfold daviesQF. fold run. destruct (scan vars (sigma * sigma)) eqn:S.
  - assert (N : scan vars (sigma * sigma) <> None) by congruence.
    destruct (sat_qf lim trunc_err err_bound cfe_val integral c acc sigma vars N) as [A|A]; fold run in A.
    + destruct run as [|e k|[[[q e] t] i] k]; cbn in A; [contradiction| |].
      * exists (- 1), e. split; [reflexivity|]. split; [|reflexivity]. destruct A as [[->| ->] _]; cbn; tauto.
      * exists q, e. split; [reflexivity|]. destruct A as [_ [[->| ->] _]]; cbn; split; try tauto; intuition discriminate.
    + rewrite A. exists (- 1), 3%Z. split; [reflexivity|]. split; [cbn; tauto|reflexivity].
  - unfold run, qf. cbv zeta. rewrite S. exists (- 1), 3%Z. split; [reflexivity|]. split; [cbn; tauto|reflexivity].
Qed.
(** Bounds are evaluated at most lim + 1 times; the integrations use at most lim terms and three halves for every one of
    them. *)
Theorem C187_work : match run with
  | Stuck => False
  | Fault _ k => (k <= S lim)%nat
  | Done (_, _, terms, ints) k => (k <= lim)%nat /\ terms <= INR lim + 3 / 2 * ints
  end.
Proof.
  destruct (scan vars (sigma * sigma)) eqn:S.
  - assert (N : scan vars (sigma * sigma) <> None) by congruence.
    destruct (sat_qf lim trunc_err err_bound cfe_val integral c acc sigma vars N) as [A|A]; fold run in A.
    + destruct run as [|e k|[[[q e] t] i] k]; cbn in A; [contradiction|lia|]. split; [lia|apply A].
    + rewrite A. lia.
  - unfold run, qf. cbv zeta. rewrite S. lia.
Qed.
End Answers.
Example C187_case : invalid [(1, (-1)%Z, 0)] /\ ~ invalid [(1, 2%Z, 0)].
Proof.
  split; [exists 1, (-1)%Z, 0; split; [now left|left; lia]|]. intros (l & n & nc & [[= <- <- <-]|[]] & [B|B]); [lia|lra].
Qed.

Print Assumptions C184_range.
Print Assumptions C184_sorted.
Print Assumptions C184_known.
Print Assumptions C184_scale.
Print Assumptions C184_refuted.
Print Assumptions C185_small.
Print Assumptions C185_refuted.
Print Assumptions C186_bound.
Print Assumptions C187_invalid.
Print Assumptions C187_answers.
Print Assumptions C187_work.
