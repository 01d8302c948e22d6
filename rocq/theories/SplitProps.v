(** C162-C167: series, signals and shared terms of hidden semi-Markov models. *)
From Coq Require Import List Arith Bool Lia Sorted FinFun.
From Verif Require Import SplitModel SplitSpec SplitProofs SplitProofs2.
Import ListNotations.
Local Open Scope nat_scope.

(** C162: there is an entry for each formula, and its rows are distributed to series or trials. *)
Theorem C162_split : forall val row c ar sid tid n_s n_t ys (Xs : list (option (list row))) (sys : list (option (list (list val)))) sxs,
  starts sid n_s -> starts tid n_t -> split_matrices val row c ar sid tid ys Xs = Some (sys, sxs) ->
  let total := n_shared c + n_obs c + n_dur c + n_trans c + n_pi c in
  length sys = total /\ length sxs = total /\
  forall i, i < total -> exists X sx, nth_error Xs i = Some X /\ nth_error sxs i = Some sx /\
    (X = None -> sx = None) /\
    forall rows, X = Some rows -> exists ps, sx = Some ps /\
      match use_of c i with
      | BySeries => distributed sid rows ps
      | ByTrial => distributed tid rows ps
      | FirstRow => length ps = length tid /\
          forall t, t < length tid -> exists x, nth_error rows (nth t tid 0) = Some x /\ nth_error ps t = Some [x]
      end.
Proof.
  intros val row c ar sid tid n_s n_t ys Xs sys sxs St Tt E total. unfold split_matrices in E. destruct (kinds c) as [ks|] eqn:K; [|discriminate].
  pose proof (kinds_length _ _ K) as L. fold total in L. destruct (split_all_nth _ _ _ _ _ _ _ _ _ E) as (L1 & L2 & N).
  split; [lia|]. split; [lia|]. intros i Hi. destruct (nth_error ks i) as [k|] eqn:Hk; [|apply nth_error_None in Hk; lia].
  destruct (N _ _ Hk) as (y & X & sy & sx & _ & A2 & _ & A4 & _ & A6). exists X, sx. split; [exact A2|]. split; [exact A4|].
  rewrite <- (kinds_use _ _ _ _ K Hk). split; [intros ->; now injection A6|]. intros rows ->. cbn [x_split] in A6.
  assert (D : forall (l : list row), distributed sid l (np_split (tl sid) l)) by (intros; eapply split_parts; eassumption).
  assert (D' : forall (l : list row), distributed tid l (np_split (tl tid) l)) by (intros; eapply split_parts; eassumption).
  destruct k as [b| | |]; cbn [use_kind].
  - injection A6 as <-. eexists. split; [reflexivity|apply D].
  - injection A6 as <-. eexists. split; [reflexivity|apply D].
  - injection A6 as <-. eexists. split; [reflexivity|apply D'].
  - destruct (firsts (np_split (tl tid) rows)) as [qs|] eqn:Q; [|discriminate]. injection A6 as <-. exists qs. split; [reflexivity|].
    destruct (firsts_nth _ _ Q) as [Q1 Q2]. destruct (D' rows) as (P1 & _ & P3). split; [lia|]. intros t Ht. destruct (P3 t Ht) as (p & Pp & Pk).
    destruct (Q2 _ _ Pp) as (x & X0 & X1). exists x. split; [|exact X1]. specialize (Pk 0). rewrite X0 in Pk. rewrite Nat.add_0_r in Pk.
    destruct (_ <? _); congruence.
Qed.
Definition two_states : settings := mkSettings 2 1 [[FUni 2]; [FUni 2]] [Some 1; Some 1] [] false true false.
Example C162_case : starts [0; 2] 5 /\ starts [0; 1] 2 /\ use_of two_states 6 = FirstRow /\
  exists sys, split_matrices nat nat two_states None [0; 2] [0; 1]
    [Some [1; 2; 3; 4; 5]; None; None; None; Some [0; 0]; Some [0; 0]; Some [0; 0]]
    [Some [11; 12; 13; 14; 15]; None; Some [21; 22; 23; 24; 25]; None; Some [31; 32]; Some [41; 42]; Some [51; 52]] =
    Some (sys, [Some [[11; 12]; [13; 14; 15]]; None; Some [[21; 22]; [23; 24; 25]]; None; Some [[31]; [32]]; Some [[41]; [42]]; Some [[51]; [52]]]).
Proof.
  assert (S1 : forall a n, 0 < a < n -> starts [0; a] n).
  { intros a n H. split; [now eexists|]. split; repeat constructor; lia. }
  split; [apply S1; lia|]. split; [apply S1; lia|]. split; [reflexivity|]. eexists. reflexivity.
Qed.

(** C163: the observations read for a state and signal are those of the signal, of the series at hand. *)
Theorem C163_signals : forall val row c ar sid tid n (data : nat -> list val) rest Xs sys (sxs : list (option (list (list row)))) s ysS Y p,
  starts sid n -> s < length sid -> Forall (Forall has_pars) (c_obs c) -> nth_error (variables c rest) 0 = Some 0 ->
  split_matrices val row c ar sid tid (get_ys val data (variables c rest)) Xs = Some (sys, sxs) ->
  of_series s sys = Some ysS -> yfix val ysS = Some Y -> plan c = Some p ->
  forall j m idx, In (j, m, idx) p -> exists w y, whiten val ar (data m) = Some w /\ nth_error Y idx = Some y /\ part_of sid s w y.
Proof.
  intros val row c ar sid tid n data rest Xs sys sxs s ysS Y p St Hs HP V0 E O F P j m idx I.
  destruct (obs_plan_spec _ _ _ _ _ _ HP P _ I) as (j' & v & i & [= -> -> ->] & N). destruct (variables_nth c rest i v N) as [V1 V2].
  fold (n_shared c). apply (entry c ar sid tid n data (variables c rest) Xs sys sxs s ysS Y (n_shared c + i) v); auto. lia.
Qed.
(** Models of bumps without shared terms: all signals are read as they are. *)
Theorem C163_bumps : forall val row c ar sid tid n (data : nat -> list val) rest Xs sys (sxs : list (option (list (list row)))) s ysS Y obs,
  starts sid n -> s < length sid -> c_shared c = [] -> 2 <= c_S c ->
  c_obs c = repeat FNone (c_M c) :: repeat FNone (c_M c) :: obs ->
  split_matrices val row c ar sid tid (get_ys val data (variables c rest)) Xs = Some (sys, sxs) ->
  of_series s sys = Some ysS -> yfix val ysS = Some Y ->
  forall m, m < c_M c -> exists w y, whiten val ar (data m) = Some w /\ y_mat_hmp val Y m = Some y /\ part_of sid s w y.
Proof.
  intros val row c ar sid tid n data rest Xs sys sxs s ysS Y obs St Hs Sh S2 Ob E O F m Hm.
  assert (B0 : forall k a, fam_signals 0 a (repeat FNone k) = []) by (induction k as [|k IH]; intros a; [reflexivity|]; cbn; apply IH).
  assert (B1 : forall k a, fam_signals 1 a (repeat FNone k) = seq a k) by (induction k as [|k IH]; intros a; [reflexivity|]; cbn; f_equal; apply IH).
  assert (NM : forall k f, firstn k (repeat f k) = repeat f k :> list fam) by (intros k f; rewrite <- (repeat_length f k) at 1; apply firstn_all).
  assert (SG : exists r, states_signals (c_M c) 0 (firstn (c_S c) (c_obs c)) = seq 0 (c_M c) ++ r).
  { rewrite Ob. destruct (c_S c) as [|[|k]]; [lia|lia|]. cbn [firstn states_signals]. unfold state_signals at 1 2.
    assert (H : forall j, match repeat FNone (c_M c) with FMulti n0 :: _ => seq 0 n0 | _ => fam_signals j 0 (firstn (c_M c) (repeat FNone (c_M c))) end =
      fam_signals j 0 (repeat FNone (c_M c))) by (intros j; rewrite NM; destruct (c_M c); reflexivity).
    rewrite !H, B0, B1. cbn [app]. now eexists. }
  destruct SG as [r SG]. assert (N : nth_error (states_signals (c_M c) 0 (firstn (c_S c) (c_obs c))) m = Some m).
  { rewrite SG, nth_error_app1 by now rewrite seq_length. now rewrite ne_seq. }
  destruct (variables_nth c rest m m N) as [V1 V2]. assert (Z : n_shared c = 0) by (unfold n_shared; now rewrite Sh). rewrite Z in V1, V2. cbn [plus] in V1, V2.
  apply (entry c ar sid tid n data (variables c rest) Xs sys sxs s ysS Y m m); auto; [|lia].
  assert (N0 : nth_error (states_signals (c_M c) 0 (firstn (c_S c) (c_obs c))) 0 = Some 0).
  { rewrite SG, nth_error_app1 by (rewrite seq_length; lia). now rewrite ne_seq by lia. }
  destruct (variables_nth c rest 0 0 N0) as [V0 _]. rewrite Z in V0. exact V0.
Qed.
(** A model of one bump in two signals; with a shared term the second signal is not used: the first is read twice. *)
Definition one_bump (shared : list nat) (shared_m : bool) : settings :=
  mkSettings 3 2 (repeat (repeat FNone 2) 3) [Some 1; None; Some 1] shared shared_m true true.
Definition read_bump (shared : list nat) (shared_m : bool) (data : nat -> list nat) : option (list (option (list nat))) :=
  let c := one_bump shared shared_m in let vars := variables c [9; 9] in
  match split_matrices nat nat c None [0] [0] (get_ys nat data vars) (map (fun _ => None) vars) with
  | Some (sys, _) => match of_series 0 sys with
                     | Some ysS => option_map (fun Y => map (y_mat_hmp nat Y) [0; 1]) (yfix nat ysS)
                     | None => None
                     end
  | None => None
  end.
Theorem C163_shared_refuted : forall shared_m : bool, exists data : nat -> list nat, data 1 <> data 0 /\
  read_bump [0] shared_m data = Some [Some (data 0); Some (data 0)].
Proof. intros [|]; exists (fun v => [v]); (split; [discriminate|reflexivity]). Qed.
Example C163_case : plan (mkSettings 2 2 [[FUni 2; FUni 1]; [FMulti 2]] [Some 1; Some 1] [0; 1] false true true) =
    Some [(0, 0, 4); (0, 1, 6); (1, 0, 7); (1, 1, 8)] /\
  nth_error (variables (mkSettings 2 2 [[FUni 2; FUni 1]; [FMulti 2]] [Some 1; Some 1] [0; 1] false true true) [9; 9]) 0 = Some 0 /\
  read_bump [] false (fun v => [v]) = Some [Some [0]; Some [1]].
Proof. repeat split. Qed.

(** C164: decoding within residuals gets what decoding gets. *)
Theorem C164_same : forall val row trans c ar f sid tid ys (Xs : list (option (list row))) s x,
  (forall ts, f <> PerSeries ts) -> use_of c 0 = BySeries ->
  match ar with
  | None => True
  | Some (n, g) => (forall l : list val, length (g l) = length l) /\ (exists y r, ys = Some y :: r /\ length y = n) /\ starts sid n /\ 2 <= length sid
  end ->
  resid_decode_inputs val row trans c ar f sid tid ys Xs s = Some x ->
  decode_inputs val row trans c ar f sid tid ys Xs s = Some x.
Proof. intros. now apply again. Qed.
(** One series: the autoregressive model is applied twice. *)
Theorem C164_twice_refuted : exists c ar ys Xs, starts [0] 2 /\
  decode_inputs nat nat unit c ar (One tt) [0] [0] ys Xs 0 = Some (Some tt, [Some [11; 12]; Some [0; 0]; Some [0; 0]], [None; None; None]) /\
  resid_decode_inputs nat nat unit c ar (One tt) [0] [0] ys Xs 0 = Some (Some tt, [Some [21; 22]; Some [0; 0]; Some [0; 0]], [None; None; None]).
Proof.
  exists (mkSettings 3 1 (repeat [FNone] 3) [Some 1; None; Some 1] [] false true true), (Some (2, map (plus 10))), [Some [1; 2]; Some [0; 0]; Some [0; 0]], [None; None; None].
  split; [split; [now exists []|split; repeat constructor; lia]|]. split; reflexivity.
Qed.
(** Fixed transitions given for each series: those of the first series are used for all. *)
Theorem C164_transitions_refuted : exists c ts ys Xs, starts [0; 1] 2 /\
  option_map (fun x => fst (fst x)) (decode_inputs nat nat nat c None (PerSeries ts) [0; 1] [0; 1] ys Xs 1) = Some (Some 7) /\
  option_map (fun x => fst (fst x)) (resid_decode_inputs nat nat nat c None (PerSeries ts) [0; 1] [0; 1] ys Xs 1) = Some (Some 5).
Proof.
  exists (mkSettings 2 1 [[FUni 1]; [FUni 1]] [Some 1; Some 1] [] false true true), [5; 7], [Some [1; 2]; None; Some [0; 0]; Some [0; 0]], [None; None; None; None].
  split; [split; [now exists [1]|split; repeat constructor; lia]|]. split; reflexivity.
Qed.
Example C164_case :
  let c := mkSettings 3 1 (repeat [FNone] 3) [Some 1; None; Some 1] [] false true true in
  use_of c 0 = BySeries /\
  resid_decode_inputs nat nat unit c (Some (3, map (plus 10))) (One tt) [0; 1] [0; 1] [Some [1; 2; 3]; Some [0; 5]; Some [0; 6]] [None; None; None] 1 =
    Some (Some tt, [Some [12; 13]; Some [5]; Some [6]], [None; None; None]).
Proof. split; reflexivity. Qed.

(** C165: probabilities of observations and durations are computed from what decoding uses. *)
Theorem C165_probabilities : forall val row c ar sid tid ys (Xs : list (option (list row))) (sys sys' : list (option (list (list val)))) sxs sxs',
  od_splits val row c ar sid tid ys Xs = Some (sys, sxs) -> split_matrices val row c ar sid tid ys Xs = Some (sys', sxs') ->
  exists ry rx, sys' = sys ++ ry /\ sxs' = sxs ++ rx.
Proof.
  intros val row c ar sid tid ys Xs sys sys' sxs sxs' E E'. unfold od_splits, split_matrices in *. cbn [hd] in E.
  destruct (kinds c) as [ks|] eqn:K; [|discriminate].
  assert (K' : exists k1 k2, kinds (mkSettings (c_S c) (c_M c) (c_obs c) (c_dur c) (c_shared c) (c_sharedm c) (c_first c) true) = Some k1 /\ ks = k1 ++ k2).
  { unfold kinds in K |- *. cbn [c_S c_M c_obs c_dur c_shared c_sharedm c_first c_fixT]. destruct (obs_kinds _ _ _ _) as [o|]; [|discriminate].
    destruct (dur_kinds _ _) as [d|]; [|discriminate]. injection K as <-. cbn [negb]. unfold T_kinds at 1. unfold pi_kinds at 1. cbn [andb].
    rewrite !app_nil_r. eexists. exists (T_kinds (negb (c_fixT c)) (c_S c) ++ pi_kinds (negb (c_fixT c)) (c_S c)). split; [reflexivity|]. now rewrite <- !app_assoc. }
  destruct K' as (k1 & k2 & K1 & ->). rewrite K1 in E. clear K K1. generalize dependent sxs'. generalize dependent sys'. generalize dependent sxs. generalize dependent sys.
  generalize (hd None ys) as y0. intros y0. generalize dependent Xs. revert ys. induction k1 as [|k k1 IH]; intros ys Xs sys sxs E sys' sxs' E'.
  - injection E as <- <-. now exists sys', sxs'.
  - cbn [app split_all] in E, E'. destruct ys as [|y ys]; [discriminate|]. destruct Xs as [|X Xs]; [discriminate|].
    destruct (y_split _ _ _ _ _ _ y) as [sy|]; [|discriminate]. destruct (x_split _ _ _ _ X) as [sx|]; [|discriminate].
    destruct (split_all val row k1 _ _ _ _ ys Xs) as [[a b]|] eqn:A; [|discriminate]. destruct (split_all val row (k1 ++ k2) _ _ _ _ ys Xs) as [[a' b']|] eqn:B; [|discriminate].
    injection E as <- <-. injection E' as <- <-. destruct (IH _ _ _ _ A _ _ B) as (ry & rx & -> & ->). now exists ry, rx.
Qed.
(** Other data: with an autoregressive model the probabilities raise an exception, and decoding leaves the observations as
    they are. *)
Theorem C165_new_data_refuted : exists c n g (y : list nat) rest Xs, g y <> y /\
  od_splits nat nat c (Some (n, g)) [0] [0] (Some y :: rest) Xs = None /\
  option_map (fun x => hd None (snd (fst x))) (decode_inputs nat nat unit c (Some (n, g)) (One tt) [0] [0] (Some y :: rest) Xs 0) = Some (Some y).
Proof.
  exists (mkSettings 3 1 (repeat [FNone] 3) [Some 1; None; Some 1] [] false true true), 3, (map (plus 10)), [1; 2], [Some [0; 0]; Some [0; 0]], [None; None; None].
  split; [discriminate|]. split; reflexivity.
Qed.
Example C165_case : exists sys' sxs',
  od_splits nat nat two_states None [0; 1] [0; 1] [Some [1; 2]; None; None; None; Some [0; 0]; Some [0; 0]; Some [0; 0]] (repeat None 7) =
    Some ([Some [[1]; [2]]; None; None; None; Some [[0]; [0]]; Some [[0]; [0]]], repeat None 6) /\
  split_matrices nat nat two_states None [0; 1] [0; 1] [Some [1; 2]; None; None; None; Some [0; 0]; Some [0; 0]; Some [0; 0]] (repeat None 7) = Some (sys', sxs').
Proof. do 2 eexists. split; reflexivity. Qed.

(** C166: each parameter has its own predictor plus the terms shared for that parameter. *)
Theorem C166_shared : forall E add (eta : nat -> E) k (shared_m : bool) M states, Forall (fun s => length s = M) states ->
  exists out, lik_etas E add eta (seq 0 k) shared_m M states = Some out /\ length out = length states /\
    forall j fams m n p, nth_error states j = Some fams -> nth_error fams m = Some n -> p < n ->
      exists sigs etas, nth_error out j = Some sigs /\ nth_error sigs m = Some etas /\ length etas = n /\
        let own := eta (own_index (k * if shared_m then 1 else M) states j m + p) in
        nth_error etas p = Some (if p <? k then add own (eta (if shared_m then p else p * M + m)) else own).
Proof.
  intros E add eta k sm M states F. unfold lik_etas. change (seq 0 k) with (seq (length (@nil (list E))) k). rewrite shared_seq. cbn [app length].
  rewrite seq_length. destruct (state_etas_nth E add eta k sm M states (k * (if sm then 1 else M)) F) as (out & H & L & N). rewrite H.
  exists out. split; [reflexivity|]. split; [exact L|]. intros j fams m n p H1 H2 H3.
  destruct (uni_spec_nth E add eta k sm M fams 0 (k * (if sm then 1 else M) + list_sum (map (fun fams => list_sum fams) (firstn j states))) m n p H2 H3) as (etas & U1 & U2 & U3).
  do 2 eexists. split; [apply N; exact H1|]. split; [exact U1|]. split; [exact U2|]. cbv zeta. rewrite U3. f_equal. unfold predictor, own_index, shared_at.
  rewrite (nth_error_nth states j [] H1). reflexivity.
Qed.
(** Sharing only the second parameter: an exception. *)
Theorem C166_second_refuted : forall E add (eta : nat -> E) shared_m states, lik_etas E add eta [1] shared_m 1 states = None.
Proof. intros E add eta [|] states; reflexivity. Qed.
Example C166_case : lik_etas (list nat) (@app nat) (fun i => [i]) (seq 0 1) false 2 [[2; 1]; [2; 1]] =
  Some [[[[2; 0]; [3]]; [[4; 1]]]; [[[5; 0]; [6]]; [[7; 1]]]].
Proof. reflexivity. Qed.

(** C167: simulated observations have the predictors of the likelihood, and each draw has its own seed. *)
Theorem C167_simulated : forall E add (eta : nat -> E) sp shared_m M seed states,
  option_map (map (map snd)) (sim_etas E add eta sp shared_m M seed states) = lik_etas E add eta sp shared_m M states.
Proof.
  intros. unfold sim_etas, lik_etas. destruct (shared_etas _ _ _ _ _ _) as [se|]; [|reflexivity]. apply sim_states_spec.
Qed.
Theorem C167_seeds : forall E add (eta : nat -> E) sp shared_m M seed states d,
  sim_etas E add eta sp shared_m M (Some seed) states = Some d ->
  NoDup (map fst (concat d)) /\ forall s, In s (map fst (concat d)) -> exists k, s = Some k /\ seed <= k < seed + length (concat d).
Proof.
  intros E add eta sp sm M seed states d H. unfold sim_etas in H. destruct (shared_etas _ _ _ _ _ _) as [se|]; [|discriminate].
  rewrite (proj2 (sim_states_spec E add eta sp sm se states _ (Some seed)) d seed H). split.
  - apply Injective_map_NoDup; [intros a b [= ->]; reflexivity|apply seq_NoDup].
  - intros s I. apply in_map_iff in I as (k & <- & I). apply in_seq in I. now exists k.
Qed.
Example C167_case : sim_etas (list nat) (@app nat) (fun i => [i]) [0] true 2 (Some 5) [[1; 1]; [2; 1]] =
  Some [[(Some 5, [[1; 0]]); (Some 6, [[2; 0]])]; [(Some 7, [[3; 0]; [4]]); (Some 8, [[5; 0]])]].
Proof. reflexivity. Qed.

Print Assumptions C162_split.
Print Assumptions C163_signals.
Print Assumptions C163_bumps.
Print Assumptions C163_shared_refuted.
Print Assumptions C164_same.
Print Assumptions C164_twice_refuted.
Print Assumptions C164_transitions_refuted.
Print Assumptions C165_probabilities.
Print Assumptions C165_new_data_refuted.
Print Assumptions C166_shared.
Print Assumptions C166_second_refuted.
Print Assumptions C167_simulated.
Print Assumptions C167_seeds.
