From Coq Require Import List Arith Bool Lia Sorted.
From Verif Require Import SplitModel SplitSpec.
Import ListNotations.
Local Open Scope nat_scope.

Lemma ne_firstn {A} (l : list A) n k : nth_error (firstn n l) k = if k <? n then nth_error l k else None.
Proof.
  revert n k. induction l as [|a l IH]; intros [|n] [|k]; cbn [firstn nth_error]; try reflexivity.
  - destruct (S k <? S n); reflexivity.
  - rewrite IH. reflexivity.
Qed.
Lemma ne_skipn {A} (l : list A) n k : nth_error (skipn n l) k = nth_error l (n + k).
Proof. revert n. induction l as [|a l IH]; intros [|n]; cbn [skipn plus nth_error]; try reflexivity; [now destruct k|apply IH]. Qed.
Lemma ne_slice {A} a b (l : list A) k : nth_error (slice a b l) k = if a + k <? b then nth_error l (a + k) else None.
Proof.
  unfold slice. rewrite ne_firstn, ne_skipn. destruct (Nat.ltb_spec k (b - a)), (Nat.ltb_spec (a + k) b); try lia; reflexivity.
Qed.

Lemma split_nth {A} cuts : forall a s (l : list A), nth_error (split_from a cuts l) s =
  if s <? S (length cuts) then Some (slice (nth s (a :: cuts) 0) (nth (S s) (a :: cuts) (length l)) l) else None.
Proof.
  induction cuts as [|c cuts IH]; intros a s l; cbn [split_from].
  - destruct s as [|s]; cbn; [|now destruct s]. f_equal. unfold slice. rewrite firstn_all2; [reflexivity|]. rewrite skipn_length. lia.
  - destruct s as [|s]; [reflexivity|]. cbn [nth_error length]. rewrite IH. reflexivity.
Qed.
Lemma split_length {A} cuts : forall a (l : list A), length (split_from a cuts l) = S (length cuts).
Proof. induction cuts as [|c cuts IH]; intros; cbn; [reflexivity|]. now rewrite IH. Qed.
Lemma skip_skip {A} a b (l : list A) : skipn a (skipn b l) = skipn (b + a) l.
Proof. revert l. induction b as [|b IH]; intros l; [reflexivity|]. destruct l as [|x l]; cbn [skipn plus]; [now rewrite !skipn_nil|apply IH]. Qed.
Lemma slice_skip {A} a c (l : list A) : a <= c -> slice a c l ++ skipn c l = skipn a l.
Proof.
  intros H. unfold slice. rewrite <- (firstn_skipn (c - a) (skipn a l)) at 2. f_equal. rewrite skip_skip. f_equal. lia.
Qed.
Lemma split_concat {A} cuts : forall a (l : list A), StronglySorted lt (a :: cuts) -> concat (split_from a cuts l) = skipn a l.
Proof.
  induction cuts as [|c cuts IH]; intros a l H; cbn [split_from concat].
  - apply app_nil_r.
  - inversion H as [|? ? H1 H2]; subst. rewrite IH by assumption. apply slice_skip. inversion H2; subst. lia.
Qed.
Lemma split_parts {A} sid (l : list A) n : starts sid n ->
  length (np_split (tl sid) l) = length sid /\ concat (np_split (tl sid) l) = l /\
  forall s, s < length sid -> exists p, nth_error (np_split (tl sid) l) s = Some p /\ part_of sid s l p.
Proof.
  intros ([r ->] & S1 & _). unfold np_split. cbn [tl]. split; [now rewrite split_length|]. split; [now rewrite split_concat|].
  intros s Hs. rewrite split_nth. cbn [length] in Hs. rewrite (proj2 (Nat.ltb_lt _ _) Hs). eexists. split; [reflexivity|].
  intros k. apply ne_slice.
Qed.

Lemma firsts_nth {A} ps : forall (qs : list (list A)), firsts ps = Some qs -> length qs = length ps /\
  forall s p, nth_error ps s = Some p -> exists x, nth_error p 0 = Some x /\ nth_error qs s = Some [x].
Proof.
  induction ps as [|[|x p] ps IH]; intros qs; cbn [firsts].
  - intros [= <-]. split; [reflexivity|]. intros [|s]; discriminate.
  - discriminate.
  - destruct (firsts ps) as [r|] eqn:E; [|discriminate]. intros [= <-]. destruct (IH r eq_refl) as [I1 I2].
    split; [cbn; now rewrite I1|]. intros [|s] q; cbn; [intros [= <-]; now exists x|apply I2].
Qed.

(** ** Formulas in turn *)
Lemma split_all_nth {val row} ks ar sid tid y0 : forall ys Xs sys sxs,
  split_all val row ks ar sid tid y0 ys Xs = Some (sys, sxs) ->
  length sys = length ks /\ length sxs = length ks /\
  forall i k, nth_error ks i = Some k -> exists y X sy sx, nth_error ys i = Some y /\ nth_error Xs i = Some X /\
    nth_error sys i = Some sy /\ nth_error sxs i = Some sx /\ y_split val k ar sid tid y0 y = Some sy /\ x_split row k sid tid X = Some sx.
Proof.
  induction ks as [|k ks IH]; intros ys Xs sys sxs; cbn [split_all].
  - intros [= <- <-]. repeat split. intros [|i] ?; discriminate.
  - destruct ys as [|y ys]; [discriminate|]. destruct Xs as [|X Xs]; [discriminate|].
    destruct (y_split _ _ _ _ _ _ y) as [sy|] eqn:Ey; [|discriminate]. destruct (x_split _ _ _ _ X) as [sx|] eqn:Ex; [|discriminate].
    destruct (split_all _ _ _ _ _ _ _ ys Xs) as [[rys rxs]|] eqn:Er; [|discriminate]. intros [= <- <-].
    destruct (IH _ _ _ _ Er) as (L1 & L2 & N). split; [cbn; now rewrite L1|]. split; [cbn; now rewrite L2|].
    intros [|i] k'; cbn [nth_error]; [|apply N]. intros [= <-]. now exists y, X, sy, sx.
Qed.

Lemma shared_kinds_spec sp sm M : length (shared_kinds sp sm M) = length sp * (if sm then 1 else M) /\
  Forall (fun k => exists b, k = KShared b) (shared_kinds sp sm M).
Proof.
  unfold shared_kinds. set (w := if sm then 1 else M). induction sp as [|p sp [I1 I2]]; [split; [reflexivity|constructor]|].
  cbn [flat_map]. split.
  - rewrite app_length, I1, map_length, seq_length. cbn. reflexivity.
  - apply Forall_app. split; [|exact I2]. apply Forall_forall. intros k H. apply in_map_iff in H as (m & <- & _). now eexists.
Qed.
Lemma fam_kinds_spec j f : fam_kinds j f = repeat KObs (fam_count j f).
Proof. destruct f; cbn; try reflexivity. now destruct (Nat.odd j). Qed.
Lemma fams_kinds_spec j fs : flat_map (fam_kinds j) fs = repeat KObs (list_sum (map (fam_count j) fs)).
Proof. induction fs as [|f fs IH]; [reflexivity|]. cbn [flat_map map]. rewrite fam_kinds_spec, IH. cbn [list_sum fold_right]. now rewrite repeat_app. Qed.
Lemma take_fams_firstn n : forall fams fs, take_fams n fams = Some fs -> fs = firstn n fams /\ length fs = n.
Proof.
  induction n as [|n IH]; intros [|f fams] fs; cbn [take_fams firstn]; try discriminate; try (intros [= <-]; now split).
  destruct (take_fams n fams) as [r|] eqn:E; [|discriminate]. intros [= <-]. destruct (IH _ _ E) as [-> L]. split; [reflexivity|]. cbn. now rewrite L.
Qed.
Lemma state_fams_kinds M j fams fs : state_fams M fams = Some fs -> flat_map (fam_kinds j) fs = repeat KObs (state_count M j fams).
Proof.
  unfold state_fams, state_count. destruct fams as [|[|n|n] fams]; intros H.
  1-3: apply take_fams_firstn in H as [-> _]; apply fams_kinds_spec.
  injection H as <-. cbn. now rewrite app_nil_r.
Qed.
Lemma obs_kinds_spec n : forall j M obs ks, obs_kinds n j M obs = Some ks -> ks = repeat KObs (states_count M j (firstn n obs)).
Proof.
  induction n as [|n IH]; intros j M [|fams obs] ks; cbn [obs_kinds firstn]; try discriminate; try (intros [= <-]; reflexivity).
  destruct (state_fams M fams) as [fs|] eqn:E; [|discriminate]. destruct (obs_kinds n (S j) M obs) as [r|] eqn:Er; [|discriminate].
  intros [= <-]. cbn [states_count]. rewrite repeat_app, (state_fams_kinds _ _ _ _ E), (IH _ _ _ _ Er). reflexivity.
Qed.
Lemma dur_kinds_spec n : forall ds ks, dur_kinds n ds = Some ks ->
  ks = repeat KLat (list_sum (map (fun f => match f with Some n => n | None => 0 end) (firstn n ds))).
Proof.
  induction n as [|n IH]; intros [|f ds] ks; cbn [dur_kinds firstn]; try discriminate; try (intros [= <-]; reflexivity).
  destruct (dur_kinds n ds) as [r|] eqn:Er; [|discriminate]. intros [= <-]. cbn [map list_sum fold_right]. rewrite (IH _ _ Er). destruct f; cbn [app]; [|reflexivity].
  now rewrite <- repeat_app.
Qed.
Lemma T_kinds_spec c : T_kinds (negb (c_fixT c)) (c_S c) = repeat KLat (n_trans c).
Proof.
  unfold T_kinds, n_trans. destruct (c_fixT c); cbn [negb andb]; [reflexivity|]. destruct (Nat.ltb_spec 2 (c_S c)); [reflexivity|].
  replace (c_S c - 2) with 0 by lia. now rewrite Nat.mul_0_r.
Qed.
Lemma pi_kinds_spec c : pi_kinds (negb (c_fixT c)) (c_S c) = repeat KPi (n_pi c).
Proof. unfold pi_kinds, n_pi. now destruct (c_fixT c). Qed.

Lemma kinds_spec c ks : kinds c = Some ks ->
  ks = shared_kinds (c_shared c) (c_sharedm c) (c_M c) ++ repeat KObs (n_obs c) ++ repeat KLat (n_dur c) ++ repeat KLat (n_trans c) ++ repeat KPi (n_pi c).
Proof.
  unfold kinds. destruct (obs_kinds _ _ _ _) as [o|] eqn:Eo; [|discriminate]. destruct (dur_kinds _ _) as [d|] eqn:Ed; [|discriminate].
  intros [= <-]. rewrite T_kinds_spec, pi_kinds_spec, (obs_kinds_spec _ _ _ _ _ Eo), (dur_kinds_spec _ _ _ Ed). reflexivity.
Qed.
Definition use_kind (k : kind) : use := match k with KShared _ | KObs => BySeries | KLat => ByTrial | KPi => FirstRow end.
Lemma ne_repeat {A} (x : A) n i y : nth_error (repeat x n) i = Some y -> y = x /\ i < n.
Proof.
  intros H. split; [|rewrite <- (repeat_length x n); apply nth_error_Some; congruence].
  apply nth_error_In, repeat_spec in H. now symmetry.
Qed.
Lemma ne_repeat_lt {A} (x : A) n i : i < n -> nth_error (repeat x n) i = Some x.
Proof. revert i. induction n as [|n IH]; intros [|i] H; cbn; try lia; [reflexivity|apply IH; lia]. Qed.

Lemma kinds_use c ks i k : kinds c = Some ks -> nth_error ks i = Some k -> use_kind k = use_of c i.
Proof.
  intros K N. rewrite (kinds_spec _ _ K) in N. destruct (shared_kinds_spec (c_shared c) (c_sharedm c) (c_M c)) as [L1 F]. fold (n_shared c) in L1.
  unfold use_of. destruct (Nat.ltb_spec i (n_shared c)) as [H1|H1].
  - rewrite nth_error_app1 in N by lia. apply nth_error_In in N. destruct (proj1 (Forall_forall _ _) F _ N) as [b ->].
    rewrite (proj2 (Nat.ltb_lt _ _)) by lia. reflexivity.
  - rewrite nth_error_app2 in N by lia. rewrite L1 in N. destruct (Nat.ltb_spec (i - n_shared c) (n_obs c)) as [H2|H2].
    + rewrite nth_error_app1 in N by now rewrite repeat_length. apply ne_repeat in N as [-> _]. rewrite (proj2 (Nat.ltb_lt _ _)) by lia. reflexivity.
    + rewrite nth_error_app2 in N by now rewrite repeat_length. rewrite repeat_length in N. rewrite (proj2 (Nat.ltb_ge i (n_shared c + n_obs c))) by lia.
      rewrite app_assoc in N. destruct (Nat.ltb_spec (i - n_shared c - n_obs c) (n_dur c + n_trans c)) as [H3|H3].
      * rewrite nth_error_app1 in N by (rewrite app_length, !repeat_length; lia). rewrite <- repeat_app in N. apply ne_repeat in N as [-> _].
        rewrite (proj2 (Nat.ltb_lt _ _)) by lia. reflexivity.
      * rewrite nth_error_app2 in N by (rewrite app_length, !repeat_length; lia). apply ne_repeat in N as [-> _]. rewrite (proj2 (Nat.ltb_ge _ _)) by lia. reflexivity.
Qed.
Lemma kinds_obs c ks i : kinds c = Some ks -> n_shared c <= i < n_shared c + n_obs c -> nth_error ks i = Some KObs.
Proof.
  intros K H. rewrite (kinds_spec _ _ K). destruct (shared_kinds_spec (c_shared c) (c_sharedm c) (c_M c)) as [L1 _]. fold (n_shared c) in L1.
  rewrite nth_error_app2 by lia. rewrite nth_error_app1 by (rewrite repeat_length; lia). apply ne_repeat_lt. lia.
Qed.
Lemma kinds_length c ks : kinds c = Some ks -> length ks = n_shared c + n_obs c + n_dur c + n_trans c + n_pi c.
Proof.
  intros K. rewrite (kinds_spec _ _ K). destruct (shared_kinds_spec (c_shared c) (c_sharedm c) (c_M c)) as [L1 _]. fold (n_shared c) in L1.
  rewrite !app_length, !repeat_length, L1. lia.
Qed.

(** ** Signals *)
Lemma fam_signals_length j fams : forall m, length (fam_signals j m fams) = list_sum (map (fam_count j) fams).
Proof. induction fams as [|f fams IH]; intros m; [reflexivity|]. cbn. now rewrite app_length, repeat_length, IH. Qed.
Lemma state_signals_length M j fams : length (state_signals M j fams) = state_count M j fams.
Proof. unfold state_signals, state_count. destruct fams as [|[|n|n] fams]; try apply fam_signals_length. apply seq_length. Qed.
Lemma states_signals_length M obs : forall j, length (states_signals M j obs) = states_count M j obs.
Proof. induction obs as [|f obs IH]; intros j; [reflexivity|]. cbn. now rewrite app_length, state_signals_length, IH. Qed.

(** A plan entry with no parameters reads a formula of someone else: families have parameters. *)
Definition has_pars (f : fam) : Prop := match f with FUni n | FMulti n => 0 < n | FNone => True end.

Lemma fam_plan_spec j fams : forall m idx p e, Forall has_pars fams -> fam_plan j m idx fams = (p, e) ->
  e = idx + list_sum (map (fam_count j) fams) /\
  forall x, In x p -> exists s i, x = (j, s, idx + i) /\ nth_error (fam_signals j m fams) i = Some s.
Proof.
  induction fams as [|f fams IH]; intros m idx p e F; cbn [fam_plan].
  - intros [= <- <-]. split; [cbn; lia|]. intros x [].
  - inversion F as [|? ? F1 F2]; subst.
    assert (G : forall n, fam_count j f = n -> 0 < n -> (let (p, e) := fam_plan j (S m) (idx + n) fams in ((j, m, idx) :: p, e)) = (p, e) ->
      e = idx + list_sum (map (fam_count j) (f :: fams)) /\
      forall x, In x p -> exists s i, x = (j, s, idx + i) /\ nth_error (fam_signals j m (f :: fams)) i = Some s).
    { intros n En Hn. destruct (fam_plan j (S m) (idx + n) fams) as [p' e'] eqn:E. intros [= <- <-]. destruct (IH _ _ _ _ F2 E) as [-> I2].
      split; [cbn [map list_sum fold_right]; unfold list_sum; lia|]. intros x [<-|Hx].
      - exists m, 0. rewrite Nat.add_0_r. split; [reflexivity|]. cbn [fam_signals]. rewrite En, nth_error_app1 by (rewrite repeat_length; lia). now apply ne_repeat_lt.
      - destruct (I2 x Hx) as (s & i & -> & N). exists s, (n + i). split; [f_equal; lia|]. cbn [fam_signals]. rewrite En, nth_error_app2 by (rewrite repeat_length; lia).
        rewrite repeat_length. replace (n + i - n) with i by lia. exact N. }
    destruct f as [|n|n]; cbn [has_pars] in F1.
    + destruct (Nat.odd j) eqn:O; [apply G; [cbn; now rewrite O|lia]|]. intros E. destruct (IH _ _ _ _ F2 E) as [-> I2].
      assert (fam_count j FNone = 0) as Z by (cbn; now rewrite O). split; [cbn [map list_sum fold_right]; unfold list_sum; lia|].
      intros x Hx. destruct (I2 x Hx) as (s & i & -> & N). exists s, i. split; [reflexivity|]. cbn [fam_signals]. now rewrite Z.
    + now apply G.
    + now apply G.
Qed.
Lemma Forall_firstn {A} (P : A -> Prop) n l : Forall P l -> Forall P (firstn n l).
Proof. intros H. apply Forall_forall. intros x I. rewrite <- (firstn_skipn n l) in H. apply Forall_app in H as [H _]. exact (proj1 (Forall_forall _ _) H x I). Qed.
Lemma state_plan_spec M j idx fams p e : Forall has_pars fams -> state_plan M j idx fams = Some (p, e) ->
  e = idx + state_count M j fams /\ forall x, In x p -> exists s i, x = (j, s, idx + i) /\ nth_error (state_signals M j fams) i = Some s.
Proof.
  unfold state_plan, state_count, state_signals. intros F. destruct fams as [|[|n|n] fams].
  1-3: destruct (take_fams M _) as [fs|] eqn:E; [|discriminate]; apply take_fams_firstn in E as [-> _]; intros [= E];
    apply fam_plan_spec in E; [exact E|now apply Forall_firstn].
  intros [= <- <-]. split; [reflexivity|]. intros x H. apply in_map_iff in H as (i & <- & I). apply in_seq in I. exists i, i. split; [reflexivity|].
  rewrite (nth_error_nth' (seq 0 n) 0) by (rewrite seq_length; lia). f_equal. rewrite seq_nth by lia. reflexivity.
Qed.
Lemma obs_plan_spec M n : forall j idx obs p, Forall (Forall has_pars) obs -> obs_plan n j M idx obs = Some p ->
  forall x, In x p -> exists j' s i, x = (j', s, idx + i) /\ nth_error (states_signals M j (firstn n obs)) i = Some s.
Proof.
  induction n as [|n IH]; intros j idx [|fams obs] p F; cbn [obs_plan firstn]; try discriminate; try (intros [= <-] x []).
  inversion F as [|? ? F1 F2]; subst. destruct (state_plan M j idx fams) as [[q e]|] eqn:E; [|discriminate].
  destruct (obs_plan n (S j) M e obs) as [r|] eqn:Er; [|discriminate]. intros [= <-] x I.
  destruct (state_plan_spec _ _ _ _ _ _ F1 E) as [-> S2]. apply in_app_or in I as [I|I].
  - destruct (S2 x I) as (s & i & -> & N). exists j, s, i. split; [reflexivity|]. cbn [states_signals]. rewrite nth_error_app1; [exact N|].
    apply nth_error_Some. congruence.
  - destruct (IH _ _ _ _ F2 Er x I) as (j' & s & i & -> & N). exists j', s, (state_count M j fams + i). split; [f_equal; lia|].
    cbn [states_signals]. rewrite nth_error_app2 by (rewrite state_signals_length; lia). rewrite state_signals_length.
    replace (_ + i - _) with i by lia. exact N.
Qed.

Lemma of_series_nth {A} s (sp : list (option (list A))) : forall out, of_series s sp = Some out -> length out = length sp /\
  forall i x, nth_error sp i = Some x -> nth_error out i = Some (match x with None => None | Some l => nth_error l s end) /\
    (forall l, x = Some l -> s < length l).
Proof.
  induction sp as [|[l|] sp IH]; intros out; cbn [of_series].
  - intros [= <-]. split; [reflexivity|]. intros [|i] x; discriminate.
  - destruct (nth_error l s) as [a|] eqn:E; [|discriminate]. destruct (of_series s sp) as [r|]; [|discriminate]. intros [= <-].
    destruct (IH r eq_refl) as [I1 I2]. split; [cbn; now rewrite I1|]. intros [|i] x; cbn [nth_error]; [|apply I2]. intros [= <-]. rewrite E. split; [reflexivity|].
    intros l' [= <-]. apply nth_error_Some. congruence.
  - destruct (of_series s sp) as [r|]; [|discriminate]. intros [= <-]. destruct (IH r eq_refl) as [I1 I2]. split; [cbn; now rewrite I1|].
    intros [|i] x; cbn [nth_error]; [|apply I2]. intros [= <-]. split; [reflexivity|]. discriminate.
Qed.
