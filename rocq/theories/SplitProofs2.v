From Coq Require Import List Arith Bool Lia Sorted.
From Verif Require Import SplitModel SplitSpec SplitProofs.
Import ListNotations.
Local Open Scope nat_scope.

Lemma ne_ext {A} (l l' : list A) : (forall i, nth_error l i = nth_error l' i) -> l = l'.
Proof.
  revert l'. induction l as [|a l IH]; intros [|b l'] H; [reflexivity|specialize (H 0); discriminate|specialize (H 0); discriminate|].
  f_equal; [specialize (H 0); cbn in H; congruence|]. apply IH. intros i. exact (H (S i)).
Qed.

Lemma get_ys_nth {val} (data : nat -> list val) v0 r i : nth_error (get_ys val data (v0 :: r)) i =
  match nth_error (v0 :: r) i with None => None | Some v => Some (if (0 <? i) && (v =? v0) then None else Some (data v)) end.
Proof.
  destruct i as [|i]; [reflexivity|]. cbn [get_ys nth_error]. rewrite nth_error_map. destruct (nth_error r i); reflexivity.
Qed.

(** What a formula of the observations reads. *)
Lemma entry {val row} c ar sid tid n (data : nat -> list val) vars Xs sys (sxs : list (option (list (list row)))) s ysS Y idx v :
  starts sid n -> s < length sid ->
  nth_error vars 0 = Some 0 ->
  split_matrices val row c ar sid tid (get_ys val data vars) Xs = Some (sys, sxs) ->
  of_series s sys = Some ysS -> yfix val ysS = Some Y ->
  n_shared c <= idx < n_shared c + n_obs c -> nth_error vars idx = Some v ->
  exists w p, whiten val ar (data v) = Some w /\ nth_error Y idx = Some p /\ part_of sid s w p.
Proof.
  intros St Hs V0 E O F Hi V. destruct vars as [|v0 r]; [discriminate|]. injection V0 as ->.
  unfold split_matrices in E. destruct (kinds c) as [ks|] eqn:K; [|discriminate]. change (hd None (get_ys val data (0 :: r))) with (Some (data 0)) in E.
  destruct (split_all_nth _ _ _ _ _ _ _ _ _ E) as (L1 & L2 & N). destruct (of_series_nth _ _ _ O) as [L3 N3].
  unfold yfix in F. destruct ysS as [|[y0|] ysS]; [discriminate| |discriminate].
  assert (YE : Y = map (fun y => match y with Some y => y | None => y0 end) (Some y0 :: ysS)) by congruence. clear F.
  assert (Piece : forall w : list val, exists p, nth_error (np_split (tl sid) w) s = Some p /\ part_of sid s w p).
  { intros w. destruct (split_parts sid w n St) as (_ & _ & P). exact (P s Hs). }
  (* the first formula *)
  assert (Z : exists w, whiten val ar (data 0) = Some w /\ part_of sid s w y0).
  { assert (H0 : exists k0, nth_error ks 0 = Some k0).
    { destruct ks as [|k0 ks]; [|now exists k0]. apply kinds_length in K. cbn in K. lia. }
    destruct H0 as [k0 H0]. pose proof (kinds_use _ _ _ _ K H0) as U. unfold use_of in U. rewrite (proj2 (Nat.ltb_lt _ _)) in U by lia.
    destruct (N _ _ H0) as (y & X & sy & sx & A1 & _ & A3 & _ & A5 & _). rewrite get_ys_nth in A1. cbn in A1. injection A1 as <-.
    destruct (N3 _ _ A3) as [B _]. cbn [nth_error] in B.
    destruct k0 as [[|]| | |]; try discriminate U; cbn [y_split] in A5.
    - destruct (whiten val ar (data 0)) as [w|]; [|discriminate]. injection A5 as <-. exists w. split; [reflexivity|].
      destruct (Piece w) as (p & Pp & Q). rewrite Pp in B. injection B as <-. exact Q.
    - injection A5 as <-. discriminate.
    - destruct (whiten val ar (data 0)) as [w|]; [|discriminate]. injection A5 as <-. exists w. split; [reflexivity|].
      destruct (Piece w) as (p & Pp & Q). rewrite Pp in B. injection B as <-. exact Q. }
  pose proof (kinds_obs _ _ _ K Hi) as Hk. destruct (N _ _ Hk) as (y & X & sy & sx & A1 & _ & A3 & _ & A5 & _).
  rewrite get_ys_nth, V in A1. injection A1 as <-. destruct (N3 _ _ A3) as [B _]. cbn [y_split] in A5.
  destruct ((0 <? idx) && (v =? 0)) eqn:D.
  - apply andb_true_iff in D as [D1 D2]. apply Nat.eqb_eq in D2 as ->. injection A5 as <-.
    destruct Z as (w & Z1 & Z2). exists w, y0. split; [exact Z1|]. split; [|exact Z2].
    rewrite YE, nth_error_map, B. reflexivity.
  - destruct (whiten val ar (data v)) as [w|]; [|discriminate]. injection A5 as <-. destruct (Piece w) as (p & Pp & Q). exists w, p.
    split; [reflexivity|]. split; [|exact Q]. rewrite YE, nth_error_map, B, Pp. reflexivity.
Qed.

Lemma shared_variables_length c : length (flat_map (fun _ : nat => if c_sharedm c then [0] else seq 0 (c_M c)) (c_shared c)) = n_shared c.
Proof.
  unfold n_shared. induction (c_shared c) as [|p l IH]; [reflexivity|]. cbn [flat_map length]. rewrite app_length, IH.
  destruct (c_sharedm c); [cbn; lia|]. rewrite seq_length. lia.
Qed.
Lemma variables_nth c rest i v : nth_error (states_signals (c_M c) 0 (firstn (c_S c) (c_obs c))) i = Some v ->
  nth_error (variables c rest) (n_shared c + i) = Some v /\ n_shared c + i < n_shared c + n_obs c.
Proof.
  intros H. assert (L : i < length (states_signals (c_M c) 0 (firstn (c_S c) (c_obs c)))) by (apply nth_error_Some; congruence).
  split; [|rewrite states_signals_length in L; unfold n_obs; lia].
  unfold variables. rewrite nth_error_app2 by (rewrite shared_variables_length; lia). rewrite shared_variables_length.
  replace (n_shared c + i - n_shared c) with i by lia. now rewrite nth_error_app1.
Qed.

(** ** Splitting again *)
Definition pick {A} (s : nat) (sx : option (list A)) : option A := match sx with None => None | Some l => nth_error l s end.
Lemma x_again {row} k sid tid s X sx : x_split row k sid tid X = Some sx -> (forall l, sx = Some l -> s < length l) ->
  x_split row k [0] [0] (pick s sx) = Some (option_map (fun p => [p]) (pick s sx)).
Proof.
  intros E L. destruct sx as [ps|]; [|reflexivity]. cbn [pick]. specialize (L ps eq_refl).
  destruct (nth_error ps s) as [p|] eqn:N; [|apply nth_error_None in N; lia].
  destruct X as [X|]; [|discriminate]. destruct k as [b| | |]; cbn [x_split] in E |- *; try reflexivity.
  destruct (firsts (np_split (tl tid) X)) as [qs|] eqn:Q; [|discriminate]. injection E as <-. destruct (firsts_nth _ _ Q) as [_ Q2].
  assert (H : exists p', nth_error (np_split (tl tid) X) s = Some p').
  { destruct (nth_error (np_split (tl tid) X) s) as [p'|] eqn:N'; [now exists p'|]. apply nth_error_None in N'. apply firsts_nth in Q as [Q1 _]. lia. }
  destruct H as [p' H]. destruct (Q2 _ _ H) as (x & _ & R). rewrite N in R. injection R as ->. reflexivity.
Qed.
Lemma y_again {val} k ar sid tid s y0 y0' y sy : y_split val k ar sid tid y0 y = Some sy -> (forall l, sy = Some l -> s < length l) ->
  (k = KShared true -> y0' = pick s sy) ->
  y_split val k None [0] [0] y0' (pick s sy) = Some (option_map (fun p => [p]) (pick s sy)).
Proof.
  intros E L H0. destruct k as [[|]| | |]; cbn [y_split] in E |- *.
  - rewrite (H0 eq_refl). destruct y0 as [z|]; [|discriminate]. destruct (whiten val ar z); [|discriminate]. injection E as <-. cbn [pick].
    destruct (nth_error _ s) as [p|] eqn:N; [reflexivity|]. apply nth_error_None in N. specialize (L _ eq_refl). lia.
  - injection E as <-. reflexivity.
  - destruct y as [z|]; [|injection E as <-; reflexivity]. destruct (whiten val ar z); [|discriminate]. injection E as <-. cbn [pick].
    destruct (nth_error _ s) as [p|] eqn:N; [reflexivity|]. apply nth_error_None in N. specialize (L _ eq_refl). lia.
  - destruct y as [z|]; injection E as <-; [|reflexivity]. cbn [pick].
    destruct (nth_error _ s) as [p|] eqn:N; [reflexivity|]. apply nth_error_None in N. specialize (L _ eq_refl). lia.
  - destruct y as [z|]; [|injection E as <-; reflexivity]. exact (x_again KPi sid tid s (Some z) sy E L).
Qed.

Lemma slice_length {A} a b (l : list A) : length (slice a b l) = Nat.min (b - a) (length l - a).
Proof. unfold slice. now rewrite firstn_length, skipn_length. Qed.
Lemma piece_short {A} sid n s (l : list A) p : starts sid n -> 2 <= length sid -> length l = n ->
  nth_error (np_split (tl sid) l) s = Some p -> length p < n.
Proof.
  intros ([r ->] & Hs & F) L2 Ln N. unfold np_split in N. cbn [tl] in N. rewrite split_nth in N.
  destruct (Nat.ltb_spec s (S (length r))) as [G|G]; [|discriminate]. injection N as <-. rewrite slice_length.
  destruct r as [|c r]; [cbn in L2; lia|]. destruct s as [|s].
  - cbn [nth]. inversion F as [|? ? F1 F2]; subst. inversion F2; subst. lia.
  - inversion F as [|? ? F1 F2]; subst. inversion Hs as [|? ? S1 S2]; subst.
    assert (P : 0 < nth (S s) (0 :: c :: r) 0).
    { cbn [nth]. cbn [length] in G. destruct s as [|s]; [inversion S2; subst; cbn; lia|]. inversion S2 as [|? ? _ S3]; subst. apply (proj1 (Forall_forall _ _) S3). apply nth_In. lia. }
    change (nth (S s) (0 :: c :: r) 0) with (nth s (c :: r) 0) in P. lia.
Qed.


Section Again.
Variables val row trans : Type.

Lemma again c ar f sid tid ys Xs s x :
  (forall ts, f <> PerSeries ts) -> use_of c 0 = BySeries ->
  match ar with
  | None => True
  | Some (n, g) => (forall l, length (g l) = length l) /\ (exists y r, ys = Some y :: r /\ length y = n) /\ starts sid n /\ 2 <= length sid
  end ->
  resid_decode_inputs val row trans c ar f sid tid ys Xs s = Some x ->
  decode_inputs val row trans c ar f sid tid ys Xs s = Some x.
Proof.
  intros Hf U A R. unfold resid_decode_inputs in R. destruct (split_matrices val row c ar sid tid ys Xs) as [[sys sxs]|] eqn:E; [|discriminate].
  destruct (series_inputs val row trans f (sys, sxs) s) as [[[t ysS] XsS]|] eqn:SI; [|discriminate].
  assert (FT : ar_if_fits val ar ys = ar).
  { destruct ar as [[n g]|]; [|reflexivity]. destruct A as (_ & (y & r & -> & L) & _). cbn. rewrite L, Nat.eqb_refl. reflexivity. }
  unfold decode_inputs at 1. rewrite FT, E, SI.
  unfold series_inputs in SI. cbn [fst snd] in SI. destruct (series_trans trans f s) as [t'|] eqn:T; [|discriminate].
  destruct (of_series s sys) as [a|] eqn:O1; [|discriminate]. destruct (of_series s sxs) as [b|] eqn:O2; [|discriminate]. injection SI as -> -> ->.
  destruct (of_series_nth _ _ _ O1) as [La Na]. destruct (of_series_nth _ _ _ O2) as [Lb Nb].
  assert (E' := E). unfold split_matrices in E'. destruct (kinds c) as [ks|] eqn:K; [|discriminate].
  destruct (split_all_nth _ _ _ _ _ _ _ _ _ E') as (L1 & L2 & N).
  assert (AR0 : ar_if_fits val ar ysS = None).
  { destruct ar as [[n g]|]; [|reflexivity]. destruct A as (G & (y & r & -> & L) & St & L2'). cbn [hd] in E'.
    destruct ysS as [|[p|] ysS]; [reflexivity| |reflexivity]. cbn [ar_if_fits].
    destruct ks as [|k0 ks]; [cbn in L1, La; lia|]. pose proof (kinds_use c (k0 :: ks) 0 k0 K eq_refl) as Uk. rewrite U in Uk.
    destruct (N 0 k0 eq_refl) as (y1 & X & sy & sx & A1 & _ & A3 & _ & A5 & _). injection A1 as <-. destruct (Na _ _ A3) as [B _]. cbn [nth_error] in B.
    assert (Q : exists w, length w = n /\ sy = Some (np_split (tl sid) w) \/ sy = None).
    { assert (W : whiten val (Some (n, g)) y = Some (g y)) by (cbn; now rewrite L, Nat.eqb_refl).
      destruct k0 as [[|]| | |]; try discriminate Uk; cbn [y_split] in A5; cbn [hd] in A5.
      - rewrite W in A5. injection A5 as <-. exists (g y). left. split; [now rewrite G|reflexivity].
      - injection A5 as <-. exists []. now right.
      - rewrite W in A5. injection A5 as <-. exists (g y). left. split; [now rewrite G|reflexivity]. }
    destruct Q as (w & [[Lw ->] | ->]); [|discriminate B]. injection B as B. symmetry in B. pose proof (piece_short _ _ _ _ _ St L2' Lw B) as Sh.
    rewrite (proj2 (Nat.eqb_neq _ _)) by lia. reflexivity. }
  unfold decode_inputs in R. rewrite AR0 in R.
  destruct (split_matrices val row c None [0] [0] ysS XsS) as [[sys' sxs']|] eqn:E2; [|discriminate].
  unfold split_matrices in E2. rewrite K in E2. destruct (split_all_nth _ _ _ _ _ _ _ _ _ E2) as (L1' & L2' & N').
  unfold series_inputs in R. cbn [fst snd] in R.
  assert (T0 : series_trans trans f 0 = Some t).
  { destruct f as [| |ts]; [exact T|exact T|now contradiction (Hf ts)]. }
  rewrite T0 in R. destruct (of_series 0 sys') as [a|] eqn:O1'; [|discriminate]. destruct (of_series 0 sxs') as [b|] eqn:O2'; [|discriminate].
  injection R as <-. destruct (of_series_nth _ _ _ O1') as [La' Na']. destruct (of_series_nth _ _ _ O2') as [Lb' Nb'].
  (* the shared formula that carries observations is the first *)
  assert (First : forall i, nth_error ks i = Some (KShared true) -> exists sy, nth_error sys i = Some sy /\ hd None ysS = pick s sy).
  { intros i Hi. destruct (N _ _ Hi) as (y & X & sy & sx & _ & _ & A3 & _ & A5 & _). exists sy. split; [exact A3|].
    destruct (N' _ _ Hi) as (y' & _ & sy' & _ & _ & _ & _ & _ & B5 & _). cbn [y_split] in A5, B5.
    destruct (hd None ys) as [y0|] eqn:Y0; [|discriminate]. destruct (whiten val ar y0) as [w|] eqn:W; [|discriminate]. injection A5 as <-.
    destruct ks as [|k0 ks]; [now destruct i|]. destruct (N 0 k0 eq_refl) as (y1 & X1 & sy1 & sx1 & A1 & _ & A3' & _ & A5' & _).
    destruct (Na _ _ A3') as [B _]. destruct ysS as [|e ysS]; [discriminate|]. cbn [hd nth_error] in B5, B |- *. injection B as ->.
    assert (K0 : exists b, k0 = KShared b).
    { rewrite (kinds_spec _ _ K) in Hi. pose proof (kinds_spec _ _ K) as KS. destruct (shared_kinds_spec (c_shared c) (c_sharedm c) (c_M c)) as [_ F].
      destruct (shared_kinds (c_shared c) (c_sharedm c) (c_M c)) as [|k1 sk] eqn:SK.
      - exfalso. cbn [app] in Hi. apply nth_error_In in Hi. repeat (apply in_app_or in Hi as [Hi|Hi]); apply repeat_spec in Hi; discriminate.
      - cbn [app] in KS. injection KS as -> _. apply Forall_inv in F. exact F. }
    destruct K0 as [[|] ->]; cbn [y_split] in A5'.
    - rewrite W in A5'. injection A5' as <-. reflexivity.
    - injection A5' as <-. discriminate B5. }
  repeat f_equal; apply ne_ext; intros i.
  - destruct (nth_error ks i) as [k|] eqn:Hk.
    + destruct (N _ _ Hk) as (y & X & sy & sx & _ & _ & A3 & _ & A5 & _). destruct (N' _ _ Hk) as (y' & X' & sy' & sx' & B1 & _ & B3 & _ & B5 & _).
      destruct (Na _ _ A3) as [C1 C2]. destruct (Na' _ _ B3) as [D1 _]. fold (pick s sy) in C1. rewrite B1 in C1. injection C1 as ->.
      rewrite (y_again k ar sid tid s (hd None ys) (hd None ysS) y sy A5 C2) in B5.
      * injection B5 as <-. rewrite B1, D1. now destruct (pick s sy).
      * intros ->. destruct (First _ Hk) as (sy1 & F1 & F2). rewrite A3 in F1. injection F1 as <-. exact F2.
    + apply nth_error_None in Hk. rewrite !(proj2 (nth_error_None _ _)) by lia. reflexivity.
  - destruct (nth_error ks i) as [k|] eqn:Hk.
    + destruct (N _ _ Hk) as (y & X & sy & sx & _ & _ & _ & A4 & _ & A6). destruct (N' _ _ Hk) as (y' & X' & sy' & sx' & _ & B2 & _ & B4 & _ & B6).
      destruct (Nb _ _ A4) as [C1 C2]. destruct (Nb' _ _ B4) as [D1 _]. fold (pick s sx) in C1. rewrite B2 in C1. injection C1 as ->.
      rewrite (x_again k sid tid s X sx A6 C2) in B6. injection B6 as <-. rewrite B2, D1. now destruct (pick s sx).
    + apply nth_error_None in Hk. rewrite !(proj2 (nth_error_None _ _)) by lia. reflexivity.
Qed.
End Again.

(** ** Shared terms *)
Section Sh.
Variable E : Type.
Variable add : E -> E -> E.
Variable eta : nat -> E.

Lemma extend_last (acc : list (list E)) x : extend E (length acc) x (acc ++ [[]]) = Some (acc ++ [x]).
Proof. induction acc as [|a acc IH]; [reflexivity|]. cbn [length app extend]. now rewrite IH. Qed.
Lemma shared_seq midx k : forall idx acc, shared_etas E eta (seq (length acc) k) midx idx acc =
  Some (acc ++ map (fun i => map eta (seq (idx + i * midx) midx)) (seq 0 k)).
Proof.
  induction k as [|k IH]; intros idx acc; cbn [seq shared_etas].
  - now rewrite app_nil_r.
  - rewrite extend_last. specialize (IH (idx + midx) (acc ++ [map eta (seq idx midx)])). rewrite app_length in IH. cbn [length] in IH.
    rewrite Nat.add_1_r in IH. rewrite IH. f_equal. rewrite <- app_assoc. f_equal. cbn [map app]. rewrite Nat.mul_0_l, Nat.add_0_r. f_equal.
    rewrite <- seq_shift, map_map. apply map_ext. intros i. f_equal. f_equal. lia.
Qed.
Lemma mem_seq p k : mem p (seq 0 k) = (p <? k).
Proof.
  unfold mem. destruct (Nat.ltb_spec p k) as [H|H].
  - apply existsb_exists. exists p. split; [apply in_seq; lia|apply Nat.eqb_refl].
  - destruct (existsb (Nat.eqb p) (seq 0 k)) eqn:X; [|reflexivity]. apply existsb_exists in X as (q & Q & Q2). apply Nat.eqb_eq in Q2. apply in_seq in Q. lia.
Qed.
Lemma sequence_map {A B} (g : A -> option B) (h : A -> B) l : (forall a, In a l -> g a = Some (h a)) -> sequence (map g l) = Some (map h l).
Proof.
  induction l as [|a l IH]; intros H; [reflexivity|]. cbn [map sequence]. rewrite (H a (or_introl eq_refl)), IH by (intros b Hb; apply H; now right). reflexivity.
Qed.
Definition shared_at (sm : bool) (M m p : nat) : nat := if sm then p else p * M + m.
Definition predictor (k : nat) (sm : bool) (M m idx p : nat) : E :=
  if p <? k then add (eta (idx + p)) (eta (shared_at sm M m p)) else eta (idx + p).
Lemma ne_seq a n i : i < n -> nth_error (seq a n) i = Some (a + i).
Proof. intros H. rewrite (nth_error_nth' _ 0) by now rewrite seq_length. now rewrite seq_nth. Qed.
Lemma with_shared_spec k (sm : bool) M m idx p : m < M ->
  with_shared E add (seq 0 k) (map (fun i => map eta (seq (0 + i * (if sm then 1 else M)) (if sm then 1 else M))) (seq 0 k)) p (if sm then 0 else m) (eta (idx + p)) =
  Some (predictor k sm M m idx p).
Proof.
  intros Hm. unfold with_shared, predictor. rewrite mem_seq. destruct (Nat.ltb_spec p k) as [H|H]; [|reflexivity].
  rewrite nth_error_map, ne_seq by exact H. cbn [option_map]. rewrite nth_error_map, ne_seq by (destruct sm; lia). cbn [option_map].
  repeat f_equal. unfold shared_at. destruct sm; lia.
Qed.
Definition uni_spec (k : nat) (sm : bool) (M : nat) : nat -> nat -> list nat -> list (list E) :=
  fix go (m idx : nat) (fams : list nat) : list (list E) := match fams with [] => [] | n :: r => map (predictor k sm M m idx) (seq 0 n) :: go (S m) (idx + n) r end.
Lemma uni_etas_spec k (sm : bool) M fams : forall m idx, m + length fams <= M ->
  uni_etas E add eta (seq 0 k) sm (map (fun i => map eta (seq (0 + i * (if sm then 1 else M)) (if sm then 1 else M))) (seq 0 k)) m idx fams = Some (uni_spec k sm M m idx fams).
Proof.
  induction fams as [|n fams IH]; intros m idx L; [reflexivity|]. cbn [length] in L. cbn [uni_etas uni_spec].
  rewrite (sequence_map _ (predictor k sm M m idx)) by (intros p _; apply with_shared_spec; lia). fold (uni_spec k sm M). rewrite IH by lia. reflexivity.
Qed.
Lemma uni_spec_nth k sm M fams : forall m0 idx m n p, nth_error fams m = Some n -> p < n ->
  exists etas, nth_error (uni_spec k sm M m0 idx fams) m = Some etas /\ length etas = n /\
    nth_error etas p = Some (predictor k sm M (m0 + m) (idx + list_sum (firstn m fams)) p).
Proof.
  induction fams as [|n0 fams IH]; intros m0 idx [|m] n p H Hp; try discriminate; cbn [uni_spec nth_error firstn]; fold (uni_spec k sm M).
  - injection H as ->. eexists. split; [reflexivity|]. split; [now rewrite map_length, seq_length|]. rewrite nth_error_map, ne_seq by exact Hp. cbn [option_map]. f_equal. f_equal; cbn; lia.
  - destruct (IH (S m0) (idx + n0) m n p H Hp) as (etas & E1 & E2 & E3). exists etas. split; [exact E1|]. split; [exact E2|]. rewrite E3. f_equal.
    f_equal; [lia|]. cbn [list_sum fold_right]. unfold list_sum. lia.
Qed.
Lemma state_etas_nth k (sm : bool) M states : forall idx, Forall (fun s => length s = M) states ->
  exists out, state_etas E add eta (seq 0 k) sm (map (fun i => map eta (seq (0 + i * (if sm then 1 else M)) (if sm then 1 else M))) (seq 0 k)) idx states = Some out /\
    length out = length states /\
    forall j fams, nth_error states j = Some fams -> nth_error out j = Some (uni_spec k sm M 0 (idx + list_sum (map (fun fams => list_sum fams) (firstn j states))) fams).
Proof.
  induction states as [|f states IH]; intros idx F; [exists []; repeat split; intros [|j] ?; discriminate|].
  inversion F as [|? ? F1 F2]; subst. cbn [state_etas]. rewrite uni_etas_spec by lia. destruct (IH (idx + list_sum f) F2) as (out & -> & L & N).
  eexists. split; [reflexivity|]. split; [cbn; now rewrite L|]. intros [|j] fams; cbn [nth_error firstn map list_sum fold_right].
  - intros [= ->]. rewrite Nat.add_0_r. reflexivity.
  - intros H. rewrite (N j fams H). f_equal. f_equal. unfold list_sum. lia.
Qed.

(** ** Simulation *)
Lemma sim_uni_spec sp sm se fams : forall m idx seed,
  option_map (fun r => map snd (fst (fst r))) (sim_uni E add eta sp sm se m idx seed fams) = uni_etas E add eta sp sm se m idx fams /\
  forall d i s', sim_uni E add eta sp sm se m idx seed fams = Some (d, i, s') -> i = idx + list_sum fams /\
    length d = length fams /\
    match seed with None => s' = None | Some s => s' = Some (s + length fams) /\ map fst d = map Some (seq s (length fams)) end.
Proof.
  induction fams as [|n fams IH]; intros m idx seed; cbn [sim_uni uni_etas].
  - split; [reflexivity|]. intros d i s' [= <- <- <-]. split; [cbn; lia|]. split; [reflexivity|]. destruct seed; [|reflexivity]. split; [f_equal; cbn; lia|reflexivity].
  - destruct (IH (S m) (idx + n) (option_map S seed)) as [I1 I2]. destruct (sequence _) as [a|]; [|split; [reflexivity|discriminate]].
    rewrite <- I1. destruct (sim_uni E add eta sp sm se (S m) (idx + n) (option_map S seed) fams) as [[[d0 i0] s0]|]; [|split; [reflexivity|discriminate]].
    split; [reflexivity|]. intros d i s' [= <- <- <-]. destruct (I2 _ _ _ eq_refl) as (-> & J2 & J3). split; [cbn [list_sum fold_right]; unfold list_sum; lia|].
    split; [cbn; now rewrite J2|]. destruct seed as [s|]; cbn [option_map] in J3; [|exact J3]. destruct J3 as [-> J4]. split; [f_equal; cbn; lia|].
    cbn [map fst length seq]. now rewrite J4.
Qed.
Lemma sim_states_spec sp sm se states : forall idx seed,
  option_map (map (map snd)) (sim_states E add eta sp sm se idx seed states) = state_etas E add eta sp sm se idx states /\
  forall d s, sim_states E add eta sp sm se idx (Some s) states = Some d -> map fst (concat d) = map Some (seq s (length (concat d))).
Proof.
  induction states as [|f states IH]; intros idx seed; cbn [sim_states state_etas].
  - split; [reflexivity|]. intros d s [= <-]. reflexivity.
  - split.
    + destruct (sim_uni_spec sp sm se f 0 idx seed) as [U1 U2]. rewrite <- U1.
      destruct (sim_uni E add eta sp sm se 0 idx seed f) as [[[a i] s']|]; [|reflexivity]. destruct (U2 _ _ _ eq_refl) as [-> _]. cbn [option_map fst].
      rewrite <- (proj1 (IH (idx + list_sum f) s')). destruct (sim_states E add eta sp sm se (idx + list_sum f) s' states); reflexivity.
    + intros d s. destruct (sim_uni_spec sp sm se f 0 idx (Some s)) as [U1 U2].
      destruct (sim_uni E add eta sp sm se 0 idx (Some s) f) as [[[a i] s']|]; [|discriminate]. destruct (U2 _ _ _ eq_refl) as (-> & La & -> & Fa).
      destruct (sim_states E add eta sp sm se (idx + list_sum f) (Some (s + length f)) states) as [r|] eqn:R; [|discriminate]. intros [= <-].
      pose proof (proj2 (IH (idx + list_sum f) None) r _ R) as I2. cbn [concat]. rewrite map_app, Fa, I2, app_length, seq_app, map_app, La. reflexivity.
Qed.
End Sh.
