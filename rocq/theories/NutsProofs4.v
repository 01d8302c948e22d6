(** The transition probabilities along a trajectory in closed form, and their symmetry. *)

From Coq Require Import List ZArith Reals Bool Lra Lia.
From Verif Require Import NutsModel NutsSpec NutsProofs NutsProofs2 NutsProofs3.
Import ListNotations.
Local Open Scope R_scope.

Lemma vsum_first m (x : nat -> R) : vsum (S m) x = x O + vsum m (fun i => x (S i)).
Proof. induction m; [cbn; ring|]. cbn [vsum] in *. rewrite IHm. ring. Qed.

(** Even and odd offsets. *)
Lemma zsum_pairs len f : zsum 0 (len + len) f = zsum 0 len (fun t => f (2 * t)%Z) + zsum 0 len (fun t => f (2 * t + 1)%Z).
Proof.
  induction len; [cbn; ring|].
  replace (S len + S len)%nat with ((len + len) + 2)%nat by lia. replace (S len) with (len + 1)%nat by lia.
  rewrite (zsum_app 0 (len + len) 2), !(zsum_app 0 len 1), IHlen. cbn [zsum].
  replace (0 + Z.of_nat (len + len))%Z with (2 * (0 + Z.of_nat len))%Z by lia. ring.
Qed.

Section Kernel.
Variables (n : nat) (Minv : nat -> vec) (llk : vec -> R).
Variables (logu : R) (st mo : Z -> vec).

Notation cnt := (in_slice_count n Minv llk logu st mo).
Notation slice := (slice n Minv llk logu st mo).
Notation valid := (valid n Minv llk logu st mo).
Notation crit := (crit n Minv mo).
Notation move := (move n Minv llk logu st mo).
Notation q := (q n Minv llk logu st mo).
Notation value := (value n Minv llk logu st mo).
Notation side := (side n Minv llk logu st mo).

Definition inb (a : Z) (J : nat) (k : Z) : bool := ((a <=? k) && (k <? a + Z.of_nat (sz J)))%Z.

Lemma inb_spec a J k : inb a J k = true <-> (a <= k < a + Z.of_nat (sz J))%Z.
Proof. unfold inb. rewrite andb_true_iff, Z.leb_le, Z.ltb_lt. tauto. Qed.
Lemma inb_false a J k : inb a J k = false <-> ~ (a <= k < a + Z.of_nat (sz J))%Z.
Proof. rewrite <- inb_spec. destruct (inb a J k); intuition congruence. Qed.

(** From [i] to [k] when the trajectory covers the block and the loop goes no further. *)
Fixpoint T (J : nat) (a i k : Z) : R :=
  match J with
  | O => if (i =? k)%Z then 1 else 0
  | S J =>
      let own := if inb a J i then a else (a + Z.of_nat (sz J))%Z in
      let other := if inb a J i then (a + Z.of_nat (sz J))%Z else a in
      if inb own J k then (1 - move own other J) * T J own i k
      else if inb other J k then move own other J * q other J k else 0
  end.

Lemma move_bounds a b J : 0 <= move a b J <= 1.
Proof. apply chance_bounds. Qed.

Lemma q_pos b J k : 0 <= q b J k.
Proof.
  unfold NutsProofs3.q. destruct (slice k); [|lra]. destruct (Nat.eq_dec (cnt b (sz J)) 0) as [-> |E].
  - cbn [INR]. rewrite Rinv_0. lra.
  - left. apply Rinv_0_lt_compat, lt_0_INR. lia.
Qed.

Lemma T_pos J : forall a i k, 0 <= T J a i k.
Proof.
  induction J; intros a i k; cbn [T]; [destruct (i =? k)%Z; lra|]. cbv zeta.
  destruct (inb _ J k); [apply Rmult_le_pos; [pose proof (move_bounds (if inb a J i then a else (a + Z.of_nat (sz J))%Z) (if inb a J i then (a + Z.of_nat (sz J))%Z else a) J); lra|apply IHJ]|].
  destruct (inb _ J k); [apply Rmult_le_pos; [apply move_bounds|apply q_pos]|lra].
Qed.

Lemma T_outside J a i k : inb a J i = true -> inb a J k = false -> T J a i k = 0.
Proof.
  rewrite inb_spec, inb_false. destruct J; cbn [T]; intros I K.
  - destruct (Z.eqb_spec i k); [|reflexivity]. subst. lia.
  - cbv zeta. rewrite sz_S in *.
    destruct (inb a J i); repeat match goal with |- context [inb ?x J k] => destruct (inb x J k) eqn:?E end; try reflexivity;
      rewrite inb_spec in *; lia.
Qed.

Lemma T_slice J : forall a i k, slice i = true -> slice k = false -> T J a i k = 0.
Proof.
  induction J; intros a i k I K; cbn [T].
  - destruct (Z.eqb_spec i k); [congruence|reflexivity].
  - cbv zeta. rewrite IHJ by assumption. unfold NutsProofs3.q. rewrite K.
    repeat match goal with |- context [if inb ?x J k then _ else _] => destruct (inb x J k) end; ring.
Qed.

Lemma cnt_in b len k : slice k = true -> (b <= k < b + Z.of_nat len)%Z -> (0 < cnt b len)%nat.
Proof.
  intros K H. destruct (Nat.eq_dec (cnt b len) 0) as [E|]; [|lia].
  rewrite (cnt_none n Minv llk logu st mo b len k E H) in K. discriminate.
Qed.

Lemma move_sym a b J k k' : slice k = true -> inb a J k = true -> slice k' = true -> inb b J k' = true ->
  move a b J * q b J k' = move b a J * q a J k.
Proof.
  intros Sk K Sk' K'. rewrite inb_spec in *. unfold NutsProofs3.q. rewrite Sk, Sk'.
  assert (A : 0 < INR (cnt a (sz J))) by (apply lt_0_INR, (cnt_in _ _ k); auto).
  assert (B : 0 < INR (cnt b (sz J))) by (apply lt_0_INR, (cnt_in _ _ k'); auto).
  unfold NutsProofs3.move. set (x := INR (cnt a (sz J))) in *. set (y := INR (cnt b (sz J))) in *.
  assert (0 < y / x) by (apply Rdiv_lt_0_compat; lra). assert (0 < x / y) by (apply Rdiv_lt_0_compat; lra).
  rewrite !chance_pos by lra.
  destruct (Rle_dec x y) as [L|L].
  - rewrite (Rmin_left 1 (y / x)), (Rmin_right 1 (x / y)).
    + field. lra.
    + apply (Rmult_le_reg_r y); [lra|]. unfold Rdiv. rewrite Rmult_assoc, Rinv_l; lra.
    + apply (Rmult_le_reg_r x); [lra|]. unfold Rdiv. rewrite Rmult_assoc, Rinv_l; lra.
  - rewrite (Rmin_right 1 (y / x)), (Rmin_left 1 (x / y)).
    + field. lra.
    + apply (Rmult_le_reg_r y); [lra|]. unfold Rdiv. rewrite Rmult_assoc, Rinv_l; lra.
    + apply (Rmult_le_reg_r x); [lra|]. unfold Rdiv. rewrite Rmult_assoc, Rinv_l; lra.
Qed.

Lemma T_sym J : forall a i k, slice i = true -> slice k = true -> inb a J i = true -> inb a J k = true ->
  T J a i k = T J a k i.
Proof.
  induction J; intros a i k Si Sk I K; cbn [T].
  - rewrite Z.eqb_sym. reflexivity.
  - cbv zeta. rewrite inb_spec in I, K. rewrite sz_S in I, K.
    assert (Oi : inb (a + Z.of_nat (sz J)) J i = negb (inb a J i)).
    { destruct (inb a J i) eqn:E; cbn; [apply inb_false; apply inb_spec in E; lia|apply inb_spec; apply inb_false in E; lia]. }
    assert (Ok : inb (a + Z.of_nat (sz J)) J k = negb (inb a J k)).
    { destruct (inb a J k) eqn:E; cbn; [apply inb_false; apply inb_spec in E; lia|apply inb_spec; apply inb_false in E; lia]. }
    destruct (inb a J i) eqn:Ei, (inb a J k) eqn:Ek; rewrite ?Ei, ?Ek, ?Oi, ?Ok; cbn [negb].
    + rewrite IHJ by (auto). reflexivity.
    + apply (move_sym _ _ J i k); auto.
    + apply (move_sym _ _ J i k); auto.
    + rewrite IHJ by auto. reflexivity.
Qed.

Lemma q_sum b J : (0 < cnt b (sz J))%nat -> zsum b (sz J) (q b J) = 1.
Proof.
  intros C. unfold NutsProofs3.q. rewrite (zsum_ext _ _ _ (fun k => (if slice k then 1 else 0) * / INR (cnt b (sz J)))).
  - rewrite zsum_scal_r, <- cnt_sum. apply Rinv_r. apply not_0_INR. lia.
  - intros k _. destruct (slice k); ring.
Qed.

Lemma move_q_sum a b J : zsum b (sz J) (fun k => move a b J * q b J k) = move a b J.
Proof.
  rewrite zsum_scal. destruct (Nat.eq_dec (cnt b (sz J)) 0) as [E|E].
  - rewrite move_none by exact E. ring.
  - rewrite q_sum by lia. ring.
Qed.

(** One more doubling. *)
Lemma T_step v J a i f : v = 1%Z \/ v = (-1)%Z -> inb a J i = true ->
  zsum (whole v a J) (sz (S J)) (fun y => T (S J) (whole v a J) i y * f y)
  = (1 - move a (new_block v a J) J) * zsum a (sz J) (fun y => T J a i y * f y)
    + zsum (new_block v a J) (sz J) (fun k => move a (new_block v a J) J * q (new_block v a J) J k * f k).
Proof.
  intros Hv I. pose proof I as I'. rewrite inb_spec in I'. rewrite sz_S, zsum_app.
  destruct Hv as [-> | ->]; unfold whole, new_block; cbn [Z.eqb Pos.eqb].
  - f_equal.
    + rewrite <- zsum_scal. apply zsum_ext. intros y Y. cbn [T]. cbv zeta. rewrite I.
      rewrite (proj2 (inb_spec a J y) Y). ring.
    + apply zsum_ext. intros y Y. cbn [T]. cbv zeta. rewrite I.
      rewrite (proj2 (inb_spec (a + Z.of_nat (sz J)) J y) Y).
      replace (inb a J y) with false by (symmetry; apply inb_false; lia). reflexivity.
  - rewrite Rplus_comm. f_equal.
    + replace (a - Z.of_nat (sz J) + Z.of_nat (sz J))%Z with a by lia.
      rewrite <- zsum_scal. apply zsum_ext. intros y Y. cbn [T]. cbv zeta.
      replace (inb (a - Z.of_nat (sz J)) J i) with false by (symmetry; apply inb_false; lia).
      replace (a - Z.of_nat (sz J) + Z.of_nat (sz J))%Z with a by lia.
      rewrite (proj2 (inb_spec a J y) Y). ring.
    + apply zsum_ext. intros y Y. cbn [T]. cbv zeta.
      replace (inb (a - Z.of_nat (sz J)) J i) with false by (symmetry; apply inb_false; lia).
      replace (a - Z.of_nat (sz J) + Z.of_nat (sz J))%Z with a by lia.
      replace (inb a J y) with false by (symmetry; apply inb_false; lia).
      rewrite (proj2 (inb_spec (a - Z.of_nat (sz J)) J y) Y). reflexivity.
Qed.

Lemma inb_whole v J a i : v = 1%Z \/ v = (-1)%Z -> inb a J i = true -> inb (whole v a J) (S J) i = true.
Proof.
  rewrite !inb_spec, sz_S. intros [-> | ->]; unfold whole; cbn [Z.eqb Pos.eqb]; lia.
Qed.

Lemma T_total J : forall a i, inb a J i = true -> zsum a (sz J) (T J a i) = 1.
Proof.
  induction J; intros a i I.
  - rewrite inb_spec in I. change (sz 0) with 1%nat in *. assert (i = a) by lia. subst. cbn. rewrite Z.eqb_refl. ring.
  - assert (G : forall v b, v = 1%Z \/ v = (-1)%Z -> inb b J i = true -> a = whole v b J -> zsum a (sz (S J)) (T (S J) a i) = 1).
    { intros v b Hv Ib ->. rewrite (zsum_ext _ _ _ (fun y => T (S J) (whole v b J) i y * 1)) by (intros; ring).
      rewrite T_step by auto. rewrite (zsum_ext _ _ (fun y => T J b i y * 1) (T J b i)) by (intros; ring).
      rewrite IHJ by exact Ib. rewrite (zsum_ext _ _ _ (fun k => move b (new_block v b J) J * q (new_block v b J) J k)) by (intros; ring).
      rewrite move_q_sum. ring. }
    destruct (inb a J i) eqn:E.
    + apply (G 1%Z a); auto.
    + apply (G (-1)%Z (a + Z.of_nat (sz J))%Z); auto.
      * rewrite inb_spec in *. rewrite inb_false in E. rewrite sz_S in I. lia.
      * unfold whole. cbn [Z.eqb Pos.eqb]. lia.
Qed.

Section Closed.
Variables (maxj : nat) (phi : Z -> R) (i : Z).

(** The trajectory reaches the block. *)
Definition reach (J : nat) (a : Z) : bool :=
  match J with O => true | S J => valid a J && valid (a + Z.of_nat (sz J)) J end.
(** The probability that the loop ends with the block, given that it has been reached. *)
Definition stop (J : nat) (a : Z) : R :=
  if valid a J then
    if (J =? maxj)%nat then 1
    else 1 / 2 * (if valid (a - Z.of_nat (sz J)) J then 0 else 1) + 1 / 2 * (if valid (a + Z.of_nat (sz J)) J then 0 else 1)
  else 1.
Definition weight (J : nat) (a : Z) : R := if reach J a then stop J a else 0.
Definition G (J : nat) (a : Z) : R := weight J a * zsum a (sz J) (fun y => T J a i y * phi y).

Fixpoint Y (fuel J : nat) (a : Z) : R :=
  match fuel with
  | O => G J a
  | S fuel => G J a + 1 / 2 * (Y fuel (S J) (a - Z.of_nat (sz J)) + Y fuel (S J) a)
  end.

Lemma valid_reach J a : valid a J = true -> reach J a = true.
Proof. destruct J; cbn; [reflexivity|]. destruct (valid a J), (valid _ J); auto. Qed.

Lemma Y_unreached fuel : forall J a, reach J a = false -> Y fuel J a = 0.
Proof.
  induction fuel; intros J a H; cbn [Y]; unfold G, weight; rewrite H; [ring|].
  assert (V : valid a J = false) by (destruct (valid a J) eqn:E; [apply valid_reach in E; congruence|reflexivity]).
  rewrite !IHfuel; [ring|cbn; now rewrite V|].
  cbn. replace (a - Z.of_nat (sz J) + Z.of_nat (sz J))%Z with a by lia. now rewrite V, andb_false_r.
Qed.

Lemma Y_failed fuel J a : reach J a = true -> valid a J = false -> Y fuel J a = zsum a (sz J) (fun y => T J a i y * phi y).
Proof.
  intros R0 V. destruct fuel; cbn [Y]; unfold G, weight, stop; rewrite R0, V; [ring|].
  rewrite !Y_unreached; [ring|cbn; now rewrite V|].
  cbn. replace (a - Z.of_nat (sz J) + Z.of_nat (sz J))%Z with a by lia. now rewrite V, andb_false_r.
Qed.

(** The expectation when the current point is distributed as [T] says. *)
Lemma value_Y fuel : forall J a, (J + fuel)%nat = maxj -> inb a J i = true -> valid a J = true ->
  zsum a (sz J) (fun x => T J a i x * value phi fuel J a x) = Y fuel J a.
Proof.
  induction fuel; intros J a E I V.
  - cbn [NutsProofs3.value Y]. unfold G, weight, stop. rewrite (valid_reach _ _ V), V.
    replace (J =? maxj)%nat with true by (symmetry; apply Nat.eqb_eq; lia). ring.
  - cbn [NutsProofs3.value Y]. cbv zeta.
    set (next := fun (v : Z) (y : Z) => if crit (whole v a J) J then value phi fuel (S J) (whole v a J) y else phi y).
    set (E0 := zsum a (sz J) (fun y => T J a i y * phi y)).
    assert (Side : forall v, v = 1%Z \/ v = (-1)%Z ->
      zsum a (sz J) (fun x => T J a i x * side phi next v a J x)
      = (if valid (new_block v a J) J then 0 else 1) * E0 + Y fuel (S J) (whole v a J)).
    { intros v Hv. unfold NutsProofs3.side. cbv zeta.
      assert (Rw : reach (S J) (whole v a J) = valid (new_block v a J) J).
      { cbn [reach]. destruct Hv as [-> | ->]; unfold whole, new_block; cbn [Z.eqb Pos.eqb].
        - now rewrite V.
        - replace (a - Z.of_nat (sz J) + Z.of_nat (sz J))%Z with a by lia. now rewrite V, andb_true_r. }
      destruct (valid (new_block v a J) J) eqn:Vn.
      - assert (Vw : valid (whole v a J) (S J) = crit (whole v a J) J).
        { cbn [NutsProofs2.valid]. cbn [reach] in Rw. now rewrite Rw. }
        transitivity (zsum (whole v a J) (sz (S J)) (fun y => T (S J) (whole v a J) i y * next v y)).
        + rewrite T_step by auto.
          rewrite (zsum_ext _ _ _ (fun x => T J a i x * zsum (new_block v a J) (sz J) (fun k => move a (new_block v a J) J * q (new_block v a J) J k * next v k)
             + (1 - move a (new_block v a J) J) * (T J a i x * next v x))) by (intros; ring).
          rewrite zsum_plus, zsum_scal_r, zsum_scal, T_total by exact I. ring.
        + rewrite Rmult_0_l, Rplus_0_l. unfold next. destruct (crit (whole v a J) J) eqn:C.
          * apply IHfuel; [lia|now apply inb_whole|exact Vw].
          * symmetry. apply Y_failed; assumption.
      - rewrite Y_unreached by exact Rw. fold E0. ring. }
    rewrite (zsum_ext _ _ _ (fun x => 1 / 2 * (T J a i x * side phi next (-1) a J x) + 1 / 2 * (T J a i x * side phi next 1 a J x)))
      by (intros; ring).
    rewrite zsum_plus, !zsum_scal, (Side (-1)%Z), (Side 1%Z) by auto.
    unfold G, weight, stop. rewrite (valid_reach _ _ V), V.
    replace (J =? maxj)%nat with false by (symmetry; apply Nat.eqb_neq; lia).
    unfold whole, new_block; cbn [Z.eqb Pos.eqb]. fold E0. ring.
Qed.

Lemma Y_closed fuel : forall J a,
  Y fuel J a = vsum (S fuel) (fun m => (1 / 2) ^ m * zsum 0 (sz m) (fun t => G (J + m) (a - Z.of_nat (sz J) * t)%Z)).
Proof.
  induction fuel; intros J a.
  - cbn [vsum pow Y zsum sz Nat.pow]. rewrite Nat.add_0_r, Z.mul_0_r, Z.sub_0_r. ring.
  - rewrite vsum_first. cbn [Y]. rewrite !IHfuel. f_equal.
    + cbn [pow zsum sz Nat.pow]. rewrite Nat.add_0_r, Z.mul_0_r, Z.sub_0_r. ring.
    + rewrite <- vsum_plus, <- vsum_scal. apply vsum_ext. intros m _. cbn [pow]. rewrite (sz_S m), zsum_pairs.
      rewrite (zsum_ext _ _ (fun t => G (S J + m) (a - Z.of_nat (sz (S J)) * t)) (fun t => G (J + S m) (a - Z.of_nat (sz J) * (2 * t)))).
      2:{ intros t _. rewrite sz_S. f_equal; lia. }
      rewrite (zsum_ext _ _ (fun t => G (S J + m) (a - Z.of_nat (sz J) - Z.of_nat (sz (S J)) * t)) (fun t => G (J + S m) (a - Z.of_nat (sz J) * (2 * t + 1)))).
      2:{ intros t _. rewrite sz_S. f_equal; lia. }
      ring.
Qed.

End Closed.

(** The probability of moving from point [i] to point [k]. *)
Definition kernel (maxj : nat) (i k : Z) : R :=
  vsum (S maxj) (fun m => (1 / 2) ^ m * zsum 0 (sz m) (fun t => weight maxj m (i - t) * T m (i - t) i k)).

Lemma weight_pos maxj m a : 0 <= weight maxj m a.
Proof.
  unfold weight, stop. destruct (reach m a); [|lra]. destruct (valid a m); [|lra]. destruct (m =? maxj)%nat; [lra|].
  destruct (valid (a - _) m), (valid (a + _) m); lra.
Qed.

Lemma zsum_pos lo len f : (forall k, 0 <= f k) -> 0 <= zsum lo len f.
Proof. intros H. revert lo; induction len; intros lo; cbn; [lra|]. pose proof (H lo). pose proof (IHlen (lo + 1)%Z). lra. Qed.

Lemma vsum_pos m x : (forall k, 0 <= x k) -> 0 <= vsum m x.
Proof. intros H. induction m; cbn; [lra|]. pose proof (H m). lra. Qed.

Lemma kernel_pos maxj i k : 0 <= kernel maxj i k.
Proof.
  apply vsum_pos. intros m. apply Rmult_le_pos; [apply pow_le; lra|]. apply zsum_pos. intros t.
  apply Rmult_le_pos; [apply weight_pos|apply T_pos].
Qed.

Lemma kernel_slice maxj i k : slice i = true -> slice k = false -> kernel maxj i k = 0.
Proof.
  intros I K. unfold kernel. transitivity (vsum (S maxj) (fun _ => 0 * 0)); [|rewrite (vsum_scal _ 0 (fun _ => 0)); ring].
  apply vsum_ext. intros m _. rewrite zsum_zero; [ring|]. intros t _. rewrite T_slice by assumption. ring.
Qed.

Lemma sz_le m maxj : (m <= maxj)%nat -> (sz m <= sz maxj)%nat.
Proof. intros. unfold sz. apply Nat.pow_le_mono_r; lia. Qed.

Lemma inb_start m i t : (0 <= t < Z.of_nat (sz m))%Z -> inb (i - t) m i = true.
Proof. intros. apply inb_spec. lia. Qed.

Lemma kernel_far maxj i k : (Z.of_nat (sz maxj) <= Z.abs (k - i))%Z -> kernel maxj i k = 0.
Proof.
  intros K. unfold kernel. transitivity (vsum (S maxj) (fun _ => 0 * 0)); [|rewrite (vsum_scal _ 0 (fun _ => 0)); ring].
  apply vsum_ext. intros m Hm. rewrite zsum_zero; [ring|]. intros t Ht. rewrite T_outside; [ring|apply inb_start; lia|].
  apply inb_false. pose proof (sz_le m maxj ltac:(lia)). lia.
Qed.

(** The sum over the blocks that contain a point may be taken from either of two points. *)
Lemma blocks_sym m i k (g : Z -> R) :
  (forall b, (b <= i < b + Z.of_nat (sz m))%Z -> ~ (b <= k < b + Z.of_nat (sz m))%Z -> g b = 0) ->
  zsum 0 (sz m) (fun t => g (i - t)%Z)
  = zsum (Z.min i k - Z.of_nat (sz m) + 1) (sz m + Z.to_nat (Z.abs (i - k)))
      (fun b => if inb b m i && inb b m k then g b else 0).
Proof.
  intros H. rewrite (zsum_rev i (sz m) g).
  rewrite (zsum_ext _ _ g (fun b => if inb b m i && inb b m k then g b else 0)).
  - symmetry. apply zsum_window; [lia|lia|]. intros b B.
    replace (inb b m i) with false by (symmetry; apply inb_false; lia). reflexivity.
  - intros b B. rewrite (proj2 (inb_spec b m i)) by lia. cbn [andb]. destruct (inb b m k) eqn:E; [reflexivity|].
    apply H; [lia|]. now apply inb_false.
Qed.

Lemma kernel_sym maxj i k : slice i = true -> slice k = true -> kernel maxj i k = kernel maxj k i.
Proof.
  intros Si Sk. unfold kernel. apply vsum_ext. intros m _. f_equal.
  rewrite (blocks_sym m i k (fun b => weight maxj m b * T m b i k)).
  2:{ intros b I K. rewrite T_outside; [ring|now apply inb_spec|now apply inb_false]. }
  rewrite (blocks_sym m k i (fun b => weight maxj m b * T m b k i)).
  2:{ intros b I K. rewrite T_outside; [ring|now apply inb_spec|now apply inb_false]. }
  rewrite (Z.min_comm k i). replace (Z.abs (k - i)) with (Z.abs (i - k)) by lia.
  apply zsum_ext. intros b _. rewrite (andb_comm (inb b m k)).
  destruct (inb b m i) eqn:I, (inb b m k) eqn:K; cbn [andb]; try reflexivity.
  f_equal. now apply T_sym.
Qed.

(** The expectation of a function of the next point. *)
Lemma value_kernel maxj phi i : slice i = true ->
  value phi maxj 0 i i
  = zsum (i - Z.of_nat (sz maxj)) (sz maxj + sz maxj) (fun k => kernel maxj i k * phi k).
Proof.
  intros Si.
  assert (V : valid i 0 = true).
  { cbn. unfold ok. unfold NutsProofs2.slice in Si. destruct (Rle_dec logu _) as [L|]; [|discriminate].
    destruct (Rlt_dec _ _) as [|N]; [reflexivity|]. exfalso. apply N. unfold DeltaMax. lra. }
  transitivity (zsum i (sz 0) (fun x => T 0 i i x * value phi maxj 0 i x)).
  { cbn. rewrite Z.eqb_refl. ring. }
  assert (I0 : inb i 0 i = true) by (apply inb_spec; change (sz 0) with 1%nat; lia).
  rewrite (value_Y maxj phi i maxj 0 i); auto.
  rewrite Y_closed. unfold kernel.
  transitivity (vsum (S maxj) (fun m => zsum (i - Z.of_nat (sz maxj)) (sz maxj + sz maxj)
     (fun k => (1 / 2) ^ m * zsum 0 (sz m) (fun t => weight maxj m (i - t) * T m (i - t) i k) * phi k))).
  - apply vsum_ext. intros m Hm.
    rewrite (zsum_ext (i - _) _ _ (fun k => (1 / 2) ^ m * (zsum 0 (sz m) (fun t => weight maxj m (i - t) * T m (i - t) i k * phi k)))).
    2:{ intros k _. rewrite zsum_scal_r. ring. }
    rewrite zsum_scal, zsum_swap. f_equal. apply zsum_ext. intros t Ht. unfold G.
    change (0 + m)%nat with m. change (Z.of_nat (sz 0)) with 1%Z. rewrite Z.mul_1_l.
    rewrite (zsum_ext (i - Z.of_nat (sz maxj)) _ _ (fun k => weight maxj m (i - t) * (T m (i - t) i k * phi k))) by (intros; ring).
    rewrite zsum_scal. f_equal. symmetry. pose proof (sz_le m maxj ltac:(lia)). apply zsum_window; [lia|lia|].
    intros k K. rewrite T_outside; [ring|apply inb_start; lia|apply inb_false; lia].
  - symmetry.
    rewrite (zsum_ext _ _ _ (fun k => vsum (S maxj) (fun m => (1 / 2) ^ m * zsum 0 (sz m) (fun t => weight maxj m (i - t) * T m (i - t) i k) * phi k))).
    2:{ intros k _. rewrite (Rmult_comm (vsum _ _)), <- vsum_scal. apply vsum_ext. intros; ring. }
    generalize (S maxj); intros mm. induction mm; cbn [vsum]; [apply zsum_zero; reflexivity|].
    rewrite zsum_plus, IHmm. reflexivity.
Qed.

End Kernel.
