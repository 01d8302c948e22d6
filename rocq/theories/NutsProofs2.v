(** The subtrees built along a trajectory. *)

From Coq Require Import List ZArith Reals Bool Lra Lia FunctionalExtensionality.
From Verif Require Import NutsModel NutsSpec NutsProofs.
Import ListNotations.
Local Open Scope R_scope.

(** The number of points of a subtree of depth [j]. *)
Definition sz (j : nat) : nat := (2 ^ j)%nat.
Lemma sz_S j : sz (S j) = (sz j + sz j)%nat.
Proof. unfold sz; cbn; lia. Qed.
Lemma sz_pos j : (0 < sz j)%nat.
Proof. induction j; [cbn; lia|rewrite sz_S; lia]. Qed.
Lemma sz_0 : sz 0 = 1%nat.
Proof. reflexivity. Qed.

Section Trees.
Variables (n : nat) (Minv : nat -> vec) (llk : vec -> R) (grad : vec -> vec).
Variables (logu eps H0 : R) (st mo : Z -> vec).
Hypothesis on_path : path n Minv llk grad eps st mo.

Notation jt k := (joint n Minv llk (st k) (mo k)).
Notation cnt := (in_slice_count n Minv llk logu st mo).

Definition slice (k : Z) : bool := if Rle_dec logu (jt k) then true else false.
Definition ok (k : Z) : bool := if Rlt_dec logu (DeltaMax + jt k) then true else false.
Definition momenta (a : Z) (len : nat) : vec := fun i => zsum a len (fun k => mo k i).
Definition acc (a : Z) (len : nat) : R := zsum a len (fun k => if Rlt_dec 0 (jt k - H0) then 1 else exp (jt k - H0)).

(** The criterion for the block of 2 ^ (j + 1) points from [a]. *)
Definition crit (a : Z) (j : nat) : bool :=
  check_dynamic_divergence n Minv (mo a) (mo (a + Z.of_nat (sz j))%Z) (mo (a + Z.of_nat (sz j) - 1)%Z)
    (mo (a + Z.of_nat (sz (S j)) - 1)%Z) (momenta a (sz j)) (momenta (a + Z.of_nat (sz j)) (sz j)).

(** The block of 2 ^ j points from [a] is built completely and passes every check. *)
Fixpoint valid (a : Z) (j : nat) : bool :=
  match j with
  | O => ok a
  | S j => valid a j && valid (a + Z.of_nat (sz j)) j && crit a j
  end.

(** The tree over the block with proposal [k]. *)
Definition canon (a : Z) (j : nat) (k : Z) : tree :=
  Tree (st a) (st (a + Z.of_nat (sz j) - 1)%Z) (st k) (mo a) (mo (a + Z.of_nat (sz j) - 1)%Z) (momenta a (sz j))
       (cnt a (sz j)) true (acc a (sz j)) (sz j) (llk (st k)).

Lemma cnt_app a x y : cnt a (x + y) = (cnt a x + cnt (a + Z.of_nat x) y)%nat.
Proof.
  revert a; induction x; intros a; cbn [in_slice_count Nat.add].
  - now replace (a + Z.of_nat 0)%Z with a by lia.
  - rewrite IHx. replace (a + 1 + Z.of_nat x)%Z with (a + Z.of_nat (S x))%Z by lia. lia.
Qed.

Lemma cnt_sum a len : INR (cnt a len) = zsum a len (fun k => if slice k then 1 else 0).
Proof.
  revert a; induction len; intros a; cbn [in_slice_count zsum]; [reflexivity|]. rewrite plus_INR, IHlen. f_equal.
  unfold slice. destruct (Rle_dec _ _); reflexivity.
Qed.

Lemma cnt_none a len k : cnt a len = 0%nat -> (a <= k < a + Z.of_nat len)%Z -> slice k = false.
Proof.
  revert a; induction len; intros a; cbn [in_slice_count]; [lia|]. intros E K.
  destruct (Z.eq_dec k a) as [-> |Ne]; [|apply (IHlen (a + 1)%Z); lia].
  unfold slice. destruct (Rle_dec _ _); [lia|reflexivity].
Qed.

Lemma momenta_app a x y : momenta a (x + y) = vadd (momenta a x) (momenta (a + Z.of_nat x) y).
Proof. apply functional_extensionality; intro i. unfold momenta, vadd. apply zsum_app. Qed.

Lemma momenta_one a : momenta a 1 = mo a.
Proof. apply functional_extensionality; intro i. unfold momenta; cbn. ring. Qed.

Lemma acc_app a x y : acc a (x + y) = acc a x + acc (a + Z.of_nat x) y.
Proof. apply zsum_app. Qed.

(** The tree over a block, whatever its proposal. *)
Definition over (a : Z) (j : nat) (t : tree) : Prop :=
  exists k, (a <= k < a + Z.of_nat (sz j))%Z /\ t = canon a j k.

(** How a subtree over the block from [a] behaves. *)
Definition behaves (a : Z) (j : nat) (x : rnd tree) : Prop :=
  (valid a j = true ->
     always (over a j) x /\
     exists u : Z -> R,
       (forall k, 0 <= u k) /\
       ((0 < cnt a (sz j))%nat -> forall k, (a <= k < a + Z.of_nat (sz j))%Z ->
          u k = if slice k then / INR (cnt a (sz j)) else 0) /\
       forall g, mean x g = zsum a (sz j) (fun k => u k * g (canon a j k))) /\
  (valid a j = false -> always (fun t => sprime t = false) x).

Lemma leaf_canon a state r v :
  leap_frog n Minv llk grad state (grad state) r (IZR v * eps) = (st a, grad (st a), mo a, llk (st a)) ->
  leaf n Minv llk grad logu eps H0 state r v = (if valid a 0 then canon a 0 a else
     Tree (st a) (st a) (st a) (mo a) (mo a) (mo a) (cnt a 1) false (acc a 1) 1 (llk (st a))).
Proof.
  intros E. unfold leaf. rewrite E. cbn [valid]. unfold canon.
  replace (a + Z.of_nat (sz 0) - 1)%Z with a by (cbn; lia).
  change (sz 0) with 1%nat. rewrite momenta_one.
  assert (A : acc a 1 = if Rlt_dec 0 (jt a - H0) then 1 else exp (jt a - H0)) by (unfold acc; cbn; ring).
  rewrite A. cbn [in_slice_count]. rewrite Nat.add_0_r. unfold ok, joint.
  destruct (Rlt_dec logu _); reflexivity.
Qed.

Lemma leaf_behaves a state r v :
  leap_frog n Minv llk grad state (grad state) r (IZR v * eps) = (st a, grad (st a), mo a, llk (st a)) ->
  behaves a 0 (Ret (leaf n Minv llk grad logu eps H0 state r v)).
Proof.
  intros E. rewrite (leaf_canon a) by exact E. split; intros V; rewrite V; cbn [always]; [|reflexivity].
  split; [exists a; split; [cbn; lia|reflexivity]|].
  exists (fun k => if (k =? a)%Z then 1 else 0). split; [intro k; destruct (Z.eqb_spec k a); lra|]. split.
  - change (sz 0) with 1%nat. intros C k K. assert (k = a) by lia. subst k. rewrite Z.eqb_refl.
    revert C. cbn [in_slice_count]. unfold slice. destruct (Rle_dec _ _); [intros _; cbn; lra|lia].
  - intros g. cbn. rewrite Z.eqb_refl. ring.
Qed.

(** The step of the recursion that combines two subtrees, for either direction. *)
Definition combine (v : Z) (t1 t2 : tree) : rnd tree :=
  let rb1 := if (v =? -1)%Z then rp t1 else rm t1 in
  let re1 := if (v =? -1)%Z then rm t1 else rp t1 in
  let rb2 := if (v =? -1)%Z then rp t2 else rm t2 in
  let re2 := if (v =? -1)%Z then rm t2 else rp t2 in
  Below (INR (nprime t2) / INR (nprime t1 + nprime t2)) (fun hit =>
    let take := (0 <? nprime t1 + nprime t2)%nat && hit in
    Ret (Tree (if (v =? -1)%Z then statem t2 else statem t1)
              (if (v =? -1)%Z then statep t1 else statep t2)
              (if take then stateprime t2 else stateprime t1)
              (if (v =? -1)%Z then rm t2 else rm t1)
              (if (v =? -1)%Z then rp t1 else rp t2)
              (vadd (rsum t1) (rsum t2))
              (nprime t1 + nprime t2)
              (sprime t2 && check_dynamic_divergence n Minv rb1 rb2 re1 re2 (rsum t1) (rsum t2))
              (aprime t1 + aprime t2)
              (naprime t1 + naprime t2)
              (if take then Lprime t2 else Lprime t1))).

Lemma build_tree_S state r v j :
  build_tree n Minv llk grad logu eps H0 state r v (S j)
  = bind (build_tree n Minv llk grad logu eps H0 state r v j) (fun t1 =>
      if sprime t1
      then bind (if (v =? -1)%Z then build_tree n Minv llk grad logu eps H0 (statem t1) (rm t1) v j
                 else build_tree n Minv llk grad logu eps H0 (statep t1) (rp t1) v j) (combine v t1)
      else Ret t1).
Proof. reflexivity. Qed.

(** The blocks of the two halves in the order in which they are built. *)
Definition first_half (v a : Z) (j : nat) : Z := if (v =? -1)%Z then (a + Z.of_nat (sz j))%Z else a.
Definition second_half (v a : Z) (j : nat) : Z := if (v =? -1)%Z then a else (a + Z.of_nat (sz j))%Z.

Lemma combine_canon v a j k1 k2 : v = 1%Z \/ v = (-1)%Z ->
  combine v (canon (first_half v a j) j k1) (canon (second_half v a j) j k2)
  = let n1 := cnt (first_half v a j) (sz j) in
    let n2 := cnt (second_half v a j) (sz j) in
    Below (INR n2 / INR (n1 + n2)) (fun hit =>
      let c := canon a (S j) (if (0 <? n1 + n2)%nat && hit then k2 else k1) in
      Ret (Tree (statem c) (statep c) (stateprime c) (rm c) (rp c) (rsum c) (nprime c) (crit a j) (aprime c)
                (naprime c) (Lprime c))).
Proof.
  intros [-> | ->]; unfold combine, first_half, second_half; cbn [Z.eqb Pos.eqb]; cbv zeta;
    cbn [canon statem statep stateprime rm rp rsum nprime sprime aprime naprime Lprime andb].
  - f_equal. apply functional_extensionality; intros hit.
    unfold crit. rewrite sz_S. rewrite cnt_app, momenta_app, acc_app.
    replace (a + Z.of_nat (sz j) + Z.of_nat (sz j) - 1)%Z with (a + Z.of_nat (sz j + sz j) - 1)%Z by lia.
    f_equal. f_equal; destruct ((0 <? _)%nat && hit); reflexivity.
  - f_equal. apply functional_extensionality; intros hit.
    unfold crit. rewrite (check_reversed n Minv (mo a)), sz_S. rewrite cnt_app, momenta_app, acc_app.
    rewrite (vadd_comm (momenta (a + _) _)).
    rewrite (Rplus_comm (acc (a + _) _)), (Nat.add_comm (cnt (a + _) _)).
    replace (a + Z.of_nat (sz j) + Z.of_nat (sz j) - 1)%Z with (a + Z.of_nat (sz j + sz j) - 1)%Z by lia.
    f_equal. f_equal; destruct ((0 <? _)%nat && hit); reflexivity.
Qed.

Lemma halves_sum v a j f : v = 1%Z \/ v = (-1)%Z ->
  zsum a (sz (S j)) f = zsum (first_half v a j) (sz j) f + zsum (second_half v a j) (sz j) f.
Proof.
  intros [-> | ->]; unfold first_half, second_half; cbn [Z.eqb Pos.eqb]; rewrite sz_S, zsum_app; ring.
Qed.

Lemma halves_cnt v a j : v = 1%Z \/ v = (-1)%Z ->
  cnt a (sz (S j)) = (cnt (first_half v a j) (sz j) + cnt (second_half v a j) (sz j))%nat.
Proof.
  intros [-> | ->]; unfold first_half, second_half; cbn [Z.eqb Pos.eqb]; rewrite sz_S, cnt_app; lia.
Qed.

Lemma halves_valid v a j : v = 1%Z \/ v = (-1)%Z ->
  valid a (S j) = valid (first_half v a j) j && valid (second_half v a j) j && crit a j.
Proof.
  intros [-> | ->]; unfold first_half, second_half; cbn [Z.eqb Pos.eqb valid]; [reflexivity|].
  f_equal. apply andb_comm.
Qed.

Lemma half_in v a j k : v = 1%Z \/ v = (-1)%Z ->
  (a <= k < a + Z.of_nat (sz (S j)))%Z <->
  (first_half v a j <= k < first_half v a j + Z.of_nat (sz j))%Z \/
  (second_half v a j <= k < second_half v a j + Z.of_nat (sz j))%Z.
Proof.
  intros [-> | ->]; unfold first_half, second_half; cbn [Z.eqb Pos.eqb]; rewrite sz_S; lia.
Qed.

Lemma halves_disjoint v a j k : v = 1%Z \/ v = (-1)%Z ->
  (first_half v a j <= k < first_half v a j + Z.of_nat (sz j))%Z ->
  (second_half v a j <= k < second_half v a j + Z.of_nat (sz j))%Z -> False.
Proof.
  intros [-> | ->]; unfold first_half, second_half; cbn [Z.eqb Pos.eqb]; lia.
Qed.

Lemma canon_valid a j k : canon a j k = (let c := canon a j k in
  Tree (statem c) (statep c) (stateprime c) (rm c) (rp c) (rsum c) (nprime c) true (aprime c) (naprime c) (Lprime c)).
Proof. reflexivity. Qed.

(** Combining two subtrees over neighbouring blocks. *)
Lemma combined v a j (x : rnd tree) (y : tree -> rnd tree) y0 : v = 1%Z \/ v = (-1)%Z ->
  behaves (first_half v a j) j x ->
  (forall k, y (canon (first_half v a j) j k) = y0) ->
  behaves (second_half v a j) j y0 ->
  behaves a (S j) (bind x (fun t1 => if sprime t1 then bind (y t1) (combine v t1) else Ret t1)).
Proof.
  intros Hv [T1 F1] Y [T2 F2].
  unfold behaves. rewrite (halves_valid v a j Hv).
  destruct (valid (first_half v a j) j) eqn:V1.
  2:{ split; [discriminate|]. intros _. rewrite always_bind. generalize (F1 eq_refl). apply always_impl.
      intros t E. rewrite E. exact E. }
  destruct (T1 eq_refl) as [A1 (u1 & P1 & U1 & M1)]. clear T1 F1.
  destruct (valid (second_half v a j) j) eqn:V2.
  2:{ split; [discriminate|]. intros _. rewrite always_bind. revert A1. apply always_impl.
      intros t (k & _ & ->). cbn [canon sprime].
      change (always (fun t => sprime t = false) (bind (y (canon (first_half v a j) j k)) (combine v (canon (first_half v a j) j k)))).
      rewrite Y, always_bind. generalize (F2 eq_refl). apply always_impl. intros t2 E. unfold combine.
      cbn [always sprime]. rewrite E. now split. }
  destruct (T2 eq_refl) as [A2 (u2 & P2 & U2 & M2)]. clear T2 F2.
  cbn [andb].
  assert (Q : forall k1 t2, over (second_half v a j) j t2 ->
    always (fun t => exists k, (k = k1 \/ (second_half v a j <= k < second_half v a j + Z.of_nat (sz j))%Z) /\
              t = let c := canon a (S j) k in
              Tree (statem c) (statep c) (stateprime c) (rm c) (rp c) (rsum c) (nprime c) (crit a j) (aprime c)
                (naprime c) (Lprime c)) (combine v (canon (first_half v a j) j k1) t2)).
  { intros k1 t2 (k2 & K2 & ->). rewrite combine_canon by exact Hv. cbv zeta. cbn [always].
    split; eexists; (split; [|reflexivity]); destruct (_ && _); auto. }
  split; intros C; rewrite C in Q.
  2:{ rewrite always_bind. revert A1. apply always_impl. intros t (k1 & K1 & ->).
      change (always (fun t => sprime t = false) (bind (y (canon (first_half v a j) j k1)) (combine v (canon (first_half v a j) j k1)))).
      rewrite Y, always_bind. revert A2. apply always_impl. intros t2 O2. generalize (Q k1 t2 O2). apply always_impl.
      intros t (k & _ & ->). reflexivity. }
  split.
  { rewrite always_bind. revert A1. apply always_impl. intros t (k1 & K1 & ->).
    change (always (over a (S j)) (bind (y (canon (first_half v a j) j k1)) (combine v (canon (first_half v a j) j k1)))).
    rewrite Y, always_bind. revert A2. apply always_impl. intros t2 O2. generalize (Q k1 t2 O2). apply always_impl.
    intros t (k & K & ->). exists k. split; [|reflexivity]. rewrite (half_in v a j k Hv). destruct K as [-> |K]; auto. }
  set (n1 := cnt (first_half v a j) (sz j)) in *. set (n2 := cnt (second_half v a j) (sz j)) in *.
  set (p := chance (INR n2 / INR (n1 + n2))).
  assert (Pb : 0 <= p <= 1) by apply chance_bounds.
  assert (S1 : zsum (first_half v a j) (sz j) u1 = 1).
  { rewrite <- (mean_const x 1), M1. apply zsum_ext. intros; ring. }
  assert (S2 : zsum (second_half v a j) (sz j) u2 = 1).
  { rewrite <- (mean_const y0 1), M2. apply zsum_ext. intros; ring. }
  set (in1 k := ((first_half v a j <=? k) && (k <? first_half v a j + Z.of_nat (sz j)))%Z).
  assert (In1 : forall k, (first_half v a j <= k < first_half v a j + Z.of_nat (sz j))%Z -> in1 k = true).
  { intros k K. unfold in1. rewrite (proj2 (Z.leb_le _ _)), (proj2 (Z.ltb_lt _ _)) by lia. reflexivity. }
  assert (In2 : forall k, (second_half v a j <= k < second_half v a j + Z.of_nat (sz j))%Z -> in1 k = false).
  { intros k K. destruct (in1 k) eqn:E; [|reflexivity]. exfalso. apply (halves_disjoint v a j k Hv); [|exact K].
    unfold in1 in E. apply andb_true_iff in E as [E1 E2]. apply Z.leb_le in E1. apply Z.ltb_lt in E2. lia. }
  exists (fun k => if in1 k then (1 - p) * u1 k else p * u2 k). split; [|split].
  - intro k. destruct (in1 k); apply Rmult_le_pos; auto; lra.
  - rewrite (halves_cnt v a j Hv). fold n1 n2. intros Pos k K. apply (half_in v a j k Hv) in K.
    assert (Pv : 0 < INR (n1 + n2)) by (apply lt_0_INR; lia).
    assert (Pn : p = INR n2 / INR (n1 + n2)).
    { apply chance_in. rewrite plus_INR in *. pose proof (pos_INR n1). pose proof (pos_INR n2). split.
      - apply Rmult_le_pos; [lra|]. left. apply Rinv_0_lt_compat. lra.
      - apply (Rmult_le_reg_r (INR n1 + INR n2)); [lra|]. unfold Rdiv. rewrite Rmult_assoc, Rinv_l by lra. lra. }
    destruct K as [K|K].
    + rewrite (In1 k K). destruct (Nat.eq_dec n1 0) as [Z1|Z1].
      * rewrite (cnt_none _ _ k Z1 K).
        rewrite Pn, Z1. cbn [Nat.add]. rewrite Z1 in Pv. cbn [Nat.add] in Pv. unfold Rdiv. rewrite Rinv_r by lra. ring.
      * assert (N1 : (0 < n1)%nat) by lia. rewrite (U1 N1 k K). destruct (slice k); [|ring]. rewrite Pn. rewrite plus_INR in *. field.
        split; try lra; apply not_0_INR; lia.
    + rewrite (In2 k K). destruct (Nat.eq_dec n2 0) as [Z2|Z2].
      * rewrite Pn, Z2, (cnt_none _ _ k Z2 K). cbn [INR]. unfold Rdiv. ring.
      * assert (N2 : (0 < n2)%nat) by lia. rewrite (U2 N2 k K). destruct (slice k); [|ring]. rewrite Pn. rewrite plus_INR in *. field.
        split; try lra; apply not_0_INR; lia.
  - intros g. rewrite mean_bind, M1.
    rewrite (zsum_ext _ _ _ (fun k1 => u1 k1 * (p * zsum (second_half v a j) (sz j) (fun k => u2 k * g (canon a (S j) k))
                                        + (1 - p) * g (canon a (S j) k1)))).
    + rewrite (halves_sum v a j _ Hv).
      rewrite (zsum_ext (first_half v a j) _ (fun k => (if in1 k then _ else _) * _) (fun k => (1 - p) * (u1 k * g (canon a (S j) k))))
        by (intros k K; rewrite (In1 k K); ring).
      rewrite (zsum_ext (second_half v a j) _ (fun k => (if in1 k then _ else _) * _) (fun k => p * (u2 k * g (canon a (S j) k))))
        by (intros k K; rewrite (In2 k K); ring).
      rewrite !zsum_scal.
      rewrite (zsum_ext _ _ _ (fun k => u1 k * (p * zsum (second_half v a j) (sz j) (fun k => u2 k * g (canon a (S j) k)))
                                        + (1 - p) * (u1 k * g (canon a (S j) k)))) by (intros; ring).
      rewrite zsum_plus, zsum_scal_r, zsum_scal, S1. ring.
    + intros k1 K1. f_equal. cbn [canon sprime].
      change (mean (bind (y (canon (first_half v a j) j k1)) (combine v (canon (first_half v a j) j k1))) g
              = p * zsum (second_half v a j) (sz j) (fun k => u2 k * g (canon a (S j) k)) + (1 - p) * g (canon a (S j) k1)).
      rewrite Y, mean_bind, M2.
      rewrite (zsum_ext _ _ _ (fun k2 => p * (u2 k2 * g (canon a (S j) k2)) + u2 k2 * ((1 - p) * g (canon a (S j) k1)))).
      * rewrite zsum_plus, zsum_scal, zsum_scal_r, S2. ring.
      * intros k2 K2. rewrite combine_canon by exact Hv. cbv zeta. fold n1 n2. cbn [mean]. rewrite C. fold p.
        rewrite <- !canon_valid. rewrite andb_true_r, andb_false_r.
        destruct (Nat.ltb_spec 0 (n1 + n2)) as [L|L]; [ring|].
        assert (p = 0); [|rewrite H; ring].
        unfold p. replace n2 with 0%nat by lia. cbn [INR]. unfold Rdiv. rewrite Rmult_0_l. unfold chance.
        rewrite Rmax_left, Rmin_right; lra.
Qed.

(** Subtrees built forwards from the point before the block, and backwards from the point after it. *)
Definition begin (v a : Z) (j : nat) : Z := if (v =? -1)%Z then (a + Z.of_nat (sz j))%Z else (a - 1)%Z.

Lemma build_tree_behaves v j : v = 1%Z \/ v = (-1)%Z -> forall a,
  behaves a j (build_tree n Minv llk grad logu eps H0 (st (begin v a j)) (mo (begin v a j)) v j).
Proof.
  intros Hv. induction j; intros a.
  - cbn [build_tree]. apply leaf_behaves. destruct Hv as [-> | ->]; unfold begin; cbn [Z.eqb Pos.eqb].
    + rewrite Rmult_1_l. rewrite (on_path (a - 1)%Z). now replace (a - 1 + 1)%Z with a by lia.
    + replace (-1 * eps) with (- eps) by ring. rewrite (path_back n Minv llk grad eps st mo on_path).
      cbn [sz]. now replace (a + Z.of_nat (sz 0) - 1)%Z with a by (cbn; lia).
  - rewrite build_tree_S.
    apply (combined v a j _ _ (build_tree n Minv llk grad logu eps H0 (st (begin v (second_half v a j) j))
                                 (mo (begin v (second_half v a j) j)) v j) Hv).
    + replace (begin v a (S j)) with (begin v (first_half v a j) j); [apply IHj|].
      destruct Hv as [-> | ->]; unfold begin, first_half; cbn [Z.eqb Pos.eqb]; rewrite ?sz_S; lia.
    + intros k. destruct Hv as [-> | ->]; unfold begin, first_half, second_half; cbn [Z.eqb Pos.eqb canon statem statep rm rp];
        reflexivity.
    + apply IHj.
Qed.

End Trees.
