(** Lemmas for p-values of smooth terms. *)

From Coq Require Import List Bool Arith Reals Lia Lra.
From Verif Require Import PvalModel PvalSpec.
Import ListNotations.

Lemma list_sum_app' l k : list_sum (l ++ k) = list_sum l + list_sum k.
Proof. apply list_sum_app. Qed.
Lemma lsum_zero {A} (f : A -> nat) l : Forall (fun x => f x = 0) l -> list_sum (map f l) = 0.
Proof. induction 1; cbn [map list_sum fold_right] in *; unfold list_sum in *; cbn [fold_right]; lia. Qed.
Lemma lsum_same {A} (f g : A -> nat) l : Forall (fun x => f x = g x) l -> list_sum (map f l) = list_sum (map g l).
Proof. induction 1; cbn [map list_sum fold_right] in *; unfold list_sum in *; cbn [fold_right]; lia. Qed.

Lemma firstn_pre {A} (l k : list A) : firstn (length l) (l ++ k) = l.
Proof. rewrite firstn_app, Nat.sub_diag, firstn_all2 by lia. apply app_nil_r. Qed.

Lemma tests_own f : forall l pre, smooths f = pre ++ l -> irfs f = [] ->
  Forall (fun t => t_unpen t = t_coef t) (linear f) ->
  Forall (fun t => 0 < n_smooths t /\ t_coef t = n_smooths t * (t_coef t / n_smooths t) /\ 0 < t_coef t /\ (t_fs t = true -> n_smooths t = 1)) (smooths f) ->
  Forall (fun t => t_unpen t = 0) (smooths f) ->
  tests l (list_sum (map t_coef (linear f ++ pre))) (list_sum (map edf_slots (linear f ++ pre))) =
  flat_map (fun j => match nth_error (smooths f) j with
                     | Some t => if t_fs t then [] else map (fun i => (own_coefs f j i t, own_edf f j i)) (seq 0 (n_smooths t))
                     | None => [] end) (seq (length pre) (length l)).
Proof.
  induction l as [|t l IH]; intros pre E EI HL HS HU; [easy|].
  assert (Hin : In t (smooths f)) by (rewrite E; apply in_or_app; right; now left).
  pose proof (proj1 (Forall_forall _ _) HS t Hin) as (N0 & N1 & N2 & N3). pose proof (proj1 (Forall_forall _ _) HU t Hin) as U0.
  assert (Ep : edf_slots t = n_smooths t).
  { unfold edf_slots, penalised. rewrite U0. destruct (Nat.eqb_spec (t_coef t) 0); [lia|]. easy. }
  specialize (IH (pre ++ [t])). rewrite <- app_assoc in IH. specialize (IH E EI HL HS HU).
  rewrite !app_assoc, !map_app, !list_sum_app, app_length in IH. cbn [map length list_sum fold_right] in IH.
  rewrite Ep in IH. rewrite !map_app, !list_sum_app. replace (length pre + 1) with (S (length pre)) in IH by lia.
  cbn [tests seq flat_map length]. rewrite E at 1. rewrite nth_error_app2, Nat.sub_diag by lia. cbn [nth_error].
  destruct (t_fs t) eqn:Ef.
  - rewrite (N3 eq_refl) in IH. cbn [app]. rewrite <- IH. f_equal; lia.
  - fold (n_smooths t).
    assert (En : match t_by t with Some k => if t_id t then t_coef t else t_coef t / k | None => t_coef t end = t_coef t / n_smooths t).
    { unfold n_smooths. destruct (t_by t); [destruct (t_id t)|]; now rewrite ?Nat.div_1_r. }
    rewrite En. f_equal.
    + apply map_ext_in. intros i Hi. unfold own_coefs, own_edf. rewrite EI. cbn [app]. rewrite E, <- ?app_assoc, !firstn_pre.
      rewrite ?app_nil_r, !map_app, !list_sum_app. easy.
    + rewrite <- IH. f_equal; lia.
Qed.

Lemma shown_own f : forall l pre, smooths f ++ randoms f = pre ++ l -> irfs f = [] -> Forall (fun t => t_unpen t = t_coef t) (linear f) ->
  Forall (fun t => 0 < t_coef t) (smooths f ++ randoms f) -> Forall (fun t => t_unpen t = 0) (smooths f ++ randoms f) ->
  shown l (list_sum (map edf_slots (linear f ++ pre))) =
  flat_map (fun j => match nth_error (smooths f ++ randoms f) j with Some t => map (own_edf f j) (seq 0 (n_smooths t)) | None => [] end) (seq (length pre) (length l)).
Proof.
  induction l as [|t l IH]; intros pre E EI HL HS HU; [easy|].
  assert (Hin : In t (smooths f ++ randoms f)) by (rewrite E; apply in_or_app; right; now left).
  pose proof (proj1 (Forall_forall _ _) HS t Hin) as N2. pose proof (proj1 (Forall_forall _ _) HU t Hin) as U0. cbn in N2, U0.
  assert (Ep : edf_slots t = n_smooths t).
  { unfold edf_slots, penalised. rewrite U0. destruct (Nat.eqb_spec (t_coef t) 0); [lia|]. easy. }
  specialize (IH (pre ++ [t])). rewrite <- app_assoc in IH. specialize (IH E EI HL HS HU).
  rewrite !app_assoc, !map_app, !list_sum_app, app_length in IH. cbn [map length list_sum fold_right] in IH.
  rewrite Ep in IH. rewrite !map_app, !list_sum_app. replace (length pre + 1) with (S (length pre)) in IH by lia.
  cbn [shown seq flat_map length]. rewrite E at 1. rewrite nth_error_app2, Nat.sub_diag by lia. cbn [nth_error]. fold (n_smooths t). f_equal.
  - apply map_ext_in. intros i Hi. unfold own_edf. rewrite EI. cbn [app]. rewrite E, !firstn_pre.
    rewrite ?app_nil_r, !map_app, !list_sum_app. easy.
  - rewrite <- IH. f_equal; lia.
Qed.

(** ** Statistics *)
Local Open Scope R_scope.
Lemma sum_to_ext n f g : (forall i, (i < n)%nat -> f i = g i) -> sum_to n f = sum_to n g.
Proof. intros H. unfold sum_to. f_equal. apply map_ext_in. intros i Hi. apply in_seq in Hi. apply H. lia. Qed.
Lemma sum_to_S n f : sum_to (S n) f = sum_to n f + f n.
Proof. unfold sum_to. rewrite seq_S, map_app, fold_right_app. cbn. generalize (map f (seq 0 n)). induction l; cbn; lra. Qed.
Lemma sum_to_scal n c f : sum_to n (fun i => c * f i) = c * sum_to n f.
Proof. induction n; [unfold sum_to; cbn; lra|]. rewrite !sum_to_S, IHn. lra. Qed.
Lemma sum_to_scal_r n c f : sum_to n (fun i => f i * c) = sum_to n f * c.
Proof. induction n; [unfold sum_to; cbn; lra|]. rewrite !sum_to_S, IHn. lra. Qed.
Lemma sum_to_plus n f g : sum_to n (fun i => f i + g i) = sum_to n f + sum_to n g.
Proof. induction n; [unfold sum_to; cbn; lra|]. rewrite !sum_to_S, IHn. lra. Qed.
Lemma sum_to_zero n : sum_to n (fun _ => 0) = 0.
Proof. induction n; [easy|]. rewrite sum_to_S, IHn. lra. Qed.
Lemma sum_to_swap n m f : sum_to n (fun i => sum_to m (fun j => f i j)) = sum_to m (fun j => sum_to n (fun i => f i j)).
Proof.
  induction n as [|n IH].
  - rewrite (sum_to_ext m _ (fun _ => 0)) by easy. now rewrite sum_to_zero.
  - rewrite sum_to_S, IH, <- sum_to_plus. apply sum_to_ext. intros j _. now rewrite sum_to_S.
Qed.

(** The quadratic form in the components along the columns. *)
Lemma quadratic_along n m U W b : quadratic n m U W b = sum_to m (fun i => sum_to m (fun j => along n U b i * W i j * along n U b j)).
Proof.
  unfold quadratic.
  transitivity (sum_to n (fun r => sum_to n (fun q => sum_to m (fun i => sum_to m (fun j => b r * U r i * W i j * (U q j * b q)))))).
  { apply sum_to_ext. intros r _. apply sum_to_ext. intros q _. rewrite <- sum_to_scal, <- sum_to_scal_r. apply sum_to_ext. intros i _.
    rewrite <- sum_to_scal, <- sum_to_scal_r. apply sum_to_ext. intros j _. ring. }
  transitivity (sum_to n (fun r => sum_to m (fun i => sum_to m (fun j => sum_to n (fun q => b r * U r i * W i j * (U q j * b q)))))).
  { apply sum_to_ext. intros r _. rewrite sum_to_swap. apply sum_to_ext. intros i _. apply sum_to_swap. }
  rewrite sum_to_swap. apply sum_to_ext. intros i _. rewrite sum_to_swap. apply sum_to_ext. intros j _.
  transitivity (sum_to n (fun r => (b r * U r i * W i j) * along n U b j)).
  { apply sum_to_ext. intros r _. now rewrite sum_to_scal. }
  rewrite sum_to_scal_r, sum_to_scal_r. f_equal. f_equal. apply sum_to_ext. intros; ring.
Qed.
Lemma along_signed n U sg b i : along n (signed U sg) b i = sg i * along n U b i.
Proof. unfold along, signed. rewrite <- sum_to_scal. apply sum_to_ext. intros; ring. Qed.
Lemma along_reversed n U flip b i : along n (reversed U flip) b i = (if flip i then -1 else 1) * along n U b i.
Proof. unfold along, reversed. rewrite <- sum_to_scal. apply sum_to_ext. intros r _. destruct (flip i); ring. Qed.

Lemma sign_sq x : x <> 0 -> sign x * sign x = 1.
Proof. intros H. unfold sign. destruct (Rlt_dec x 0), (Rlt_dec 0 x); lra. Qed.
Lemma sign_opp x : sign (- x) = - sign x.
Proof. unfold sign. destruct (Rlt_dec x 0), (Rlt_dec 0 x), (Rlt_dec (-x) 0), (Rlt_dec 0 (-x)); lra. Qed.
Lemma sign_zero : sign 0 = 0.
Proof. unfold sign. destruct (Rlt_dec 0 0); lra. Qed.
Lemma sign_reversed U flip c : sign (reversed U flip 0%nat c) = (if flip c then -1 else 1) * sign (U 0%nat c).
Proof. unfold reversed. destruct (flip c); [rewrite sign_opp|]; lra. Qed.

(** Quadratic forms agree if the products of components weighted by W do. *)
Lemma quadratic_same n m U U' W b : (forall i j, (i < m)%nat -> (j < m)%nat -> W i j <> 0 ->
   along n U b i * along n U b j = along n U' b i * along n U' b j) -> quadratic n m U W b = quadratic n m U' W b.
Proof.
  intros H. rewrite !quadratic_along. apply sum_to_ext. intros i Hi. apply sum_to_ext. intros j Hj.
  destruct (Req_EM_T (W i j) 0) as [->|N]; [ring|].
  replace (along n U b i * W i j * along n U b j) with (W i j * (along n U b i * along n U b j)) by ring. rewrite (H i j Hi Hj N). ring.
Qed.

Lemma S_int_diag k s i j : S_int k s i j <> 0 -> i = j /\ (i < k)%nat.
Proof. unfold S_int. destruct (Nat.eqb_spec i j); [|easy]. destruct (Nat.ltb_spec i k); easy. Qed.
Lemma S_real_support k v s i j : (0 < k)%nat -> (i < S k)%nat -> (j < S k)%nat -> S_real k v s i j <> 0 -> i = j \/ (k - 1 <= i /\ k - 1 <= j)%nat.
Proof.
  intros K Hi Hj. unfold S_real. destruct (Nat.ltb_spec i (k - 1)); cbn [orb].
  - destruct (Nat.eqb_spec i j); [now left|easy].
  - destruct (Nat.ltb_spec j (k - 1)); cbn [orb]; [destruct (Nat.eqb_spec i j); [now left|easy]|]. intros _. right. lia.
Qed.

(** First statistic: no sign matters. *)
Lemma first_invariant n k v s U flip b : (0 < k)%nat ->
  fst (statistics n k v s (reversed U flip) b) = fst (statistics n k v s U b).
Proof.
  intros K. unfold statistics.
  assert (A : forall i, along n (signed (reversed U flip) (fun c => sign (reversed U flip 0%nat c))) b i = along n (signed U (fun c => sign (U 0%nat c))) b i).
  { intros i. rewrite !along_signed, along_reversed, sign_reversed. destruct (flip i); ring. }
  destruct (Req_EM_T v 0); cbn [fst]; apply quadratic_same; intros i j _ _ _; now rewrite !A.
Qed.
(** Second statistic: only the relative sign of the last two eigenvectors matters, and not even that if v = 0. *)
Lemma second_invariant n k v s U flip b : (0 < k)%nat -> (v = 0 \/ flip (k - 1)%nat = flip k) ->
  snd (statistics n k v s (reversed U flip) b) = snd (statistics n k v s U b).
Proof.
  intros K F. unfold statistics.
  assert (A : forall V i, along n (signed (signed V (fun c => sign (V 0%nat c))) (fun c => sign (V 0%nat c))) b i =
     sign (V 0%nat i) * sign (V 0%nat i) * along n V b i).
  { intros V i. rewrite !along_signed. ring. }
  assert (B : forall i, sign (reversed U flip 0%nat i) * sign (reversed U flip 0%nat i) * along n (reversed U flip) b i =
     (if flip i then -1 else 1) * (sign (U 0%nat i) * sign (U 0%nat i) * along n U b i)).
  { intros i. rewrite sign_reversed, along_reversed. destruct (flip i); ring. }
  destruct (Req_EM_T v 0) as [E|E]; cbn [snd]; apply quadratic_same; intros i j Hi Hj N; rewrite !A, !B.
  - apply S_int_diag in N. destruct N as [<- _]. destruct (flip i); ring.
  - destruct F as [F|F]; [easy|]. apply S_real_support in N; try easy. destruct N as [->|[H1 H2]].
    + destruct (flip j); ring.
    + assert (X : flip i = flip k). { assert (D : i = (k - 1)%nat \/ i = k) by lia. destruct D as [->| ->]; easy. }
      assert (Y : flip j = flip k). { assert (D : j = (k - 1)%nat \/ j = k) by lia. destruct D as [->| ->]; easy. }
      rewrite X, Y. destruct (flip k); ring.
Qed.

Lemma sum_single n c f : (c < n)%nat -> (forall i, (i < n)%nat -> i <> c -> f i = 0) -> sum_to n f = f c.
Proof.
  induction n as [|n IH]; intros Hc H; [lia|]. rewrite sum_to_S. destruct (Nat.eq_dec c n) as [->|].
  - rewrite (sum_to_ext n f (fun _ => 0)) by (intros; apply H; lia). rewrite sum_to_zero. lra.
  - rewrite IH by (try lia; intros; apply H; lia). rewrite (H n) by lia. lra.
Qed.
Lemma sum_to_prefix k n f : (k <= n)%nat -> (forall i, (k <= i < n)%nat -> f i = 0) -> sum_to n f = sum_to k f.
Proof.
  intros H. induction n as [|n IH]; intros Hz; [now replace k with 0%nat by lia|].
  destruct (Nat.eq_dec k (S n)) as [->|]; [easy|]. rewrite sum_to_S, IH by (try lia; intros; apply Hz; lia). rewrite (Hz n) by lia. lra.
Qed.
(** Integer degrees of freedom: both statistics are the sum of squared components over eigenvalues. *)
Lemma integer_value n k s U b : (0 < k <= n)%nat -> (forall i, (i < k)%nat -> U 0%nat i <> 0) ->
  let t := sum_to k (fun i => along n U b i * along n U b i / s i) in statistics n k 0 s U b = (t, t).
Proof.
  intros K H t. unfold statistics. destruct (Req_EM_T 0 0) as [_|N]; [|easy].
  assert (Q : forall V, (forall i, (i < k)%nat -> along n V b i * along n V b i = along n U b i * along n U b i) -> quadratic n n V (S_int k s) b = t).
  { intros V HV. rewrite quadratic_along. unfold t. rewrite (sum_to_prefix k n); [|lia|].
    2: { intros i Hi. transitivity (sum_to n (fun _ => 0)); [|apply sum_to_zero]. apply sum_to_ext. intros j _. unfold S_int.
         destruct (Nat.ltb_spec i k); [lia|]. destruct (i =? j)%nat; ring. }
    apply sum_to_ext. intros i Hi. rewrite (sum_single n i); [|lia|].
    - unfold S_int. rewrite Nat.eqb_refl. destruct (Nat.ltb_spec i k); [|lia]. rewrite <- (HV i Hi). unfold Rdiv. ring.
    - intros j _ Nj. unfold S_int. destruct (Nat.eqb_spec i j); [congruence|ring]. }
  f_equal; apply Q; intros i Hi; specialize (H i Hi); rewrite !along_signed.
  - replace (sign (U 0%nat i) * along n U b i * (sign (U 0%nat i) * along n U b i)) with (sign (U 0%nat i) * sign (U 0%nat i) * (along n U b i * along n U b i)) by ring.
    rewrite sign_sq by easy. ring.
  - replace (sign (U 0%nat i) * (sign (U 0%nat i) * along n U b i) * (sign (U 0%nat i) * (sign (U 0%nat i) * along n U b i)))
      with (sign (U 0%nat i) * sign (U 0%nat i) * (sign (U 0%nat i) * sign (U 0%nat i)) * (along n U b i * along n U b i)) by ring.
    rewrite sign_sq by easy. ring.
Qed.

(** Other degrees of freedom. *)
Lemma general_quadratic n q v s V b : (forall i, (i <= S q)%nat -> 0 < s i) ->
  quadratic n (S (S q)) V (S_real (S q) v s) b =
  sum_to (S q) (fun i => along n V b i * along n V b i / s i) + v * (along n V b (S q) * along n V b (S q)) / s (S q)
  + 2 * sqrt (v * (1 - v) / 2) * (along n V b q * along n V b (S q)) / (sqrt (s q) * sqrt (s (S q))).
Proof.
  intros P. rewrite quadratic_along. set (a := along n V b). set (p := sqrt (v * (1 - v) / 2)).
  assert (Q : forall i, (i <= S q)%nat -> / sqrt (s i) * / sqrt (s i) = / s i).
  { intros i Hi. rewrite <- Rinv_mult. now rewrite sqrt_sqrt by (apply Rlt_le, P; lia). }
  rewrite !sum_to_S.
  transitivity (sum_to q (fun i => a i * a i / s i) +
     (a q * (/ sqrt (s q) * / sqrt (s q)) * a q + a q * (/ sqrt (s q) * p * / sqrt (s (S q))) * a (S q)) +
     (a (S q) * (/ sqrt (s q) * p * / sqrt (s (S q))) * a q + a (S q) * (/ sqrt (s (S q)) * v * / sqrt (s (S q))) * a (S q))).
  - f_equal; [f_equal|].
    + apply sum_to_ext. intros i Hi. rewrite (sum_single (S (S q)) i); [|lia|].
      * unfold S_real. replace (S q - 1)%nat with q by lia. destruct (Nat.ltb_spec i q); [|lia]. cbn [orb]. rewrite Nat.eqb_refl. unfold Rdiv. ring.
      * intros j _ N. unfold S_real. replace (S q - 1)%nat with q by lia. destruct (Nat.ltb_spec i q); [|lia]. cbn [orb].
        destruct (Nat.eqb_spec i j); [congruence|ring].
    + rewrite (sum_to_ext q _ (fun _ => 0)); [rewrite sum_to_zero|].
      * unfold S_real. replace (S q - 1)%nat with q by lia. rewrite !Nat.ltb_irrefl, !Nat.eqb_refl. cbn [orb andb].
        destruct (Nat.ltb_spec (S q) q); [lia|]. cbn [orb]. destruct (Nat.eqb_spec (S q) q); [lia|]. destruct (Nat.eqb_spec q (S q)); [lia|]. cbn [andb]. fold p. ring.
      * intros j Hj. unfold S_real. replace (S q - 1)%nat with q by lia. destruct (Nat.ltb_spec j q); [|lia]. rewrite orb_true_r.
        destruct (Nat.eqb_spec q j); [lia|ring].
    + rewrite (sum_to_ext q _ (fun _ => 0)); [rewrite sum_to_zero|].
      * unfold S_real. replace (S q - 1)%nat with q by lia. rewrite !Nat.ltb_irrefl, !Nat.eqb_refl. cbn [orb andb].
        destruct (Nat.ltb_spec (S q) q); [lia|]. cbn [orb]. destruct (Nat.eqb_spec (S q) q); [lia|]. destruct (Nat.eqb_spec q (S q)); [lia|]. cbn [andb]. fold p. ring.
      * intros j Hj. unfold S_real. replace (S q - 1)%nat with q by lia. destruct (Nat.ltb_spec j q); [|lia]. rewrite orb_true_r.
        destruct (Nat.eqb_spec (S q) j); [lia|ring].
  - rewrite Q by lia. replace (/ sqrt (s (S q)) * v * / sqrt (s (S q))) with (v * (/ sqrt (s (S q)) * / sqrt (s (S q)))) by ring. rewrite Q by lia.
    unfold Rdiv. rewrite Rinv_mult. ring.
Qed.
Lemma general_value n q v s U b : v <> 0 -> (forall i, (i <= S q)%nat -> 0 < s i /\ U 0%nat i <> 0) ->
  let a := along n U b in
  let base := sum_to (S q) (fun i => a i * a i / s i) + v * (a (S q) * a (S q)) / s (S q) in
  let cross := 2 * sqrt (v * (1 - v) / 2) * (a q * a (S q)) / (sqrt (s q) * sqrt (s (S q))) in
  statistics n (S q) v s U b = (base + sign (U 0%nat q) * sign (U 0%nat (S q)) * cross, base + cross).
Proof.
  intros Hv H a base cross. unfold statistics. destruct (Req_EM_T v 0); [easy|].
  assert (G : forall i, (i <= S q)%nat -> sign (U 0%nat i) * sign (U 0%nat i) = 1) by (intros i Hi; apply sign_sq, H, Hi).
  assert (Hs : forall i, (i <= S q)%nat -> 0 < s i) by (intros; now apply H).
  rewrite !general_quadratic by easy. f_equal.
  - rewrite !along_signed. fold a. f_equal; [unfold base; f_equal|].
    + apply sum_to_ext. intros i Hi. rewrite along_signed. fold a. replace (sign (U 0%nat i) * a i * (sign (U 0%nat i) * a i)) with (sign (U 0%nat i) * sign (U 0%nat i) * (a i * a i)) by ring.
      rewrite G by lia. unfold Rdiv. ring.
    + replace (sign (U 0%nat (S q)) * a (S q) * (sign (U 0%nat (S q)) * a (S q))) with (sign (U 0%nat (S q)) * sign (U 0%nat (S q)) * (a (S q) * a (S q))) by ring.
      rewrite G by lia. unfold Rdiv. ring.
    + unfold cross, Rdiv. ring.
  - assert (E : forall i, (i <= S q)%nat -> along n (signed (signed U (fun c => sign (U 0%nat c))) (fun c => sign (U 0%nat c))) b i = a i).
    { intros i Hi. rewrite !along_signed. fold a. rewrite <- Rmult_assoc, G by easy. ring. }
    rewrite !E by lia. unfold base, cross. f_equal. f_equal. apply sum_to_ext. intros i Hi. rewrite E by lia. reflexivity.
Qed.
