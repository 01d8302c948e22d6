(** Proofs about the vague prior. *)

From Coq Require Import List Arith Bool Reals Lra Lia FunctionalExtensionality.
From Verif Require Import VagueModel VagueSpec.
Import ListNotations.
Local Open Scope R_scope.

Lemma sum_app {T} (l l' : list T) g : sum (l ++ l') g = sum l g + sum l' g.
Proof. induction l as [|x l ih]; simpl; [|rewrite ih]; lra. Qed.
Lemma sum_add {T} (l : list T) g h : sum l (fun x => g x + h x) = sum l g + sum l h.
Proof. induction l as [|x l ih]; simpl; [|rewrite ih]; lra. Qed.
Lemma sum_scale {T} (l : list T) c g : sum l (fun x => c * g x) = c * sum l g.
Proof. induction l as [|x l ih]; simpl; [|rewrite ih]; lra. Qed.
Lemma sum_ext {T} (l : list T) g h : (forall x, In x l -> g x = h x) -> sum l g = sum l h.
Proof. intros e. induction l as [|x l ih]; simpl; auto. rewrite (e x), ih; simpl; auto. intros; apply e; simpl; auto. Qed.
Lemma sum_le {T} (l : list T) g h : (forall x, In x l -> g x <= h x) -> sum l g <= sum l h.
Proof.
  intros e. induction l as [|x l ih]; simpl; [lra|]. assert (g x <= h x) by (apply e; simpl; auto).
  assert (sum l g <= sum l h) by (apply ih; intros; apply e; simpl; auto). lra.
Qed.
Lemma sum_filter {T} (p : T -> bool) (l : list T) g : sum (filter p l) g = sum l (fun x => if p x then g x else 0).
Proof. induction l as [|x l ih]; simpl; auto. destruct (p x); simpl; rewrite ih; lra. Qed.
Lemma sum_flat {T U} (h : T -> list U) (l : list T) g : sum (flat_map h l) g = sum l (fun x => sum (h x) g).
Proof. induction l as [|x l ih]; simpl; auto. now rewrite sum_app, ih. Qed.

Lemma part_part b o w : part (part b o) w = part b (o + w).
Proof. apply functional_extensionality. intros k. unfold part. f_equal. lia. Qed.

Lemma sum_seq b w : forall o, sum (seq o w) (fun i => b i ^ 2) = squares w (part b o).
Proof.
  induction w as [|w ih]; intros o; [reflexivity|]. rewrite seq_S, sum_app, ih. unfold sum. cbn [fold_right squares]. change (part b o w) with (b (o + w)%nat). lra.
Qed.

Lemma over_app g f f' b : over_terms g (f ++ f') b = over_terms g f b + over_terms g f' (part b (n_coef f)).
Proof.
  revert b. induction f as [|t f ih]; intros b; cbn [app over_terms].
  - replace (part b (n_coef [])) with b; [lra|]. apply functional_extensionality. reflexivity.
  - rewrite ih. change (fun k => b (width t + k)%nat) with (part b (width t)). rewrite part_part.
    change (n_coef (t :: f)) with (width t + n_coef f)%nat. lra.
Qed.

Lemma sum_located g b f : forall fi ti o, sum (located fi ti o f) (fun x => match x with (_, _, o, t) => g t (part b o) end) = over_terms g f (part b o).
Proof.
  induction f as [|t f ih]; intros fi ti o; [reflexivity|]. cbn [located over_terms]. unfold sum. cbn [fold_right].
  fold (sum (located fi (S ti) (o + width t) f) (fun x => match x with (_, _, o, t) => g t (part b o) end)). rewrite ih.
  change (fun k => part b o (width t + k)%nat) with (part (part b o) (width t)). now rewrite part_part.
Qed.

Lemma sum_all g b fs : forall fi o, sum (located_all fi o fs) (fun x => match x with (_, _, o, t) => g t (part b o) end) = over_terms g (concat fs) (part b o).
Proof.
  induction fs as [|f fs ih]; intros fi o; [reflexivity|]. cbn [located_all concat].
  now rewrite sum_app, sum_located, ih, over_app, part_part.
Qed.

Lemma part0 b : part b 0 = b.
Proof. reflexivity. Qed.

Lemma total fs : list_sum (map n_coef fs) = list_sum (map width (concat fs)).
Proof. induction fs as [|f fs ih]; [reflexivity|]. simpl. rewrite map_app, list_sum_app, ih. reflexivity. Qed.

Lemma extra_values b values : forall o, sum (combine (seq o (length values)) values) (fun iv => snd iv * b (fst iv) ^ 2) = over_values values (part b o).
Proof.
  induction values as [|v values ih]; intros o; [reflexivity|]. cbn [length seq combine over_values]. unfold sum. cbn [fold_right].
  fold (sum (combine (seq (S o) (length values)) values) (fun iv => snd iv * b (fst iv) ^ 2)). rewrite ih. cbn [fst snd]. f_equal.
  - unfold part. now rewrite Nat.add_0_r.
  - f_equal. apply functional_extensionality. intros k. unfold part. f_equal. lia.
Qed.

Lemma in_located f : forall fi ti o x, In x (located fi ti o f) ->
  exists k o' t, x = (fi, (ti + k)%nat, o', t) /\ nth_error f k = Some t.
Proof.
  induction f as [|t f ih]; intros fi ti o x i; [contradiction|]. destruct i as [<-|i].
  - exists 0%nat, o, t. rewrite Nat.add_0_r. auto.
  - destruct (ih _ _ _ _ i) as [k [o' [t' [-> e]]]]. exists (S k), o', t'. split; auto. now rewrite Nat.add_succ_comm.
Qed.
Lemma in_located_all fs : forall fi o fi' ti o' t, In (fi', ti, o', t) (located_all fi o fs) -> In t (concat fs).
Proof.
  induction fs as [|f fs ih]; intros fi o fi' ti o' t i; [contradiction|]. cbn [located_all concat] in *.
  apply in_or_app. apply in_app_or in i. destruct i as [i|i].
  - left. destruct (in_located _ _ _ _ _ i) as [k [o2 [t2 [e q]]]]. injection e as -> -> -> ->. eapply nth_error_In; eauto.
  - right. eapply ih; eauto.
Qed.

Lemma in_fidx fs fi : existsb (Nat.eqb fi) (NP_fidx fs) = true <-> exists ti o t, In (fi, ti, o, t) (located_all 0 0 fs) /\ updated t = true.
Proof.
  rewrite existsb_exists. unfold NP_fidx. split.
  - intros [y [i e]]. apply Nat.eqb_eq in e. subst y. apply in_flat_map in i. destruct i as [[[[a c] o] t] [i j]].
    destruct (updated t) eqn:u; [|contradiction]. destruct j as [->|[]]. eauto.
  - intros [ti [o [t [i u]]]]. exists fi. split; [|apply Nat.eqb_refl]. apply in_flat_map. exists (fi, ti, o, t). rewrite u. split; [auto|now left].
Qed.
Lemma in_tidx fs ti : existsb (Nat.eqb ti) (NP_tidx fs) = true <-> exists fi o t, In (fi, ti, o, t) (located_all 0 0 fs) /\ updated t = true.
Proof.
  rewrite existsb_exists. unfold NP_tidx. split.
  - intros [y [i e]]. apply Nat.eqb_eq in e. subst y. apply in_flat_map in i. destruct i as [[[[a c] o] t] [i j]].
    destruct (updated t) eqn:u; [|contradiction]. destruct j as [->|[]]. eauto.
  - intros [fi [o [t [i u]]]]. exists ti. split; [|apply Nat.eqb_refl]. apply in_flat_map. exists (fi, ti, o, t). rewrite u. split; [auto|now left].
Qed.

(** Whether a null-space penalty is added. *)
Definition chosen (fs : list formula) (x : nat * nat * nat * term) : bool :=
  match x with (fi, ti, _, t) => (has_null t || updated t) && (existsb (Nat.eqb fi) (NP_fidx fs) && existsb (Nat.eqb ti) (NP_tidx fs)) end.

Lemma sum_selected fs g : sum (selected fs) g = sum (located_all 0 0 fs) (fun x => if chosen fs x then g x else 0).
Proof.
  unfold selected, NP_pen. rewrite !sum_filter. apply sum_ext. intros [[[fi ti] o] t] _. unfold chosen.
  destruct (has_null t || updated t); reflexivity.
Qed.

Lemma chosen_updated fs fi ti o t : In (fi, ti, o, t) (located_all 0 0 fs) -> updated t = true -> chosen fs (fi, ti, o, t) = true.
Proof.
  intros i u. unfold chosen. rewrite u, orb_true_r. cbn [andb]. apply andb_true_iff.
  split; [apply in_fidx|apply in_tidx]; eauto.
Qed.

Lemma chosen_one f fi ti o t : In (fi, ti, o, t) (located_all 0 0 [f]) -> chosen [f] (fi, ti, o, t) = updated t.
Proof.
  intros i. destruct (updated t) eqn:u; [now apply chosen_updated|]. unfold chosen. rewrite u, orb_false_r.
  destruct (existsb (Nat.eqb ti) (NP_tidx [f])) eqn:q; [|now rewrite !andb_false_r]. apply in_tidx in q. destruct q as [fi' [o' [t' [i' u']]]].
  cbn [located_all] in i, i'. rewrite app_nil_r in i, i'.
  destruct (in_located _ _ _ _ _ i) as [k [o1 [t1 [e1 q1]]]], (in_located _ _ _ _ _ i') as [k' [o2 [t2 [e2 q2]]]].
  injection e1 as _ -> _ ->. injection e2 as _ e _ ->. simpl in e. congruence.
Qed.

Lemma chosen_none fs fi ti o t : (forall t, In t (concat fs) -> has_null t = false) ->
  In (fi, ti, o, t) (located_all 0 0 fs) -> chosen fs (fi, ti, o, t) = updated t.
Proof.
  intros H i. destruct (updated t) eqn:u; [now apply chosen_updated|]. unfold chosen. rewrite u, (H t) by (eapply in_located_all; eauto). reflexivity.
Qed.

(** What is added to a term. *)
Definition added (lambda_0 : R) (c : bool) (t : term) (b : coefs) : R :=
  (if is_linear t then lambda_0 * squares (width t) b else 0) + (if c then lambda_0 * nulls t b else 0).

Lemma prior_sum lambda_0 values fs b : prior lambda_0 values fs b =
  sum (located_all 0 0 fs) (fun x => match x with (fi, ti, o, t) => own t (part b o) + added lambda_0 (chosen fs x) t (part b o) end)
  + over_values values (part b (list_sum (map width (concat fs)))).
Proof.
  unfold prior, S_emb, S_f_emb, extra. rewrite extra_values, total, sum_selected. unfold fcols. rewrite sum_flat.
  enough (E : sum (located_all 0 0 fs) (fun x => match x with (fi, ti, o, t) => own t (part b o) + added lambda_0 (chosen fs x) t (part b o) end)
    = sum (located_all 0 0 fs) (fun x => match x with (_, _, o, t) => pens t (part b o) + (if has_null t then nlam t * nulls t (part b o) else 0) end)
      + (sum (located_all 0 0 fs) (fun x => sum (match x with (_, _, o, t) => if is_linear t then seq o (width t) else [] end) (fun i => lambda_0 * b i ^ 2))
      + sum (located_all 0 0 fs) (fun x => if chosen fs x then match x with (_, _, o, t) => lambda_0 * nulls t (part b o) end else 0))) by lra.
  rewrite <- !sum_add. apply sum_ext. intros [[[fi ti] o] t] _. unfold own, added.
  assert (e : sum (if is_linear t then seq o (width t) else []) (fun i => lambda_0 * b i ^ 2) = if is_linear t then lambda_0 * squares (width t) (part b o) else 0).
  { destruct (is_linear t); [|reflexivity]. now rewrite sum_scale, sum_seq. }
  rewrite e. lra.
Qed.

Lemma added_vague lambda_0 t b : added lambda_0 (updated t) t b = vague lambda_0 t b.
Proof.
  unfold added, updated, vague, is_linear, is_smooth. destruct (tkind t); cbn [andb]; try lra.
  destruct (is_fs t), (has_null t); cbn [orb negb]; lra.
Qed.

Lemma prior_documented lambda_0 values fs :
  (forall fi ti o t, In (fi, ti, o, t) (located_all 0 0 fs) -> chosen fs (fi, ti, o, t) = updated t) ->
  forall b, prior lambda_0 values fs b = documented lambda_0 values fs b.
Proof.
  intros H b. rewrite prior_sum. unfold documented. f_equal.
  assert (E := sum_all (fun t b => own t b + vague lambda_0 t b) b fs 0 0). rewrite part0 in E. rewrite <- E. clear E. apply sum_ext. intros [[[fi ti] o] t] i. now rewrite (H _ _ _ _ i), added_vague.
Qed.

Lemma sq_pos x : x <> 0 -> 0 < x ^ 2.
Proof. intros h. rewrite <- Rsqr_pow2. now apply Rlt_0_sqr. Qed.

Lemma squares_ge n b : 0 <= squares n b.
Proof. induction n as [|n ih]; simpl; [lra|]. assert (h := pow2_ge_0 (b n)). simpl in h. lra. Qed.
Lemma squares_proper n : proper n (squares n).
Proof.
  induction n as [|n ih]; intros b [k [kn nz]]; [lia|]. cbn [squares]. assert (h := pow2_ge_0 (b n)). assert (h2 := squares_ge n b).
  destruct (Nat.eq_dec k n) as [->|ne].
  - assert (0 < b n ^ 2) by (apply sq_pos; auto). lra.
  - assert (0 < squares n b); [|lra]. apply ih. exists k. split; [lia|auto].
Qed.

Lemma over_proper g : forall l values b, (forall t, In t l -> (forall b, 0 <= g t b) /\ proper (width t) (g t)) -> Forall (fun v => 0 < v) values ->
  let q := over_terms g l b + over_values values (part b (list_sum (map width l))) in
  0 <= q /\ ((exists k, (k < list_sum (map width l) + length values)%nat /\ b k <> 0) -> 0 < q).
Proof.
  induction l as [|t l ih]; intros values b H V; cbv zeta.
  - cbn [over_terms map list_sum fold_right]. rewrite part0. revert b. induction V as [|v values v0 V iv]; intros b; cbn [over_values length].
    + split; [lra|]. intros [k [h _]]. lia.
    + destruct (iv (fun k => b (S k))) as [i1 i2]. assert (h := pow2_ge_0 (b 0%nat)). assert (h2 := Rmult_le_pos v (b 0%nat ^ 2) ltac:(lra) h).
      split; [lra|]. intros [[|k] [kn nz]].
      * assert (0 < v * b 0%nat ^ 2) by (apply Rmult_lt_0_compat; [auto|apply sq_pos; auto]). lra.
      * assert (q : exists k, (k < 0 + length values)%nat /\ b (S k) <> 0) by (exists k; split; [cbn [length] in kn; lia|auto]).
        specialize (i2 q). lra.
  - destruct (H t (or_introl eq_refl)) as [g0 g1].
    destruct (ih values (part b (width t)) (fun t' i => H t' (or_intror i)) V) as [i1 i2].
    rewrite part_part in i1, i2. cbn [over_terms map list_sum fold_right].
    change (fun k => b (width t + k)%nat) with (part b (width t)). fold (list_sum (map width l)).
    specialize (g0 b). split; [lra|]. intros [k [kn nz]].
    destruct (Nat.lt_ge_cases k (width t)) as [kw|kw].
    + assert (0 < g t b) by (apply g1; eauto). lra.
    + assert (q : exists j, (j < list_sum (map width l) + length values)%nat /\ part b (width t) j <> 0).
      { exists (k - width t)%nat. split; [lia|]. unfold part. now replace (width t + (k - width t))%nat with k by lia. }
      specialize (i2 q). lra.
Qed.

Lemma regular_proper lambda_0 t : 0 < lambda_0 -> regular t ->
  (forall b, 0 <= own t b + vague lambda_0 t b) /\ proper (width t) (fun b => own t b + vague lambda_0 t b).
Proof.
  intros l0 [p0 [n0 [nl K]]].
  assert (o1 : forall b, pens t b <= own t b).
  { intros b. unfold own. specialize (n0 b). destruct (has_null t); [|lra]. specialize (nl eq_refl). assert (h := Rmult_le_pos (nlam t) (nulls t b) ltac:(lra) n0). lra. }
  assert (v0 : forall b, 0 <= vague lambda_0 t b).
  { intros b. unfold vague. destruct (tkind t); try lra.
    - apply Rmult_le_pos; [lra|apply squares_ge].
    - destruct (is_fs t), (has_null t); try lra. apply Rmult_le_pos; [lra|auto]. }
  split; [intros b; specialize (o1 b); specialize (v0 b); specialize (p0 b); lra|].
  intros b nz. specialize (o1 b). specialize (p0 b). specialize (v0 b).
  assert (sc : forall c, 0 < c -> 0 < pens t b + nulls t b -> 0 < pens t b + c * nulls t b).
  { intros c c0 h. specialize (n0 b). destruct (Req_dec (nulls t b) 0) as [e|e]; [rewrite e in *; lra|].
    assert (0 < c * nulls t b) by (apply Rmult_lt_0_compat; lra). lra. }
  unfold vague in *. destruct (tkind t); try contradiction.
  - assert (0 < lambda_0 * squares (width t) b) by (apply Rmult_lt_0_compat; [auto|now apply squares_proper]). lra.
  - unfold own in *. destruct (is_fs t), (has_null t); cbn [andb negb] in K.
    + specialize (sc (nlam t) (nl eq_refl) (K b nz)). lra.
    + specialize (K b nz). lra.
    + specialize (sc (nlam t) (nl eq_refl) (K b nz)). lra.
    + specialize (sc lambda_0 l0 (K b nz)). lra.
  - specialize (K b nz). lra.
Qed.

Lemma prior_ge lambda_0 values fs b : 0 < lambda_0 -> (forall t, In t (concat fs) -> forall b, 0 <= nulls t b) ->
  documented lambda_0 values fs b <= prior lambda_0 values fs b.
Proof.
  intros l0 N. rewrite prior_sum. unfold documented. apply Rplus_le_compat_r.
  assert (E := sum_all (fun t b => own t b + vague lambda_0 t b) b fs 0 0). rewrite part0 in E. rewrite <- E. clear E. apply sum_le. intros [[[fi ti] o] t] i.
  rewrite <- added_vague. apply Rplus_le_compat_l. unfold added. apply Rplus_le_compat_l.
  destruct (updated t) eqn:u; [rewrite (chosen_updated _ _ _ _ _ i u); lra|].
  destruct (chosen _ _); [|lra]. apply Rmult_le_pos; [lra|]. apply N. eapply in_located_all; eauto.
Qed.
