(** The law of simulated states. *)

From Coq Require Import List Bool Arith ZArith Reals Lia Lra Permutation.
From Verif Require Import HsmmModel HsmmSpec HsmmProofs HsmmProofs2 HsmmProofs3 SimModel SimSpec.
Import ListNotations.
Local Open Scope R_scope.

Lemma prob_ext A (x : rnd A) e e' : (forall a, e a = e' a) -> prob x e = prob x e'.
Proof. intros h; induction x as [a|n p k ih]; cbn; [now rewrite h|]. apply lsum_ext; intros i _. now rewrite ih. Qed.
Lemma prob_bind A B (x : rnd A) (f : A -> B) e : prob (bind x (fun a => Ret (f a))) e = prob x (fun a => e (f a)).
Proof. induction x as [a|n p k ih]; cbn; [reflexivity|]. apply lsum_ext; intros i _. now rewrite ih. Qed.
Lemma prob_false A (x : rnd A) : prob x (fun _ => false) = 0.
Proof. induction x as [a|n p k ih]; cbn; [reflexivity|]. apply lsum_zero; intros i _. rewrite ih; ring. Qed.

Lemma same_cons a l r : same_states (a :: l) r = match r with [] => false | c :: r' => (a =? c)%nat && same_states l r' end.
Proof.
  unfold same_states. destruct r as [|c r].
  - destruct (list_eq_dec Nat.eq_dec (a :: l) []); [discriminate|reflexivity].
  - destruct (list_eq_dec Nat.eq_dec (a :: l) (c :: r)) as [e|n].
    + injection e; intros -> ->. rewrite Nat.eqb_refl. cbn. destruct (list_eq_dec Nat.eq_dec r r); [reflexivity|contradiction].
    + destruct (Nat.eqb_spec a c) as [->|]; cbn; [|reflexivity].
      destruct (list_eq_dec Nat.eq_dec l r) as [->|]; [contradiction|reflexivity].
Qed.

Section Law.
Variable m : tables R.
Hypothesis no_hmp : hmp m = false.
Hypothesis no_self : forall i t, tr m i i t = 0.

Notation after n t j d l := (prob (loop m n t j d) (fun tr => same_states (states tr) l)).

Lemma loop_step n t j d l : (0 <= d)%Z ->
  after (S n) t j d l = match l with [] => 0 | c :: r => if (j =? c)%nat then after n (t + 1)%nat j (d - 1)%Z r else 0 end.
Proof.
  intros d0. cbn [loop]. replace (d <? 0)%Z with false by (symmetry; apply Z.ltb_ge; lia).
  rewrite prob_bind. destruct l as [|c r].
  - rewrite (prob_ext _ _ _ (fun _ => false)); [apply prob_false|]. intros a; cbn [states map fst]. apply same_cons.
  - destruct (Nat.eqb_spec j c) as [->|ne].
    + apply prob_ext; intros a. cbn [states map fst]. rewrite same_cons, Nat.eqb_refl. reflexivity.
    + rewrite (prob_ext _ _ _ (fun _ => false)); [apply prob_false|]. intros a; cbn [states map fst]. rewrite same_cons.
      destruct (Nat.eqb_spec j c); [contradiction|reflexivity].
Qed.

(** What is left of a sequence of states after a segment. *)
Fixpoint strip (j k : nat) (l : list nat) : option (list nat) :=
  match k with
  | O => Some l
  | S k' => match l with [] => None | c :: r => if (j =? c)%nat then strip j k' r else None end
  end.

Lemma loop_segment n : forall t j d l,
  after n t j (Z.of_nat d) l =
  match strip j (Nat.min n (S d)) l with
  | None => 0
  | Some r => after (n - S d)%nat (t + S d)%nat j (-1)%Z r
  end.
Proof.
  induction n as [|n ih]; intros t j d l.
  - cbn. reflexivity.
  - rewrite loop_step by lia. cbn [Nat.min strip]. destruct l as [|c r]; [reflexivity|].
    destruct (j =? c)%nat; [|reflexivity]. destruct d as [|d].
    + replace (Nat.min n 0) with 0%nat by lia. cbn [strip]. replace (S n - 1)%nat with n by lia. replace (Z.of_nat 0 - 1)%Z with (-1)%Z by lia. reflexivity.
    + replace (Z.of_nat (S d) - 1)%Z with (Z.of_nat d) by lia. rewrite ih. replace (S n - S (S d))%nat with (n - S d)%nat by lia.
      replace (t + 1 + S d)%nat with (t + S (S d))%nat by lia. reflexivity.
Qed.

Lemma loop_new n t j l : after (S n) t j (-1)%Z l =
  lsum (seq 0 (n_S m)) (fun s => T m j s t * lsum (seq 0 (D m - 1)) (fun i => ds m i (later m s) t * after (S n) t s (d_val i) l)).
Proof.
  cbn [loop]. replace (-1 <? 0)%Z with true by reflexivity. rewrite no_hmp. cbn [andb prob].
  apply lsum_ext; intros s _. f_equal. apply lsum_ext; intros i _. f_equal. unfold d_val.
  replace (Z.of_nat (i + 1) <? 0)%Z with false by (symmetry; apply Z.ltb_ge; lia). reflexivity.
Qed.

(** ** All divisions into segments, first segments first *)

Definition m' := ahead (longer m).

Fixpoint divisions (fuel n : nat) (from : option nat) : list (list segment) :=
  match fuel with
  | O => []
  | S f =>
      if (n =? 0)%nat then [[]]
      else flat_map (fun j => if match from with Some i => (i =? j)%nat | None => false end then [] else
             flat_map (fun d => map (cons (j, d)) (divisions f (n - S d) (Some j))) (seq 0 (D m))) (seq 0 (n_S m))
  end.

Definition prior_law n t from l (L : list (list segment)) : R :=
  lsum L (fun s => if same_states (firstn n (path s)) l then prior_from m' t from s else 0).

Lemma strip_spec j k l r : strip j k l = Some r <-> l = repeat j k ++ r.
Proof.
  revert l; induction k as [|k ih]; intros l; cbn.
  - split; [intros e; now injection e|intros ->; reflexivity].
  - destruct l as [|c l]; [split; discriminate|]. destruct (Nat.eqb_spec j c) as [->|ne].
    + rewrite ih. split; [intros ->; reflexivity|intros e; injection e; auto].
    + split; [discriminate|]. intros e; injection e; intros _ e1; congruence.
Qed.

Lemma same_true l r : same_states l r = true <-> l = r.
Proof. unfold same_states; destruct (list_eq_dec Nat.eq_dec l r); split; try discriminate; auto. Qed.

Lemma firstn_path n j d s : firstn n (path ((j, d) :: s)) = repeat j (Nat.min n (S d)) ++ firstn (n - S d) (path s).
Proof.
  unfold path. cbn [flat_map fst snd]. fold (path s). rewrite firstn_app, repeat_length. f_equal.
  generalize (S d) as k; intros k. revert k; induction n as [|n ih]; intros [|k]; try reflexivity. cbn. now rewrite ih.
Qed.

Lemma same_strip n j d s l :
  same_states (firstn n (path ((j, d) :: s))) l =
  match strip j (Nat.min n (S d)) l with Some r => same_states (firstn (n - S d) (path s)) r | None => false end.
Proof.
  rewrite firstn_path. destruct (strip j (Nat.min n (S d)) l) as [r|] eqn:e.
  - apply strip_spec in e; subst l. apply Bool.eq_iff_eq_true. rewrite !same_true. split.
    + intros h. now apply app_inv_head in h.
    + now intros ->.
  - apply Bool.not_true_iff_false. rewrite same_true. intros h. symmetry in h. apply strip_spec in h. congruence.
Qed.

Lemma lsum_shift n (f : nat -> R) : f O = 0 -> lsum (seq 0 (S n)) f = lsum (seq 0 n) (fun i => f (S i)).
Proof. intros h. rewrite <- cons_seq, lsum_cons, h, <- seq_shift, lsum_map. ring. Qed.

Lemma divisions_law fuel : forall n t i l, (n < fuel)%nat -> (0 < t)%nat ->
  prior_law n t (Some i) l (divisions fuel n (Some i)) = after n t i (-1)%Z l.
Proof.
  induction fuel as [|f ih]; intros n t i l hn ht; [lia|]. cbn [divisions]. destruct n as [|n].
  - cbn [Nat.eqb loop prob]. unfold prior_law. rewrite lsum_cons, lsum_nil. cbn [firstn prior_from states map]. destruct (same_states [] l); ring.
  - cbn [Nat.eqb]. rewrite loop_new. unfold prior_law. rewrite lsum_flat_map. apply lsum_ext; intros j _.
    destruct (Nat.eqb_spec i j) as [->|ne].
    + rewrite lsum_nil. unfold T. rewrite no_self. ring.
    + rewrite lsum_flat_map. destruct (D m) as [|D0] eqn:eD.
      * cbn [seq Nat.sub]. rewrite !lsum_nil. ring.
      * replace (S D0 - 1)%nat with D0 by lia. rewrite <- lsum_scal_l.
        assert (z : lsum (map (cons (j, 0%nat)) (divisions f (S n - 1) (Some j)))
                      (fun s => if same_states (firstn (S n) (path s)) l then prior_from m' t (Some i) s else 0) = 0).
        { rewrite lsum_map. apply lsum_zero; intros s _. destruct same_states; [|reflexivity]. cbn [prior_from enter fst snd].
          unfold duration, m'. cbn [dur ahead longer]. ring. }
        rewrite lsum_shift by exact z. apply lsum_ext; intros d _. rewrite lsum_map.
        unfold d_val. replace (d + 1)%nat with (S d) by lia. rewrite loop_segment.
        rewrite (lsum_ext _ _ _ (fun s => T m i j t * ds m d (later m j) t *
          match strip j (Nat.min (S n) (S (S d))) l with
          | Some r => if same_states (firstn (S n - S (S d)) (path s)) r then prior_from m' (t + S (S d)) (Some j) s else 0
          | None => 0 end)).
        -- rewrite lsum_scal_l. destruct (strip j (Nat.min (S n) (S (S d))) l) as [r|].
           ++ rewrite <- ih by lia. unfold prior_law. ring.
           ++ rewrite lsum_zero by auto. ring.
        -- intros s _. rewrite same_strip. destruct (strip j (Nat.min (S n) (S (S d))) l) as [r|]; [|ring].
           destruct same_states; [|ring]. cbn [prior_from enter fst snd].
           replace (transition m' i j (t - 1)) with (T m i j t).
           2:{ unfold transition, T, m'. cbn [tr ahead longer tvdtpi]. destruct (tvdtpi m); [|reflexivity]. f_equal. lia. }
           replace (duration m' (S d) (later_column m' j) t) with (ds m d (later m j) t) by reflexivity. ring.
Qed.

Lemma law_divisions l : (0 < n_T m)%nat ->
  prior_law (n_T m) 0 None l (divisions (S (n_T m)) (n_T m) None) = prob (simulate m) (fun tr => same_states (states tr) l).
Proof.
  intros hn. cbn [divisions]. destruct (n_T m) as [|n] eqn:en; [lia|]. cbn [Nat.eqb]. unfold simulate. rewrite en. cbn [prob].
  unfold prior_law. rewrite lsum_flat_map. apply lsum_ext; intros j _. rewrite lsum_flat_map.
  destruct (D m) as [|D0] eqn:eD.
  - cbn [seq Nat.sub]. rewrite !lsum_nil. ring.
  - replace (S D0 - 1)%nat with D0 by lia. rewrite <- lsum_scal_l.
    assert (z : lsum (map (cons (j, 0%nat)) (divisions (S n) (S n - 1) (Some j)))
                  (fun s => if same_states (firstn (S n) (path s)) l then prior_from m' 0 None s else 0) = 0).
    { rewrite lsum_map. apply lsum_zero; intros s _. destruct same_states; [|reflexivity]. cbn [prior_from enter fst snd].
      unfold duration, m'. cbn [dur ahead longer]. ring. }
    rewrite lsum_shift by exact z. apply lsum_ext; intros d _. rewrite lsum_map.
    unfold d_val. replace (d + 1)%nat with (S d) by lia. rewrite loop_segment.
    rewrite (lsum_ext _ _ _ (fun s => pi m j * ds m d j 0 *
      match strip j (Nat.min (S n) (S (S d))) l with
      | Some r => if same_states (firstn (S n - S (S d)) (path s)) r then prior_from m' (0 + S (S d)) (Some j) s else 0
      | None => 0 end)).
    + rewrite lsum_scal_l. destruct (strip j (Nat.min (S n) (S (S d))) l) as [r|].
      * rewrite <- (divisions_law (S n)) by lia. unfold prior_law. ring.
      * rewrite lsum_zero by auto. ring.
    + intros s _. rewrite same_strip. destruct (strip j (Nat.min (S n) (S (S d))) l) as [r|]; [|ring].
      destruct same_states; [|ring]. cbn [prior_from enter fst snd]. unfold duration, ds, m'. cbn [dur pi ahead longer tvdtpi]. ring.
Qed.

(** The list contains each division once. *)
Definition covers n from (s : list segment) : Prop :=
  Forall (fun g => (fst g < n_S m /\ snd g < D m)%nat) s /\ alternates s /\
  (match from, s with Some i, g :: _ => i <> fst g | _, _ => True end) /\
  (s = [] <-> n = O) /\ ((0 < n)%nat -> (span (removelast s) < n <= span s)%nat).

Lemma divisions_spec fuel : forall n from s, (n < fuel)%nat -> (In s (divisions fuel n from) <-> covers n from s).
Proof.
  induction fuel as [|f ih]; intros n from s hn; [lia|]. cbn [divisions]. destruct (Nat.eqb_spec n 0) as [->|nz].
  - split.
    + intros [<-|[]]. repeat split; cbn; auto; try lia. destruct from; exact I.
    + intros (_ & _ & _ & h & _). left. symmetry. now apply h.
  - rewrite in_flat_map. split.
    + intros (j & hj & h). apply in_seq in hj.
      destruct (match from with Some i => (i =? j)%nat | None => false end) eqn:ef; [destruct h|].
      apply in_flat_map in h. destruct h as (d & hd & h). apply in_seq in hd. apply in_map_iff in h. destruct h as (r & <- & h).
      apply ih in h; [|lia]. destruct h as (fa & al & fr & em & sp). repeat split.
      * constructor; [cbn; lia|exact fa].
      * destruct r as [|g r]; [exact I|]. split; [cbn; exact fr|exact al].
      * destruct from as [i|]; [|exact I]. cbn. now apply Nat.eqb_neq.
      * discriminate.
      * intros ->; lia.
      * destruct r as [|g r]; [cbn; lia|]. assert (n - S d <> 0)%nat by (intros e; apply em in e; discriminate).
        cbn [removelast]. change (removelast (g :: r)) with (removelast (g :: r)). rewrite span_cons. cbn [snd]. cbn [removelast] in sp. lia.
      * rewrite span_cons. cbn [snd]. destruct (Nat.eq_dec (n - S d) 0); [lia|]. lia.
    + intros (fa & al & fr & em & sp). destruct s as [|[j d] r]; [exfalso; apply nz; now apply em|].
      inversion fa as [|? ? [hj hd] fa']; subst; cbn [fst snd] in *. exists j. split; [apply in_seq; lia|].
      replace (match from with Some i => (i =? j)%nat | None => false end) with false
        by (destruct from; [symmetry; now apply Nat.eqb_neq|reflexivity]).
      apply in_flat_map. exists d. split; [apply in_seq; lia|]. apply in_map. apply ih; [lia|].
      specialize (sp ltac:(lia)). rewrite span_cons in sp. cbn [snd] in sp.
      assert (ne : r <> [] -> (S d < n)%nat).
      { intros nr. destruct r as [|g r]; [contradiction|]. cbn [removelast] in sp. rewrite span_cons in sp. cbn [snd] in sp. lia. }
      repeat split.
      * exact fa'.
      * destruct r as [|g r]; [exact I|]. apply al.
      * destruct r as [|g r]; [exact I|]. apply al.
      * intros ->. cbn in sp. lia.
      * intros e. destruct r as [|g r]; [reflexivity|]. specialize (ne ltac:(discriminate)). lia.
      * destruct r as [|g r]; [cbn; lia|]. cbn [removelast] in sp |- *. rewrite span_cons in sp. cbn [snd] in sp. lia.
      * lia.
Qed.

Lemma divisions_NoDup fuel : forall n from, NoDup (divisions fuel n from).
Proof.
  induction fuel as [|f ih]; intros n from; [constructor|]. cbn [divisions]. destruct (n =? 0)%nat; [repeat constructor; intros []|].
  apply NoDup_flat_map; [apply seq_NoDup| |].
  - intros j _. destruct (match from with Some i => (i =? j)%nat | None => false end); [constructor|].
    apply NoDup_flat_map; [apply seq_NoDup| |].
    + intros d _. apply NoDup_map; [apply ih|]. intros a a' _ _ e. now injection e.
    + intros d d' x _ _ h h'. apply in_map_iff in h. apply in_map_iff in h'. destruct h as (r & <- & _). destruct h' as (r' & e & _).
      injection e; intros _ e'. congruence.
  - intros j j' x _ _ h h'.
    destruct (match from with Some i => (i =? j)%nat | None => false end); [destruct h|].
    destruct (match from with Some i => (i =? j')%nat | None => false end); [destruct h'|].
    apply in_flat_map in h. apply in_flat_map in h'. destruct h as (d & _ & h). destruct h' as (d' & _ & h').
    apply in_map_iff in h. apply in_map_iff in h'. destruct h as (r & <- & _). destruct h' as (r' & e & _).
    injection e; intros. congruence.
Qed.
End Law.
