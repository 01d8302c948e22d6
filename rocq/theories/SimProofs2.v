(** Bumps of simulated series; samples. *)

From Coq Require Import List Bool Arith ZArith Reals Lia Lra.
From Verif Require Import HsmmModel HsmmSpec HsmmProofs2 SimModel SimSpec SimProofs.
Import ListNotations.
Local Open Scope nat_scope.

Lemma always_bind A B (x : rnd A) (f : A -> B) P : always x (fun a => P (f a)) -> always (bind x (fun a => Ret (f a))) P.
Proof. induction x as [a|n p k ih]; cbn; auto. Qed.
Lemma always_impl A (x : rnd A) (P Q : A -> Prop) : (forall a, P a -> Q a) -> always x P -> always x Q.
Proof. intros h; induction x as [a|n p k ih]; cbn; auto. Qed.

Section Bumps.
Variable m : tables R.
Hypothesis is_hmp : hmp m = true.
Hypothesis fixed : fixed_bumps 0%R m.
Hypothesis last_flat : Nat.odd (n_S m - 1) = false.
Let ew := event_width m.

Definition entry_ok (x : nat * Z) : Prop := (0 <= snd x)%Z /\ (Nat.odd (fst x) = true -> snd x <= Z.of_nat ew)%Z.
Definition link (x y : nat * Z) : Prop :=
  if (0 <? snd x)%Z then y = (fst x, snd x - 1)%Z else Nat.odd (fst y) = true -> snd y = Z.of_nat ew.
Fixpoint chain (tr : list (nat * Z)) : Prop :=
  match tr with
  | [] => True
  | x :: r => entry_ok x /\ match r with y :: _ => link x y | [] => True end /\ chain r
  end.
Definition starts_ok (s : nat) (dur : Z) (tr : list (nat * Z)) : Prop :=
  match tr with
  | [] => True
  | y :: _ => if (dur <? 0)%Z then Nat.odd (fst y) = true -> snd y = Z.of_nat ew else y = (s, dur)
  end.

Lemma loop_chain n : forall t s dur, s < n_S m -> (-1 <= dur)%Z -> (Nat.odd s = true -> dur <= Z.of_nat ew)%Z ->
  always (loop m n t s dur) (fun tr => length tr = n /\ chain tr /\ starts_ok s dur tr).
Proof.
  induction n as [|n ih]; intros t s dur hs hd ho; [cbn; auto|].
  assert (go : forall s' d, s' < n_S m -> (0 <= d)%Z -> (Nat.odd s' = true -> d <= Z.of_nat ew)%Z -> starts_ok s dur [(s', d)] ->
    always (bind (loop m n (t + 1) s' (d - 1)%Z) (fun r => Ret ((s', d) :: r))) (fun tr => length tr = S n /\ chain tr /\ starts_ok s dur tr)).
  { intros s' d hs' hd' ho' st. apply always_bind. eapply always_impl; [|apply (ih (t + 1) s' (d - 1)%Z); [exact hs'|lia|intros o; specialize (ho' o); lia]].
    intros r (hl & hc & hst). split; [cbn; now rewrite hl|]. split; [|exact st]. cbn [chain]. split; [split; cbn; auto|]. split; [|exact hc].
    destruct r as [|y r]; [exact I|]. unfold link; cbn [fst snd]. unfold starts_ok in hst.
    destruct (Z.ltb_spec 0 d) as [p|p], (Z.ltb_spec (d - 1) 0) as [q|q]; try lia; exact hst. }
  cbn [loop]. destruct (Z.ltb_spec dur 0) as [neg|pos].
  - rewrite is_hmp. cbn [andb]. destruct (Nat.eqb_spec s (n_S m - 1)) as [e|ne].
    + apply go; [exact hs|lia|intros o; rewrite e, last_flat in o; discriminate|].
      unfold starts_ok. replace (dur <? 0)%Z with true by (symmetry; apply Z.ltb_lt; lia). cbn [fst snd]. intros o. rewrite e, last_flat in o. discriminate.
    + cbn [always]. intros s' hs' _ i hi hp.
      assert (o : Nat.odd s' = true -> d_val i = Z.of_nat ew).
      { intros o. destruct (fixed is_hmp) as [e1 fx]. destruct (Nat.eq_dec i (event_width m - 1)) as [->|n1]; [unfold d_val, ew; lia|].
        exfalso. apply hp. destruct (fx i s' t hs' o n1) as [_ z]. exact z. }
      apply go; [exact hs'|unfold d_val; lia|intros h; rewrite (o h); lia|].
      unfold starts_ok. replace (dur <? 0)%Z with true by (symmetry; apply Z.ltb_lt; lia). cbn [fst snd]. exact o.
  - apply go; [exact hs|exact pos|exact ho|]. unfold starts_ok. now replace (dur <? 0)%Z with false by (symmetry; apply Z.ltb_ge; lia).
Qed.

Lemma simulate_chain : always (simulate m) (fun tr => length tr = n_T m /\ chain tr /\ starts_ok 0 (-1) tr).
Proof.
  cbn [always simulate]. intros s hs _ i hi hp.
  assert (o : Nat.odd s = true -> d_val i = Z.of_nat ew).
  { intros o. destruct (fixed is_hmp) as [e1 fx]. destruct (Nat.eq_dec i (event_width m - 1)) as [->|n1]; [unfold d_val, ew; lia|].
    exfalso. apply hp. destruct (fx i s 0 hs o n1) as [z _]. exact z. }
  eapply always_impl; [|apply loop_chain; [exact hs|unfold d_val; lia|intros h; rewrite (o h); lia]].
  intros tr (hl & hc & hst). split; [exact hl|]. split; [exact hc|]. unfold starts_ok in *. destruct tr as [|y r]; [exact I|].
  change (-1 <? 0)%Z with true. replace (d_val i <? 0)%Z with false in hst by (symmetry; apply Z.ltb_ge; unfold d_val; lia).
  subst y. exact o.
Qed.

Lemma chain_nth tr : chain tr -> forall t x, nth_error tr t = Some x ->
  entry_ok x /\ forall y, nth_error tr (S t) = Some y -> link x y.
Proof.
  induction tr as [|x r ih]; intros hc t z hz; [destruct t; discriminate|]. cbn [chain] in hc. destruct hc as (ok & lk & hc).
  destruct t as [|t].
  - injection hz; intros <-. split; [exact ok|]. intros y hy. cbn in hy. destruct r as [|y' r]; [discriminate|]. injection hy; intros <-. exact lk.
  - exact (ih hc t z hz).
Qed.

Lemma chain_down tr : chain tr -> forall k t s d, nth_error tr t = Some (s, d) -> (Z.of_nat k <= d)%Z -> t + k < length tr ->
  nth_error tr (t + k) = Some (s, d - Z.of_nat k)%Z.
Proof.
  intros hc; induction k as [|k ih]; intros t s d h hk hl.
  - rewrite Nat.add_0_r, h. repeat f_equal. lia.
  - specialize (ih t s d h ltac:(lia) ltac:(lia)). destruct (nth_error tr (t + S k)) as [y|] eqn:e.
    + destruct (chain_nth tr hc _ _ ih) as [_ lk]. replace (t + S k) with (S (t + k)) in e by lia. specialize (lk y e).
      unfold link in lk. cbn [fst snd] in lk. replace (0 <? d - Z.of_nat k)%Z with true in lk by (symmetry; apply Z.ltb_lt; lia).
      subst y. do 2 f_equal. lia.
    + apply nth_error_None in e. lia.
Qed.

Lemma chain_begins tr t s : chain tr -> starts_ok 0 (-1) tr -> begins (states tr) t s -> Nat.odd s = true ->
  nth_error tr t = Some (s, Z.of_nat ew).
Proof.
  intros hc hst [h0 h1] o. unfold states in h0. rewrite nth_error_map in h0. destruct (nth_error tr t) as [[s' d]|] eqn:e; [|discriminate].
  cbn in h0. injection h0; intros ->. do 2 f_equal. destruct t as [|t].
  - destruct tr as [|y r]; [discriminate|]. cbn in e. injection e; intros ->. cbn in hst. now apply hst.
  - specialize (h1 t eq_refl). unfold states in h1. rewrite nth_error_map in h1. destruct (nth_error tr t) as [[s' d']|] eqn:e'.
    + destruct (chain_nth tr hc _ _ e') as [_ lk]. specialize (lk _ e). unfold link in lk. cbn [fst snd] in lk.
      destruct (0 <? d')%Z; [|now apply lk]. injection lk; intros _ ->. cbn in h1. congruence.
    + apply nth_error_None in e'. assert (S t < length tr) by (apply nth_error_Some; congruence). lia.
Qed.

Lemma nth_combine (tr : list (nat * Z)) t x : nth_error tr t = Some x -> nth_error (combine (seq 0 (length tr)) tr) t = Some (t, x).
Proof.
  assert (go : forall (r : list (nat * Z)) u a, nth_error r u = Some x -> nth_error (combine (seq a (length r)) r) u = Some (a + u, x)).
  { induction r as [|y r ih]; intros [|u] a h; try discriminate.
    - cbn in h. injection h; intros ->. cbn. now rewrite Nat.add_0_r.
    - cbn. rewrite (ih u (S a) h). now rewrite Nat.add_succ_r. }
  intros h. exact (go tr t 0 h).
Qed.
End Bumps.

Lemma prob_pair A (x : rnd A) (y : rnd (list A)) e es :
  prob (bind x (fun s => bind y (fun r => Ret (s :: r)))) (all_of (e :: es)) = (prob x e * prob y (all_of es))%R.
Proof.
  induction x as [a|n p k ih].
  - cbn [bind]. rewrite prob_bind. cbn [prob]. rewrite (prob_ext _ _ _ (fun r => e a && all_of es r)).
    + destruct (e a); [rewrite (prob_ext _ _ _ (all_of es)) by reflexivity; ring|]. rewrite (prob_ext _ _ _ (fun _ => false)) by reflexivity.
      rewrite prob_false. ring.
    + intros r. unfold all_of. cbn [length Nat.eqb combine forallb]. destruct (length es =? length r), (e a); reflexivity.
  - cbn [bind prob]. rewrite <- lsum_scal_r. apply lsum_ext; intros i _. rewrite ih. ring.
Qed.
