(** Enumeration of segmentations and their weights. *)

From Coq Require Import List Bool Arith Lia Permutation.
From Verif Require Import HsmmModel HsmmSpec.
Import ListNotations.
Local Open Scope nat_scope.

(** The tables as the specification reads them and as the model reads them. *)
Ltac to_model := change (@duration) with (@ds) in *; change (@transition) with (@T) in *; change (@later_column) with (@later) in *.

Lemma span_cons g s : span (g :: s) = S (snd g) + span s.
Proof. reflexivity. Qed.
Lemma span_app s r : span (s ++ r) = span s + span r.
Proof. induction s as [|g s IH]; [reflexivity|]. cbn [app]. rewrite !span_cons, IH. lia. Qed.
Lemma span_rev s : span (rev s) = span s.
Proof. induction s as [|g s IH]; [reflexivity|]. cbn [rev]. rewrite span_app, IH, !span_cons. cbn. lia. Qed.

Lemma alternates_snoc s g h : alternates (s ++ [g]) -> fst g <> fst h -> alternates (s ++ [g; h]).
Proof.
  induction s as [|a s IH]; cbn [app]; intros H N; [split; [exact N|exact I]|].
  destruct s as [|c s]; cbn [app] in *; [destruct H; split; auto; split; auto; exact I|].
  destruct H as [H1 H2]. split; [exact H1|]. apply IH; assumption.
Qed.
Lemma alternates_rev s : alternates s -> alternates (rev s).
Proof.
  induction s as [|g s IH]; intros H; [exact I|]. cbn [rev].
  destruct s as [|h s]; [exact I|]. destruct H as [H1 H2]. cbn [rev] in *. rewrite <- app_assoc. cbn [app].
  apply alternates_snoc; [apply IH; exact H2|congruence].
Qed.

Section Enum.
Variable K : Type.
Variable m : tables K.

(** Reversed segmentations of the times 0..t whose last segment has state j and d time points left at t. *)
Fixpoint enum (t d j : nat) : list (list segment) :=
  match t with
  | 0 => [[(j, d)]]
  | S t' => (if d + 1 <=? D m - 2 then enum t' (d + 1) j else [])
            ++ flat_map (fun i => if i =? j then [] else map (cons (j, d)) (enum t' 0 i)) (seq 0 (n_S m))
  end.

Definition prefix (t d j : nat) (s : list segment) : Prop :=
  exists e r, s = (j, e) :: r /\ Forall (fun g => fst g < n_S m /\ snd g < D m - 1) s /\ alternates s /\
              span s = t + 1 + d /\ span r <= t.

Lemma enum_spec t : forall d j s, d < D m - 1 -> j < n_S m -> (In s (enum t d j) <-> prefix t d j s).
Proof.
  induction t as [|t IH]; intros d j s Hd Hj.
  - cbn [enum In]. split.
    + intros [<-|[]]. exists d, []. split; [reflexivity|]. split; [repeat constructor; assumption|].
      split; [exact I|]. split; [cbn; lia|cbn; lia].
    + intros (e & r & -> & F & A & E & B). left. destruct r as [|g r]; [|rewrite span_cons in B; lia].
      rewrite span_cons in E. cbn in E. do 2 f_equal. lia.
  - cbn [enum]. rewrite in_app_iff, in_flat_map. split.
    + intros [H|(i & Hi & H)].
      * destruct (Nat.leb_spec (d + 1) (D m - 2)); [|destruct H].
        apply IH in H; [|lia|assumption]. destruct H as (e & r & -> & F & A & E & B). exists e, r.
        split; [reflexivity|]. split; [exact F|]. split; [exact A|]. lia.
      * apply in_seq in Hi. destruct (Nat.eqb_spec i j) as [|N]; [destruct H|]. apply in_map_iff in H.
        destruct H as (r & <- & H). apply IH in H; [|lia|lia]. destruct H as (e & r' & -> & F & A & E & B).
        exists d, ((i, e) :: r'). split; [reflexivity|]. split; [constructor; auto|].
        split; [split; [cbn; congruence|exact A]|]. rewrite span_cons. cbn [snd]. lia.
    + intros (e & r & -> & F & A & E & B). rewrite span_cons in E. cbn [snd] in E.
      destruct (Nat.eq_dec (span r) (S t)) as [Hs|Hs].
      * right. destruct r as [|[i e'] r]; [cbn in Hs; lia|]. exists i.
        inversion F as [|? ? H1 F']; subst. inversion F' as [|? ? H2 F'']; subst. cbn in H1, H2.
        destruct A as [A1 A2]. cbn in A1. split; [apply in_seq; lia|].
        destruct (Nat.eqb_spec i j); [congruence|]. apply in_map_iff. exists ((i, e') :: r).
        split; [do 2 f_equal; lia|]. apply IH; [lia|lia|]. exists e', r.
        split; [reflexivity|]. split; [exact F'|]. split; [exact A2|]. split; [lia|].
        rewrite span_cons in Hs. cbn [snd] in Hs. lia.
      * left. inversion F as [|? ? H1 F']; subst. cbn in H1.
        destruct (Nat.leb_spec (d + 1) (D m - 2)); [|lia]. apply IH; [lia|assumption|]. exists e, r.
        split; [reflexivity|]. split; [exact F|]. split; [exact A|]. rewrite span_cons. cbn [snd]. lia.
Qed.

Lemma NoDup_app (A : Type) (l r : list A) : NoDup l -> NoDup r -> (forall x, In x l -> In x r -> False) -> NoDup (l ++ r).
Proof.
  induction l as [|a l IH]; intros Hl Hr H; [exact Hr|]. inversion Hl; subst. cbn. constructor.
  - rewrite in_app_iff. intros [X|X]; [contradiction|]. apply (H a); [left; reflexivity|exact X].
  - apply IH; auto. intros x X Y. apply (H x); [right; exact X|exact Y].
Qed.
Lemma NoDup_flat_map (A B : Type) (f : A -> list B) l : NoDup l -> (forall a, In a l -> NoDup (f a)) ->
  (forall a a' x, In a l -> In a' l -> In x (f a) -> In x (f a') -> a = a') -> NoDup (flat_map f l).
Proof.
  induction l as [|a l IH]; intros Hl Hf Hx; [constructor|]. inversion Hl; subst. cbn. apply NoDup_app.
  - apply Hf. left. reflexivity.
  - apply IH; auto; [intros; apply Hf; right; assumption|]. intros a1 a2 x H5 H6. apply Hx; right; assumption.
  - intros x X Y. apply in_flat_map in Y. destruct Y as (a' & Ha' & Y).
    assert (a = a') by (apply (Hx a a' x); [left; reflexivity|right; exact Ha'|exact X|exact Y]). subst. contradiction.
Qed.
Lemma NoDup_map (A B : Type) (f : A -> B) l : NoDup l -> (forall a a', In a l -> In a' l -> f a = f a' -> a = a') -> NoDup (map f l).
Proof.
  induction l as [|a l IH]; intros Hl Hf; [constructor|]. inversion Hl; subst. cbn. constructor.
  - intros H. apply in_map_iff in H. destruct H as (a' & E & H). apply Hf in E; [subst; contradiction|right; exact H|left; reflexivity].
  - apply IH; auto. intros a1 a2 H3 H4. apply Hf; right; assumption.
Qed.

Lemma enum_NoDup t : forall d j, d < D m - 1 -> j < n_S m -> NoDup (enum t d j).
Proof.
  induction t as [|t IH]; intros d j Hd Hj; [repeat constructor; auto|].
  cbn [enum]. apply NoDup_app.
  - destruct (Nat.leb_spec (d + 1) (D m - 2)); [apply IH; lia|constructor].
  - apply NoDup_flat_map; [apply seq_NoDup| |].
    + intros i Hi. apply in_seq in Hi. destruct (i =? j); [constructor|]. apply NoDup_map; [apply IH; lia|].
      intros a a' _ _ E. congruence.
    + intros i i' x Hi Hi' X X'. apply in_seq in Hi, Hi'. destruct (i =? j); [destruct X|]. destruct (i' =? j); [destruct X'|].
      apply in_map_iff in X, X'. destruct X as (r & <- & X), X' as (r' & E & X'). injection E as ->.
      apply enum_spec in X; [|lia|lia]. apply enum_spec in X'; [|lia|lia].
      destruct X as (e & r1 & -> & _), X' as (e' & r2 & E & _). congruence.
  - intros x X Y. apply in_flat_map in Y. destruct Y as (i & Hi & Y). apply in_seq in Hi.
    destruct (i =? j); [destruct Y|]. apply in_map_iff in Y. destruct Y as (r & <- & Y).
    destruct (Nat.leb_spec (d + 1) (D m - 2)); [|destruct X].
    apply enum_spec in X; [|lia|lia]. apply enum_spec in Y; [|lia|lia].
    destruct X as (e & r1 & E & _ & _ & _ & B). injection E as _ ->.
    destruct Y as (e' & r' & _ & _ & _ & E' & _). lia.
Qed.

(** All segmentations, by the excess duration and state of the last segment. *)
Definition all : list (list segment) :=
  flat_map (fun d => flat_map (fun j =>
    if counts m (n_T m - 1) d j then map (@rev segment) (enum (n_T m - 1) d j) else []) (seq 0 (n_S m))) (seq 0 (D m - 1)).

Lemma removelast_rev (s : list segment) g r : s = rev (g :: r) -> removelast s = rev r /\ last s (0, 0) = g.
Proof. intros ->. cbn [rev]. rewrite removelast_last, last_last. auto. Qed.

Lemma counts_last d j : 0 < n_T m -> j < n_S m ->
  (counts m (n_T m - 1) d j = true <->
   (ends_with_last m = true -> d = 0) /\ (ends_in_last m = true -> j = n_S m - 1)).
Proof.
  intros Hn Hj. unfold counts. rewrite Nat.ltb_irrefl. cbn [orb].
  destruct (ends_with_last m), (ends_in_last m); cbn [negb].
  - destruct (Nat.eqb_spec d 0); [|split; [discriminate|intros [H _]; specialize (H eq_refl); lia]].
    rewrite Nat.eqb_eq. intuition.
  - destruct (Nat.eqb_spec d 0); [|split; [discriminate|intros [H _]; specialize (H eq_refl); lia]].
    intuition discriminate.
  - rewrite Nat.eqb_eq. intuition discriminate.
  - intuition discriminate.
Qed.

Lemma all_spec s : 0 < n_T m -> (In s all <-> segmentation m s).
Proof.
  intros Hn. unfold all. rewrite in_flat_map. split.
  - intros (d & Hd & H). apply in_flat_map in H. destruct H as (j & Hj & H). apply in_seq in Hd, Hj.
    destruct (counts m (n_T m - 1) d j) eqn:C; [|destruct H]. apply counts_last in C; [|lia|lia]. destruct C as [C1 C2].
    apply in_map_iff in H. destruct H as (r & <- & H). apply enum_spec in H; [|lia|lia].
    destruct H as (e & r' & -> & F & A & E & B).
    destruct (removelast_rev _ _ _ eq_refl : removelast (rev ((j, e) :: r')) = _ /\ _) as [R1 R2].
    split; [intros H; apply (f_equal (@rev segment)) in H; rewrite rev_involutive in H; discriminate|].
    split; [apply Forall_rev; exact F|]. split; [apply alternates_rev; exact A|].
    rewrite R1, R2, !span_rev. split; [lia|]. split; [intros H; specialize (C1 H); lia|]. exact C2.
  - intros (Hne & F & A & [B1 B2] & C1 & C2). 
    destruct (rev s) as [|[j e] r] eqn:ER; [apply (f_equal (@rev segment)) in ER; rewrite rev_involutive in ER; cbn in ER; congruence|].
    assert (Es : s = rev ((j, e) :: r)) by (rewrite <- ER, rev_involutive; reflexivity).
    destruct (removelast_rev _ _ _ Es) as [R1 R2]. rewrite R1, span_rev in B1. rewrite R2 in C2. cbn [fst] in C2.
    rewrite Es, span_rev in B2. 
    assert (F' : Forall (fun g => fst g < n_S m /\ snd g < D m - 1) ((j, e) :: r)) by (rewrite <- ER; apply Forall_rev; exact F).
    inversion F' as [|? ? [Hj He] _]; subst. cbn [fst snd] in Hj, He.
    rewrite span_rev in C1. rewrite span_cons in *. cbn [snd] in *.
    exists (S e + span r - n_T m). split; [apply in_seq; lia|]. apply in_flat_map. exists j. split; [apply in_seq; lia|].
    assert (C : counts m (n_T m - 1) (S e + span r - n_T m) j = true).
    { apply counts_last; [lia|lia|]. split; [intros H; specialize (C1 H); lia|exact C2]. }
    rewrite C. apply in_map_iff. exists ((j, e) :: r). split; [reflexivity|]. apply enum_spec; [lia|lia|].
    exists e, r. split; [reflexivity|]. split; [exact F'|].
    split; [rewrite <- ER; apply alternates_rev; exact A|]. rewrite span_cons. cbn [snd]. lia.
Qed.

Lemma all_NoDup : 0 < n_T m -> NoDup all.
Proof.
  intros Hn. unfold all. apply NoDup_flat_map; [apply seq_NoDup| |].
  - intros d Hd. apply in_seq in Hd. apply NoDup_flat_map; [apply seq_NoDup| |].
    + intros j Hj. apply in_seq in Hj. destruct (counts m (n_T m - 1) d j); [|constructor].
      apply NoDup_map; [apply enum_NoDup; lia|]. intros a a' _ _ E. rewrite <- (rev_involutive a), E. apply rev_involutive.
    + intros j j' x Hj Hj' X X'. apply in_seq in Hj, Hj'.
      destruct (counts m (n_T m - 1) d j); [|destruct X]. destruct (counts m (n_T m - 1) d j'); [|destruct X'].
      apply in_map_iff in X, X'. destruct X as (r & <- & X), X' as (r' & E & X').
      assert (r' = r) by (rewrite <- (rev_involutive r'), E; apply rev_involutive). subst.
      apply enum_spec in X; [|lia|lia]. apply enum_spec in X'; [|lia|lia].
      destruct X as (? & ? & -> & _), X' as (? & ? & E' & _). congruence.
  - intros d d' x Hd Hd' X X'. apply in_seq in Hd, Hd'. apply in_flat_map in X, X'.
    destruct X as (j & Hj & X), X' as (j' & Hj' & X'). apply in_seq in Hj, Hj'.
    destruct (counts m (n_T m - 1) d j); [|destruct X]. destruct (counts m (n_T m - 1) d' j'); [|destruct X'].
    apply in_map_iff in X, X'. destruct X as (r & <- & X), X' as (r' & E & X').
    assert (r' = r) by (rewrite <- (rev_involutive r'), E; apply rev_involutive). subst.
    apply enum_spec in X; [|lia|lia]. apply enum_spec in X'; [|lia|lia].
    destruct X as (? & ? & -> & _ & _ & E1 & _), X' as (? & ? & E' & _ & _ & E2 & _). lia.
Qed.

(** *** Weights of reversed segmentations *)
Variable one : K.
Variable mul : K -> K -> K.
Hypothesis mul_assoc : forall x y z, mul x (mul y z) = mul (mul x y) z.
Hypothesis one_l : forall x, mul one x = x.
Hypothesis one_r : forall x, mul x one = x.

Definition from_of (r : list segment) : option nat := match r with [] => None | g :: _ => Some (fst g) end.
Definition initial (r : list segment) : bool := match r with [] => true | _ => false end.
Fixpoint wr (n : nat) (s : list segment) : K :=
  match s with
  | [] => one
  | g :: r => mul (wr n r) (mul (enter K mul m (span r) (from_of r) g) (observations K one mul m n (initial r) (span r) g))
  end.

Lemma weight_snoc n s g : forall t from,
  weight_from K one mul m n t from (s ++ [g])
  = mul (weight_from K one mul m n t from s)
        (mul (enter K mul m (t + span s) (match rev s with [] => from | h :: _ => Some (fst h) end) g)
             (observations K one mul m n (match s with [] => match from with None => true | _ => false end | _ => false end) (t + span s) g)).
Proof.
  induction s as [|h s IH]; intros t from.
  - cbn [app weight_from rev]. change (span []) with 0. rewrite Nat.add_0_r, one_r, one_l. reflexivity.
  - cbn [app weight_from]. rewrite IH. rewrite span_cons.
    replace (t + S (snd h) + span s) with (t + (S (snd h) + span s)) by lia.
    assert (E : match rev (h :: s) with [] => from | k :: _ => Some (fst k) end
                = match rev s with [] => Some (fst h) | k :: _ => Some (fst k) end).
    { cbn [rev]. destruct (rev s); reflexivity. }
    rewrite E. rewrite mul_assoc. do 2 f_equal. destruct s; reflexivity.
Qed.

Lemma weight_rev n s : weight_from K one mul m n 0 None (rev s) = wr n s.
Proof.
  induction s as [|g s IH]; [reflexivity|]. cbn [rev wr]. rewrite weight_snoc, IH, span_rev, rev_involutive. cbn [Nat.add].
  f_equal. f_equal. destruct s as [|h s]; [reflexivity|]. cbn [rev]. destruct (rev s); reflexivity.
Qed.

Lemma filter_lt u n e : u <= n -> n - u <= S e -> filter (fun k => u + k <? n) (seq 0 (S e)) = seq 0 (n - u).
Proof.
  intros Hu He. replace (S e) with ((n - u) + (S e - (n - u))) by lia. rewrite seq_app, filter_app.
  assert (A : forall l, (forall k, In k l -> u + k < n) -> filter (fun k => u + k <? n) l = l).
  { induction l as [|k l IH]; intros H; [reflexivity|]. cbn [filter]. destruct (Nat.ltb_spec (u + k) n).
    - f_equal. apply IH. intros; apply H; right; assumption.
    - exfalso. specialize (H k (or_introl eq_refl)). lia. }
  assert (B : forall l, (forall k, In k l -> n <= u + k) -> filter (fun k => u + k <? n) l = []).
  { induction l as [|k l IH]; intros H; [reflexivity|]. cbn [filter]. destruct (Nat.ltb_spec (u + k) n).
    - exfalso. specialize (H k (or_introl eq_refl)). lia.
    - apply IH. intros; apply H; right; assumption. }
  rewrite A, B, app_nil_r; [reflexivity| |]; intros k Hk; apply in_seq in Hk; lia.
Qed.
Lemma filter_all_lt u n n' e : u + S e <= n -> u + S e <= n' ->
  filter (fun k => u + k <? n) (seq 0 (S e)) = filter (fun k => u + k <? n') (seq 0 (S e)).
Proof.
  intros H H'. apply filter_ext_in. intros k Hk. apply in_seq in Hk.
  destruct (Nat.ltb_spec (u + k) n), (Nat.ltb_spec (u + k) n'); lia || reflexivity.
Qed.

Lemma wr_horizon n n' s : span s <= n -> span s <= n' -> wr n s = wr n' s.
Proof.
  induction s as [|g s IH]; intros H H'; [reflexivity|]. rewrite span_cons in *. cbn [wr].
  rewrite IH by lia. unfold observations. rewrite (filter_all_lt _ n n') by lia. reflexivity.
Qed.

Lemma fold_snoc l x : fold_right mul one (l ++ [x]) = mul (fold_right mul one l) x.
Proof. induction l as [|a l IH]; cbn; [rewrite one_l, one_r; reflexivity|]. rewrite IH, mul_assoc. reflexivity. Qed.

(** One more time point within the last segment. *)
Lemma wr_step n j e r : span r <= n -> n - span r <= e ->
  wr (S n) ((j, e) :: r) = mul (wr n ((j, e) :: r)) (observation K m (initial r) (span r) (n - span r) j).
Proof.
  intros H1 H2. cbn [wr]. rewrite (wr_horizon (S n) n r) by lia. rewrite <- !mul_assoc. do 2 f_equal.
  unfold observations. cbn [fst snd]. rewrite !filter_lt by lia.
  replace (S n - span r) with (S (n - span r)) by lia. rewrite seq_S, map_app; cbn [map]; rewrite fold_snoc. reflexivity.
Qed.
(** The first time point of a segment. *)
Lemma wr_enter n j e r : span r = n ->
  wr (S n) ((j, e) :: r) = mul (wr n r) (mul (enter K mul m n (from_of r) (j, e)) (observation K m (initial r) n 0 j)).
Proof.
  intros <-. cbn [wr]. rewrite (wr_horizon (S (span r)) (span r) r) by lia. do 2 f_equal.
  unfold observations. cbn [fst snd]. rewrite filter_lt by lia. replace (S (span r) - span r) with 1 by lia. cbn. apply one_r.
Qed.
End Enum.
