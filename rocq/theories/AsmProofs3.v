(** Lemmas for splitting and dropping coefficients. *)

From Coq Require Import Reals List Lra Lia Arith Bool.
From Verif Require Import AsmModel AsmSpec.
Import ListNotations.

Notation lsum := (fold_right Nat.add 0).

Lemma lsum_app a b : lsum (a ++ b) = lsum a + lsum b.
Proof. induction a as [|x a IH]; [reflexivity|]. cbn. lia. Qed.

(** ** Split positions *)
Fixpoint csum (prev : nat) (l : list nat) : list nat := match l with [] => [] | y :: r => (y + prev) :: csum (y + prev) r end.

Lemma last_indep {A} : forall (l : list A) c d d', last (c :: l) d = last (c :: l) d'.
Proof. induction l as [|x l IH]; intros c d d'; [reflexivity|]. exact (IH x d d'). Qed.
Lemma csum_snoc : forall l y p, csum p (l ++ [y]) = csum p l ++ [y + last (csum p l) p].
Proof.
  induction l as [|x l IH]; intros y p; [reflexivity|]. cbn [app csum]. rewrite IH. cbn [app]. do 3 f_equal.
  destruct l as [|z l]; [reflexivity|]. f_equal. exact (last_indep _ _ _ _).
Qed.

Lemma set_nth_app {A} (pre : list A) x y rest : set_nth (length pre) y (pre ++ x :: rest) = pre ++ y :: rest.
Proof. induction pre as [|p pre IH]; [reflexivity|]. cbn. now rewrite IH. Qed.

Lemma cumulate : forall rest pre x,
  fold_left (fun l i => set_nth i (nth i l 0 + nth (i - 1) l 0) l) (seq (length pre + 1) (length rest)) (pre ++ x :: rest) =
  pre ++ x :: csum x rest.
Proof.
  induction rest as [|y rest IH]; intros pre x; [reflexivity|]. cbn [length seq fold_left csum].
  replace (nth (length pre + 1) (pre ++ x :: y :: rest) 0) with y
    by (rewrite app_nth2 by lia; replace (length pre + 1 - length pre) with 1 by lia; reflexivity).
  replace (nth (length pre + 1 - 1) (pre ++ x :: y :: rest) 0) with x
    by (rewrite app_nth2 by lia; replace (length pre + 1 - 1 - length pre) with 0 by lia; reflexivity).
  replace (set_nth (length pre + 1) (y + x) (pre ++ x :: y :: rest)) with ((pre ++ [x]) ++ (y + x) :: rest).
  - replace (S (length pre + 1)) with (length (pre ++ [x]) + 1) by (rewrite app_length; cbn; lia).
    rewrite IH. rewrite <- app_assoc. reflexivity.
  - replace (pre ++ x :: y :: rest) with ((pre ++ [x]) ++ y :: rest) by (rewrite <- app_assoc; reflexivity).
    replace (length pre + 1) with (length (pre ++ [x])) by (rewrite app_length; reflexivity).
    symmetry. apply set_nth_app.
Qed.

Definition sizes (form_n_coef : list nat) (extra : option nat) : list nat :=
  form_n_coef ++ match extra with Some e => [e] | None => [] end.

Lemma split_idx_eq f e : f <> [] -> coef_split_idx f e = csum 0 (removelast (sizes f e)).
Proof.
  intros NE. unfold coef_split_idx. fold (sizes f e). set (idx := removelast (sizes f e)).
  assert (C : forall l, fold_left (fun l i => set_nth i (nth i l 0 + nth (i - 1) l 0) l) (seq 1 (length l - 1)) l = csum 0 l).
  { intros [|x l]; [reflexivity|]. cbn [length]. rewrite Nat.sub_succ, Nat.sub_0_r. cbn [csum]. rewrite Nat.add_0_r. apply (cumulate l [] x). }
  destruct (Nat.ltb_spec 1 (length f)) as [L|L]; [apply C|].
  destruct f as [|x [|y f]]; [congruence| |cbn in L; lia].
  subst idx. unfold sizes. destruct e; cbn; [now rewrite Nat.add_0_r|reflexivity].
Qed.

Lemma split_from : forall sz prev {A} (l : list A), sz <> [] -> length l = prev + lsum sz ->
  let pieces := np_split_from prev l (csum prev (removelast sz)) in
  length pieces = length sz /\ concat pieces = skipn prev l /\
  forall i, i < length sz -> nth i pieces [] = firstn (nth i sz 0) (skipn (prev + lsum (firstn i sz)) l).
Proof.
  induction sz as [|s sz IH]; intros prev A l NE HL; [congruence|]. cbv zeta.
  destruct sz as [|s' sz].
  - cbn [removelast csum np_split_from length concat]. rewrite app_nil_r. repeat split.
    intros [|i] Hi; [|lia]. cbn [nth firstn fold_right]. rewrite Nat.add_0_r. cbn in HL. symmetry. apply firstn_all2. rewrite skipn_length. lia.
  - change (removelast (s :: s' :: sz)) with (s :: removelast (s' :: sz)). cbn [csum np_split_from].
    destruct (IH (s + prev) A l) as (H1 & H2 & H3); [congruence|cbn in *; lia|]. cbv zeta in H1, H2, H3.
    split; [cbn [length] in *; now rewrite H1|]. split.
    + cbn [concat]. rewrite H2. replace (s + prev - prev) with s by lia. replace (s + prev) with (prev + s) by lia.
      rewrite <- (firstn_skipn s (skipn prev l)) at 2. f_equal.
      clear. revert s l. induction prev as [|p IH]; intros s l; [reflexivity|]. destruct l; [now rewrite !skipn_nil|]. cbn. apply IH.
    + intros [|i] Hi.
      * cbn [nth firstn fold_right]. replace (s + prev - prev) with s by lia. now rewrite Nat.add_0_r.
      * cbn [nth firstn fold_right]. rewrite H3 by (cbn in *; lia). f_equal. f_equal. lia.
Qed.

Lemma np_split_spec {A} sz (l : list A) : sz <> [] -> length l = lsum sz ->
  let pieces := np_split l (csum 0 (removelast sz)) in
  length pieces = length sz /\ concat pieces = l /\ forall i, i < length sz -> nth i pieces [] = piece sz i l.
Proof. intros NE H. exact (split_from sz 0 l NE H). Qed.

Lemma lsum_firstn_le i sz : i < length sz -> lsum (firstn i sz) + nth i sz 0 <= lsum sz.
Proof. revert sz. induction i as [|i IH]; intros [|s sz] H; cbn in *; try lia. specialize (IH sz ltac:(lia)). lia. Qed.

Lemma piece_length {A} sz i (l : list A) : length l = lsum sz -> i < length sz -> length (piece sz i l) = nth i sz 0.
Proof.
  intros H Hi. unfold piece. rewrite firstn_length, skipn_length. pose proof (lsum_firstn_le i sz Hi). lia.
Qed.

Lemma nth_firstn {A} (d : A) : forall k n l, k < n -> nth k (firstn n l) d = nth k l d.
Proof. induction k as [|k IH]; intros [|n] [|x l] H; cbn; try lia; try reflexivity. apply IH. lia. Qed.
Lemma nth_skipn {A} (d : A) : forall s k l, nth k (skipn s l) d = nth (s + k) l d.
Proof. induction s as [|s IH]; intros k l; [reflexivity|]. destruct l as [|x l]; [now destruct k|]. cbn. apply IH. Qed.
Lemma piece_nth {A} (d : A) sz i l k : k < nth i sz 0 -> nth k (piece sz i l) d = nth (lsum (firstn i sz) + k) l d.
Proof. intros H. unfold piece. rewrite nth_firstn by assumption. apply nth_skipn. Qed.

(** ** Dropping *)
Definition kept (drop : list nat) (c : nat) : bool := negb (existsb (Nat.eqb c) drop).
Lemma kept_spec drop c : kept drop c = if in_dec Nat.eq_dec c drop then false else true.
Proof.
  unfold kept. destruct (in_dec Nat.eq_dec c drop) as [I|N].
  - rewrite (proj2 (existsb_exists (Nat.eqb c) drop)); [reflexivity|]. exists c. split; [assumption|apply Nat.eqb_refl].
  - destruct (existsb (Nat.eqb c) drop) eqn:E; [|reflexivity]. apply existsb_exists in E. destruct E as [x [Ix Ex]].
    apply Nat.eqb_eq in Ex. subst. contradiction.
Qed.

Lemma survivors_seq {A} (d : A) drop : forall l s, survivors drop s l = map (fun k => nth (k - s) l d) (filter (kept drop) (seq s (length l))).
Proof.
  induction l as [|x l IH]; intros s; [reflexivity|]. cbn [survivors length seq filter]. rewrite kept_spec.
  assert (E : map (fun k => nth (k - s) (x :: l) d) (filter (kept drop) (seq (S s) (length l))) = survivors drop (S s) l).
  { rewrite IH. apply map_ext_in. intros k I. apply filter_In in I. destruct I as [I _]. apply in_seq in I.
    replace (k - s) with (S (k - S s)) by lia. reflexivity. }
  destruct (in_dec Nat.eq_dec s drop); [now rewrite E|]. cbn [map]. rewrite E, Nat.sub_diag. reflexivity.
Qed.

Lemma filter_filter {A} (f g : A -> bool) l : filter f (filter g l) = filter (fun x => f x && g x) l.
Proof. induction l as [|x l IH]; [reflexivity|]. cbn. destruct (g x); cbn; rewrite ?andb_false_r, ?andb_true_r, IH; reflexivity. Qed.

Lemma filter_none {A} (f : A -> bool) l : (forall x, In x l -> f x = false) -> filter f l = [].
Proof. induction l as [|x l IH]; intros H; [reflexivity|]. cbn. rewrite H by now left. apply IH. intros; apply H; now right. Qed.
Lemma filter_ext_in' {A} (f g : A -> bool) l : (forall x, In x l -> f x = g x) -> filter f l = filter g l.
Proof. induction l as [|x l IH]; intros H; [reflexivity|]. cbn. rewrite H by now left. rewrite IH; [reflexivity|]. intros; apply H; now right. Qed.

Lemma keep_range n drop s len : s + len <= n ->
  filter (fun cf => (s <=? cf) && (cf <? s + len)) (keep_of n drop) = filter (kept drop) (seq s len).
Proof.
  intros H. unfold keep_of. rewrite filter_filter.
  replace n with (s + (len + (n - s - len))) by lia. rewrite !seq_app, !filter_app.
  rewrite (filter_none _ (seq 0 s)), (filter_none _ (seq (0 + s + len) _)).
  - cbn [app]. rewrite app_nil_r. change (0 + s) with s. apply filter_ext_in'. intros x I. apply in_seq in I.
    rewrite (proj2 (Nat.leb_le s x)), (proj2 (Nat.ltb_lt x (s + len))) by lia. reflexivity.
  - intros x I. apply in_seq in I. rewrite (proj2 (Nat.ltb_ge x (s + len))) by lia. now rewrite andb_false_r.
  - intros x I. apply in_seq in I. rewrite (proj2 (Nat.leb_gt s x)) by lia. reflexivity.
Qed.

Lemma survivors_app {A} drop : forall (a b : list A) s, survivors drop s (a ++ b) = survivors drop s a ++ survivors drop (s + length a) b.
Proof.
  induction a as [|x a IH]; intros b s; cbn [survivors app length].
  - now rewrite Nat.add_0_r.
  - rewrite IH. replace (S s + length a) with (s + S (length a)) by lia. destruct (in_dec Nat.eq_dec s drop); reflexivity.
Qed.

Lemma take_survivors {A} (d : A) l drop : take d l (keep_of (length l) drop) = survivors drop 0 l.
Proof. rewrite (survivors_seq d). unfold take, keep_of. apply map_ext. intros k. now rewrite Nat.sub_0_r. Qed.

(** What drop_terms_X returns. *)
Fixpoint reduced {C} (drop : list nat) (s : nat) (Xs : list (list C)) : list (list C) :=
  match Xs with [] => [] | X :: r => survivors drop s X :: reduced drop (s + length X) r end.

Lemma drop_loop {C} (d : C) n drop n_Xs : forall Xs Xi s last, Xi + length Xs = n_Xs -> 0 < Xi -> s + lsum (map (@length C) Xs) <= n ->
  drop_terms_loop d (keep_of n drop) n_Xs Xi s last (map Some Xs) =
  Some (reduced drop s Xs, csum last (removelast (map (@length C) (reduced drop s Xs)))).
Proof.
  induction Xs as [|X Xs IH]; intros Xi s last HX H0 Hn; [reflexivity|].
  cbn [map drop_terms_loop]. cbv zeta. cbn [map fold_right] in Hn. rewrite keep_range by lia. rewrite map_map.
  replace (map (fun x => nth (x - s) X d) (filter (kept drop) (seq s (length X)))) with (survivors drop s X) by apply survivors_seq.
  rewrite (proj2 (Nat.eqb_neq Xi 0)) by lia. cbn [reduced map].
  destruct (Nat.ltb_spec Xi (n_Xs - 1)) as [L|L].
  - rewrite IH; [|cbn [length] in HX; lia|lia|lia]. destruct Xs as [|X' Xs]; [cbn in *; lia|].
    cbn [reduced map hd]. reflexivity.
  - destruct Xs as [|X' Xs]; [|cbn in *; lia]. reflexivity.
Qed.

Lemma drop_terms_eq {C} (d : C) n drop Xs : Xs <> [] -> lsum (map (@length C) Xs) <= n ->
  drop_terms_X d (map Some Xs) (keep_of n drop) =
  Some (reduced drop 0 Xs, match Xs with [X] => [length (survivors drop 0 X)] | _ => csum 0 (removelast (map (@length C) (reduced drop 0 Xs))) end).
Proof.
  intros NE Hn. destruct Xs as [|X Xs]; [congruence|]. unfold drop_terms_X.
  cbn [map drop_terms_loop]. cbv zeta. cbn [map fold_right] in Hn. rewrite keep_range by lia. rewrite map_map.
  replace (map (fun x => nth (x - 0) X d) (filter (kept drop) (seq 0 (length X)))) with (survivors drop 0 X) by apply survivors_seq.
  cbn [Nat.eqb hd]. rewrite (drop_loop d n drop (length (Some X :: map Some Xs)) Xs 1); [|cbn; rewrite map_length; lia|lia|lia].
  destruct Xs as [|X' Xs]; [reflexivity|]. cbn [reduced map app Nat.add]. f_equal. f_equal.
  change (removelast (length (survivors drop 0 X) :: length (survivors drop (length X) X') :: map (@length C) (reduced drop (length X + length X') Xs)))
    with (length (survivors drop 0 X) :: removelast (length (survivors drop (length X) X') :: map (@length C) (reduced drop (length X + length X') Xs))).
  cbn [csum]. now rewrite Nat.add_0_r.
Qed.

Lemma reduced_length {C} drop : forall (Xs : list (list C)) s, length (reduced drop s Xs) = length Xs.
Proof. induction Xs as [|X Xs IH]; intros s; [reflexivity|]. cbn. now rewrite IH. Qed.
Lemma reduced_nth {C} drop : forall (Xs : list (list C)) s i, i < length Xs ->
  nth i (reduced drop s Xs) [] = survivors drop (s + lsum (firstn i (map (@length C) Xs))) (nth i Xs []).
Proof.
  induction Xs as [|X Xs IH]; intros s i Hi; [cbn in Hi; lia|]. destruct i as [|i].
  - cbn. now rewrite Nat.add_0_r.
  - cbn [reduced nth map firstn fold_right]. rewrite IH by (cbn in Hi; lia). now rewrite Nat.add_assoc.
Qed.

Lemma survivors_len {A B} drop : forall (a : list A) (b : list B) s, length a = length b -> length (survivors drop s a) = length (survivors drop s b).
Proof.
  induction a as [|x a IH]; intros [|y b] s H; cbn in *; try discriminate; [reflexivity|].
  destruct (in_dec Nat.eq_dec s drop); cbn; rewrite (IH b); auto.
Qed.

Lemma skipn_app_len {A} n (a b : list A) q : length a = n -> skipn (n + q) (a ++ b) = skipn q b.
Proof. intros <-. rewrite skipn_app, skipn_all2 by lia. cbn [app]. f_equal. lia. Qed.

(** Splitting the surviving coefficients by the sizes of the reduced matrices gives the survivors of every piece. *)
Lemma survivors_pieces {A C} drop : forall (Xs : list (list C)) (l : list A) s,
  length l = lsum (map (@length C) Xs) ->
  length (survivors drop s l) = lsum (map (@length C) (reduced drop s Xs)) /\
  forall i, i < length Xs ->
    piece (map (@length C) (reduced drop s Xs)) i (survivors drop s l) =
    survivors drop (s + lsum (firstn i (map (@length C) Xs))) (piece (map (@length C) Xs) i l).
Proof.
  induction Xs as [|X Xs IH]; intros l s H.
  - destruct l; [|discriminate]. split; [reflexivity|]. intros i Hi. cbn in Hi. lia.
  - cbn [map fold_right] in H. rewrite <- (firstn_skipn (length X) l).
    set (a := firstn (length X) l). set (b := skipn (length X) l).
    assert (La : length a = length X) by (unfold a; rewrite firstn_length; lia).
    assert (Lb : length b = lsum (map (@length C) Xs)) by (unfold b; rewrite skipn_length; lia).
    rewrite survivors_app, La. destruct (IH b (s + length X) Lb) as [H1 H2].
    assert (Ls : length (survivors drop s a) = length (survivors drop s X)) by (apply survivors_len; exact La).
    split.
    + rewrite app_length, H1, Ls. reflexivity.
    + intros [|i] Hi.
      * unfold piece. cbn [reduced map nth firstn fold_right skipn]. rewrite Nat.add_0_r.
        rewrite <- Ls, firstn_app, Nat.sub_diag, firstn_all, firstn_O, app_nil_r.
        rewrite <- La, firstn_app, Nat.sub_diag, firstn_all, firstn_O, app_nil_r. reflexivity.
      * specialize (H2 i ltac:(cbn in Hi; lia)). unfold piece in *. cbn [reduced map nth firstn fold_right].
        rewrite (skipn_app_len (length (survivors drop s X))) by exact Ls. rewrite (skipn_app_len (length X)) by exact La.
        rewrite H2. rewrite Nat.add_assoc. reflexivity.
Qed.

(** ** Padding *)
Lemma set_nth_length {A} (v : A) : forall i l, length (set_nth i v l) = length l.
Proof. induction i as [|i IH]; intros [|x l]; cbn; auto. Qed.
Lemma nth_set_nth {A} (d v : A) : forall i l k, i < length l -> nth k (set_nth i v l) d = if Nat.eq_dec k i then v else nth k l d.
Proof.
  induction i as [|i IH]; intros [|x l] k H; cbn in *; try lia.
  - destruct k; destruct (Nat.eq_dec _ _); congruence.
  - destruct k; [destruct (Nat.eq_dec 0 (S i)); congruence|]. rewrite IH by lia.
    destruct (Nat.eq_dec k i), (Nat.eq_dec (S k) (S i)); congruence.
Qed.

Lemma combine_map {A B} (f : A -> B) l : combine l (map f l) = map (fun x => (x, f x)) l.
Proof. induction l as [|x l IH]; [reflexivity|]. cbn. now rewrite IH. Qed.

Lemma fold_set {A} (d : A) (f : nat -> A) : forall ks l, (forall k, In k ks -> k < length l) ->
  length (fold_left (fun l p => set_nth (fst p) (snd p) l) (map (fun k => (k, f k)) ks) l) = length l /\
  forall k, nth k (fold_left (fun l p => set_nth (fst p) (snd p) l) (map (fun k => (k, f k)) ks) l) d =
            if in_dec Nat.eq_dec k ks then f k else nth k l d.
Proof.
  induction ks as [|j ks IH]; intros l H; [split; [reflexivity|intros k; reflexivity]|].
  cbn [map fold_left fst snd]. destruct (IH (set_nth j (f j) l)) as [H1 H2].
  { intros k I. rewrite set_nth_length. apply H. now right. }
  split; [rewrite H1; apply set_nth_length|]. intros k. rewrite H2. rewrite nth_set_nth by (apply H; now left).
  destruct (in_dec Nat.eq_dec k (j :: ks)) as [I|N], (in_dec Nat.eq_dec k ks) as [I'|N']; try reflexivity.
  - destruct (Nat.eq_dec k j); [now subst|]. exfalso. destruct I; [congruence|contradiction].
  - exfalso; apply N; now right.
  - destruct (Nat.eq_dec k j); [|reflexivity]. exfalso. apply N. subst. now left.
Qed.

Lemma zeroed_length drop : forall l s, length (zeroed drop s l) = length l.
Proof. induction l as [|x l IH]; intros s; [reflexivity|]. cbn. now rewrite IH. Qed.
Lemma zeroed_nth drop : forall l s k, k < length l -> nth k (zeroed drop s l) 0%R = if in_dec Nat.eq_dec (s + k) drop then 0%R else nth k l 0%R.
Proof.
  induction l as [|x l IH]; intros s k H; [cbn in H; lia|]. destruct k as [|k].
  - cbn. now rewrite Nat.add_0_r.
  - cbn [zeroed nth]. rewrite IH by (cbn in H; lia). replace (S s + k) with (s + S k) by lia. reflexivity.
Qed.

Lemma pad_zeroed drop (l : list R) : pad 0%R (length l) (keep_of (length l) drop) (take 0%R l (keep_of (length l) drop)) = zeroed drop 0 l.
Proof.
  unfold pad, take. rewrite combine_map.
  destruct (fold_set 0%R (fun k => nth k l 0%R) (keep_of (length l) drop) (repeat 0%R (length l))) as [H1 H2].
  { intros k I. unfold keep_of in I. apply filter_In in I. destruct I as [I _]. apply in_seq in I. rewrite repeat_length. lia. }
  apply nth_ext with 0%R 0%R.
  - rewrite H1, repeat_length, zeroed_length. reflexivity.
  - intros k Hk. rewrite H1, repeat_length in Hk. rewrite H2, zeroed_nth by assumption. cbn [Nat.add].
    destruct (in_dec Nat.eq_dec k (keep_of (length l) drop)) as [I|N], (in_dec Nat.eq_dec k drop) as [I'|N']; try reflexivity.
    + exfalso. unfold keep_of in I. apply filter_In in I. destruct I as [_ I]. fold (kept drop k) in I. rewrite kept_spec in I.
      destruct (in_dec Nat.eq_dec k drop); [discriminate|contradiction].
    + apply nth_repeat.
    + exfalso. apply N. unfold keep_of. apply filter_In. split; [apply in_seq; lia|]. fold (kept drop k). rewrite kept_spec.
      destruct (in_dec Nat.eq_dec k drop); [contradiction|reflexivity].
Qed.

Lemma zeroed_app drop : forall a b s, zeroed drop s (a ++ b) = zeroed drop s a ++ zeroed drop (s + length a) b.
Proof.
  induction a as [|x a IH]; intros b s; cbn [zeroed app length].
  - now rewrite Nat.add_0_r.
  - rewrite IH. now replace (S s + length a) with (s + S (length a)) by lia.
Qed.

Lemma dot_survivors r drop : forall X b s, length X = length b -> dot r (survivors drop s X) (survivors drop s b) = dot r X (zeroed drop s b).
Proof.
  induction X as [|x X IH]; intros [|c b] s H; cbn in H; try discriminate; [reflexivity|].
  cbn [survivors zeroed dot]. destruct (in_dec Nat.eq_dec s drop); cbn [dot]; rewrite IH by lia; lra.
Qed.

Lemma zeroed_skipn drop : forall k l s, skipn k (zeroed drop s l) = zeroed drop (s + k) (skipn k l).
Proof.
  induction k as [|k IH]; intros l s; [now rewrite Nat.add_0_r|]. destruct l as [|x l]; [reflexivity|].
  cbn [skipn zeroed]. rewrite IH. now replace (S s + k) with (s + S k) by lia.
Qed.
Lemma zeroed_firstn drop : forall k l s, firstn k (zeroed drop s l) = zeroed drop s (firstn k l).
Proof. induction k as [|k IH]; intros [|x l] s; cbn [firstn zeroed]; try reflexivity. now rewrite IH. Qed.
Lemma piece_zeroed drop sz i l : piece sz i (zeroed drop 0 l) = zeroed drop (lsum (firstn i sz)) (piece sz i l).
Proof. unfold piece. now rewrite zeroed_skipn, zeroed_firstn. Qed.

(** Padded matrices. *)
Lemma padded_entry keep : NoDup keep -> forall T, (forall t, In t T -> fst (fst t) < length keep /\ snd (fst t) < length keep) ->
  (forall a b, a < length keep -> b < length keep -> entry_at (pad_triplets keep T) (nth a keep 0) (nth b keep 0) = entry_at T a b) /\
  (forall p q, (~ In p keep \/ ~ In q keep) -> entry_at (pad_triplets keep T) p q = 0%R).
Proof.
  intros ND. induction T as [|[[r c] v] T IH]; intros H; [split; reflexivity|].
  destruct IH as [I1 I2]; [intros; apply H; now right|]. destruct (H _ (or_introl eq_refl)) as [Hr Hc]. cbn [fst snd] in Hr, Hc.
  split.
  - intros a b Ha Hb. cbn [pad_triplets map entry_at fst snd]. fold (pad_triplets keep T). rewrite I1 by assumption. f_equal.
    assert (E : forall x y, x < length keep -> y < length keep -> nth x keep 0 = nth y keep 0 -> x = y) by (intros; eapply NoDup_nth; eassumption).
    destruct (Nat.eq_dec (nth r keep 0) (nth a keep 0)) as [E1|N1], (Nat.eq_dec r a) as [E2|N2]; try congruence.
    + destruct (Nat.eq_dec (nth c keep 0) (nth b keep 0)) as [E3|N3], (Nat.eq_dec c b) as [E4|N4]; try congruence.
      apply E in E3; [contradiction|assumption|assumption].
    + apply E in E1; [contradiction|assumption|assumption].
  - intros p q Hpq. cbn [pad_triplets map entry_at fst snd]. fold (pad_triplets keep T). rewrite I2 by assumption.
    destruct (Nat.eq_dec (nth r keep 0) p) as [<-|]; [|lra]. destruct (Nat.eq_dec (nth c keep 0) q) as [<-|]; [|lra].
    exfalso. destruct Hpq as [N|N]; apply N; apply nth_In; assumption.
Qed.

Lemma keep_nodup n drop : NoDup (keep_of n drop).
Proof. apply NoDup_filter, seq_NoDup. Qed.
Lemma keep_in n drop k : In k (keep_of n drop) <-> k < n /\ ~ In k drop.
Proof.
  unfold keep_of. rewrite filter_In, in_seq. fold (kept drop k). rewrite kept_spec.
  destruct (in_dec Nat.eq_dec k drop); intuition (lia || discriminate || contradiction).
Qed.

(** Undropped extra coefficients. *)
Lemma survivors_all {A} drop : forall (l : list A) s, (forall k, In k drop -> k < s) -> survivors drop s l = l.
Proof.
  induction l as [|x l IH]; intros s H; [reflexivity|]. cbn. destruct (in_dec Nat.eq_dec s drop) as [I|N].
  - specialize (H s I). lia.
  - rewrite IH; [reflexivity|]. intros k I. specialize (H k I). lia.
Qed.
