From Coq Require Import List Arith ZArith Bool Lia.
From Verif Require Import StoreModel ConvModel ConvSpec.
Import ListNotations.

Section Conv.
Variables (A : Type) (dummy : A).

Lemma halves_cons rows (arr : array A) : halves A (rows :: arr) = 
  (let N := if Nat.eqb (length rows mod 2) 0 then length rows else length rows - 1 in
   [firstn (N / 2) (firstn N rows); skipn (N / 2) (firstn N rows)]) ++ halves A arr.
Proof. reflexivity. Qed.

Lemma split_even {B} (l : list B) n : length l = 2 * n -> l = firstn n l ++ skipn n l /\ length (firstn n l) = length (skipn n l).
Proof. intros e. split; [symmetry; apply firstn_skipn|]. rewrite firstn_length, skipn_length. lia. Qed.

Lemma halves_halved p (arr : array A) : halved A (trace_of A dummy p arr) (values A dummy p (halves A arr)).
Proof.
  induction arr as [|rows arr ih]; [constructor|]. rewrite halves_cons. cbv zeta.
  unfold values. rewrite map_app. cbn [map trace_of app]. fold (values A dummy p (halves A arr)). fold (trace_of A dummy p arr).
  set (g := fun row : list A => nth p row dummy).
  assert (dm := Nat.div_mod (length rows) 2 ltac:(lia)).
  destruct (Nat.eqb_spec (length rows mod 2) 0) as [e|ne].
  - set (n := length rows / 2) in *.
    rewrite firstn_all. rewrite <- firstn_map, <- skipn_map.
    destruct (split_even (map g rows) n) as [q1 q2]; [rewrite map_length; lia|].
    rewrite q1 at 1. now constructor.
  - assert (m1 : length rows mod 2 = 1) by (assert (h := Nat.mod_upper_bound (length rows) 2 ltac:(lia)); lia).
    set (n := (length rows - 1) / 2).
    assert (en : length rows - 1 = 2 * n). 
    { unfold n. replace (length rows - 1) with (length rows / 2 * 2) at 1 2 by lia. rewrite Nat.div_mul by lia. lia. }
    assert (ne' : rows <> []) by (intros ->; simpl in *; discriminate).
    destruct (exists_last ne') as [l [x ->]]. rewrite app_length in *. cbn [length] in *.
    rewrite firstn_app. replace (length l + 1 - 1) with (length l) by lia. rewrite firstn_all, Nat.sub_diag, firstn_O, app_nil_r.
    rewrite map_app. cbn [map]. rewrite <- firstn_map, <- skipn_map.
    destruct (split_even (map g l) n) as [q1 q2]; [rewrite map_length; lia|].
    rewrite q1 at 1. rewrite <- app_assoc. now constructor.
Qed.

Lemma app_half {B} (a b a' b' : list B) : length a = length b -> length a' = length b' -> a ++ b = a' ++ b' -> a = a' /\ b = b'.
Proof.
  intros e e' h. assert (l : length (a ++ b) = length (a' ++ b')) by now rewrite h. rewrite !app_length in l.
  assert (la : length a = length a') by lia. clear e e' l. revert a' la h. induction a as [|x a ih]; intros [|y a'] la h; try discriminate; auto.
  simpl in *. inversion h; subst. destruct (ih a') as [-> ->]; auto.
Qed.

Lemma halved_unique l h h' : halved A l h -> halved A l h' -> h = h'.
Proof.
  intros H. revert h'. induction H as [|a b l l' e H ih|a b x l l' e H ih]; intros h' H'.
  - now inversion H'.
  - inversion H' as [|a' b' ? ? e' H2 q|a' b' x' ? ? e' H2 q]; subst.
    + destruct (app_half _ _ _ _ e' e q) as [-> ->]. f_equal. f_equal. now apply ih.
    + exfalso. assert (z : length (a' ++ b' ++ [x']) = length (a ++ b)) by now rewrite q. rewrite !app_length in z. simpl in z. lia.
  - inversion H' as [|a' b' ? ? e' H2 q|a' b' x' ? ? e' H2 q]; subst.
    + exfalso. assert (z : length (a' ++ b') = length (a ++ b ++ [x])) by now rewrite q. rewrite !app_length in z. simpl in z. lia.
    + rewrite !app_assoc in q. apply app_inj_tail in q. destruct q as [q ->].
      destruct (app_half _ _ _ _ e' e q) as [-> ->]. f_equal. f_equal. now apply ih.
Qed.

Lemma good_meet (good : list (list A) -> bool) p arr :
  good (values A dummy p (halves A arr)) = true <-> forall h, halved A (trace_of A dummy p arr) h -> good h = true.
Proof.
  assert (H := halves_halved p arr). split; [intros g h H'|auto]. now rewrite (halved_unique _ _ _ H' H).
Qed.

Lemma stats_meet (good : list (list A) -> bool) w arr :
  forallb (fun b => b) (stats A bool dummy good w arr) = true <-> all_meet A dummy good w arr.
Proof.
  unfold stats, all_meet. rewrite forallb_forall. split.
  - intros H p h pw hh. apply (proj1 (good_meet good p arr)); auto. apply H. apply in_map_iff. exists p. split; auto. apply in_seq. lia.
  - intros H b i. apply in_map_iff in i. destruct i as [p [<- i]]. apply in_seq in i. apply good_meet. intros h hh. apply (H p); auto. lia.
Qed.

Lemma opt_meet (good : list (list A) -> bool) w (o : option (array A)) :
  forallb (fun b => b) (match o with None => [] | Some a => stats A bool dummy good w a end) = true <->
  forall a, o = Some a -> all_meet A dummy good w a.
Proof.
  destruct o as [a|].
  - rewrite stats_meet. split; [intros h a' [= <-]; auto|auto].
  - split; [discriminate|auto].
Qed.

End Conv.

Lemma nth_error_firstn_skipn {B} (v : list B) from w k : k < w -> from + w <= length v ->
  nth_error (skipn from (firstn (from + w) v)) k = nth_error v (from + k).
Proof.
  intros kw l. rewrite <- (firstn_skipn (from + w) v) at 2. rewrite nth_error_app1 by (rewrite firstn_length; lia).
  rewrite <- (firstn_skipn from (firstn (from + w) v)) at 2. rewrite nth_error_app2 by (rewrite !firstn_length; lia).
  rewrite !firstn_length. f_equal. lia.
Qed.

Lemma pick_meet (v : list bool) forms from : from + list_sum (map fst forms) = length v ->
  (forallb (fun b => b) (pick bool (split_at bool v from (cuts from (map fst forms))) forms) = true <->
   forall f w X k, nth_error forms f = Some (w, X) -> k < w -> (0 < column_sum X k)%Z ->
     nth_error v (start_of from (map fst forms) f + k) = Some true).
Proof.
  revert from. induction forms as [|[w X] forms ih]; intros from L.
  - cbn [map cuts split_at pick]. split; [intros _ [|f] ? ? ? h; discriminate|reflexivity].
  - assert (head : forall u, (forall k, k < w -> nth_error u k = nth_error v (from + k)) ->
      (forallb (fun b => b) (flat_map (fun k => match nth_error u k with Some b => [b] | None => [] end) (fcidx w X)) = true <->
       forall k, k < w -> (0 < column_sum X k)%Z -> nth_error v (from + k) = Some true)).
    { intros u hu. rewrite forallb_forall. split.
      - intros H k kw cs. rewrite <- hu by auto. destruct (nth_error u k) as [b|] eqn:E.
        + f_equal. apply H. apply in_flat_map. exists k. split; [|rewrite E; now left].
          unfold fcidx. apply filter_In. split; [apply in_seq; lia|]. now apply Z.ltb_lt.
        + exfalso. rewrite hu in E by auto. apply nth_error_None in E. simpl in L. lia.
      - intros H b i. apply in_flat_map in i. destruct i as [k [i1 i2]]. unfold fcidx in i1. apply filter_In in i1.
        destruct i1 as [i1 c]. apply in_seq in i1. apply Z.ltb_lt in c. rewrite hu in i2 by lia.
        rewrite (H k) in i2 by (auto; lia). destruct i2 as [<-|[]]. reflexivity. }
    destruct forms as [|[w2 X2] forms].
    + cbn [map fst cuts split_at pick]. rewrite app_nil_r. rewrite head.
      2:{ intros k kw. simpl in L. rewrite <- (firstn_skipn from v) at 2. rewrite nth_error_app2 by (rewrite firstn_length; lia).
          rewrite firstn_length. f_equal. lia. }
      split.
      * intros H [|[|f]] ? ? k e kw cs; try discriminate. injection e as <- <-. apply H; auto.
      * intros H k kw cs. apply (H 0 w X k); auto.
    + cbn [map fst] in ih |- *.
      change (cuts from (w :: w2 :: map fst forms)) with ((from + w) :: cuts (from + w) (w2 :: map fst forms)).
      cbn [split_at].
      change (pick bool (skipn from (firstn (from + w) v) :: split_at bool v (from + w) (cuts (from + w) (w2 :: map fst forms))) ((w, X) :: (w2, X2) :: forms))
        with (flat_map (fun k => match nth_error (skipn from (firstn (from + w) v)) k with Some b => [b] | None => [] end) (fcidx w X)
              ++ pick bool (split_at bool v (from + w) (cuts (from + w) (w2 :: map fst forms))) ((w2, X2) :: forms)).
      rewrite forallb_app, andb_true_iff, head, ih.
      2:{ simpl in *. lia. }
      2:{ intros k kw. apply nth_error_firstn_skipn; auto. simpl in L. lia. }
      split.
      * intros [H1 H2] [|f] w' X' k e kw cs; simpl in e.
        -- injection e as <- <-. now apply H1.
        -- apply (H2 f w' X' k); auto.
      * intros H. split.
        -- intros k kw cs. apply (H 0 w X k); auto.
        -- intros f w' X' k e kw cs. apply (H (S f) w' X' k); auto.
Qed.
