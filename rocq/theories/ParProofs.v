(** Proofs about computing in blocks. *)

From Coq Require Import String List Bool Arith Reals Permutation Lia.
From Verif Require Import ParModel ParSpec.
Import ListNotations.
Local Open Scope R_scope.

(** ** Splitting *)

Lemma cut_concat A sizes : forall l : list A, list_sum sizes = List.length l -> concat (cut sizes l) = l.
Proof.
  induction sizes as [|s r IH]; intros l H; [now destruct l|]. change (list_sum (s :: r)) with (s + list_sum r)%nat in H.
  cbn [cut concat]. rewrite IH; [apply firstn_skipn|]. rewrite skipn_length. lia.
Qed.
Lemma list_sum_repeat n k : list_sum (repeat n k) = (k * n)%nat.
Proof. induction k as [|k IH]; [easy|]. cbn [repeat]. change (list_sum (n :: repeat n k)) with (n + list_sum (repeat n k))%nat. lia. Qed.
Lemma sizes_sum total n : n <> 0%nat -> list_sum (section_sizes total n) = total.
Proof.
  intros H. unfold section_sizes. rewrite list_sum_app, !list_sum_repeat.
  pose proof (Nat.div_mod total n H). pose proof (Nat.mod_upper_bound total n H).
  set (q := (total / n)%nat) in *. set (r := (total mod n)%nat) in *.
  rewrite Nat.mul_succ_r, Nat.mul_sub_distr_r. assert (r * q <= n * q)%nat by (apply Nat.mul_le_mono_r; lia). lia.
Qed.
Lemma cut_length A sizes : forall l : list A, List.length (cut sizes l) = List.length sizes.
Proof. induction sizes as [|s r IH]; intros l; cbn; [easy|]. now rewrite IH. Qed.
Lemma sizes_length total n : n <> 0%nat -> List.length (section_sizes total n) = n.
Proof.
  intros H. unfold section_sizes. rewrite app_length, !repeat_length.
  pose proof (Nat.mod_upper_bound total n H). lia.
Qed.
Lemma array_split_spec A (l : list A) n : n <> 0%nat ->
  exists parts, array_split l n = Some parts /\ concat parts = l /\ List.length parts = n.
Proof.
  intros H. unfold array_split. apply Nat.eqb_neq in H as E. rewrite E. eexists. split; [reflexivity|]. split.
  - apply cut_concat. now apply sizes_sum.
  - rewrite cut_length. now apply sizes_length.
Qed.

(** Two lists of the same length are split at the same positions. *)
Lemma cut_combine A B sizes : forall (a : list A) (b : list B), List.length a = List.length b ->
  list_sum sizes = List.length a ->
  flat_map (fun p => combine (fst p) (snd p)) (combine (cut sizes a) (cut sizes b)) = combine a b /\
  Forall (fun p => List.length (fst p) = List.length (snd p)) (combine (cut sizes a) (cut sizes b)).
Proof.
  induction sizes as [|s r IH]; intros a b H Hs.
  - destruct a; [|easy]. split; [easy|constructor].
  - change (list_sum (s :: r)) with (s + list_sum r)%nat in Hs. cbn [cut combine flat_map fst snd].
    destruct (IH (skipn s a) (skipn s b)) as [E F].
    + now rewrite !skipn_length, H.
    + rewrite skipn_length. lia.
    + rewrite E. split; [|constructor; [|exact F]].
      * rewrite <- (firstn_skipn s a) at 3. rewrite <- (firstn_skipn s b) at 3.
        assert (L : List.length (firstn s a) = List.length (firstn s b)) by now rewrite !firstn_length, H.
        revert L. generalize (firstn s a) (firstn s b) (skipn s a) (skipn s b). clear.
        induction l as [|x l IH]; intros [|y m] u v L; cbn in *; try easy. f_equal. apply IH. lia.
      * cbn. now rewrite !firstn_length, H.
Qed.
Lemma array_split_combine A B (a : list A) (b : list B) n : List.length a = List.length b -> n <> 0%nat ->
  exists pa pb, array_split a n = Some pa /\ array_split b n = Some pb /\ List.length pa = n /\ List.length pb = n /\
    flat_map (fun p => combine (fst p) (snd p)) (combine pa pb) = combine a b.
Proof.
  intros H N. unfold array_split. apply Nat.eqb_neq in N as E. rewrite E, <- H. do 2 eexists.
  split; [reflexivity|]. split; [reflexivity|]. rewrite !cut_length, sizes_length by easy. split; [easy|split; [easy|]].
  apply cut_combine; [easy|]. now apply sizes_sum.
Qed.

(** ** Sums *)

Lemma sum_app a b : sum (a ++ b) = sum a + sum b.
Proof.
  induction a as [|x a IH]; [unfold sum; cbn; ring|]. cbn [app].
  change (x + sum (a ++ b) = x + sum a + sum b). rewrite IH. ring.
Qed.

(** ** Workers *)

Section Workers.
Variable row_of : cov -> list R.
Variable should_cache : bool.
Variable nc : nat.
Variable parts : list (source * list cov * list R).
Hypothesis distinct : should_cache = true -> NoDup (map (fun p => name_of (fst (fst p))) parts).

Lemma name_eqb_spec a b : name_eqb a b = true <-> a = b.
Proof.
  destruct a, b; cbn; try easy.
  - rewrite String.eqb_eq. split; congruence.
  - rewrite Nat.eqb_eq. split; congruence.
Qed.

Definition subsets (p : source * list cov * list R) : list (list cov) :=
  match array_split (snd (fst p)) (Nat.min nc (List.length (snd (fst p)))) with Some l => l | None => [] end.

Definition good (c : list (name * nat * rows)) : Prop :=
  forall p i m, In p parts -> cached c (name_of (fst (fst p))) i = Some m -> m = map row_of (nth i (subsets p) []).

Lemma same_name p q : should_cache = true -> In p parts -> In q parts -> name_of (fst (fst p)) = name_of (fst (fst q)) -> p = q.
Proof.
  intros SC Hp Hq E. apply In_nth_error in Hp, Hq. destruct Hp as [a Ha], Hq as [b Hb].
  assert (a = b); [|congruence]. apply (proj1 (NoDup_nth_error _) (distinct SC)).
  - rewrite map_length. apply nth_error_Some. congruence.
  - apply (map_nth_error (fun p => name_of (fst (fst p)))) in Ha, Hb. congruence.
Qed.

Lemma read_mmat_spec c p i : good c -> In p parts ->
  exists c', read_mmat row_of should_cache c (fst (fst p)) i (nth i (subsets p) []) = (map row_of (nth i (subsets p) []), c') /\ good c'.
Proof.
  intros G Hp. unfold read_mmat.
  destruct (bool_dec should_cache true) as [SC|SC]; [rewrite SC|apply not_true_is_false in SC; rewrite SC; now exists c].
  destruct (cached c (name_of (fst (fst p))) i) as [m|] eqn:E.
  - exists c. now rewrite (G p i m Hp E).
  - eexists. split; [reflexivity|]. intros q j m Hq. unfold cached. cbn [find fst snd].
    destruct (name_eqb (name_of (fst (fst p))) (name_of (fst (fst q))) && (i =? j)%nat) eqn:E2.
    + cbn. intros H. injection H as <-. apply andb_prop in E2. destruct E2 as [E2 E3].
      apply name_eqb_spec in E2. apply Nat.eqb_eq in E3. now rewrite (same_name p q SC Hp Hq E2), E3.
    + intros H. now apply (G q j m).
Qed.

Lemma workers_spec p order : In p parts -> forall c, good c ->
  exists res c', workers row_of should_cache (fst (fst p)) (subsets p) order c = (res, c') /\ good c' /\
    res = map (fun i => (i, map row_of (nth i (subsets p) []))) order.
Proof.
  intros Hp. induction order as [|i r IH]; intros c G; cbn [workers].
  - now exists [], c.
  - destruct (read_mmat_spec c p i G Hp) as (c1 & E1 & G1). rewrite E1.
    destruct (IH c1 G1) as (res & c2 & E2 & G2 & ->). rewrite E2. do 2 eexists. split; [reflexivity|]. now split.
Qed.

Lemma find_in (f : nat -> rows) order i : In i order ->
  find (fun e => (fst e =? i)%nat) (map (fun i => (i, f i)) order) = Some (i, f i).
Proof.
  induction order as [|j r IH]; [easy|]. cbn. destruct (Nat.eqb_spec j i) as [->|D]; [easy|]. intros [H|H]; [easy|auto].
Qed.

Lemma map_nth_seq A B (f : A -> B) (d : A) (l : list A) : map (fun i => f (nth i l d)) (seq 0 (List.length l)) = map f l.
Proof.
  induction l as [|x l IH]; [easy|]. cbn [List.length seq map nth]. f_equal.
  rewrite <- seq_shift, map_map. exact IH.
Qed.

Lemma starmap_spec p order c : In p parts -> good c -> Permutation order (seq 0 (List.length (subsets p))) ->
  exists c', starmap row_of should_cache (fst (fst p)) (subsets p) order c = (map (map row_of) (subsets p), c') /\ good c'.
Proof.
  intros Hp G P. unfold starmap. destruct (workers_spec p order Hp c G) as (res & c' & E & G' & ->). rewrite E.
  exists c'. split; [|easy]. f_equal. rewrite <- (map_nth_seq _ _ (map row_of) [] (subsets p)).
  apply map_ext_in. intros i Hi. rewrite find_in; [easy|]. apply Permutation_sym in P. now apply (Permutation_in _ P).
Qed.

(** ** Products *)

Lemma fold_plus l : forall a, exists p, fold_left plus l a = p /\
  (forall i j, fst p i j = fst a i j + sum (map (fun q => fst q i j) l)) /\
  (forall i, snd p i = snd a i + sum (map (fun q => snd q i) l)).
Proof.
  induction l as [|x l IH]; intros a; cbn [fold_left map].
  - exists a. split; [easy|]. split; intros; unfold sum; cbn; ring.
  - destruct (IH (plus a x)) as (p & E & H1 & H2). exists p. split; [easy|]. split.
    + intros i j. rewrite H1. cbn. unfold sum. cbn. ring.
    + intros i. rewrite H2. cbn. unfold sum. cbn. ring.
Qed.

Lemma sum_XX (pairs : list (list cov * list R)) i j : Forall (fun p => List.length (fst p) = List.length (snd p)) pairs ->
  sum (map (fun q => cross (map row_of (fst q)) i j) pairs) =
  whole_XX row_of (flat_map (fun p => combine (fst p) (snd p)) pairs) i j.
Proof.
  unfold whole_XX. induction pairs as [|[a b] r IH]; intros F; [easy|]. inversion F as [|? ? F1 F2]; subst. cbn [map flat_map fst snd].
  rewrite map_app, sum_app, <- IH by easy. cbn in F1.
  change (sum (cross (map row_of a) i j :: map (fun q => cross (map row_of (fst q)) i j) r))
    with (cross (map row_of a) i j + sum (map (fun q : list cov * list R => cross (map row_of (fst q)) i j) r)). f_equal.
  unfold cross, sum. rewrite map_map. f_equal. clear -F1. revert b F1. induction a as [|x a IHa]; intros [|y b] F; cbn in *; try easy.
  f_equal. apply IHa. lia.
Qed.
Lemma sum_Xy (pairs : list (list cov * list R)) i :
  sum (map (fun q => cross_y (map row_of (fst q)) (snd q) i) pairs) =
  whole_Xy row_of (flat_map (fun p => combine (fst p) (snd p)) pairs) i.
Proof.
  unfold whole_Xy. induction pairs as [|[a b] r IH]; [easy|]. cbn [map flat_map fst snd].
  rewrite map_app, sum_app, <- IH.
  change (sum (cross_y (map row_of a) b i :: map (fun q => cross_y (map row_of (fst q)) (snd q) i) r))
    with (cross_y (map row_of a) b i + sum (map (fun q : list cov * list R => cross_y (map row_of (fst q)) (snd q) i) r)). f_equal.
  unfold cross_y, sum. f_equal. clear. revert b. induction a as [|x a IHa]; intros [|y b]; cbn in *; try easy.
  f_equal. apply IHa.
Qed.

Hypothesis nc_pos : (0 < nc)%nat.

Lemma min_pos (A : Type) (l : list A) : l <> [] -> Nat.min nc (List.length l) <> 0%nat.
Proof. destruct l; [easy|]. cbn [List.length]. lia. Qed.

Lemma combine_map_l A B C (f : A -> B) (a : list A) (b : list C) :
  combine (map f a) b = map (fun p => (f (fst p), snd p)) (combine a b).
Proof. revert b. induction a as [|x a IH]; intros [|y b]; cbn; try easy. now rewrite IH. Qed.

Lemma block_XTX_spec p order c : In p parts -> good c ->
  (forall n, Permutation (order n) (seq 0 n)) ->
  snd (fst p) <> [] -> List.length (snd (fst p)) = List.length (snd p) ->
  exists pr c', block_XTX row_of should_cache nc order (fst (fst p)) (snd (fst p)) (snd p) c = Some (pr, c') /\ good c' /\
    (forall i j, fst pr i j = whole_XX row_of (combine (snd (fst p)) (snd p)) i j) /\
    (forall i, snd pr i = whole_Xy row_of (combine (snd (fst p)) (snd p)) i).
Proof.
  intros Hp G Ho Hne Hlen. unfold block_XTX.
  destruct (array_split_combine _ _ (snd (fst p)) (snd p) (Nat.min nc (List.length (snd (fst p)))) Hlen (min_pos _ _ Hne))
    as (pa & pb & E1 & E2 & L1 & L2 & E3).
  assert (Hlens : Forall (fun q => List.length (fst q) = List.length (snd q)) (combine pa pb)).
  { unfold array_split in E1, E2. pose proof (min_pos _ _ Hne) as N. apply Nat.eqb_neq in N as N'. rewrite N' in E1, E2.
    injection E1 as <-. injection E2 as <-. rewrite <- Hlen. apply cut_combine; [easy|]. now apply sizes_sum. }
  rewrite E1, E2. assert (Es : subsets p = pa) by (unfold subsets; now rewrite E1).
  destruct (starmap_spec p (order (List.length (subsets p))) c Hp G (Ho _)) as (c' & E4 & G'). rewrite Es in E4. rewrite E4.
  rewrite combine_map_l, map_map. cbn [fst snd].
  assert (Hpp : combine pa pb <> []).
  { destruct pa; [cbn in L1; exfalso; now apply (min_pos _ _ Hne)|]. destruct pb; [cbn in L2; exfalso; now apply (min_pos _ _ Hne)|]. easy. }
  rewrite <- E3. clear E3 Es. revert Hlens Hpp. generalize (combine pa pb). intros pairs Hlens Hpp.
  destruct pairs as [|q r]; [easy|]. cbn [map reduce].
  destruct (fold_plus (map (fun x => form_cross_prod (map row_of (fst x)) (snd x)) r) (form_cross_prod (map row_of (fst q)) (snd q))) as (pr & E5 & H1 & H2).
  rewrite E5. exists pr, c'. split; [easy|]. split; [easy|]. split.
  - intros i j. rewrite H1, map_map, <- sum_XX by easy. reflexivity.
  - intros i. rewrite H2, map_map, <- sum_Xy. reflexivity.
Qed.

Lemma whole_XX_app a b i j : whole_XX row_of (a ++ b) i j = whole_XX row_of a i j + whole_XX row_of b i j.
Proof. unfold whole_XX. now rewrite map_app, sum_app. Qed.
Lemma whole_Xy_app a b i : whole_Xy row_of (a ++ b) i = whole_Xy row_of a i + whole_Xy row_of b i.
Proof. unfold whole_Xy. now rewrite map_app, sum_app. Qed.

Lemma all_XTX_spec order todo : (forall fi n, Permutation (order fi n) (seq 0 n)) -> incl todo parts ->
  Forall (fun p => snd (fst p) <> [] /\ List.length (snd (fst p)) = List.length (snd p)) todo ->
  forall fi acc c, good c -> (acc <> None \/ todo <> []) ->
  exists pr c', all_XTX row_of should_cache nc order fi todo acc c = Some (pr, c') /\ good c' /\
    (forall i j, fst pr i j = match acc with Some a => fst a i j | None => 0 end + whole_XX row_of (rows_of todo) i j) /\
    (forall i, snd pr i = match acc with Some a => snd a i | None => 0 end + whole_Xy row_of (rows_of todo) i).
Proof.
  intros Ho. induction todo as [|p r IH]; intros Hin F fi acc c G Hacc; cbn [all_XTX].
  - destruct acc as [a|]; [|destruct Hacc; easy]. exists a, c. split; [easy|]. split; [easy|].
    unfold rows_of, whole_XX, whole_Xy, sum. cbn. split; intros; ring.
  - inversion F as [|? ? [F1 F2] F3]; subst. destruct p as [[src covs] ys]. cbn [fst snd] in F1, F2.
    destruct (block_XTX_spec (src, covs, ys) (order fi) c (Hin _ (or_introl eq_refl)) G (Ho fi) F1 F2) as (pr & c1 & E & G1 & H1 & H2).
    cbn [fst snd] in E, H1, H2. rewrite E.
    destruct (IH (fun q Hq => Hin q (or_intror Hq)) F3 (S fi) (Some (match acc with None => pr | Some a => plus a pr end)) c1 G1) as (pr2 & c2 & E2 & G2 & H3 & H4);
      [now left|].
    exists pr2, c2. split; [easy|]. split; [easy|]. split.
    + intros i j. rewrite H3. unfold rows_of. cbn [flat_map fst snd]. rewrite whole_XX_app. fold (rows_of r).
      destruct acc as [a|]; unfold plus; cbn [fst snd]; rewrite H1; ring.
    + intros i. rewrite H4. unfold rows_of. cbn [flat_map fst snd]. rewrite whole_Xy_app. fold (rows_of r).
      destruct acc as [a|]; unfold plus; cbn [fst snd]; rewrite H2; ring.
Qed.

(** ** Predictors *)

Lemma flat_map_concat A B (f : A -> B) (l : list (list A)) : flat_map (fun x => map f x) l = map f (concat l).
Proof. induction l as [|x l IH]; cbn; [easy|]. now rewrite IH, map_app. Qed.

Lemma block_eta_spec p order coef c : In p parts -> good c -> (forall n, Permutation (order n) (seq 0 n)) ->
  snd (fst p) <> [] ->
  exists c', block_eta row_of should_cache nc order (fst (fst p)) (snd (fst p)) coef c =
    Some (map (fun x => sum (map (fun q => fst q * snd q) (combine (row_of x) coef))) (snd (fst p)), c') /\ good c'.
Proof.
  intros Hp G Ho Hne. unfold block_eta.
  destruct (array_split_spec _ (snd (fst p)) _ (min_pos _ _ Hne)) as (pa & E1 & E2 & L). rewrite E1.
  assert (Es : subsets p = pa) by (unfold subsets; now rewrite E1).
  destruct (starmap_spec p (order (List.length (subsets p))) c Hp G (Ho _)) as (c' & E4 & G'). rewrite Es in E4. rewrite E4.
  exists c'. split; [|easy]. f_equal. f_equal. rewrite <- E2 at 1. unfold mat_vec.
  rewrite <- (flat_map_concat _ _ (fun x => sum (map (fun q => fst q * snd q) (combine (row_of x) coef)))).
  clear. induction pa as [|x l IH]; [easy|]. cbn [map flat_map]. rewrite IH. f_equal. now rewrite map_map.
Qed.

Lemma all_eta_spec order coef todo : (forall fi n, Permutation (order fi n) (seq 0 n)) -> incl todo parts ->
  Forall (fun p => snd (fst p) <> [] /\ List.length (snd (fst p)) = List.length (snd p)) todo ->
  forall fi c, good c ->
  exists c', all_eta row_of should_cache nc order fi todo coef c = Some (whole_eta row_of (rows_of todo) coef, c') /\ good c'.
Proof.
  intros Ho. induction todo as [|p r IH]; intros Hin F fi c G; cbn [all_eta].
  - now exists c.
  - inversion F as [|? ? [F1 F2] F3]; subst. destruct p as [[src covs] ys]. cbn [fst snd] in F1, F2.
    destruct (block_eta_spec (src, covs, ys) (order fi) coef c (Hin _ (or_introl eq_refl)) G (Ho fi) F1) as (c1 & E & G1).
    cbn [fst snd] in E. rewrite E.
    destruct (IH (fun q Hq => Hin q (or_intror Hq)) F3 (S fi) c1 G1) as (c2 & E2 & G2). rewrite E2.
    exists c2. split; [|easy]. f_equal. f_equal. unfold whole_eta, rows_of. cbn [flat_map fst snd]. rewrite map_app. f_equal.
    clear -F2. revert ys F2. induction covs as [|x a IHa]; intros [|y b] F; cbn in *; try easy. f_equal. apply IHa. lia.
Qed.

Lemma etas_spec order coefs : fair order ->
  Forall (fun p => snd (fst p) <> [] /\ List.length (snd (fst p)) = List.length (snd p)) parts ->
  forall call c, good c ->
  etas row_of should_cache nc order call parts coefs c = Some (map (whole_eta row_of (rows_of parts)) coefs).
Proof.
  intros Ho F. induction coefs as [|b r IH]; intros call c G; cbn [etas]; [easy|].
  destruct (all_eta_spec (order call) b parts (Ho call) (incl_refl _) F 0 c G) as (c' & E & G'). rewrite E.
  now rewrite IH.
Qed.

Lemma fit_calls_spec order coefs : fair order -> parts <> [] ->
  Forall (fun p => snd (fst p) <> [] /\ List.length (snd (fst p)) = List.length (snd p)) parts ->
  exists pr, fit_calls row_of should_cache nc order parts coefs = Some (pr, map (whole_eta row_of (rows_of parts)) coefs) /\
    (forall i j, fst pr i j = whole_XX row_of (rows_of parts) i j) /\
    (forall i, snd pr i = whole_Xy row_of (rows_of parts) i).
Proof.
  intros Ho N F. unfold fit_calls.
  destruct (all_XTX_spec (order 0%nat) parts (Ho 0%nat) (incl_refl _) F 0%nat None []) as (pr & c & E & G & H1 & H2).
  - intros p i m _ H. discriminate.
  - now right.
  - rewrite E, (etas_spec order coefs Ho F 1%nat c G). exists pr. split; [easy|]. split; intros; [rewrite H1|rewrite H2]; ring.
Qed.

Lemma build_parallel_spec covs : build_parallel row_of nc covs = Some (map row_of covs).
Proof.
  unfold build_parallel. destruct (array_split_spec _ covs nc) as (pa & E & E2 & _); [lia|]. rewrite E.
  now rewrite flat_map_concat, E2.
Qed.
End Workers.
