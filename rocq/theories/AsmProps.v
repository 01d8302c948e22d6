(** Theorems about assembled derivatives (C61), split coefficient vectors (C52) and dropped coefficients (C62). *)

From Coq Require Import Reals List Lra Lia Arith Bool.
From Coquelicot Require Import Coquelicot.
From Verif Require Import GlsSpec GlsProofs MvnProofs AsmModel AsmSpec AsmProofs AsmProofs2 AsmProofs3.
Import ListNotations.
Local Open Scope R_scope.

(** ** C61: the assembled Hessian *)

(** Blocks: [d2 i j r] is the second derivative of the log-density of observation [r] with respect to its linear
    predictors [i] and [j]; the code gets those for i = j and, in the order of [pairs], those for i < j.  [stored]
    (which entries of a sparse row are explicit) may be anything that has all non-zero entries.  No matrix is
    returned if there is no explicit entry at all. *)
Theorem C61_blocks :
  forall n stored d2eta d2meta (Xs : list matrix) (d2 : nat -> nat -> nat -> R) rows columns H,
  let m := length Xs in
  let cols := fun i => ncols (nth i Xs (Mat 0 (fun _ _ => 0))) in
  let X := fun i => entry (nth i Xs (Mat 0 (fun _ _ => 0))) in
  (forall i r, (i < m)%nat -> (r < n)%nat -> d2eta i r = d2 i i r) ->
  (forall k i j r, nth_error (pairs m) k = Some (i, j) -> (r < n)%nat -> d2meta k r = d2 i j r) ->
  (forall i j a b, (i <= j < m)%nat -> (a < cols i)%nat -> (b < cols j)%nat -> stored i j a b = false ->
     sumf n (fun r => d2 i j r * X i r a * X j r b) = 0) ->
  hessian n stored d2eta d2meta Xs = Some (rows, columns, H) ->
  rows = columns /\ (rows <= offset cols m)%nat /\
  (forall p q, H p q = H q p) /\
  (forall i j a b, (i <= j < m)%nat -> (a < cols i)%nat -> (b < cols j)%nat ->
     H (a + offset cols i)%nat (b + offset cols j)%nat = sumf n (fun r => d2 i j r * X i r a * X j r b)).
Proof.
  intros n stored d2eta d2meta Xs d2 rows columns H m cols X He Hm Hs E.
  assert (Hs' : forall i j a b, (i <= j < length Xs)%nat -> (a < cols_ Xs i)%nat -> (b < cols_ Xs j)%nat -> stored i j a b = false ->
    val n (d2 i j) (X_ Xs i) (X_ Xs j) a b = 0).
  { intros i j a b Hij Ha Hb Eb. unfold val. rewrite row_sum_sumf. now apply Hs. }
  unfold hessian in E. rewrite (triplets_eq n stored d2eta d2meta Xs d2 He Hm) in E.
  set (T := the_triplets n stored Xs d2) in E. unfold csc_array in E.
  assert (NE : T <> []) by (intros C; rewrite C in E; discriminate).
  assert (ET : match T with [] => None | _ => Some (S (list_max (map (fun t => fst (fst t)) T)), S (list_max (map (fun t => snd (fst t)) T)),
              fun p q => fold_right Rplus 0 (map (fun t => if (fst (fst t) =? p)%nat && (snd (fst t) =? q)%nat then snd t else 0) T)) end =
              Some (S (list_max (map (fun t => fst (fst t)) T)), S (list_max (map (fun t => snd (fst t)) T)), get T)).
  { destruct T; [congruence|reflexivity]. }
  rewrite ET in E. injection E as E1 E2 E3. rewrite <- E1, <- E2, <- E3. clear E1 E2 E3 ET.
  split; [f_equal; apply shape_square|]. split; [|split].
  - apply list_max_bound.
    + intros C. apply map_eq_nil in C. contradiction.
    + intros x I. apply in_map_iff in I. destruct I as [t [<- I]]. now apply (triplets_range n stored Xs d2) in I.
  - intros p q. now apply triplets_symmetric.
  - intros i j a b Hij Ha Hb. unfold T. rewrite (entry_upper n stored Xs d2 Hs'); [|assumption|assumption|assumption].
    unfold val. apply row_sum_sumf.
Qed.

(** Second derivatives: if the code is given the derivatives of the log-densities at the current linear predictors,
    gradient and Hessian hold the first and second derivatives of the log-likelihood with respect to the
    coefficients, one row and column per coefficient provided the last one has an explicit entry. *)
Theorem C61_second_derivatives :
  forall n (l : nat -> (nat -> R) -> R) (D1 : nat -> nat -> (nat -> R) -> R) (D2 : nat -> nat -> nat -> (nat -> R) -> R)
         (Dom : nat -> (nat -> R) -> Prop) (Xs : list matrix) (beta : nat -> R) stored d1eta d2eta d2meta i0 a0,
  let m := length Xs in
  let cols := fun i => ncols (nth i Xs (Mat 0 (fun _ _ => 0))) in
  let X := fun i => entry (nth i Xs (Mat 0 (fun _ _ => 0))) in
  let L := loglik n l cols X in
  let eta := predictor cols X beta in
  (forall r e i, Dom r e -> locally (e i) (fun t => Dom r (upd e i t))) ->
  (forall r e i, (r < n)%nat -> (i < m)%nat -> Dom r e -> partial (l r) i e (D1 i r e)) ->
  (forall r e i j, (r < n)%nat -> (i < m)%nat -> (j < m)%nat -> Dom r e -> partial (D1 i r) j e (D2 i j r e)) ->
  (forall r e i j, (r < n)%nat -> Dom r e -> D2 i j r e = D2 j i r e) ->
  (forall r, (r < n)%nat -> Dom r (eta r)) ->
  (forall i r, (i < m)%nat -> (r < n)%nat -> d1eta i r = D1 i r (eta r)) ->
  (forall i r, (i < m)%nat -> (r < n)%nat -> d2eta i r = D2 i i r (eta r)) ->
  (forall k i j r, nth_error (pairs m) k = Some (i, j) -> (r < n)%nat -> d2meta k r = D2 i j r (eta r)) ->
  (forall i j a b, (i <= j < m)%nat -> (a < cols i)%nat -> (b < cols j)%nat -> stored i j a b = false ->
     sumf n (fun r => D2 i j r (eta r) * X i r a * X j r b) = 0) ->
  (i0 < m)%nat -> (a0 < cols i0)%nat -> (0 < cols (m - 1))%nat -> stored i0 (m - 1)%nat a0 (cols (m - 1) - 1)%nat = true ->
  exists H, hessian n stored d2eta d2meta Xs = Some (offset cols m, offset cols m, H) /\
    length (gradient n d1eta Xs) = offset cols m /\
    forall p, (p < offset cols m)%nat ->
      partial L p beta (nth p (gradient n d1eta Xs) 0) /\
      forall q, (q < offset cols m)%nat -> H p q = H q p /\ second L p q beta (H p q).
Proof.
  intros n l D1 D2 Dom Xs beta stored d1eta d2eta d2meta i0 a0 m cols X L eta Hopen H1 H2 Hsym HD Hd1 He Hm Hs Hi0 Ha0 Hc0 Hlast.
  set (d2 := fun i j r => D2 i j r (eta r)).
  assert (Hs' : forall i j a b, (i <= j < length Xs)%nat -> (a < cols_ Xs i)%nat -> (b < cols_ Xs j)%nat -> stored i j a b = false ->
    val n (d2 i j) (X_ Xs i) (X_ Xs j) a b = 0).
  { intros i j a b Hij Ha Hb Eb. unfold val. rewrite row_sum_sumf. now apply Hs. }
  destruct (shape_full n stored Xs d2 i0 a0 (cols (m - 1) - 1)%nat) as [NE Esh];
    [fold m; lia|fold m; lia|exact Ha0|change (cols_ Xs (length Xs - 1)) with (cols (m - 1)%nat); lia|exact Hlast|].
  exists (get (the_triplets n stored Xs d2)). split; [|split].
  - unfold hessian. rewrite (triplets_eq n stored d2eta d2meta Xs d2 He Hm). unfold csc_array.
    rewrite <- shape_square. rewrite Esh. destruct (the_triplets n stored Xs d2); [congruence|reflexivity].
  - apply gradient_length.
  - intros p Hp. destruct (locate Xs m p Hp) as (i & a & Hi & Ha & ->). split.
    + change (offset (cols_ Xs) i) with (offset cols i). change (cols_ Xs i) with (cols i) in Ha.
      change (offset cols i) with (offset (cols_ Xs) i). rewrite gradient_nth by assumption.
      pose proof (loglik_partial n m l D1 Dom cols X H1 beta i a Hi Ha HD) as P.
      unfold slope in P. erewrite sumf_ext; [exact P|]. intros r Hr. cbv beta. now rewrite Hd1.
    + intros q Hq. destruct (locate Xs m q Hq) as (j & b & Hj & Hb & ->). split; [now apply triplets_symmetric|].
      pose proof (loglik_second n m l D1 D2 Dom cols X Hopen H1 H2 beta i a j b Hi Ha Hj Hb HD) as P.
      assert (E : get (the_triplets n stored Xs d2) (a + offset (cols_ Xs) i) (b + offset (cols_ Xs) j) =
                  sumf n (fun r => D2 i j r (predictor cols X beta r) * X i r a * X j r b)); [|rewrite E; exact P].
      destruct (le_lt_dec i j) as [O|O].
      * rewrite (entry_upper n stored Xs d2 Hs'); [|unfold m in *; lia|assumption|assumption]. unfold val. apply row_sum_sumf.
      * rewrite (entry_lower n stored Xs d2 Hs' j i b a); [|unfold m in *; lia|assumption|assumption]. unfold val. rewrite row_sum_sumf.
        apply sumf_ext. intros r Hr. unfold d2. change (entry (X_ Xs j) r b) with (X j r b). change (entry (X_ Xs i) r a) with (X i r a).
        rewrite (Hsym r _ j i Hr (HD r Hr)). unfold eta. ring.
Qed.

(** Shape: the code does not tell scipy how many coefficients there are.  If the last column of the last model
    matrix has no entry, the Hessian has fewer rows than there are coefficients. *)
Theorem C61_shape_refuted : exists n stored d2eta d2meta (Xs : list matrix) rows columns H,
  let m := length Xs in
  let cols := fun i => ncols (nth i Xs (Mat 0 (fun _ _ => 0))) in
  let X := fun i => entry (nth i Xs (Mat 0 (fun _ _ => 0))) in
  (forall i j a b, (i <= j < m)%nat -> (a < cols i)%nat -> (b < cols j)%nat -> stored i j a b = false ->
     sumf n (fun r => (if (i =? j)%nat then d2eta i r else d2meta 0%nat r) * X i r a * X j r b) = 0) /\
  hessian n stored d2eta d2meta Xs = Some (rows, columns, H) /\ (rows < offset cols m)%nat.
Proof.
  exists 1%nat, (fun _ _ a b => (a =? 0)%nat && (b =? 0)%nat), (fun _ _ => -1), (fun _ _ => 0), [Mat 2 (fun _ c => match c with O => 1 | _ => 0 end)].
  eexists. eexists. eexists. cbv zeta. split; [|split].
  - intros i j a b Hij Ha Hb Es. cbn [length] in Hij. replace i with 0%nat in * by lia. replace j with 0%nat in * by lia.
    cbn [Nat.eqb nth ncols entry sumf] in *. destruct a as [|a]; destruct b as [|b]; try discriminate; lra.
  - cbn. reflexivity.
  - cbn. lia.
Qed.
Print Assumptions C61_blocks.
Print Assumptions C61_second_derivatives.
Print Assumptions C61_shape_refuted.

(** Two parameters with two and one columns, two observations, log-densities - e0^2 - e0 e1 - e1^2: all hypotheses
    are met and the Hessian is not diagonal. *)
Example C61_case :
  let l := fun (r : nat) (e : nat -> R) => - e 0%nat * e 0%nat - e 0%nat * e 1%nat - e 1%nat * e 1%nat in
  let D1 := fun (i r : nat) (e : nat -> R) => match i with O => -2 * e 0%nat - e 1%nat | _ => - e 0%nat - 2 * e 1%nat end in
  let D2 := fun (i j r : nat) (e : nat -> R) => if (Nat.min i 1 =? Nat.min j 1)%nat then -2 else -1 in
  let Dom := fun (r : nat) (e : nat -> R) => True in
  let Xs := [Mat 2 (fun r c => match c with O => 1 | _ => INR r end); Mat 1 (fun _ _ => 1)] in
  let stored := fun (i j a b : nat) => true in
  (forall r e i, Dom r e -> locally (e i) (fun t => Dom r (upd e i t))) /\
  (forall r e i, (r < 2)%nat -> (i < 2)%nat -> Dom r e -> partial (l r) i e (D1 i r e)) /\
  (forall r e i j, (r < 2)%nat -> (i < 2)%nat -> (j < 2)%nat -> Dom r e -> partial (D1 i r) j e (D2 i j r e)) /\
  (forall r e i j, (r < 2)%nat -> Dom r e -> D2 i j r e = D2 j i r e) /\
  match hessian 2 stored (fun i r => D2 i i r (fun _ => 0)) (fun k r => D2 0%nat 1%nat r (fun _ => 0)) Xs with
  | Some (3%nat, 3%nat, H) => H 0%nat 0%nat = -4 /\ H 0%nat 1%nat = -2 /\ H 1%nat 2%nat = -1 /\ H 2%nat 0%nat = -2
  | _ => False
  end.
Proof.
  intros l D1 D2 Dom Xs stored. split; [|split; [|split; [|split]]].
  - intros r e i _. apply filter_forall. intros t. exact I.
  - intros r e i _ Hi _. unfold partial, l, D1.
    destruct i as [|[|i]]; [| |lia]; unfold upd; cbn [Nat.eqb]; auto_derive; try exact I; ring.
  - intros r e i j _ Hi Hj _. unfold partial, D1, D2.
    destruct i as [|[|i]], j as [|[|j]]; try lia; unfold upd; cbn [Nat.eqb Nat.min]; auto_derive; try exact I; ring.
  - intros r e i j _ _. unfold D2. now rewrite Nat.eqb_sym.
  - cbn. repeat split; unfold row_sum; cbn; lra.
Qed.

(** ** C52: splitting the coefficients by parameter *)

(** [sizes] are the numbers of coefficients per formula, followed by the number of extra coefficients if the family
    has any.  The pieces put together are the vector; each has its size; get_pars returns exactly the piece, or for
    a term the coefficients at the term's positions in the piece, and refuses an index that is too large. *)
Theorem C52_split : forall {A} (d : A) (m : model A),
  let sizes := form_n_coef m ++ match extra m with Some e => [e] | None => [] end in
  form_n_coef m <> [] ->
  length (coef m) = fold_right Nat.add 0%nat sizes ->
  split_idx m = coef_split_idx (form_n_coef m) (extra m) ->
  let pieces := np_split (coef m) (split_idx m) in
  concat pieces = coef m /\ length pieces = length sizes /\
  get_pars d m None None = Returned (coef m) /\
  (forall i, (i < length sizes)%nat ->
     length (nth i pieces []) = nth i sizes 0%nat /\ nth i pieces [] = piece sizes i (coef m) /\
     get_pars d m (Some i) None = Returned (piece sizes i (coef m))) /\
  (forall i t, (i < length (form_n_coef m))%nat ->
     let idx := nth t (nth i (coef_idx_per_term m) []) [] in
     (forall k, In k idx -> (k < nth i (form_n_coef m) 0)%nat) ->
     get_pars d m (Some i) (Some t) = Returned (map (fun k => nth (fold_right Nat.add 0%nat (firstn i sizes) + k)%nat (coef m) d) idx)) /\
  (forall i t, (length sizes <= i)%nat -> get_pars d m (Some i) t = ValueError).
Proof.
  intros A d m sz NE HL Hidx pieces.
  assert (NEs : sz <> []) by (unfold sz; destruct (form_n_coef m); [congruence|discriminate]).
  assert (Ep : pieces = np_split (coef m) (csum 0 (removelast sz))).
  { unfold pieces. rewrite Hidx. rewrite split_idx_eq by assumption. reflexivity. }
  destruct (np_split_spec sz (coef m) NEs HL) as (S1 & S2 & S3). rewrite <- Ep in S1, S2, S3.
  assert (Lsz : length sz = (length (form_n_coef m) + (if match extra m with Some _ => true | None => false end then 1 else 0))%nat).
  { unfold sz. rewrite app_length. destruct (extra m); reflexivity. }
  assert (Sub : forall i, (i < length sz)%nat ->
    (if (1 <? length (form_n_coef m))%nat || match extra m with Some _ => true | None => false end then nth i pieces [] else coef m) = piece sz i (coef m)).
  { intros i Hi. destruct ((1 <? length (form_n_coef m))%nat || match extra m with Some _ => true | None => false end)%bool eqn:E; [now apply S3|].
    apply orb_false_iff in E. destruct E as [E1 E2]. apply Nat.ltb_ge in E1.
    destruct (extra m) eqn:Ex; [discriminate|]. unfold sz in *. destruct (form_n_coef m) as [|n0 [|]]; [congruence| |cbn in E1; lia].
    cbn in Hi, HL. replace i with 0%nat by lia. unfold piece. cbn. rewrite firstn_all2; [reflexivity|lia]. }
  split; [exact S2|]. split; [exact S1|]. split; [reflexivity|]. split; [|split].
  - intros i Hi. rewrite S3 by assumption. split; [now apply piece_length|]. split; [reflexivity|].
    unfold get_pars. rewrite <- Lsz. rewrite (proj2 (Nat.leb_gt (length sz) i)) by assumption. fold pieces. now rewrite Sub.
  - intros i t Hi idx Hk. assert (Hi' : (i < length sz)%nat) by (rewrite Lsz; lia).
    unfold get_pars. rewrite <- Lsz. rewrite (proj2 (Nat.leb_gt (length sz) i)) by assumption.
    rewrite (proj2 (Nat.eqb_neq i (length (form_n_coef m)))) by lia. fold pieces. rewrite Sub by assumption. fold idx.
    f_equal. apply map_ext_in. intros k Ik. apply piece_nth.
    replace (nth i sz 0%nat) with (nth i (form_n_coef m) 0%nat); [now apply Hk|]. unfold sz. now rewrite app_nth1.
  - intros i t Hi. unfold get_pars. rewrite <- Lsz. now rewrite (proj2 (Nat.leb_le (length sz) i)).
Qed.
Print Assumptions C52_split.

(** Two formulas with two and three coefficients and one extra coefficient. *)
Example C52_case :
  let m := Model [2; 3]%nat [[[0; 1]]; [[0]; [1; 2]]]%nat (Some 1%nat) [10; 11; 20; 21; 22; 30]%nat (coef_split_idx [2; 3]%nat (Some 1%nat)) in
  split_idx m = [2; 5]%nat /\
  np_split (coef m) (split_idx m) = [[10; 11]; [20; 21; 22]; [30]]%nat /\
  get_pars 0%nat m (Some 1%nat) (Some 1%nat) = Returned [21; 22]%nat /\
  get_pars 0%nat m (Some 2%nat) None = Returned [30]%nat /\
  get_pars 0%nat m (Some 3%nat) None = ValueError.
Proof. cbn. repeat split. Qed.

(** ** C62: dropped coefficients *)

(** Without extra coefficients: whatever is dropped, every reduced matrix has the columns that were not dropped, in
    order, and the piece of the reduced vector that is multiplied with it holds the coefficients of those columns. *)
Theorem C62_aligned : forall {A C} (da : A) (d : C) (Xs : list (list C)) (coef : list A) (drop : list nat),
  Xs <> [] -> length coef = fold_right Nat.add 0%nat (map (@length C) Xs) ->
  exists idx rXs, handle_drop da d coef (map Some Xs) (keep_of (length coef) drop) = Some (survivors drop 0 coef, idx, rXs) /\
    check_drop da d coef (map Some Xs) (keep_of (length coef) drop) None = Some (survivors drop 0 coef, idx, rXs) /\
    length rXs = length Xs /\
    forall i, (i < length Xs)%nat ->
      let from := fold_right Nat.add 0%nat (firstn i (map (@length C) Xs)) in
      nth i rXs [] = survivors drop from (nth i Xs []) /\
      nth i (np_split (survivors drop 0 coef) idx) [] = survivors drop from (piece (map (@length C) Xs) i coef).
Proof.
  intros A C da d Xs coef drop NE HL.
  unfold handle_drop, check_drop. rewrite (drop_terms_eq d (length coef) drop Xs NE) by lia. rewrite take_survivors.
  eexists. eexists. split; [reflexivity|]. split; [reflexivity|]. split; [apply reduced_length|].
  intros i Hi. set (from := fold_right Nat.add 0%nat (firstn i (map (@length C) Xs))). split; [exact (reduced_nth drop Xs 0 i Hi)|].
  destruct (survivors_pieces drop Xs coef 0 HL) as [S1 S2]. specialize (S2 i Hi). cbn [Nat.add] in S2. fold from in S2. rewrite <- S2.
  destruct Xs as [|X [|X' Xs]]; [congruence| |].
  - cbn in Hi. replace i with 0%nat by lia. cbn [reduced map np_split np_split_from nth]. unfold np_split. cbn [np_split_from nth].
    unfold piece. cbn. now rewrite Nat.sub_0_r.
  - apply (np_split_spec (map (@length C) (reduced drop 0 (X :: X' :: Xs))) (survivors drop 0 coef)); [discriminate|assumption|].
    rewrite map_length, reduced_length. exact Hi.
Qed.

(** So the linear predictors of the reduced model are those of the full model with zeros for dropped coefficients,
    which is what is returned after padding. *)
Theorem C62_predictors : forall (zero : nat -> R) (Xs : list (list (nat -> R))) (coef : list R) (drop : list nat) idx rXs coef',
  Xs <> [] -> length coef = fold_right Nat.add 0%nat (map (@length (nat -> R)) Xs) ->
  let keep := keep_of (length coef) drop in
  handle_drop 0 zero coef (map Some Xs) keep = Some (coef', idx, rXs) ->
  let full := pad 0 (length coef) keep coef' in
  length full = length coef /\
  (forall k, (k < length coef)%nat -> nth k full 0 = if in_dec Nat.eq_dec k drop then 0 else nth k coef 0) /\
  forall i r, (i < length Xs)%nat ->
    dot r (nth i rXs []) (nth i (np_split coef' idx) []) =
    dot r (nth i Xs []) (nth i (np_split full (coef_split_idx (map (@length (nat -> R)) Xs) None)) []).
Proof.
  intros zero Xs coef drop idx rXs coef' NE HL keep E full.
  destruct (C62_aligned 0 zero Xs coef drop NE HL) as (idx' & rXs' & E' & _ & L & H). fold keep in E'.
  rewrite E in E'. injection E' as E1 E2 E3. subst coef' idx rXs.
  assert (Ef : full = zeroed drop 0 coef).
  { unfold full, keep. rewrite <- take_survivors with (d := 0). apply pad_zeroed. }
  rewrite Ef. split; [apply zeroed_length|]. split; [intros k Hk; now rewrite zeroed_nth|].
  intros i r Hi. destruct (H i Hi) as [H1 H2]. rewrite H1, H2. rewrite dot_survivors.
  - f_equal. rewrite split_idx_eq by (destruct Xs; [congruence|discriminate]). unfold sizes. rewrite app_nil_r.
    destruct (np_split_spec (map (@length (nat -> R)) Xs) (zeroed drop 0 coef)) as (_ & _ & S3).
    + destruct Xs; [congruence|discriminate].
    + now rewrite zeroed_length.
    + rewrite S3 by (now rewrite map_length). symmetry. apply piece_zeroed.
  - rewrite piece_length; [|assumption|now rewrite map_length].
    change 0%nat with (length (@nil (nat -> R))) at 1. symmetry. apply map_nth.
Qed.

(** Matrices (Hessian, factors) of the remaining coefficients are put back at the positions of those coefficients. *)
Theorem C62_padded_matrices : forall n drop (T : list (nat * nat * R)),
  let keep := keep_of n drop in
  (forall t, In t T -> (fst (fst t) < length keep /\ snd (fst t) < length keep)%nat) ->
  (forall a b, (a < length keep)%nat -> (b < length keep)%nat ->
     (nth a keep 0 < n)%nat /\ ~ In (nth a keep 0%nat) drop /\
     entry_at (pad_triplets keep T) (nth a keep 0%nat) (nth b keep 0%nat) = entry_at T a b) /\
  (forall p q, In p drop \/ In q drop -> entry_at (pad_triplets keep T) p q = 0).
Proof.
  intros n drop T keep H. destruct (padded_entry keep (keep_nodup n drop) T H) as [H1 H2]. split.
  - intros a b Ha Hb. pose proof (proj1 (keep_in n drop (nth a keep 0%nat)) (nth_In keep 0%nat Ha)) as [K1 K2].
    split; [assumption|]. split; [assumption|]. now apply H1.
  - intros p q Hpq. apply H2. destruct Hpq as [Hp|Hq]; [left|right]; intros C; apply keep_in in C; tauto.
Qed.

(** With extra coefficients (never dropped): the check is aligned if there are several formulas, the final step if
    there is one. *)
Theorem C62_extra : forall {A C} (da : A) (d : C) (Xs : list (list C)) (b ex : list A) (drop0 : list nat),
  Xs <> [] -> length b = fold_right Nat.add 0%nat (map (@length C) Xs) ->
  let coef := b ++ ex in
  let drop := valid_drop (length coef) (length ex) drop0 in
  let keep := keep_of (length coef) drop in
  exists idx rXs,
    (if (1 <? length Xs)%nat then check_drop da d coef (map Some Xs) keep (Some (length ex)) else handle_drop da d coef (map Some Xs) keep)
      = Some (survivors drop 0 b ++ ex, idx, rXs) /\
    length rXs = length Xs /\
    (forall i, (i < length Xs)%nat ->
      let from := fold_right Nat.add 0%nat (firstn i (map (@length C) Xs)) in
      nth i rXs [] = survivors drop from (nth i Xs []) /\
      nth i (np_split (survivors drop 0 b ++ ex) idx) [] = survivors drop from (piece (map (@length C) Xs) i b)) /\
    nth (length Xs) (np_split (survivors drop 0 b ++ ex) idx) [] = ex.
Proof.
  intros A C da d Xs b ex drop0 NE HL coef drop keep.
  assert (Ec : take da coef keep = survivors drop 0 b ++ ex).
  { unfold keep. rewrite take_survivors. unfold coef. rewrite survivors_app. f_equal. apply survivors_all.
    intros k I. unfold drop, valid_drop in I. apply filter_In in I. destruct I as [_ I]. apply Nat.ltb_lt in I. unfold coef in I. rewrite app_length in I. lia. }
  destruct (survivors_pieces drop Xs b 0 HL) as [S1 S2].
  assert (Hd : drop_terms_X d (map Some Xs) keep = Some (reduced drop 0 Xs, match Xs with [X] => [length (survivors drop 0 X)] | _ => csum 0 (removelast (map (@length C) (reduced drop 0 Xs))) end)).
  { apply drop_terms_eq; [assumption|]. unfold coef. rewrite app_length. lia. }
  assert (Hp : forall i, (i < length Xs)%nat -> piece (map (@length C) (reduced drop 0 Xs) ++ [length ex]) i (survivors drop 0 b ++ ex) = survivors drop (fold_right Nat.add 0%nat (firstn i (map (@length C) Xs))) (piece (map (@length C) Xs) i b)).
  { intros i Hi. refine (eq_trans _ (S2 i Hi)). unfold piece. rewrite app_nth1 by (now rewrite map_length, reduced_length).
    rewrite firstn_app. replace (i - length (map (length (A:=C)) (reduced drop 0 Xs)))%nat with 0%nat by (rewrite map_length, reduced_length; lia).
    rewrite firstn_O, app_nil_r.
    assert (B : (fold_right Nat.add 0 (firstn i (map (@length C) (reduced drop 0 Xs))) + nth i (map (@length C) (reduced drop 0 Xs)) 0 <= length (survivors drop 0 b))%nat).
    { rewrite S1. apply lsum_firstn_le. now rewrite map_length, reduced_length. }
    rewrite skipn_app. rewrite firstn_app. rewrite skipn_length.
    match goal with |- ?a ++ ?c = _ => replace c with (@nil A); [apply app_nil_r|] end. symmetry.
    match goal with |- firstn ?k _ = _ => replace k with 0%nat by lia end. reflexivity. }
  assert (Hex : piece (map (@length C) (reduced drop 0 Xs) ++ [length ex]) (length Xs) (survivors drop 0 b ++ ex) = ex).
  { unfold piece. rewrite app_nth2 by (rewrite map_length, reduced_length; lia). rewrite map_length, reduced_length, Nat.sub_diag. cbn [nth].
    rewrite firstn_app. replace (length Xs - length (map (length (A:=C)) (reduced drop 0 Xs)))%nat with 0%nat by (rewrite map_length, reduced_length; lia).
    rewrite firstn_O, app_nil_r. rewrite (firstn_all2 (map (@length C) (reduced drop 0 Xs))) by (rewrite map_length, reduced_length; lia). rewrite <- S1.
    rewrite skipn_app, skipn_all, Nat.sub_diag. cbn [app skipn]. apply firstn_all. }
  assert (Hsp : forall idx, idx = csum 0 (map (@length C) (reduced drop 0 Xs)) ->
     (forall i, (i < length Xs)%nat -> nth i (np_split (survivors drop 0 b ++ ex) idx) [] = survivors drop (fold_right Nat.add 0%nat (firstn i (map (@length C) Xs))) (piece (map (@length C) Xs) i b)) /\
     nth (length Xs) (np_split (survivors drop 0 b ++ ex) idx) [] = ex).
  { intros idx ->. set (sz := map (@length C) (reduced drop 0 Xs)) in *.
    replace (csum 0 sz) with (csum 0 (removelast (sz ++ [length ex]))) by (now rewrite removelast_last).
    destruct (np_split_spec (sz ++ [length ex]) (survivors drop 0 b ++ ex)) as (_ & _ & S3).
    { destruct sz; discriminate. }
    { rewrite app_length, S1, lsum_app. cbn. lia. }
    assert (Lsz : length sz = length Xs) by (unfold sz; now rewrite map_length, reduced_length).
    split.
    - intros i Hi. rewrite S3 by (rewrite app_length; cbn; lia). now apply Hp.
    - rewrite S3 by (rewrite app_length; cbn; lia). exact Hex. }
  unfold check_drop, handle_drop. rewrite Hd, Ec.
  destruct Xs as [|X [|X' Xs]]; [congruence| |].
  - cbn [length Nat.ltb Nat.leb]. eexists. eexists. split; [reflexivity|]. split; [reflexivity|].
    destruct (Hsp [length (survivors drop 0 X)]) as [P1 P2]; [cbn; now rewrite Nat.add_0_r|].
    split; [|exact P2]. intros i Hi. split; [|now apply P1].
    exact (reduced_nth drop [X] 0 i Hi).
  - change (1 <? length (X :: X' :: Xs))%nat with true. cbv iota. eexists. eexists. split; [reflexivity|]. split; [apply reduced_length|].
    match goal with |- context [np_split _ ?idx] => destruct (Hsp idx) as [P1 P2] end.
    + set (sz := map (@length C) (reduced drop 0 (X :: X' :: Xs))).
      assert (E : (length (last (reduced drop 0 (X :: X' :: Xs)) []) = last sz 0)%nat).
      { unfold sz. generalize (reduced drop 0 (X :: X' :: Xs)). intros l. induction l as [|x l IH]; [reflexivity|]. destruct l; [reflexivity|]. exact IH. }
      rewrite E.
      assert (NEr : removelast sz <> []) by (unfold sz; cbn; discriminate).
      transitivity (csum 0 (removelast sz ++ [last sz 0%nat])); [rewrite csum_snoc; reflexivity|].
      f_equal. symmetry. apply app_removelast_last. unfold sz; cbn; discriminate.
    + split; [|exact P2]. intros i Hi. split; [|now apply P1]. exact (reduced_nth drop (X :: X' :: Xs) 0 i Hi).
Qed.

(** The final step forgets the position of the extra coefficients if there are several formulas: the last parameter
    gets more coefficients than its matrix has columns. *)
Theorem C62_extra_refuted : exists (Xs : list (list nat)) (b ex : list nat) (drop : list nat) coef' idx rXs,
  length b = fold_right Nat.add 0%nat (map (@length nat) Xs) /\
  handle_drop 0%nat 0%nat (b ++ ex) (map Some Xs) (keep_of (length (b ++ ex)) (valid_drop (length (b ++ ex)) (length ex) drop)) = Some (coef', idx, rXs) /\
  length (nth 1 (np_split coef' idx) []) <> length (nth 1 rXs []) /\ nth 2 (np_split coef' idx) [] <> ex.
Proof.
  exists [[100; 101]; [200; 201]]%nat, [10; 11; 20; 21]%nat, [30]%nat, [1]%nat. eexists. eexists. eexists.
  split; [reflexivity|]. split; [vm_compute; reflexivity|]. split; vm_compute; discriminate.
Qed.

(** The check before it counts the only matrix twice if there is one formula: with more extra coefficients than
    remaining columns they are torn apart. *)
Theorem C62_check_refuted : exists (X : list nat) (b ex : list nat) (drop : list nat) coef' idx rXs,
  length b = length X /\
  check_drop 0%nat 0%nat (b ++ ex) [Some X] (keep_of (length (b ++ ex)) (valid_drop (length (b ++ ex)) (length ex) drop)) (Some (length ex)) = Some (coef', idx, rXs) /\
  nth 1 (np_split coef' idx) [] <> ex.
Proof.
  exists [100; 101]%nat, [10; 11]%nat, [30; 31]%nat, [1]%nat. eexists. eexists. eexists.
  split; [reflexivity|]. split; [vm_compute; reflexivity|]. vm_compute; discriminate.
Qed.

(** If a formula's matrix was not built (build_mat), finding a coefficient to drop ends in an exception. *)
Theorem C62_unbuilt_refuted : exists (Xs : list (option (list nat))) (coef drop : list nat),
  Xs = [Some [100; 101]; None]%nat /\ handle_drop 0%nat 0%nat coef Xs (keep_of (length coef) drop) = None.
Proof. exists [Some [100; 101]; None]%nat, [10; 11; 20]%nat, [1]%nat. split; reflexivity. Qed.
Print Assumptions C62_aligned.
Print Assumptions C62_predictors.
Print Assumptions C62_padded_matrices.
Print Assumptions C62_extra.
Print Assumptions C62_extra_refuted.
Print Assumptions C62_check_refuted.
Print Assumptions C62_unbuilt_refuted.

(** Three parameters; a coefficient of the first and all of the second are dropped. *)
Example C62_case :
  handle_drop 0%nat 0%nat [10; 11; 20; 30; 31]%nat (map Some [[100; 101]; [200]; [300; 301]]%nat) (keep_of 5 [0; 2]%nat) =
    Some ([11; 30; 31], [1; 1], [[101]; []; [300; 301]])%nat /\
  np_split [11; 30; 31]%nat [1; 1]%nat = [[11]; []; [30; 31]]%nat /\
  pad 0%nat 5 (keep_of 5 [0; 2]%nat) [11; 30; 31]%nat = [0; 11; 0; 30; 31]%nat.
Proof. repeat split. Qed.
Example C62_extra_case :
  check_drop 0%nat 0%nat [10; 11; 20; 99]%nat (map Some [[100; 101]; [200]]%nat) (keep_of 4 (valid_drop 4 1 [0; 3]%nat)) (Some 1%nat) =
    Some ([11; 20; 99], [1; 2], [[101]; [200]])%nat /\
  np_split [11; 20; 99]%nat [1; 2]%nat = [[11]; [20]; [99]]%nat.
Proof. repeat split. Qed.
