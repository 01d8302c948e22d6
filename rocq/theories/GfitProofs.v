(** Proofs for GfitModel: splitting, start values, options and rows. *)
From Coq Require Import List Arith ZArith QArith Qround Bool Lia.
From Verif Require Import GfitModel GfitSpec.
Import ListNotations.
Local Open Scope nat_scope.

(** ** Splitting *)
Fixpoint csum (a : nat) (l : list nat) : list nat :=
  match l with [] => [] | x :: r => (a + x) :: csum (a + x) r end.

Lemma set_nth_app : forall A (p : list A) x r v, set_nth (p ++ x :: r) (length p) v = p ++ v :: r.
Proof. intros A p. induction p as [|y p IH]; intros; simpl; [reflexivity|]. now rewrite IH. Qed.

Lemma cumulate_loop : forall r p a,
  fold_left (fun l i => set_nth l i (nth i l 0 + nth (i - 1) l 0)) (seq (S (length p)) (length r)) (p ++ a :: r)
  = p ++ a :: csum a r.
Proof.
  induction r as [|x r IH]; intros p a; [reflexivity|].
  cbn [length seq fold_left].
  assert (HS : S (length p) = length (p ++ [a])) by (rewrite app_length; simpl; lia).
  rewrite HS.
  replace (p ++ a :: x :: r) with ((p ++ [a]) ++ x :: r) by (rewrite <- app_assoc; reflexivity).
  rewrite set_nth_app.
  rewrite nth_middle.
  replace (length (p ++ [a]) - 1) with (length p) by (rewrite app_length; simpl; lia).
  assert (Ha : nth (length p) ((p ++ [a]) ++ x :: r) 0 = a).
  { rewrite <- app_assoc. cbn [app]. apply nth_middle. }
  rewrite Ha.
  specialize (IH (p ++ [a]) (x + a)).
  rewrite IH. rewrite <- app_assoc. cbn [app csum]. now rewrite (Nat.add_comm x a).
Qed.

Lemma cumulate_csum : forall l, cumulate l = csum 0 l.
Proof.
  intros [|a r]; [reflexivity|]. unfold cumulate. cbn [length].
  replace (S (length r) - 1) with (length r) by lia.
  exact (cumulate_loop r [] a).
Qed.

Lemma nth_error_skip : forall A n (l : list A) k, nth_error (skipn n l) k = nth_error l (n + k).
Proof.
  intros A. induction n as [|n IH]; intros l k; [reflexivity|]. destruct l as [|x l]; [destruct k; reflexivity|].
  cbn [skipn Nat.add nth_error]. apply IH.
Qed.
Lemma nth_error_first : forall A n (l : list A) k, k < n -> nth_error (firstn n l) k = nth_error l k.
Proof.
  intros A. induction n as [|n IH]; intros l k H; [lia|]. destruct l as [|x l]; [destruct k; reflexivity|].
  destruct k as [|k]; [reflexivity|]. cbn [firstn nth_error]. apply IH. lia.
Qed.

Lemma split_csum : forall A (ns : list nat) n (l : list A) st,
  length l = st + list_sum (ns ++ [n]) ->
  forall i p, nth_error (np_split_from l st (csum st ns)) i = Some p ->
    length p = nth i (ns ++ [n]) 0 /\
    forall k, k < length p -> nth_error p k = nth_error l (st + before (ns ++ [n]) i + k).
Proof.
  intros A. induction ns as [|m ns IH]; intros n l st Hl i p Hi.
  - cbn in Hl. destruct i as [|[|i]]; cbn in Hi; try discriminate. inversion Hi; subst p; clear Hi.
    unfold slice. rewrite firstn_length, skipn_length. split; [cbn; lia|].
    intros k Hk. cbn [before firstn list_sum].
    rewrite nth_error_first by lia. rewrite nth_error_skip. f_equal. cbn. lia.
  - cbn [app list_sum fold_right] in Hl. change (fold_right Nat.add 0 (ns ++ [n])) with (list_sum (ns ++ [n])) in Hl.
    destruct i as [|i].
    + cbn in Hi. inversion Hi; subst p; clear Hi. unfold slice.
      replace (st + m - st) with m by lia.
      rewrite firstn_length, skipn_length. split; [cbn; lia|].
      intros k Hk. cbn [before firstn].
      rewrite nth_error_first by lia. rewrite nth_error_skip. f_equal. unfold before. cbn. lia.
    + cbn [csum np_split_from nth_error] in Hi.
      destruct (IH n l (st + m) ltac:(lia) i p Hi) as [H1 H2].
      split; [exact H1|]. intros k Hk. rewrite (H2 k Hk).
      change (before ((m :: ns) ++ [n]) (S i)) with (m + before (ns ++ [n]) i). f_equal. lia.
Qed.

Lemma split_length : forall A (l : list A) idx st, length (np_split_from l st idx) = S (length idx).
Proof. intros A l. induction idx; intros; cbn; [reflexivity|]. now rewrite IHidx. Qed.
Lemma csum_length : forall l a, length (csum a l) = length l.
Proof. induction l; intros; cbn; [reflexivity|]. now rewrite IHl. Qed.

Lemma csum_one : forall a, csum 0 [a] = [a].
Proof. reflexivity. Qed.

Lemma idx_csum : forall ns extra, ns <> [] -> coef_split_idx ns extra = csum 0 (removelast (sizes ns extra)).
Proof.
  intros ns extra H. unfold coef_split_idx.
  assert (E : form_n_coef ns extra = sizes ns extra).
  { unfold form_n_coef, sizes. destruct extra; [reflexivity|]. now rewrite app_nil_r. }
  rewrite E. destruct (1 <? length ns) eqn:L; [apply cumulate_csum|].
  apply Nat.ltb_ge in L. destruct ns as [|a [|b ns]]; [congruence| |cbn in L; lia].
  destruct extra; reflexivity.
Qed.

Lemma sizes_last : forall ns extra, ns <> [] -> exists p n, sizes ns extra = p ++ [n].
Proof.
  intros ns extra H. destruct (exists_last (l := sizes ns extra)) as [p [n E]].
  - destruct ns; [congruence|]. discriminate.
  - now exists p, n.
Qed.

Lemma split_pieces : forall A (l : list A) ns extra, ns <> [] -> length l = list_sum (sizes ns extra) ->
  pieces l (sizes ns extra) (np_split l (coef_split_idx ns extra)).
Proof.
  intros A l ns extra Hn Hl. rewrite (idx_csum ns extra Hn).
  destruct (sizes_last ns extra Hn) as [p [n E]]. rewrite E in *. rewrite removelast_last.
  split.
  - unfold np_split. rewrite split_length, csum_length, app_length. cbn. lia.
  - intros i q Hi. exact (split_csum A p n l 0 Hl i q Hi).
Qed.

Lemma list_ext : forall A (a b : list A), (forall k, nth_error a k = nth_error b k) -> a = b.
Proof.
  intros A. induction a as [|x a IH]; intros [|y b] H; [reflexivity|discriminate (H 0)|discriminate (H 0)|].
  f_equal; [injection (H 0); easy|]. apply IH. intros k. exact (H (S k)).
Qed.

Lemma pieces_concat : forall A (ns : list nat) (ps : list (list A)) l, pieces l ns ps -> length l = list_sum ns -> concat ps = l.
Proof.
  intros A. induction ns as [|n ns IH]; intros ps l [H1 H2] Hl.
  - destruct ps; [|discriminate]. destruct l; [reflexivity|discriminate].
  - destruct ps as [|p ps]; [discriminate|]. cbn [concat].
    destruct (H2 0 p eq_refl) as [Hp Hk]. cbn in Hp.
    assert (E : p = firstn n l).
    { apply list_ext. intros k. destruct (Nat.lt_ge_cases k (length p)) as [L|L].
      - rewrite (Hk k L). cbn [before firstn list_sum fold_right Nat.add].
        symmetry. apply nth_error_first. lia.
      - rewrite (proj2 (nth_error_None p k) L). symmetry. apply nth_error_None. rewrite firstn_length. lia. }
    rewrite <- (firstn_skipn n l), E. f_equal. apply IH.
    + split; [cbn in H1; lia|]. intros i q Hi. destruct (H2 (S i) q Hi) as [Hq Hq2].
      split; [exact Hq|]. intros k L. rewrite (Hq2 k L).
      change (before (n :: ns) (S i)) with (n + before ns i).
      rewrite nth_error_skip. f_equal. lia.
    + rewrite skipn_length. cbn in Hl. change (fold_right Nat.add 0 ns) with (list_sum ns) in Hl. lia.
Qed.

(** ** Start values *)
Lemma set_lams_default : forall V (d : V) n i, set_lams V d None i n = Done (repeat d n).
Proof. intros V d. induction n; intros; cbn [set_lams repeat]; [reflexivity|]. now rewrite IHn. Qed.

Lemma skipn_S : forall A (l : list A) i v, nth_error l i = Some v -> skipn i l = v :: skipn (S i) l.
Proof.
  intros A. induction l as [|x l IH]; intros [|i] v H; try discriminate; [injection H as ->; reflexivity|].
  cbn [skipn]. rewrite (IH i v H). reflexivity.
Qed.

Lemma set_lams_given : forall V (d : V) l n i, i + n <= length l ->
  set_lams V d (Some l) i n = Done (firstn n (skipn i l)).
Proof.
  intros V d l. induction n as [|n IH]; intros i H; [reflexivity|].
  cbn [set_lams]. destruct (nth_error l i) as [v|] eqn:E.
  - rewrite IH by lia. rewrite (skipn_S _ _ _ _ E). reflexivity.
  - apply nth_error_None in E. lia.
Qed.

Lemma set_lams_short : forall V (d : V) l n i, i <= length l -> length l < i + n ->
  set_lams V d (Some l) i n = IndexError.
Proof.
  intros V d l. induction n as [|n IH]; intros i Hi H; [lia|].
  cbn [set_lams]. destruct (nth_error l i) as [v|] eqn:E; [|reflexivity].
  assert (i < length l) by (apply nth_error_Some; congruence).
  now rewrite IH by lia.
Qed.

(** ** Rows *)
Lemma masked_kth : forall A (l : list A) mask k, length mask = length l ->
  nth_error (masked l mask) k = match kth_true mask k with Some j => nth_error l j | None => None end.
Proof.
  intros A. induction l as [|a l IH]; intros [|b mask] k H; try discriminate; [destruct k; reflexivity|].
  injection H as H. cbn [masked kth_true]. destruct b.
  - destruct k as [|k]; [reflexivity|]. cbn [nth_error]. rewrite IH by exact H. destruct (kth_true mask k); reflexivity.
  - rewrite IH by exact H. destruct (kth_true mask k); reflexivity.
Qed.
Lemma map_masked : forall A B (f : A -> B) l mask, masked (map f l) mask = map f (masked l mask).
Proof. intros A B f. induction l as [|a l IH]; intros [|b mask]; try reflexivity. cbn. destruct b; cbn; now rewrite IH. Qed.
