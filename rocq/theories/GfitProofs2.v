(** Proofs for GfitModel: columns of the structured update. *)
From Coq Require Import List Arith ZArith QArith Qround Bool Sorted Permutation Lia.
From Verif Require Import GfitModel GfitSpec.
Import ListNotations.
Local Open Scope nat_scope.

Lemma insert_in : forall x l y, In y (insert x l) <-> y = x \/ In y l.
Proof.
  intros x. induction l as [|z l IH]; intros y; cbn [insert].
  - cbn [In]. split; intros [H|H]; auto.
  - destruct (x <? z); [cbn [In]; split; intros [H|H]; auto|]. destruct (x =? z) eqn:E.
    + apply Nat.eqb_eq in E. subst z. cbn [In]. split; [auto|]. intros [->|H]; auto.
    + cbn [In]. rewrite IH. tauto.
Qed.
Lemma unique_in : forall l y, In y (unique l) <-> In y l.
Proof. induction l as [|x l IH]; intros y; [reflexivity|]. unfold unique in *. cbn. rewrite insert_in, IH. split; intros [H|H]; auto. Qed.

Lemma insert_sorted : forall x l, StronglySorted lt l -> StronglySorted lt (insert x l).
Proof.
  intros x. induction l as [|z l IH]; intros H; cbn [insert]; [repeat constructor|].
  apply StronglySorted_inv in H as [H1 H2].
  destruct (x <? z) eqn:L.
  - apply Nat.ltb_lt in L. constructor; [constructor; assumption|]. constructor; [exact L|].
    eapply Forall_impl; [|exact H2]. cbn. intros; lia.
  - destruct (x =? z) eqn:E; [constructor; assumption|].
    apply Nat.ltb_ge in L. apply Nat.eqb_neq in E. constructor; [now apply IH|].
    apply Forall_forall. intros y Hy. apply insert_in in Hy as [->|Hy]; [lia|]. exact (proj1 (Forall_forall _ _) H2 y Hy).
Qed.
Lemma unique_sorted : forall l, StronglySorted lt (unique l).
Proof. induction l; [constructor|]. now apply insert_sorted. Qed.
Lemma insert_length : forall x l, ~ In x l -> length (insert x l) = S (length l).
Proof.
  intros x. induction l as [|z l IH]; intros H; cbn [insert]; [reflexivity|].
  destruct (x <? z); [reflexivity|]. destruct (x =? z) eqn:E.
  - apply Nat.eqb_eq in E. subst. exfalso. apply H. now left.
  - cbn. rewrite IH; [reflexivity|]. intros Hi. apply H. now right.
Qed.
Lemma unique_length : forall l, NoDup l -> length (unique l) = length l.
Proof.
  induction l as [|x l IH]; intros H; [reflexivity|]. apply NoDup_cons_iff in H as [H1 H2].
  change (unique (x :: l)) with (insert x (unique l)). rewrite insert_length; [now rewrite (IH H2)|].
  now rewrite unique_in.
Qed.

(** ** Candidates *)
Lemma add_terms_spec : forall start ts acc,
  add_terms start ts acc = acc ++ concat (map (fun t => map (fun c => c + start) (t_idx t)) (filter (fun t => negb (is_fs t)) ts)).
Proof.
  intros start. induction ts as [|t ts IH]; intros acc; cbn; [now rewrite app_nil_r|].
  rewrite IH. destruct (is_fs t); cbn; [reflexivity|]. now rewrite <- app_assoc.
Qed.

Definition sel (f : form) : list term :=
  filter (fun t => negb (is_fs t)) (filter is_linear (f_terms f) ++ filter is_impulse (f_terms f) ++ filter is_smooth (f_terms f)).
Definition fcand (f : form) : list nat := concat (map t_idx (sel f)).

Lemma concat_shift : forall start ts,
  concat (map (fun t => map (fun c => c + start) (t_idx t)) ts) = map (fun c => c + start) (concat (map t_idx ts)).
Proof. intros. rewrite concat_map, map_map. reflexivity. Qed.

Lemma sel_in : forall f t, In t (sel f) <-> In t (f_terms f) /\ fixed_kind (t_kind t).
Proof.
  intros f t. unfold sel, fixed_kind, is_linear, is_impulse, is_smooth, is_fs.
  rewrite filter_In, !in_app_iff, !filter_In.
  destruct (t_kind t); cbn; intuition (try congruence; try discriminate).
Qed.

Lemma sel_perm : forall (ts : list term),
  exists rest, Permutation ts (filter (fun t => negb (is_fs t)) (filter is_linear ts ++ filter is_impulse ts ++ filter is_smooth ts) ++ rest).
Proof.
  induction ts as [|t ts [rest IH]]; [now exists []|].
  rewrite !filter_app in IH |- *. unfold is_linear, is_impulse, is_smooth, is_fs in *.
  cbn [filter]. destruct (t_kind t) eqn:K; cbn [filter]; rewrite ?K; cbn [negb filter app].
  - exists rest. now constructor.
  - exists rest. rewrite <- !app_assoc in IH |- *. cbn [app]. apply Permutation_cons_app. exact IH.
  - exists rest. rewrite <- !app_assoc in IH |- *. cbn [app]. rewrite app_assoc in IH |- *. apply Permutation_cons_app. exact IH.
  - exists (t :: rest). now apply Permutation_cons_app.
  - exists (t :: rest). now apply Permutation_cons_app.
Qed.

Lemma concat_perm : forall A (a b : list (list A)), Permutation a b -> Permutation (concat a) (concat b).
Proof.
  intros A a b H. induction H; cbn; [constructor|now apply Permutation_app_head| |eapply Permutation_trans; eassumption].
  rewrite !app_assoc. apply Permutation_app_tail, Permutation_app_comm.
Qed.

Lemma nodup_left : forall (a b : list nat), NoDup (a ++ b) -> NoDup a.
Proof.
  induction a as [|x a IH]; intros b H; [constructor|]. cbn in H. apply NoDup_cons_iff in H as [H1 H2]. constructor.
  - intros Hx. apply H1, in_app_iff. now left.
  - exact (IH b H2).
Qed.

Lemma fcand_ok : forall f, form_ok f -> NoDup (fcand f) /\ forall c, In c (fcand f) -> c < f_coef f.
Proof.
  intros f [H1 H2]. destruct (sel_perm (f_terms f)) as [rest P]. fold (sel f) in P.
  pose proof (concat_perm _ _ _ (Permutation_map t_idx P)) as Q. rewrite map_app, concat_app in Q. fold (fcand f) in Q.
  assert (N : NoDup (fcand f ++ concat (map t_idx rest))) by (eapply Permutation_NoDup; eassumption).
  split; [exact (nodup_left _ _ N)|].
  intros c Hc. apply H2. eapply Permutation_in; [apply Permutation_sym, Q|]. apply in_app_iff. now left.
Qed.

Lemma nodup_app : forall (a b : list nat), NoDup a -> NoDup b -> (forall x, In x a -> ~ In x b) -> NoDup (a ++ b).
Proof.
  induction a as [|x a IH]; intros b Ha Hb D; [exact Hb|]. apply NoDup_cons_iff in Ha as [H1 H2]. cbn. constructor.
  - rewrite in_app_iff. intros [H|H]; [easy|]. apply (D x); [now left|exact H].
  - apply IH; [exact H2|exact Hb|]. intros y Hy. apply D. now right.
Qed.

(** All candidates of the formulas, from [start]. *)
Fixpoint cands (start : nat) (fs : list form) : list nat :=
  match fs with [] => [] | f :: r => map (fun c => c + start) (fcand f) ++ cands (start + f_coef f) r end.
Lemma add_forms_cands : forall fs start acc, add_forms start fs acc = (acc ++ cands start fs, start + list_sum (map f_coef fs)).
Proof.
  induction fs as [|f fs IH]; intros start acc; [cbn; now rewrite app_nil_r, Nat.add_0_r|].
  cbn [add_forms cands]. rewrite IH, add_terms_spec, concat_shift. fold (sel f). f_equal.
  - now rewrite <- app_assoc.
  - cbn. change (fold_right Nat.add 0 (map f_coef fs)) with (list_sum (map f_coef fs)). lia.
Qed.

Lemma cands_bounds : forall fs start, Forall form_ok fs ->
  forall j, In j (cands start fs) -> start <= j < start + list_sum (map f_coef fs).
Proof.
  induction fs as [|f fs IH]; intros start H j Hj; [easy|]. apply Forall_cons_iff in H as [H1 H2].
  cbn [cands] in Hj. cbn [map list_sum fold_right]. change (fold_right Nat.add 0 (map f_coef fs)) with (list_sum (map f_coef fs)).
  apply in_app_iff in Hj as [Hj|Hj].
  - apply in_map_iff in Hj as [c [<- Hc]]. apply (proj2 (fcand_ok f H1)) in Hc. lia.
  - specialize (IH _ H2 j Hj). lia.
Qed.
Lemma cands_nodup : forall fs start, Forall form_ok fs -> NoDup (cands start fs).
Proof.
  induction fs as [|f fs IH]; intros start H; [constructor|]. apply Forall_cons_iff in H as [H1 H2]. cbn [cands].
  apply nodup_app; [|now apply IH|].
  - apply FinFun.Injective_map_NoDup; [intros a b; lia|]. apply (fcand_ok f H1).
  - intros x Hx Hx2. apply in_map_iff in Hx as [c [<- Hc]]. apply (proj2 (fcand_ok f H1)) in Hc.
    apply cands_bounds in Hx2; [lia|exact H2].
Qed.
Lemma cands_in : forall fs start j, In j (cands start fs) <->
  exists i f t c, nth_error fs i = Some f /\ In t (f_terms f) /\ fixed_kind (t_kind t) /\ In c (t_idx t) /\
                  j = start + before (map f_coef fs) i + c.
Proof.
  induction fs as [|f fs IH]; intros start j.
  - cbn. split; [easy|]. intros [[|i] [g [t [c [H _]]]]]; discriminate.
  - cbn [cands]. rewrite in_app_iff, IH. split.
    + intros [H|H].
      * apply in_map_iff in H as [c [<- Hc]]. unfold fcand in Hc. apply in_concat in Hc as [l [Hl Hc]].
        apply in_map_iff in Hl as [t [<- Ht]]. apply sel_in in Ht as [Ht Hk].
        exists 0, f, t, c. repeat split; try assumption. unfold before. cbn. lia.
      * destruct H as [i [g [t [c [H1 [H2 [H3 [H4 ->]]]]]]]]. exists (S i), g, t, c. repeat split; try assumption.
        unfold before. cbn. unfold list_sum. lia.
    + intros [[|i] [g [t [c [H1 [H2 [H3 [H4 ->]]]]]]]].
      * left. injection H1 as <-. apply in_map_iff. exists c. split; [unfold before; cbn; lia|].
        unfold fcand. apply in_concat. exists (t_idx t). split; [|exact H4]. apply in_map, sel_in. now split.
      * right. exists i, g, t, c. repeat split; try assumption. unfold before. cbn. unfold list_sum. lia.
Qed.

Lemma candidates_eq : forall fs extra, candidates fs extra =
  cands 0 fs ++ match extra with None => [] | Some e => map (fun c => c + list_sum (map f_coef fs)) (seq 0 e) end.
Proof. intros. unfold candidates. rewrite add_forms_cands. cbn [app]. destruct extra; [reflexivity|now rewrite app_nil_r]. Qed.

Lemma candidates_in : forall fs extra j, In j (candidates fs extra) <-> fixed_column fs extra j.
Proof.
  intros. rewrite candidates_eq, in_app_iff, cands_in. unfold fixed_column, total. cbn [Nat.add].
  split; (intros [H|H]; [left; exact H|right]).
  - destruct extra as [e|]; [|easy]. apply in_map_iff in H as [c [<- Hc]]. apply in_seq in Hc. exists e. split; [reflexivity|]. lia.
  - destruct H as [e [-> H]]. apply in_map_iff. exists (j - list_sum (map f_coef fs)). split; [lia|]. apply in_seq. lia.
Qed.
Lemma candidates_nodup : forall fs extra, Forall form_ok fs -> NoDup (candidates fs extra).
Proof.
  intros fs extra H. rewrite candidates_eq. apply nodup_app; [now apply cands_nodup| |].
  - destruct extra; [|constructor]. apply FinFun.Injective_map_NoDup; [intros a b; lia|]. apply seq_NoDup.
  - intros x Hx Hx2. apply cands_bounds in Hx; [|exact H]. destruct extra; [|easy].
    apply in_map_iff in Hx2 as [c [<- Hc]]. lia.
Qed.
Lemma candidates_total : forall fs extra, Forall form_ok fs -> length (candidates fs extra) <= total fs extra.
Proof.
  intros fs extra H. rewrite <- (seq_length (total fs extra) 0). apply NoDup_incl_length; [now apply candidates_nodup|].
  intros j Hj. apply in_seq. apply candidates_in in Hj as [[i [f [t [c [H1 [H2 [H3 [H4 ->]]]]]]]]|[e [-> Hj]]]; [|lia].
  assert (In (0 + before (map f_coef fs) i + c) (cands 0 fs)) by (apply cands_in; now exists i, f, t, c).
  apply cands_bounds in H0; [|exact H]. unfold total. lia.
Qed.

(** ** The draw *)
Definition bounded (b : budget) (n : nat) : option nat :=
  match b with
  | Columns _ => None
  | Number z => Some (Z.to_nat z)
  | Share q => if Qle_bool q 1 then Some (Nat.max 1 (share_of q n)) else None
  end.

Lemma share_rounded : forall q n m, (0 <= q)%Q -> rounded_share q n m -> Nat.max 1 (share_of q n) = m.
Proof.
  intros q n m H1 [H3 [H4 H5]]. unfold share_of. set (x := (q * inject_Z (Z.of_nat n))%Q) in *.
  assert (F1 := Qfloor_le x). assert (F2 := Qlt_floor x).
  assert (F3 : (inject_Z (Qfloor x) < inject_Z (Z.of_nat m + 1))%Q) by exact (Qle_lt_trans _ _ _ F1 H4).
  rewrite <- Zlt_Qlt in F3.
  assert (P : (0 <= Qfloor x)%Z).
  { assert (0 <= x)%Q. { unfold x. apply Qmult_le_0_compat; [exact H1|]. change 0%Q with (inject_Z 0). rewrite <- Zle_Qle. lia. }
    change 0%Z with (Qfloor 0). now apply Qfloor_resp_le. }
  destruct H5 as [->|H5]; [lia|].
  assert (F4 : (inject_Z (Z.of_nat m) < inject_Z (Qfloor x + 1))%Q) by exact (Qle_lt_trans _ _ _ H5 F2).
  rewrite <- Zlt_Qlt in F4. lia.
Qed.

Lemma budget_bounded : forall b n m, budget_is b n m -> bounded b n = Some m /\ positive b = true /\ 1 <= m.
Proof.
  intros [l|z|q] n m H; cbn in H; [easy| |].
  - destruct H as [-> H]. cbn. rewrite Nat2Z.id. repeat split; [|exact H]. apply Z.ltb_lt. lia.
  - destruct H as [H1 [H2 H]]. cbn [bounded positive]. rewrite (proj2 (Qle_bool_iff q 1) H2). repeat split; [| |exact (proj1 H)].
    + f_equal. apply share_rounded; [now apply Qlt_le_weak|exact H].
    + destruct (Qle_bool q 0) eqn:E; [|reflexivity]. apply Qle_bool_iff in E. exfalso. exact (Qlt_not_le _ _ H1 E).
Qed.

Lemma draw_bounded : forall choice seed n_coef b cols m, bounded b (length cols) = Some m -> 1 <= m ->
  (forall z, b = Number z -> (0 <= z)%Z) ->
  draw choice seed n_coef b cols =
  Done (let l := if ((length cols =? n_coef) && (length cols <=? m))%bool then choice seed cols (n_coef - 1)
                 else if m <? length cols then choice seed cols m else cols in
        match l with [] => None | _ => Some l end).
Proof.
  intros choice seed n_coef [l|z|q] cols m H Hm Hz; cbn in H; [discriminate| |].
  - injection H as <-. specialize (Hz z eq_refl). cbn [draw].
    replace (Z.of_nat (length cols) <=? z)%Z with (length cols <=? Z.to_nat z).
    2:{ destruct (Nat.leb_spec (length cols) (Z.to_nat z)); destruct (Z.leb_spec (Z.of_nat (length cols)) z); try reflexivity; lia. }
    replace (z <? Z.of_nat (length cols))%Z with (Z.to_nat z <? length cols).
    2:{ destruct (Nat.ltb_spec (Z.to_nat z) (length cols)); destruct (Z.ltb_spec z (Z.of_nat (length cols))); try reflexivity; lia. }
    destruct (_ && _)%bool; [reflexivity|]. destruct (_ <? _); reflexivity.
  - unfold draw. destruct (Qle_bool q 1); [|discriminate]. injection H as <-.
    cbv zeta. destruct ((length cols =? n_coef) && _)%bool; [reflexivity|]. destruct (_ <? _); reflexivity.
Qed.

Definition wanted (n n_coef m : nat) : nat := if n <=? m then if n =? n_coef then n_coef - 1 else n else m.

Lemma fcols_spec : forall choice seed n_coef b fs extra m,
  choice_ok choice -> Forall form_ok fs -> budget_is b (length (candidates fs extra)) m ->
  exists l, fcols choice seed n_coef true b fs extra = Done (match l with [] => None | _ => Some l end) /\
    StronglySorted lt l /\ (forall j, In j l -> fixed_column fs extra j) /\
    length l = wanted (length (candidates fs extra)) n_coef m.
Proof.
  intros choice seed n_coef b fs extra m Hc Hf Hb. set (cols := candidates fs extra) in *.
  destruct (budget_bounded _ _ _ Hb) as [B [P M]].
  assert (N : NoDup cols) by now apply candidates_nodup.
  unfold fcols. rewrite P. cbn [andb]. fold cols.
  rewrite (draw_bounded choice seed n_coef b cols m B M).
  2:{ intros z ->. cbn in P. apply Z.ltb_lt in P. lia. }
  cbv zeta. set (l := if ((length cols =? n_coef) && (length cols <=? m))%bool then _ else _).
  assert (L : length l = wanted (length cols) n_coef m /\ NoDup l /\ incl l cols).
  { unfold l, wanted. destruct (length cols =? n_coef) eqn:E; cbn [andb].
    - apply Nat.eqb_eq in E. destruct (length cols <=? m) eqn:E2.
      + apply Hc; [lia|exact N].
      + apply Nat.leb_gt in E2. rewrite (proj2 (Nat.ltb_lt _ _) E2). apply Hc; [lia|exact N].
    - destruct (length cols <=? m) eqn:E2.
      + apply Nat.leb_le in E2. rewrite (proj2 (Nat.ltb_ge _ _) E2). repeat split; [exact N|apply incl_refl].
      + apply Nat.leb_gt in E2. rewrite (proj2 (Nat.ltb_lt _ _) E2). apply Hc; [lia|exact N]. }
  destruct L as [L1 [L2 L3]]. exists (unique l). repeat split.
  - destruct l as [|x l']; [reflexivity|]. destruct (unique (x :: l')) as [|y r] eqn:U; [|reflexivity].
    exfalso. assert (In x []) by (rewrite <- U; apply unique_in; now left). easy.
  - apply unique_sorted.
  - intros j Hj. apply candidates_in. apply L3. now apply unique_in.
  - now rewrite unique_length.
Qed.

Lemma nodup_same_length : forall (a b : list nat), NoDup a -> NoDup b -> (forall j, In j a <-> In j b) -> length a = length b.
Proof.
  intros a b Ha Hb H. apply Nat.le_antisymm; apply NoDup_incl_length; try assumption; intros j Hj; now apply H.
Qed.

Lemma fcols_full : forall choice seed n_coef b fs extra cols m,
  choice_ok choice -> Forall form_ok fs -> NoDup cols -> (forall j, In j cols <-> fixed_column fs extra j) ->
  n_coef = total fs extra -> 0 < n_coef -> budget_is b (length cols) m ->
  exists l, fcols choice seed n_coef true b fs extra = Done (match l with [] => None | _ => Some l end) /\
    StronglySorted lt l /\ (forall j, In j l -> fixed_column fs extra j) /\ length l < n_coef /\
    (m < length cols -> length l = m) /\
    (length cols <= m -> length cols < n_coef -> forall j, fixed_column fs extra j -> In j l) /\
    (length cols <= m -> length cols = n_coef -> length l = n_coef - 1).
Proof.
  intros choice seed n_coef b fs extra cols m Hc Hf Hn Hj Ht Hp Hb.
  assert (E : length cols = length (candidates fs extra)).
  { apply nodup_same_length; [exact Hn|now apply candidates_nodup|]. intros j. now rewrite Hj, candidates_in. }
  pose proof (candidates_total fs extra Hf) as T. rewrite <- E in T. rewrite <- Ht in T.
  rewrite E in Hb. destruct (fcols_spec choice seed n_coef b fs extra m Hc Hf Hb) as [l [L1 [L2 [L3 L4]]]].
  rewrite <- E in L4. pose proof (proj2 (proj2 (budget_bounded _ _ _ Hb))) as M.
  exists l. split; [exact L1|]. split; [exact L2|]. split; [exact L3|]. unfold wanted in L4.
  destruct (length cols <=? m) eqn:G; [apply Nat.leb_le in G|apply Nat.leb_gt in G].
  - destruct (length cols =? n_coef) eqn:G2; [apply Nat.eqb_eq in G2|apply Nat.eqb_neq in G2].
    + repeat split; intros; lia.
    + repeat split; try (intros; lia). intros _ _ j Hfix.
      assert (I : incl cols l).
      { apply NoDup_length_incl; [|lia|].
        - clear - L2. induction L2 as [|x l L2 IH F]; constructor; [|exact IH]. intros Hx.
          pose proof (proj1 (Forall_forall _ _) F x Hx). lia.
        - intros x Hx. apply Hj, L3, Hx. }
      apply I, Hj, Hfix.
  - repeat split; intros; lia.
Qed.
