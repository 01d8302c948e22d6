(** Order of the penalties after splitting, grouping of penalties by start index, rank
    flags, pseudo-inverse blocks and effective degrees of freedom. *)

From Coq Require Import List Arith Bool Lia Permutation Ring ZArith Sorted.
From Verif Require Import PenModel PenSpec PenProofs PenProofs2 PenProofs3.
Import ListNotations.

Section Order.
Variable K : Type.
Variables (k0 k1 : K) (kadd kmul ksub : K -> K -> K) (kopp : K -> K).
Variable Kring : ring_theory k0 k1 kadd kmul ksub kopp (@eq K).
Add Ring Kr : Kring.

Notation lterm := (lterm K).
Notation has_id := (@has_id K).
Notation start_le := (@start_le K).
Notation count_id := (@count_id K).

Lemma start_le_trans : Relations_1.Transitive start_le.
Proof. intros x y z. unfold PenSpec.start_le. lia. Qed.

(** ** Stability of the sort *)

Lemma insert_split (p : lterm) l : Sorted start_le l ->
  exists l1 l2, l = l1 ++ l2 /\ insert_pen p l = l1 ++ p :: l2 /\
    Forall (fun q => t_start q <= t_start p) l1 /\ Forall (fun q => t_start p < t_start q) l2.
Proof.
  intros HS. apply Sorted_StronglySorted in HS; [|exact start_le_trans].
  induction HS as [|q l HS IH HF]; simpl.
  - exists [], []. repeat split; constructor.
  - destruct (Nat.leb_spec (t_start q) (t_start p)).
    + destruct IH as (l1 & l2 & -> & -> & F1 & F2).
      exists (q :: l1), l2. repeat split; try assumption. constructor; assumption.
    + exists [], (q :: l). repeat split; [constructor|].
      constructor; [assumption|]. rewrite Forall_forall in *. intros x Hx.
      specialize (HF x Hx). unfold PenSpec.start_le in HF. lia.
Qed.

Lemma insert_end (p : lterm) l : Forall (fun q => t_start q <= t_start p) l ->
  insert_pen p l = l ++ [p].
Proof.
  induction 1; simpl; [reflexivity|].
  destruct (Nat.leb_spec (t_start x) (t_start p)); [|lia]. now rewrite IHForall.
Qed.

Lemma filter_insert (f : lterm -> bool) p l : Sorted start_le l ->
  filter f (insert_pen p l) = if f p then insert_pen p (filter f l) else filter f l.
Proof.
  intros HS. apply Sorted_StronglySorted in HS; [|exact start_le_trans].
  induction HS as [|q l HS IH HF]; simpl.
  - now destruct (f p).
  - destruct (Nat.leb_spec (t_start q) (t_start p)).
    + simpl. rewrite IH. destruct (f q), (f p); simpl; try reflexivity.
      destruct (Nat.leb_spec (t_start q) (t_start p)); [reflexivity|lia].
    + simpl. destruct (f p), (f q); simpl; try reflexivity.
      * destruct (Nat.leb_spec (t_start q) (t_start p)); [lia|reflexivity].
      * assert (HF2 : Forall (fun q => t_start p < t_start q) (filter f l)).
        { rewrite Forall_forall in *. intros x Hx. apply filter_In in Hx.
          destruct Hx as [Hx _]. specialize (HF x Hx). unfold PenSpec.start_le in HF. lia. }
        destruct (filter f l) as [|r l']; [reflexivity|].
        inversion HF2; subst. simpl.
        destruct (Nat.leb_spec (t_start r) (t_start p)); [lia|reflexivity].
Qed.

Lemma filter_sort_aux (f : lterm -> bool) : forall l acc, Sorted start_le acc ->
  filter f (fold_left (fun acc p => insert_pen p acc) l acc)
  = fold_left (fun acc p => insert_pen p acc) (filter f l) (filter f acc).
Proof.
  induction l as [|p l IH]; intros acc HS; simpl; [reflexivity|].
  rewrite IH by now apply insert_sorted. rewrite filter_insert by assumption.
  destruct (f p); reflexivity.
Qed.

Lemma filter_sort (f : lterm -> bool) l :
  filter f (sort_penalties l) = sort_penalties (filter f l).
Proof. unfold sort_penalties. rewrite filter_sort_aux by constructor. reflexivity. Qed.

Lemma sort_sorted_id (l : list lterm) : Sorted start_le l -> sort_penalties l = l.
Proof.
  intros HS. apply Sorted_StronglySorted in HS; [|exact start_le_trans].
  unfold sort_penalties.
  assert (G : forall acc, (forall q p, In q acc -> In p l -> t_start q <= t_start p) ->
     fold_left (fun acc p => insert_pen p acc) l acc = acc ++ l).
  { induction HS as [|q l HS IH HF]; intros acc Hacc; simpl; [now rewrite app_nil_r|].
    rewrite insert_end.
    - rewrite IH; [now rewrite <- app_assoc|].
      intros a b Ha Hb. apply in_app_or in Ha. destruct Ha as [Ha|[<-|[]]].
      + apply Hacc; [assumption|now right].
      + rewrite Forall_forall in HF. now apply HF.
    - apply Forall_forall. intros x Hx. apply Hacc; [assumption|now left]. }
  rewrite G; [reflexivity|]. intros q p [].
Qed.

(** ** Keys of the id dictionary: ids in the order of their first occurrence *)

Fixpoint keys_loop (ps : list lterm) (ks : list nat) : list nat :=
  match ps with
  | [] => ks
  | p :: ps' =>
      keys_loop ps' (match t_id p with
                     | Some k => if existsb (Nat.eqb k) ks then ks else ks ++ [k]
                     | None => ks end)
  end.

Lemma loop_keys (ps : list lterm) : forall n d,
  map fst (id_dict_loop n ps d) = keys_loop ps (map fst d).
Proof.
  induction ps as [|p ps IH]; intros n d; simpl; [reflexivity|].
  rewrite IH. destruct (t_id p); [|reflexivity]. now rewrite dict_add_keys.
Qed.

Lemma keys_app (a b : list lterm) ks : keys_loop (a ++ b) ks = keys_loop b (keys_loop a ks).
Proof. revert ks. induction a; intros ks; simpl; [reflexivity|apply IHa]. Qed.

Lemma keys_known (b : list lterm) : forall ks,
  (forall p k, In p b -> t_id p = Some k -> In k ks) -> keys_loop b ks = ks.
Proof.
  induction b as [|p b IH]; intros ks H; simpl; [reflexivity|].
  destruct (t_id p) as [k|] eqn:E.
  - assert (Hin : In k ks) by (apply (H p); [now left|assumption]).
    apply existsb_eqb_In in Hin. rewrite Hin. apply IH. intros q k' Hq. apply H. now right.
  - apply IH. intros q k' Hq. apply H. now right.
Qed.

Lemma keys_In (b : list lterm) : forall ks k,
  In k (keys_loop b ks) <-> In k ks \/ exists p, In p b /\ t_id p = Some k.
Proof.
  induction b as [|p b IH]; intros ks k; simpl.
  - split; [now left|]. intros [|[p [[] _]]]. assumption.
  - rewrite IH. destruct (t_id p) as [k'|] eqn:E.
    + destruct (existsb (Nat.eqb k') ks) eqn:Ex.
      * apply existsb_eqb_In in Ex. split.
        -- intros [H|[q [Hq Eq]]]; [now left|right; exists q; auto].
        -- intros [H|[q [[<-|Hq] Eq]]]; [now left| |right; exists q; auto].
           left. congruence.
      * split.
        -- intros [H|[q [Hq Eq]]].
           ++ apply in_app_or in H. destruct H as [H|[<-|[]]]; [now left|right; exists p; auto].
           ++ right; exists q; auto.
        -- intros [H|[q [[<-|Hq] Eq]]].
           ++ left. apply in_or_app. now left.
           ++ left. apply in_or_app. right. left. congruence.
           ++ right. exists q. auto.
    + split.
      * intros [H|[q [Hq Eq]]]; [now left|right; exists q; auto].
      * intros [H|[q [[<-|Hq] Eq]]]; [now left|congruence|right; exists q; auto].
Qed.

(** Sorting keeps the keys if, whenever a penalty with an id comes, all earlier ids have
    already occurred at or before its start index. *)
Lemma keys_insert (p : lterm) acc :
  Sorted start_le acc ->
  (forall k, In k (keys_loop acc []) -> t_id p <> None ->
     exists q, In q acc /\ t_id q = Some k /\ t_start q <= t_start p) ->
  keys_loop (insert_pen p acc) [] = keys_loop (acc ++ [p]) [].
Proof.
  intros HS H. destruct (insert_split p acc HS) as (l1 & l2 & E & -> & F1 & F2).
  destruct (t_id p) as [k|] eqn:Ep.
  - subst acc.
    assert (H2 : forall q k', In q l2 -> t_id q = Some k' -> In k' (keys_loop l1 [])).
    { intros q k' Hq Eq.
      destruct (H k') as (r & Hr & Er & Sr); [|discriminate|].
      - apply keys_In. right. exists q. split; [apply in_or_app; now right|assumption].
      - apply keys_In. right. exists r. split; [|assumption].
        apply in_app_or in Hr. destruct Hr as [Hr|Hr]; [assumption|].
        rewrite Forall_forall in F2. specialize (F2 r Hr). lia. }
    rewrite !keys_app. cbn [keys_loop]. rewrite Ep.
    rewrite (keys_known l2 (keys_loop l1 [])) by exact H2.
    apply keys_known. intros q k' Hq Eq.
    specialize (H2 q k' Hq Eq).
    destruct (existsb _ _); [assumption|]. apply in_or_app. now left.
  - subst acc. rewrite !keys_app. cbn [keys_loop]. now rewrite Ep.
Qed.

Lemma keys_perm_acc a b : (forall k, In k (keys_loop a []) <-> In k (keys_loop b [])) ->
  keys_loop a [] = keys_loop b [] -> forall c, keys_loop (a ++ c) [] = keys_loop (b ++ c) [].
Proof. intros _ E c. now rewrite !keys_app, E. Qed.

Lemma keys_sort (l : list lterm) :
  (forall l1 p l2, l = l1 ++ p :: l2 -> t_id p <> None ->
     forall k, (exists q, In q l1 /\ t_id q = Some k) ->
     exists q, In q l1 /\ t_id q = Some k /\ t_start q <= t_start p) ->
  keys_loop (sort_penalties l) [] = keys_loop l [].
Proof.
  intros H. unfold sort_penalties.
  assert (G : forall l2 acc l1, l = l1 ++ l2 -> Sorted start_le acc -> Permutation acc l1 ->
     keys_loop acc [] = keys_loop l1 [] ->
     keys_loop (fold_left (fun acc p => insert_pen p acc) l2 acc) [] = keys_loop (l1 ++ l2) []).
  { induction l2 as [|p l2 IH]; intros acc l1 El HS HP HK; simpl.
    - now rewrite app_nil_r.
    - replace (l1 ++ p :: l2) with ((l1 ++ [p]) ++ l2) by (now rewrite <- app_assoc).
      apply IH.
      + now rewrite <- app_assoc.
      + now apply insert_sorted.
      + rewrite insert_perm, HP. apply Permutation_cons_append.
      + rewrite keys_insert; [|assumption|].
        * now rewrite !keys_app, HK.
        * intros k Hk Hp. rewrite HK in Hk. apply keys_In in Hk.
          destruct Hk as [[]|Hk].
          destruct (H l1 p l2 El Hp k Hk) as (q & Hq & Eq & Sq).
          exists q. repeat split; try assumption.
          eapply Permutation_in; [symmetry; exact HP|assumption]. }
  apply (G l [] []); try constructor.
Qed.

(** ** The order of a split merged list *)

Lemma has_id_iff k (p : lterm) : has_id k p = true <-> t_id p = Some k.
Proof.
  unfold PenModel.has_id. destruct (t_id p) as [k'|]; [|split; discriminate].
  rewrite Nat.eqb_eq. split; congruence.
Qed.

(** A key's first penalty in a sorted list starts no later than the penalties of later keys. *)
Lemma keys_heads (ps : list lterm) : StronglySorted start_le ps ->
  forall ks1 k ks2 k', keys_loop ps [] = ks1 ++ k' :: ks2 -> In k ks1 ->
  exists q, In q ps /\ t_id q = Some k /\ hd_error (filter (has_id k) ps) = Some q /\
    forall p, In p ps -> t_id p = Some k' -> t_start q <= t_start p.
Proof.
  induction ps as [|x ps IH] using rev_ind; intros HS ks1 k ks2 k' E Hin.
  - destruct ks1; discriminate.
  - assert (HS1 : StronglySorted start_le ps /\ forall q, In q ps -> t_start q <= t_start x).
    { clear -HS. induction ps as [|a ps IHp]; simpl in *; [split; [constructor|intros ? []]|].
      inversion HS; subst. destruct (IHp H1) as [I1 I2]. split.
      - constructor; [assumption|]. apply Forall_app in H2. tauto.
      - intros q [<-|Hq]; [|now apply I2]. apply Forall_app in H2. destruct H2 as [_ H2].
        inversion H2; subst. assumption. }
    destruct HS1 as [HS1 Hx]. rewrite keys_app in E. simpl in E.
    assert (Hf : forall q, hd_error (filter (has_id k) ps) = Some q ->
       hd_error (filter (has_id k) (ps ++ [x])) = Some q).
    { intros q Hq. rewrite filter_app. destruct (filter (has_id k) ps); [discriminate|exact Hq]. }
    assert (Hex : In k (keys_loop ps []) -> exists q, In q ps /\ t_id q = Some k /\
       hd_error (filter (has_id k) ps) = Some q).
    { intros Hk. apply keys_In in Hk. destruct Hk as [[]|[q [Hq Eq]]].
      assert (Hq' : In q (filter (has_id k) ps)) by (apply filter_In; split; [assumption|now apply has_id_iff]).
      destruct (filter (has_id k) ps) as [|r l] eqn:Ef; [contradiction|].
      assert (Hr : In r (filter (has_id k) ps)) by (rewrite Ef; now left).
      apply filter_In in Hr. destruct Hr as [Hr Er]. exists r. repeat split; [assumption|now apply has_id_iff]. }
    destruct (t_id x) as [kx|] eqn:Ekx.
    + destruct (existsb (Nat.eqb kx) (keys_loop ps [])) eqn:Eb.
      * destruct (IH HS1 ks1 k ks2 k' E Hin) as (q & Hq & Eq & Hh & Hle).
        exists q. split; [apply in_or_app; now left|]. split; [assumption|]. split; [now apply Hf|].
        intros p Hp Ep. apply in_app_or in Hp. destruct Hp as [Hp|[<-|[]]]; [now apply Hle|].
        now apply Hx.
      * destruct (list_eq_dec Nat.eq_dec ks2 []) as [->|Hne].
        -- change (ks1 ++ k' :: []) with (ks1 ++ [k']) in E. apply app_inj_tail in E.
           destruct E as [E ->].
           destruct Hex as (q & Hq & Eq & Hh); [now rewrite E|].
           exists q. split; [apply in_or_app; now left|]. split; [assumption|]. split; [now apply Hf|].
           intros p Hp Ep. apply in_app_or in Hp. destruct Hp as [Hp|[<-|[]]]; [|now apply Hx].
           exfalso. assert (Hk : In k' (keys_loop ps [])).
           { apply keys_In. right. exists p. auto. }
           apply existsb_eqb_In in Hk. congruence.
        -- destruct (exists_last Hne) as [ks2' [y Ey]]. subst ks2.
           change (ks1 ++ k' :: ks2' ++ [y]) with (ks1 ++ (k' :: ks2') ++ [y]) in E.
           rewrite app_assoc in E. apply app_inj_tail in E. destruct E as [E _].
           destruct (IH HS1 ks1 k ks2' k' E Hin) as (q & Hq & Eq & Hh & Hle).
           exists q. split; [apply in_or_app; now left|]. split; [assumption|]. split; [now apply Hf|].
           intros p Hp Ep. apply in_app_or in Hp. destruct Hp as [Hp|[<-|[]]]; [now apply Hle|].
           now apply Hx.
    + destruct (IH HS1 ks1 k ks2 k' E Hin) as (q & Hq & Eq & Hh & Hle).
      exists q. split; [apply in_or_app; now left|]. split; [assumption|]. split; [now apply Hf|].
      intros p Hp Ep. apply in_app_or in Hp. destruct Hp as [Hp|[<-|[]]]; [now apply Hle|].
      now apply Hx.
Qed.

(** Penalties listed id by id. *)
Lemma keys_blocks (ps : list lterm) : forall ks acc,
  NoDup (acc ++ ks) -> (forall k, In k ks -> 0 < count_id k ps) ->
  keys_loop (flat_map (fun k => filter (has_id k) ps) ks) acc = acc ++ ks.
Proof.
  induction ks as [|k ks IH]; intros acc Hnd Hc; simpl; [now rewrite app_nil_r|].
  rewrite keys_app.
  assert (E : keys_loop (filter (has_id k) ps) acc = acc ++ [k]).
  { specialize (Hc k (or_introl eq_refl)). unfold PenProofs.count_id in Hc.
    assert (HF : forall p, In p (filter (has_id k) ps) -> t_id p = Some k).
    { intros p Hp. apply filter_In in Hp. now apply has_id_iff. }
    destruct (filter (has_id k) ps) as [|p l]; [simpl in Hc; lia|].
    simpl. rewrite (HF p (or_introl eq_refl)).
    destruct (existsb (Nat.eqb k) acc) eqn:Ee.
    - exfalso. apply existsb_eqb_In in Ee. apply NoDup_remove_2 in Hnd.
      apply Hnd. apply in_or_app. now left.
    - apply keys_known. intros q k' Hq Eq. rewrite (HF q (or_intror Hq)) in Eq.
      inversion Eq; subst. apply in_or_app. right. now left. }
  rewrite E. rewrite IH.
  - now rewrite <- app_assoc.
  - now rewrite <- app_assoc.
  - intros; apply Hc; now right.
Qed.

Lemma not_merged_None (ps : list lterm) d : no_single_id ps -> create_id_dict ps = Some d ->
  forall p, In p ps -> not_merged d (t_id p) = match t_id p with None => true | Some _ => false end.
Proof.
  intros Hs Hd p Hp. rewrite (create_id_dict_Some ps Hd).
  destruct (not_merged (id_dict_loop 0 ps []) (t_id p)) eqn:E.
  - apply not_merged_spec in E. destruct (t_id p) as [k|] eqn:Ep; [|reflexivity].
    exfalso. pose proof (count_pos ps p Hp Ep). specialize (Hs k). rewrite id_count_eq in Hs. lia.
  - destruct (t_id p) as [k|] eqn:Ep; [reflexivity|discriminate].
Qed.

Definition no_id (p : lterm) : bool := match t_id p with None => true | Some _ => false end.

Lemma In_split_first (A : Type) (l : list A) a : In a l -> exists l1 l2, l = l1 ++ a :: l2.
Proof. apply in_split. Qed.

Lemma flat_map_app_split (A B : Type) (f : A -> list B) : forall l l1 p l2,
  flat_map f l = l1 ++ p :: l2 ->
  exists a k b m1 m2, l = a ++ k :: b /\ f k = m1 ++ p :: m2 /\ l1 = flat_map f a ++ m1.
Proof.
  induction l as [|x l IH]; intros l1 p l2 E; simpl in E.
  - destruct l1; discriminate.
  - destruct (le_lt_dec (length (f x)) (length l1)) as [Hle|Hgt].
    + assert (E1 : l1 = f x ++ skipn (length (f x)) l1).
      { rewrite <- (firstn_skipn (length (f x)) l1) at 1. f_equal.
        assert (firstn (length (f x)) (f x ++ flat_map f l)
                = firstn (length (f x)) (l1 ++ p :: l2)) by now rewrite E.
        rewrite firstn_app, Nat.sub_diag, firstn_all, firstn_O, app_nil_r in H.
        rewrite firstn_app in H. replace (length (f x) - length l1) with 0 in H by lia.
        rewrite firstn_O, app_nil_r in H. now symmetry. }
      rewrite E1 in E. rewrite <- app_assoc in E. apply app_inv_head in E.
      destruct (IH _ _ _ E) as (a & k & b & m1 & m2 & -> & Ek & E2).
      exists (x :: a), k, b, m1, m2. repeat split; try assumption.
      rewrite E1, E2. simpl. now rewrite app_assoc.
    + exists [], x, l, l1, (firstn (length (f x) - S (length l1)) l2). repeat split.
      assert (H : firstn (length (f x)) (f x ++ flat_map f l)
                = firstn (length (f x)) (l1 ++ p :: l2)) by now rewrite E.
      rewrite firstn_app, Nat.sub_diag, firstn_all, firstn_O, app_nil_r in H.
      rewrite H at 1. rewrite firstn_app. f_equal.
      * apply firstn_all2. lia.
      * replace (length (f x) - length l1) with (S (length (f x) - S (length l1))) by lia.
        reflexivity.
Qed.

(** The split list has, id by id, the same penalties in the same order, and lists the ids
    in the same order. *)
Lemma split_order (ps : list lterm) ms : good ps ->
  combine_shared_penalties kadd ps = Some ms ->
  let qs := split_shared_penalties ms in
  Permutation qs ps /\ Sorted start_le qs /\
  (forall k, filter (has_id k) qs = filter (has_id k) ps) /\
  filter no_id qs = filter no_id ps /\
  keys_loop qs [] = keys_loop ps [].
Proof.
  intros (HL & Hs & Hp & Hf & HS) Hc qs.
  split; [exact (split_combine_perm k0 kadd HL Hs Hp Hf Hc)|].
  destruct (create_id_dict ps) as [d|] eqn:Hd.
  2:{ unfold combine_shared_penalties in Hc. rewrite Hd in Hc. inversion Hc; subst ms.
      assert (E : qs = ps).
      { unfold qs, split_shared_penalties.
        destruct (filter_merged_plain ps) as [-> ->]; [intros p Hin; now apply Hp|]. reflexivity. }
      rewrite E. repeat split; try assumption; reflexivity. }
  rewrite (combine_form k0 kadd ps Hd) in Hc. inversion Hc; subst ms; clear Hc.
  pose proof (create_id_dict_Some ps Hd) as Hd'.
  destruct (loop_spec ps) as [Hnd [Hk _]]. rewrite <- Hd' in Hk, Hnd.
  set (U := filter (fun p => not_merged d (t_id p)) ps) in *.
  assert (HU : U = filter no_id ps).
  { unfold U. apply PenProofs.filter_ext_In. intros p Hin. now apply (not_merged_None ps). }
  set (ks := map fst d) in *.
  set (L := U ++ flat_map (fun k => filter (has_id k) ps) ks).
  assert (Eqs : qs = sort_penalties L).
  { unfold qs, split_shared_penalties. rewrite !filter_app.
    destruct (filter_merged_plain U) as [-> ->].
    { intros p Hin. apply filter_In in Hin. now apply Hp. }
    destruct (filter_merged_terms k0 kadd ps ks) as [-> ->]; [intros; now apply Hk|].
    rewrite app_nil_r. simpl app.
    assert (HF : flat_map (@split_one K) (map (merged_term k0 kadd ps) ks)
                 = flat_map (fun k => filter (has_id k) ps) ks).
    { rewrite !flat_map_concat_map, map_map. f_equal. apply map_ext_in.
      intros k Hin. apply split_merged_term; auto. now apply Hk. }
    rewrite HF. destruct (map (merged_term k0 kadd ps) ks) eqn:Em.
    - destruct ks; [|discriminate]. unfold L. simpl. rewrite app_nil_r. symmetry.
      apply sort_sorted_id. now apply filter_sorted.
    - reflexivity. }
  assert (Hkid : forall k, filter (has_id k) L = filter (has_id k) ps).
  { intros k. unfold L. rewrite filter_app.
    assert (E0 : filter (has_id k) U = []).
    { rewrite HU. clear. induction ps as [|p ps IH]; simpl; [reflexivity|].
      unfold no_id at 1. destruct (t_id p) eqn:E; [assumption|]. simpl.
      unfold PenModel.has_id at 1. now rewrite E. }
    rewrite E0. simpl.
    assert (E1 : forall kk, NoDup kk -> filter (has_id k) (flat_map (fun k => filter (has_id k) ps) kk)
       = if existsb (Nat.eqb k) kk then filter (has_id k) ps else []).
    { induction kk as [|k' kk IHk]; intros Hn; simpl; [reflexivity|].
      inversion Hn; subst. rewrite filter_app, IHk by assumption.
      destruct (Nat.eqb_spec k k').
      - subst k'. simpl.
        assert (existsb (Nat.eqb k) kk = false).
        { destruct (existsb (Nat.eqb k) kk) eqn:Ee; [|reflexivity].
          apply existsb_eqb_In in Ee. contradiction. }
        rewrite H. rewrite app_nil_r. clear. induction ps as [|p ps IH]; simpl; [reflexivity|].
        destruct (has_id k p) eqn:E; simpl; [rewrite E; now f_equal|assumption].
      - simpl. assert (E2 : filter (has_id k) (filter (has_id k') ps) = []).
        { clear -n. induction ps as [|p ps IH]; simpl; [reflexivity|].
          destruct (has_id k' p) eqn:E; simpl; [|assumption].
          destruct (has_id k p) eqn:E2; [|assumption].
          apply has_id_iff in E, E2. congruence. }
        now rewrite E2. }
    rewrite E1 by assumption.
    destruct (existsb (Nat.eqb k) ks) eqn:Ee; [reflexivity|].
    destruct (filter (has_id k) ps) as [|p l] eqn:Ef; [reflexivity|].
    exfalso. assert (Hin : In k ks).
    { apply Hk. unfold PenProofs.count_id. rewrite Ef. simpl. lia. }
    apply existsb_eqb_In in Hin. congruence. }
  assert (Hno : filter no_id L = filter no_id ps).
  { unfold L. rewrite filter_app, HU.
    assert (E0 : forall kk, filter no_id (flat_map (fun k => filter (has_id k) ps) kk) = []).
    { induction kk as [|k kk IHk]; simpl; [reflexivity|]. rewrite filter_app, IHk, app_nil_r.
      clear. induction ps as [|p ps IH]; simpl; [reflexivity|].
      destruct (has_id k p) eqn:E; simpl; [|assumption].
      apply has_id_iff in E. unfold no_id at 1. now rewrite E. }
    rewrite E0, app_nil_r. clear. induction ps as [|p ps IH]; simpl; [reflexivity|].
    destruct (no_id p) eqn:E; simpl; [rewrite E; now f_equal|assumption]. }
  split; [rewrite Eqs; apply sort_sorted|]. split; [|split].
  - intros k. rewrite Eqs, filter_sort, Hkid. apply sort_sorted_id. now apply filter_sorted.
  - rewrite Eqs, filter_sort, Hno. apply sort_sorted_id. now apply filter_sorted.
  - rewrite Eqs.
    assert (HkL : keys_loop L [] = ks).
    { unfold L. rewrite keys_app, (keys_known U []).
      - rewrite keys_blocks; [reflexivity|assumption|]. intros; now apply Hk.
      - intros p k Hin E. rewrite HU in Hin. apply filter_In in Hin.
        unfold no_id in Hin. rewrite E in Hin. destruct Hin; discriminate. }
    assert (Hkp : keys_loop ps [] = ks).
    { unfold ks. rewrite Hd', loop_keys. reflexivity. }
    rewrite Hkp, keys_sort; [exact HkL|].
    intros l1 p l2 El Hpid k [q [Hq Eq]].
    (* p lies in the block of its id *)
    assert (Hsplit : exists m, l1 = U ++ m /\ flat_map (fun k => filter (has_id k) ps) ks = m ++ p :: l2).
    { unfold L in El.
      destruct (le_lt_dec (length U) (length l1)) as [Hle|Hgt].
      - exists (skipn (length U) l1).
        assert (E1 : firstn (length U) l1 = U).
        { assert (H : firstn (length U) (U ++ flat_map (fun k => filter (has_id k) ps) ks)
                 = firstn (length U) (l1 ++ p :: l2)) by now rewrite El.
          rewrite firstn_app, Nat.sub_diag, firstn_all, firstn_O, app_nil_r in H.
          rewrite firstn_app in H. replace (length U - length l1) with 0 in H by lia.
          rewrite firstn_O, app_nil_r in H. now symmetry. }
        split.
        + rewrite <- E1 at 1. now rewrite firstn_skipn.
        + rewrite <- (firstn_skipn (length U) l1), E1, <- app_assoc in El.
          now apply app_inv_head in El.
      - exfalso. assert (Hin : In p U).
        { assert (H : nth_error (U ++ flat_map (fun k => filter (has_id k) ps) ks) (length l1) = Some p).
          { rewrite El, nth_error_app2 by lia. now rewrite Nat.sub_diag. }
          rewrite nth_error_app1 in H by assumption. now apply nth_error_In in H. }
        rewrite HU in Hin. apply filter_In in Hin. destruct Hin as [_ Hin].
        unfold no_id in Hin. destruct (t_id p); [discriminate|congruence]. }
    destruct Hsplit as (m & -> & Em).
    destruct (flat_map_app_split _ _ _ _ _ _ _ Em) as (a & kp & b & m1 & m2 & Eks & Ekp & Em1).
    assert (Ep : t_id p = Some kp /\ In p ps).
    { assert (Hin : In p (filter (has_id kp) ps)) by (rewrite Ekp; apply in_or_app; right; now left).
      apply filter_In in Hin. destruct Hin. split; [now apply has_id_iff|assumption]. }
    destruct Ep as [Ep Hpin].
    apply in_app_or in Hq. destruct Hq as [Hq|Hq].
    { exfalso. rewrite HU in Hq. apply filter_In in Hq. unfold no_id in Hq. rewrite Eq in Hq.
      destruct Hq; discriminate. }
    rewrite Em1 in Hq. apply in_app_or in Hq. destruct Hq as [Hq|Hq].
    + (* an earlier id *)
      apply in_flat_map in Hq. destruct Hq as (k2 & Hk2 & Hq). apply filter_In in Hq.
      destruct Hq as [_ Hq]. apply has_id_iff in Hq. assert (k2 = k) by congruence. subst k2.
      destruct (keys_heads ps (Sorted_StronglySorted start_le_trans HS) a k b kp) as (h & Hh & Eh & Hhd & Hle).
      { now rewrite Hkp. } { assumption. }
      exists h. split; [|split; [assumption|now apply Hle]].
      apply in_or_app. right. rewrite Em1. apply in_or_app. left.
      apply in_flat_map. exists k. split; [assumption|].
      destruct (filter (has_id k) ps); [discriminate|]. simpl in Hhd. inversion Hhd. now left.
    + (* the same id, earlier in the block *)
      exists q. split; [apply in_or_app; right; rewrite Em1; apply in_or_app; now right|].
      split; [assumption|].
      assert (HSb : StronglySorted start_le (filter (has_id kp) ps)).
      { apply Sorted_StronglySorted; [exact start_le_trans|]. now apply filter_sorted. }
      rewrite Ekp in HSb. clear -HSb Hq.
      induction m1 as [|x m1 IH]; [contradiction|]. simpl in HSb. inversion HSb; subst.
      destruct Hq as [->|Hq]; [|now apply IH].
      rewrite Forall_forall in H2. apply H2. apply in_or_app. right. now left.
Qed.

End Order.
