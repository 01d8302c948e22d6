(** Lemmas about the penalty bookkeeping model. *)

From Coq Require Import List Arith Bool Lia Permutation Ring ZArith Sorted.
From Verif Require Import PenModel PenSpec.
Import ListNotations.

Set Implicit Arguments.

(** * Merging and splitting *)

Section Merge.
Variable K : Type.
Variables (k0 k1 : K) (kadd kmul ksub : K -> K -> K) (kopp : K -> K).
Variable Kring : ring_theory k0 k1 kadd kmul ksub kopp (@eq K).
Add Ring Kr : Kring.

Notation lterm := (lterm K).
Notation has_id := (@has_id K).
Notation start_le := (@start_le K).

(** ** The dictionary of ids *)

Lemma dict_get_add_same d k i :
  dict_get (dict_add d k i) k
  = Some (match dict_get d k with Some v => v ++ [i] | None => [i] end).
Proof.
  induction d as [|[k' v] d IH]; simpl.
  - now rewrite Nat.eqb_refl.
  - destruct (Nat.eqb_spec k' k); simpl.
    + now rewrite (proj2 (Nat.eqb_eq k' k) e).
    + rewrite (proj2 (Nat.eqb_neq k' k) n). exact IH.
Qed.

Lemma dict_get_add_other d k k2 i :
  k2 <> k -> dict_get (dict_add d k i) k2 = dict_get d k2.
Proof.
  intros H. induction d as [|[k' v] d IH]; simpl.
  - destruct (Nat.eqb_spec k k2); congruence.
  - destruct (Nat.eqb_spec k' k); simpl.
    + destruct (Nat.eqb_spec k' k2); congruence.
    + destruct (Nat.eqb_spec k' k2); congruence.
Qed.

Lemma dict_add_keys d k i :
  map fst (dict_add d k i)
  = if existsb (Nat.eqb k) (map fst d) then map fst d else map fst d ++ [k].
Proof.
  induction d as [|[k' v] d IH]; simpl; [reflexivity|].
  destruct (Nat.eqb_spec k' k); simpl.
  - rewrite (proj2 (Nat.eqb_eq k k') (eq_sym e)). reflexivity.
  - rewrite IH, (proj2 (Nat.eqb_neq k k')) by congruence.
    simpl. now destruct (existsb (Nat.eqb k) (map fst d)).
Qed.

Lemma existsb_eqb_In k l : existsb (Nat.eqb k) l = true <-> In k l.
Proof.
  rewrite existsb_exists. split.
  - intros [x [Hx Hk]]. apply Nat.eqb_eq in Hk. now subst.
  - intros H. exists k. now rewrite Nat.eqb_refl.
Qed.

Lemma dict_add_keys_NoDup d k i : NoDup (map fst d) -> NoDup (map fst (dict_add d k i)).
Proof.
  intros H. rewrite dict_add_keys.
  destruct (existsb (Nat.eqb k) (map fst d)) eqn:E; [assumption|].
  assert (Hn : ~ In k (map fst d)).
  { intro Hin. apply existsb_eqb_In in Hin. congruence. }
  apply Permutation_NoDup with (l := k :: map fst d).
  - apply Permutation_cons_append.
  - now constructor.
Qed.

Lemma loop_keys_NoDup (ps : list lterm) : forall n d,
  NoDup (map fst d) -> NoDup (map fst (id_dict_loop n ps d)).
Proof.
  induction ps as [|p ps IH]; intros n d H; simpl; [assumption|].
  apply IH. destruct (t_id p); [now apply dict_add_keys_NoDup|assumption].
Qed.

(** Number of penalties carrying an id. *)
Definition count_id (k : nat) (ps : list lterm) : nat := length (filter (has_id k) ps).

Definition get_len (d : list (nat * list nat)) k : nat :=
  match dict_get d k with Some v => length v | None => 0 end.

Lemma loop_get_len (ps : list lterm) : forall n d k,
  get_len (id_dict_loop n ps d) k = get_len d k + count_id k ps.
Proof.
  unfold count_id.
  induction ps as [|p ps IH]; intros n d k; simpl; [lia|].
  rewrite IH. unfold PenModel.has_id at 2. destruct (t_id p) as [k'|]; [|reflexivity].
  destruct (Nat.eqb_spec k' k).
  - subst. unfold get_len at 1. rewrite dict_get_add_same. unfold get_len.
    destruct (dict_get d k); simpl; [rewrite app_length; simpl|]; lia.
  - unfold get_len. rewrite dict_get_add_other by congruence. reflexivity.
Qed.

Lemma dict_get_In d k : NoDup (map fst d) ->
  forall v, dict_get d k = Some v <-> In (k, v) d.
Proof.
  induction d as [|[k' v'] d IH]; simpl; intros Hnd v.
  - split; [discriminate|tauto].
  - inversion Hnd; subst. destruct (Nat.eqb_spec k' k).
    + subst. split.
      * intros E. inversion E. now left.
      * intros [E|Hin]; [now inversion E|].
        exfalso. apply H1. now apply (in_map fst) in Hin.
    + rewrite (IH H2). split; [now right|].
      intros [E|]; [congruence|assumption].
Qed.

Definition nonempty (d : list (nat * list nat)) := forall k v, dict_get d k = Some v -> v <> [].

Lemma nonempty_add d k i : nonempty d -> nonempty (dict_add d k i).
Proof.
  intros H k2 v. destruct (Nat.eq_dec k2 k).
  - subst. rewrite dict_get_add_same. intros E. inversion E.
    destruct (dict_get d k) as [[|]|]; simpl; discriminate.
  - rewrite dict_get_add_other by assumption. apply H.
Qed.

Lemma nonempty_loop (ps : list lterm) : forall n d, nonempty d -> nonempty (id_dict_loop n ps d).
Proof.
  induction ps as [|p ps IH]; intros n d H; simpl; [assumption|].
  apply IH. destruct (t_id p); [now apply nonempty_add|assumption].
Qed.

Lemma dict_get_key d k : In k (map fst d) <-> dict_get d k <> None.
Proof.
  induction d as [|[k' v'] d IH]; simpl.
  - split; [tauto|congruence].
  - destruct (Nat.eqb_spec k' k).
    + split; [discriminate|now left].
    + rewrite <- IH. split; [intros [|]; [congruence|assumption]|now right].
Qed.

(** The dictionary's keys are the ids that occur, and its lists count them. *)
Lemma loop_spec (ps : list lterm) :
  let d := id_dict_loop 0 ps [] in
  NoDup (map fst d) /\
  (forall k, In k (map fst d) <-> 0 < count_id k ps) /\
  (forall k, get_len d k = count_id k ps).
Proof.
  set (d := id_dict_loop 0 ps []).
  assert (Hl : forall k, get_len d k = count_id k ps) by (intro; apply loop_get_len).
  assert (Hn : nonempty d) by (apply nonempty_loop; intros k v E; discriminate).
  split; [apply loop_keys_NoDup; constructor|split; [|exact Hl]].
  intros k. rewrite dict_get_key, <- Hl. unfold get_len.
  destruct (dict_get d k) as [v|] eqn:E.
  - specialize (Hn k v E). destruct v; [congruence|]. simpl. split; [lia|discriminate].
  - split; [congruence|lia].
Qed.

Lemma fold_max_le (l : list nat) n : 1 < n -> In n l -> 1 < fold_right Nat.max 0 l.
Proof. intros Hn. induction l; simpl; [tauto|]. intros [->|H]; [lia|]. specialize (IHl H). lia. Qed.

Lemma fold_max_In (l : list nat) : 1 < fold_right Nat.max 0 l -> exists n, In n l /\ 1 < n.
Proof.
  induction l as [|a l IH]; simpl; [lia|]. intros H.
  destruct (Nat.lt_ge_cases 1 a); [exists a; auto|].
  destruct IH as [n [Hn H1]]; [lia|]. exists n; auto.
Qed.

(** create_id_dict returns None exactly if no id occurs twice. *)
Lemma create_id_dict_None (ps : list lterm) :
  create_id_dict ps = None <-> forall k, count_id k ps <= 1.
Proof.
  destruct (loop_spec ps) as [Hnd [Hk Hl]].
  unfold create_id_dict. set (d := id_dict_loop 0 ps []) in *.
  split.
  - intros H k. destruct (Nat.le_gt_cases (count_id k ps) 1) as [|Hgt]; [assumption|exfalso].
    assert (Hin : In k (map fst d)) by (apply Hk; lia).
    destruct (dict_get d k) as [v|] eqn:E; [|now apply dict_get_key in E].
    assert (Hv : length v = count_id k ps) by (rewrite <- Hl; unfold get_len; now rewrite E).
    apply dict_get_In in E; [|assumption].
    assert (H1 : (1 <? fold_right Nat.max 0 (map (fun kv => length (snd kv)) d)) = true).
    { apply Nat.ltb_lt. apply fold_max_le with (n := length v); [lia|].
      change (length v) with ((fun kv : nat * list nat => length (snd kv)) (k, v)).
      now apply in_map. }
    rewrite H1 in H. destruct d; simpl in *; [tauto|discriminate].
  - intros H.
    destruct (1 <? fold_right Nat.max 0 (map (fun kv => length (snd kv)) d)) eqn:E.
    + exfalso. apply Nat.ltb_lt in E. apply fold_max_In in E.
      destruct E as [n [Hin Hn]]. apply in_map_iff in Hin. destruct Hin as [[k v] [Hv Hin]].
      simpl in Hv. apply dict_get_In in Hin; [|assumption].
      specialize (H k). rewrite <- Hl in H. unfold get_len in H. rewrite Hin in H. lia.
    + now rewrite andb_false_r.
Qed.

Lemma create_id_dict_Some (ps : list lterm) d :
  create_id_dict ps = Some d -> d = id_dict_loop 0 ps [].
Proof.
  unfold create_id_dict. destruct (_ && _); congruence.
Qed.

(** ** The merged list is a regrouping of the original list *)

Lemma filter_split_perm (A : Type) (f : A -> bool) l :
  Permutation l (filter f l ++ filter (fun x => negb (f x)) l).
Proof.
  induction l as [|a l IH]; simpl; [constructor|].
  destruct (f a); simpl.
  - now constructor.
  - rewrite IH at 1. apply Permutation_middle.
Qed.

Lemma regroup_perm : forall keys ps, NoDup keys ->
  Permutation ps
    (filter (fun p => negb (existsb (fun k => has_id k p) keys)) ps
     ++ flat_map (fun k => filter (has_id k) ps) keys).
Proof.
  induction keys as [|k keys IH]; intros ps Hnd.
  - simpl. rewrite app_nil_r.
    replace (filter _ ps) with ps; [reflexivity|].
    induction ps; simpl; congruence.
  - inversion Hnd; subst. simpl.
    rewrite (IH ps H2) at 1.
    set (rest := flat_map _ keys).
    rewrite (filter_split_perm (has_id k) (filter _ ps)) at 1.
    assert (E1 : filter (has_id k)
                   (filter (fun p => negb (existsb (fun k0 => has_id k0 p) keys)) ps)
                 = filter (has_id k) ps).
    { clear -H1. induction ps as [|p ps IHp]; simpl; [reflexivity|].
      destruct (existsb (fun k0 => has_id k0 p) keys) eqn:E; simpl.
      - destruct (has_id k p) eqn:Hk; [|assumption].
        exfalso. apply existsb_exists in E. destruct E as [k' [Hin Hk']].
        unfold PenModel.has_id in *. destruct (t_id p); [|discriminate].
        apply Nat.eqb_eq in Hk, Hk'. congruence.
      - destruct (has_id k p); congruence. }
    assert (E2 : filter (fun x => negb (has_id k x))
                   (filter (fun p => negb (existsb (fun k0 => has_id k0 p) keys)) ps)
                 = filter (fun p => negb (has_id k p || existsb (fun k0 => has_id k0 p) keys)) ps).
    { clear. induction ps as [|p ps IHp]; simpl; [reflexivity|].
      destruct (existsb (fun k0 => has_id k0 p) keys); simpl.
      - rewrite orb_true_r. simpl. assumption.
      - rewrite orb_false_r. destruct (has_id k p); simpl; congruence. }
    rewrite E1, E2.
    rewrite Permutation_app_comm with (l := filter (has_id k) ps).
    rewrite <- app_assoc. reflexivity.
Qed.

(** ** Totals *)

Notation lsum := (@lsum K k0 kadd _).
Notation total := (@total K k0 kadd kmul).

Lemma lsum_app (A : Type) (f : A -> K) l1 l2 :
  lsum f (l1 ++ l2) = kadd (lsum f l1) (lsum f l2).
Proof. induction l1; simpl; [ring|]. rewrite IHl1. ring. Qed.

Lemma lsum_perm (A : Type) (f : A -> K) l1 l2 : Permutation l1 l2 -> lsum f l1 = lsum f l2.
Proof. induction 1; simpl; try ring; congruence. Qed.

Lemma lsum_ext (A : Type) (f g : A -> K) l :
  (forall x, In x l -> f x = g x) -> lsum f l = lsum g l.
Proof.
  induction l; simpl; intros H; [reflexivity|].
  rewrite (H a) by now left. rewrite IHl; [reflexivity|]. intros; apply H; now right.
Qed.

Lemma lsum_map (A B : Type) (f : B -> K) (g : A -> B) l :
  lsum f (map g l) = lsum (fun x => f (g x)) l.
Proof. induction l; simpl; congruence. Qed.

Lemma lsum_flat_map (A B : Type) (f : B -> K) (g : A -> list B) l :
  lsum f (flat_map g l) = lsum (fun x => lsum f (g x)) l.
Proof. induction l; simpl; [reflexivity|]. rewrite lsum_app. congruence. Qed.

Lemma fold_madd_entry (f : lterm -> mat K) ms : forall A i j,
  fold_left (fun A p => madd kadd A (f p)) ms A i j
  = kadd (A i j) (lsum (fun p => f p i j) ms).
Proof.
  induction ms as [|m ms IH]; intros A i j; simpl; [ring|].
  rewrite IH. unfold madd. ring.
Qed.

Lemma lsum_scale (A : Type) c (f : A -> K) l :
  kmul c (lsum f l) = lsum (fun x => kmul c (f x)) l.
Proof. induction l; simpl; [ring|]. rewrite <- IHl. ring. Qed.

Lemma all_some_map (A B : Type) (f : A -> option B) (l : list A) (g : A -> B) :
  (forall x, In x l -> f x = Some (g x)) -> all_some (map f l) = Some (map g l).
Proof.
  induction l as [|a l IH]; simpl; intros H; [reflexivity|].
  rewrite (H a) by now left. rewrite IH; [reflexivity|]. intros; apply H; now right.
Qed.

(** The merged penalty of an id as a total function. *)
Definition merged_term (ps : list lterm) (k : nat) : lterm :=
  match merge_id kadd k ps with
  | Some t => t
  | None => mkTerm (mzero k0) 0 (mzero k0) (mzero k0) 0 k0 0 false SHARED 0 [] None [] None None
  end.

Lemma merge_id_some (ps : list lterm) k : 0 < count_id k ps -> merge_id kadd k ps = Some (merged_term ps k).
Proof.
  unfold count_id, merged_term, merge_id. destruct (filter (has_id k) ps); simpl; [lia|reflexivity].
Qed.

Lemma filter_has_id_In (ps : list lterm) k p : In p (filter (has_id k) ps) -> In p ps /\ t_id p = Some k.
Proof.
  rewrite filter_In. unfold PenModel.has_id. destruct (t_id p); intros [H E]; [|discriminate].
  apply Nat.eqb_eq in E. now subst.
Qed.

Lemma merged_term_total (ps : list lterm) k i j : same_lam ps -> 0 < count_id k ps ->
  kmul (t_lam (merged_term ps k)) (t_Semb (merged_term ps k) i j)
  = total (filter (has_id k) ps) i j.
Proof.
  intros HL Hc. unfold merged_term, merge_id, count_id in *.
  assert (Hin : forall p, In p (filter (has_id k) ps) -> In p ps /\ t_id p = Some k)
    by (intro; apply filter_has_id_In).
  destruct (filter (has_id k) ps) as [|m0 ms]; [simpl in Hc; lia|].
  simpl. rewrite fold_madd_entry. unfold total. simpl.
  transitivity (kadd (kmul (t_lam m0) (t_Semb m0 i j))
                  (kmul (t_lam m0) (lsum (fun p => t_Semb p i j) ms))); [ring|].
  f_equal. rewrite lsum_scale. apply lsum_ext. intros p Hp. f_equal.
  destruct (Hin m0) as [H1 H2]; [now left|].
  destruct (Hin p) as [H3 H4]; [now right|].
  apply HL; congruence.
Qed.

Lemma not_merged_spec (ps : list lterm) id :
  not_merged (id_dict_loop 0 ps []) id = true <->
  match id with None => True | Some k => count_id k ps <= 1 end.
Proof.
  unfold not_merged. destruct id as [k|]; [|tauto].
  destruct (loop_spec ps) as [_ [_ Hl]]. rewrite <- Hl. unfold get_len.
  destruct (dict_get _ k).
  - apply Nat.leb_le.
  - split; [lia|reflexivity].
Qed.

Lemma id_count_eq k (ps : list lterm) : id_count k ps = count_id k ps.
Proof.
  unfold id_count, count_id. induction ps as [|p ps IH]; [reflexivity|].
  cbn [map filter count_occ]. unfold PenModel.has_id at 1.
  destruct (optnat_eq_dec (t_id p) (Some k)) as [E|E].
  - rewrite E, Nat.eqb_refl. simpl. now rewrite IH.
  - destruct (t_id p) as [k'|]; [|assumption].
    destruct (Nat.eqb_spec k' k); [congruence|assumption].
Qed.

Lemma combine_form (ps : list lterm) d : create_id_dict ps = Some d ->
  combine_shared_penalties kadd ps
  = Some (filter (fun p => not_merged d (t_id p)) ps ++ map (merged_term ps) (map fst d)).
Proof.
  intros Hd. unfold combine_shared_penalties. rewrite Hd.
  apply create_id_dict_Some in Hd. destruct (loop_spec ps) as [_ [Hk _]]. rewrite <- Hd in Hk.
  rewrite (all_some_map _ _ (merged_term ps)); [reflexivity|].
  intros k Hin. apply merge_id_some. now apply Hk.
Qed.

Lemma combine_defined (ps : list lterm) : exists r, combine_shared_penalties kadd ps = Some r.
Proof.
  destruct (create_id_dict ps) eqn:E.
  - rewrite (combine_form ps E). eauto.
  - unfold combine_shared_penalties. rewrite E. eauto.
Qed.

Lemma filter_ext_In (A : Type) (f g : A -> bool) l :
  (forall x, In x l -> f x = g x) -> filter f l = filter g l.
Proof.
  induction l; simpl; intros H; [reflexivity|].
  rewrite (H a) by now left. rewrite IHl; [reflexivity|]. intros; apply H; now right.
Qed.

Lemma count_pos (ps : list lterm) p k : In p ps -> t_id p = Some k -> 0 < count_id k ps.
Proof.
  intros H E. unfold count_id.
  assert (In p (filter (has_id k) ps)).
  { apply filter_In. split; [assumption|]. unfold PenModel.has_id. rewrite E. apply Nat.eqb_refl. }
  destruct (filter (has_id k) ps); [contradiction|simpl; lia].
Qed.

Lemma combine_regroup (ps : list lterm) d : no_single_id ps -> create_id_dict ps = Some d ->
  Permutation ps (filter (fun p => not_merged d (t_id p)) ps
                  ++ flat_map (fun k => filter (has_id k) ps) (map fst d)).
Proof.
  intros Hs Hd. pose proof (create_id_dict_Some ps Hd) as ->.
  destruct (loop_spec ps) as [Hnd [Hk _]].
  rewrite (regroup_perm ps Hnd) at 1.
  apply Permutation_app_tail.
  rewrite (filter_ext_In _ (fun p => not_merged (id_dict_loop 0 ps []) (t_id p))); [reflexivity|].
  intros p Hp.
  destruct (not_merged _ (t_id p)) eqn:E.
  - apply not_merged_spec in E. apply negb_true_iff.
    destruct (existsb _ _) eqn:E2; [|reflexivity]. exfalso.
    apply existsb_exists in E2. destruct E2 as [k [Hin Hid]].
    unfold PenModel.has_id in Hid. destruct (t_id p) as [k'|] eqn:Ep; [|discriminate].
    apply Nat.eqb_eq in Hid. subst. apply Hk in Hin. specialize (Hs k). rewrite id_count_eq in Hs. lia.
  - apply negb_false_iff. apply existsb_exists.
    destruct (t_id p) as [k|] eqn:Ep; [|discriminate].
    exists k. split.
    + apply Hk. eapply count_pos; eauto.
    + unfold PenModel.has_id. rewrite Ep. apply Nat.eqb_refl.
Qed.

Lemma combine_total (ps : list lterm) r i j : same_lam ps -> no_single_id ps ->
  combine_shared_penalties kadd ps = Some r -> total r i j = total ps i j.
Proof.
  intros HL Hs. destruct (create_id_dict ps) as [d|] eqn:Hd.
  - rewrite (combine_form ps Hd). intros E; inversion E; subst r; clear E.
    unfold total at 2. rewrite (lsum_perm _ (combine_regroup Hs Hd)).
    unfold total. rewrite !lsum_app. f_equal.
    rewrite lsum_map, lsum_flat_map. apply lsum_ext. intros k Hin.
    apply merged_term_total; [assumption|].
    apply create_id_dict_Some in Hd. destruct (loop_spec ps) as [_ [Hk _]].
    apply Hk. now rewrite <- Hd.
  - unfold combine_shared_penalties. rewrite Hd. congruence.
Qed.

(** ** Sorting *)

Lemma insert_perm (p : lterm) l : Permutation (insert_pen p l) (p :: l).
Proof.
  induction l as [|q l IH]; simpl; [reflexivity|].
  destruct (t_start q <=? t_start p); [|reflexivity].
  rewrite IH. constructor.
Qed.

Lemma sort_perm_aux l : forall acc : list lterm,
  Permutation (fold_left (fun acc p => insert_pen p acc) l acc) (acc ++ l).
Proof.
  induction l as [|p l IH]; intros acc; simpl; [now rewrite app_nil_r|].
  rewrite IH, insert_perm. simpl. rewrite Permutation_middle. reflexivity.
Qed.

Lemma sort_perm (l : list lterm) : Permutation (sort_penalties l) l.
Proof. unfold sort_penalties. now rewrite sort_perm_aux. Qed.

Lemma insert_sorted (p : lterm) l : Sorted start_le l -> Sorted start_le (insert_pen p l).
Proof.
  intros H. induction l as [|q l IH]; simpl; [repeat constructor|].
  inversion H; subst.
  destruct (Nat.leb_spec (t_start q) (t_start p)).
  - constructor; [now apply IH|].
    destruct l as [|r l]; simpl; [constructor; exact H0|].
    destruct (Nat.leb_spec (t_start r) (t_start p)); constructor.
    + now inversion H3.
    + exact H0.
  - constructor; [assumption|]. constructor. unfold PenSpec.start_le. lia.
Qed.

Lemma sort_sorted (l : list lterm) : Sorted start_le (sort_penalties l).
Proof.
  unfold sort_penalties.
  assert (G : forall acc, Sorted start_le acc ->
            Sorted start_le (fold_left (fun acc p => insert_pen p acc) l acc)).
  { induction l as [|p l IH]; intros acc H; simpl; [assumption|]. apply IH. now apply insert_sorted. }
  apply G. constructor.
Qed.

(** ** Splitting a merged list *)

Lemma split_merged_term (ps : list lterm) k : same_lam ps -> 0 < count_id k ps ->
  (forall p, In p ps -> plain p) ->
  (forall p, In p ps -> t_id p <> None -> default_flags p) ->
  split_one (merged_term ps k) = filter (has_id k) ps.
Proof.
  intros HL Hc Hp Hf. unfold merged_term, merge_id, count_id in *.
  assert (Hin : forall p, In p (filter (has_id k) ps) -> In p ps /\ t_id p = Some k)
    by (intro; apply filter_has_id_In).
  destruct (filter (has_id k) ps) as [|m0 ms]; [simpl in Hc; lia|].
  unfold split_one. cbn [t_parts].
  destruct (Hin m0) as [H1 H2]; [now left|].
  rewrite map_map.
  rewrite <- (map_id (m0 :: ms)) at 2. apply map_ext_in. intros p Hpin.
  destruct (Hin p Hpin) as [H3 H4].
  destruct (Hp p H3) as [Hparts [[a Ha] [b Hb]]].
  destruct (Hf p H3) as [Hfr Hcl]; [congruence|].
  assert (HLam : t_lam m0 = t_lam p) by (apply HL; congruence).
  unfold term_of_part, part_of. destruct p; simpl in *. subst. reflexivity.
Qed.

Lemma filter_merged_plain (ps : list lterm) : (forall p : lterm, In p ps -> t_parts p = None) ->
  filter (@is_merged K) ps = [] /\ filter (fun p => negb (is_merged p)) ps = ps.
Proof.
  induction ps as [|p ps IH]; intros H; [now split|].
  destruct IH as [I1 I2]; [intros; apply H; now right|].
  assert (Hm : is_merged p = false) by (unfold is_merged; now rewrite (H p (or_introl eq_refl))).
  simpl. rewrite Hm. simpl. split; [assumption|]. now rewrite I2.
Qed.

Lemma filter_merged_terms (ps : list lterm) ks : (forall k, In k ks -> 0 < count_id k ps) ->
  filter (@is_merged K) (map (merged_term ps) ks) = map (merged_term ps) ks /\
  filter (fun p => negb (is_merged p)) (map (merged_term ps) ks) = [].
Proof.
  induction ks as [|k ks IH]; intros H; [now split|].
  destruct IH as [I1 I2]; [intros; apply H; now right|].
  assert (Hm : is_merged (merged_term ps k) = true).
  { unfold merged_term, merge_id. specialize (H k (or_introl eq_refl)).
    unfold count_id in H. destruct (filter (has_id k) ps); [simpl in H; lia|reflexivity]. }
  simpl. rewrite Hm. simpl. split; [now f_equal|assumption].
Qed.

Lemma split_combine_perm (ps : list lterm) r : same_lam ps -> no_single_id ps ->
  (forall p, In p ps -> plain p) ->
  (forall p, In p ps -> t_id p <> None -> default_flags p) ->
  combine_shared_penalties kadd ps = Some r ->
  Permutation (split_shared_penalties r) ps.
Proof.
  intros HL Hs Hp Hf. destruct (create_id_dict ps) as [d|] eqn:Hd.
  - rewrite (combine_form ps Hd). intros E; inversion E; subst r; clear E.
    pose proof (combine_regroup Hs Hd) as Hperm.
    pose proof (create_id_dict_Some ps Hd) as Hd'.
    destruct (loop_spec ps) as [_ [Hk _]]. rewrite <- Hd' in Hk.
    unfold split_shared_penalties. rewrite !filter_app.
    set (U := filter (fun p => not_merged d (t_id p)) ps) in *.
    assert (HU : forall p, In p U -> t_parts p = None).
    { intros p Hin. apply filter_In in Hin. now apply Hp. }
    destruct (filter_merged_plain U HU) as [-> ->].
    destruct (filter_merged_terms ps (map fst d)) as [-> ->]; [intros; now apply Hk|].
    rewrite app_nil_r. simpl app.
    assert (HF : flat_map (@split_one K) (map (merged_term ps) (map fst d))
                 = flat_map (fun k => filter (has_id k) ps) (map fst d)).
    { rewrite !flat_map_concat_map, map_map. f_equal. apply map_ext_in.
      intros k Hin. apply split_merged_term; auto. now apply Hk. }
    rewrite HF.
    destruct (map (merged_term ps) (map fst d)) eqn:Em.
    + destruct (map fst d); [|discriminate]. simpl in Hperm. rewrite app_nil_r in Hperm.
      now symmetry.
    + rewrite sort_perm. now symmetry.
  - unfold combine_shared_penalties. rewrite Hd. intros E; inversion E; subst r.
    unfold split_shared_penalties.
    destruct (filter_merged_plain ps) as [-> ->]; [intros p Hin; now apply Hp|].
    reflexivity.
Qed.

(** Two sorted lists that are permutations of one another and have no repeated start
    index are equal. *)
Lemma sorted_unique : forall l1 l2 : list lterm,
  Sorted start_le l1 -> Sorted start_le l2 -> NoDup (map (@t_start K) l1) ->
  Permutation l1 l2 -> l1 = l2.
Proof.
  assert (Tr : Relations_1.Transitive start_le).
  { intros x y z. unfold PenSpec.start_le. lia. }
  induction l1 as [|a l1 IH]; intros l2 S1 S2 Hnd HP.
  - now apply Permutation_nil in HP.
  - destruct l2 as [|b l2]; [symmetry in HP; now apply Permutation_nil in HP|].
    apply Sorted_StronglySorted in S1, S2; try exact Tr.
    inversion S1; inversion S2; subst.
    simpl in Hnd. inversion Hnd; subst.
    assert (a = b).
    { assert (Hb : In b (a :: l1)) by (eapply Permutation_in; [symmetry; exact HP|now left]).
      assert (Ha : In a (b :: l2)) by (eapply Permutation_in; [exact HP|now left]).
      destruct Hb as [->|Hb]; [reflexivity|].
      destruct Ha as [->|Ha]; [reflexivity|].
      rewrite Forall_forall in H2, H6.
      specialize (H2 b Hb). specialize (H6 a Ha). unfold PenSpec.start_le in *.
      exfalso. apply H3. replace (t_start a) with (t_start b) by lia. now apply in_map. }
    subst. f_equal. apply IH; try assumption.
    + now apply StronglySorted_Sorted.
    + now apply StronglySorted_Sorted.
    + now apply Permutation_cons_inv in HP.
Qed.

Lemma filter_sorted (f : lterm -> bool) l : Sorted start_le l -> Sorted start_le (filter f l).
Proof.
  assert (Tr : Relations_1.Transitive start_le).
  { intros x y z. unfold PenSpec.start_le. lia. }
  intros H. apply StronglySorted_Sorted. apply Sorted_StronglySorted in H; [|exact Tr].
  induction H; simpl; [constructor|].
  destruct (f a); [|assumption]. constructor; [assumption|].
  rewrite Forall_forall in *. intros x Hx. apply filter_In in Hx. now apply H0.
Qed.

Lemma split_sorted_or_same ms :
  Sorted start_le (filter (fun p => negb (is_merged p)) ms) ->
  Sorted start_le (split_shared_penalties ms).
Proof.
  intros H. unfold split_shared_penalties. destruct (filter (@is_merged K) ms); [assumption|].
  apply sort_sorted.
Qed.

Lemma split_combine_eq (ps : list lterm) r : same_lam ps -> no_single_id ps ->
  (forall p, In p ps -> plain p) ->
  (forall p, In p ps -> t_id p <> None -> default_flags p) ->
  Sorted start_le ps -> NoDup (map (@t_start K) ps) ->
  combine_shared_penalties kadd ps = Some r ->
  split_shared_penalties r = ps.
Proof.
  intros HL Hs Hp Hf HS Hnd Hr.
  pose proof (split_combine_perm HL Hs Hp Hf Hr) as HP.
  symmetry. apply sorted_unique; try assumption; [|now symmetry].
  apply split_sorted_or_same.
  destruct (create_id_dict ps) as [d|] eqn:Hd.
  - rewrite (combine_form ps Hd) in Hr. inversion Hr; subst r.
    pose proof (create_id_dict_Some ps Hd) as Hd'.
    destruct (loop_spec ps) as [_ [Hk _]]. rewrite <- Hd' in Hk.
    rewrite filter_app.
    destruct (filter_merged_terms ps (map fst d)) as [_ ->]; [intros; now apply Hk|].
    rewrite app_nil_r. apply filter_sorted, filter_sorted, HS.
  - unfold combine_shared_penalties in Hr. rewrite Hd in Hr. inversion Hr; subst r.
    now apply filter_sorted.
Qed.

End Merge.
