(** Lemmas for FormProps: coding of factors, li, names, constraints. *)

From Coq Require Import List Bool Arith Lia Ring Sorting.Sorted.
From Verif Require Import FormModel FormSpec FormProofs FormProofs2 FormProofs3 FormProofs4.
Import ListNotations.

(** *** np.unique *)
Lemma insert_unique_in x l y : In y (insert_unique x l) <-> y = x \/ In y l.
Proof.
  induction l as [|a l IH]; simpl; [intuition|].
  destruct (Nat.eqb_spec x a); [subst; simpl; intuition|].
  destruct (x <? a); simpl; [intuition|]. rewrite IH. intuition.
Qed.
Lemma insert_unique_sorted x l : StronglySorted lt l -> StronglySorted lt (insert_unique x l).
Proof.
  induction 1 as [|a l Hs IH Hf]; simpl; [repeat constructor|].
  destruct (Nat.eqb_spec x a); [subst; constructor; assumption|].
  destruct (Nat.ltb_spec x a).
  - constructor; [constructor; assumption|]. constructor; [assumption|].
    eapply Forall_impl; [|exact Hf]. simpl. intros; lia.
  - constructor; [assumption|]. apply Forall_forall. intros y Hy. apply insert_unique_in in Hy.
    destruct Hy as [->|Hy]; [lia|]. rewrite Forall_forall in Hf. apply Hf. assumption.
Qed.
Lemma np_unique_in l y : In y (np_unique l) <-> In y l.
Proof. unfold np_unique. induction l as [|a l IH]; simpl; [tauto|]. rewrite insert_unique_in, IH. intuition. Qed.
Lemma np_unique_sorted l : StronglySorted lt (np_unique l).
Proof. unfold np_unique. induction l as [|a l IH]; simpl; [constructor|]. apply insert_unique_sorted. exact IH. Qed.
Lemma sorted_NoDup l : StronglySorted lt l -> NoDup l.
Proof.
  induction 1 as [|a l Hs IH Hf]; constructor; [|exact IH].
  intros Hin. rewrite Forall_forall in Hf. specialize (Hf a Hin). lia.
Qed.
Lemma not_null_in l x : In x (not_null l) <-> In (Some x) l.
Proof.
  induction l as [|[a|] l IH]; simpl; [tauto| |].
  - rewrite IH. split; intros [H|H]; auto; left; congruence.
  - rewrite IH. split; [auto|]. intros [H|H]; [discriminate|exact H].
Qed.

Lemma position_nth x l ci k : NoDup l -> (position x l ci = Some k <-> ci <= k /\ nth_error l (k - ci) = Some x).
Proof.
  revert ci; induction l as [|a l IH]; intros ci ND; simpl.
  - split; [discriminate|]. intros [_ H]. destruct (k - ci); discriminate.
  - inversion ND as [|? ? Hni ND']; subst. destruct (Nat.eqb_spec x a).
    + subst a. split.
      * intros E. injection E as <-. rewrite Nat.sub_diag. split; [lia|reflexivity].
      * intros [H E]. destruct (k - ci) as [|j] eqn:Ej; [f_equal; lia|].
        simpl in E. apply nth_error_In in E. contradiction.
    + rewrite IH by exact ND'. split; intros [H E].
      * split; [lia|]. replace (k - ci) with (S (k - S ci)) by lia. exact E.
      * destruct (k - ci) as [|j] eqn:Ej; simpl in E; [congruence|].
        split; [lia|]. replace (k - S ci) with j by lia. exact E.
Qed.
Lemma coding_factor_nth l ci k : coding_factor None l ci k = if ci <=? k then nth_error l (k - ci) else None.
Proof.
  revert ci; induction l as [|a l IH]; intros ci; simpl.
  - destruct (ci <=? k); [destruct (k - ci)|]; reflexivity.
  - rewrite IH. destruct (Nat.leb_spec (S ci) k).
    + destruct (Nat.leb_spec ci k); [|lia].
      replace (k - ci) with (S (k - S ci)) by lia. simpl.
      destruct (nth_error l (k - S ci)) eqn:E; [reflexivity|].
      destruct (Nat.eqb_spec ci k); [lia|reflexivity].
    + destruct (Nat.eqb_spec ci k).
      * subst. rewrite Nat.leb_refl, Nat.sub_diag. reflexivity.
      * destruct (Nat.leb_spec ci k); [lia|reflexivity].
Qed.
Lemma coding_factor_book cb l ci k c : (forall x y, In x l -> In y l -> cb x = cb y -> x = y) ->
  (coding_factor (Some cb) l ci k = Some c <-> In c l /\ cb c = k).
Proof.
  revert ci; induction l as [|a l IH]; intros ci Hinj; simpl; [split; [discriminate|tauto]|].
  assert (Hinj' : forall x y, In x l -> In y l -> cb x = cb y -> x = y) by (intros; apply Hinj; try right; assumption).
  specialize (IH (S ci) Hinj').
  destruct (coding_factor (Some cb) l (S ci) k) as [c'|] eqn:E.
  - assert (HI : In c' l /\ cb c' = k).
    { clear - E Hinj'. revert ci E. induction l as [|b l IHl]; intros ci E; simpl in E; [discriminate|].
      destruct (coding_factor (Some cb) l (S (S ci)) k) as [c''|] eqn:E2.
      - injection E as <-.
        destruct (IHl (fun x y Hx Hy => Hinj' x y (or_intror Hx) (or_intror Hy)) _ E2) as [H1 H2].
        split; [right; exact H1|exact H2].
      - destruct (Nat.eqb_spec (cb b) k); [|discriminate]. injection E as <-. split; [left; reflexivity|assumption]. }
    destruct HI as [HI HK]. split.
    + intros E'. injection E' as <-. split; [right; exact HI|exact HK].
    + intros [Hc Hk]. f_equal. apply Hinj; [right; exact HI|exact Hc|congruence].
  - destruct (Nat.eqb_spec (cb a) k).
    + split.
      * intros E'. injection E' as <-. split; [left; reflexivity|assumption].
      * intros [[H|H] Hk]; [congruence|]. exfalso. destruct IH as [_ IH]. specialize (IH (conj H Hk)). discriminate.
    + split; [discriminate|]. intros [[H|H] Hk]; [congruence|].
      destruct IH as [_ IH]. specialize (IH (conj H Hk)). discriminate.
Qed.

(** *** Subsets *)
Inductive subsequence : list var -> list var -> Prop :=
| sub_nil : subsequence [] []
| sub_take v s l : subsequence s l -> subsequence (v :: s) (v :: l)
| sub_skip v s l : subsequence s l -> subsequence s (v :: l).

Lemma sub_nil_l l : subsequence [] l.
Proof. induction l; constructor; assumption. Qed.

Lemma combinations_spec vars o s : In s (combinations vars o) <-> subsequence s vars /\ length s = o.
Proof.
  revert o s; induction vars as [|v vars IH]; intros [|o] s; simpl.
  - split.
    + intros [<-|[]]. split; [constructor|reflexivity].
    + intros [H E]. inversion H; subst; auto. 
  - split; [tauto|]. intros [H E]. inversion H; subst. discriminate.
  - split.
    + intros [<-|[]]. split; [apply sub_nil_l|reflexivity].
    + intros [_ E]. destruct s; [auto|discriminate].
  - rewrite in_app_iff, in_map_iff. split.
    + intros [(t & <- & Ht)|Hs].
      * apply IH in Ht. destruct Ht as [H1 H2]. split; [constructor; exact H1|simpl; congruence].
      * apply IH in Hs. destruct Hs as [H1 H2]. split; [constructor; exact H1|exact H2].
    + intros [H E]. inversion H as [|? t ? Ht|? ? ? Hs]; subst.
      * left. exists t. split; [reflexivity|]. apply IH. simpl in E. split; [exact Ht|congruence].
      * right. apply IH. split; [exact Hs|exact E].
Qed.

Lemma sub_in s l v : subsequence s l -> In v s -> In v l.
Proof. induction 1; simpl; intuition. Qed.

Lemma NoDup_app_intro (A : Type) (l m : list A) : NoDup l -> NoDup m -> (forall x, In x l -> ~ In x m) -> NoDup (l ++ m).
Proof.
  induction 1 as [|a l Hni Hl IH]; intros Hm Hd; simpl; [exact Hm|].
  constructor.
  - rewrite in_app_iff. intros [H|H]; [contradiction|]. apply (Hd a); [left; reflexivity|exact H].
  - apply IH; [exact Hm|]. intros x Hx. apply Hd. right. exact Hx.
Qed.

Lemma combinations_NoDup vars o : NoDup vars -> NoDup (combinations vars o).
Proof.
  revert o; induction vars as [|v vars IH]; intros [|o] ND; simpl; try (repeat constructor; simpl; tauto).
  inversion ND as [|? ? Hni ND']; subst. apply NoDup_app_intro.
  - apply FinFun.Injective_map_NoDup; [intros x y E; congruence|]. apply IH. exact ND'.
  - apply IH. exact ND'.
  - intros s Hs Hs'. apply in_map_iff in Hs. destruct Hs as (t & <- & _).
    apply combinations_spec in Hs'. destruct Hs' as [Hs' _]. apply Hni. apply (sub_in (v :: t) vars v Hs'). left. reflexivity.
Qed.

Lemma li_NoDup vars : NoDup vars -> NoDup (li vars).
Proof.
  intros ND. unfold li. generalize 1 as a. induction (length vars) as [|n IH]; intros a; simpl; [constructor|].
  apply NoDup_app_intro; [apply combinations_NoDup; exact ND|apply IH|].
  intros s Hs Hs'. apply combinations_spec in Hs. apply in_flat_map in Hs'. destruct Hs' as (o & Ho & Hs').
  apply combinations_spec in Hs'. apply in_seq in Ho. lia.
Qed.

Lemma sub_length s l : subsequence s l -> length s <= length l.
Proof. induction 1; simpl; lia. Qed.

Lemma li_sorted vars : StronglySorted (fun s t => length s <= length t) (li vars).
Proof.
  unfold li. generalize 1 as a. induction (length vars) as [|n IH]; intros a; simpl; [constructor|].
  assert (G : forall l m, (forall s, In s l -> length s = a) -> (forall t, In t m -> a < length t) ->
     StronglySorted (fun s t : list var => length s <= length t) m ->
     StronglySorted (fun s t : list var => length s <= length t) (l ++ m)).
  { clear. induction l as [|s l IHl]; intros m Hl Hm Hs; simpl; [exact Hs|].
    constructor; [apply IHl; auto; intros x Hx; apply Hl; right; exact Hx|].
    apply Forall_forall. intros t Ht. apply in_app_iff in Ht. rewrite (Hl s) by (left; reflexivity).
    destruct Ht as [Ht|Ht]; [rewrite (Hl t) by (right; exact Ht); lia|]. specialize (Hm t Ht). lia. }
  apply G; [| |apply IH].
  - intros s Hs. apply combinations_spec in Hs. tauto.
  - intros t Ht. apply in_flat_map in Ht. destruct Ht as (o & Ho & Ht). apply combinations_spec in Ht.
    apply in_seq in Ho. lia.
Qed.

Lemma combinations_one vars : combinations vars 1 = map (fun v => [v]) vars.
Proof.
  induction vars as [|v vars IH]; [reflexivity|].
  change (combinations (v :: vars) 1) with (map (cons v) (combinations vars 0) ++ combinations vars 1).
  rewrite IH. destruct vars; reflexivity.
Qed.

(** *** Names *)
Section Names.
Variable K : Type.
Variables (k0 k1 : K) (kadd kmul ksub : K -> K -> K) (kopp : K -> K).
Hypothesis Kring : ring_theory k0 k1 kadd kmul ksub kopp eq.
Add Ring Kring5 : Kring.
Variable big : K -> bool.

Notation column := (column K).

Lemma times_nonzero a b : kmul a b <> k0 -> a <> k0 /\ b <> k0.
Proof. intros H. split; intros E; apply H; rewrite E; ring. Qed.

Definition labelled (e : env) (d : frame K) : list column -> list (list (var * option level)) -> Prop :=
  Forall2 (fun a nm => forall r, a r <> k0 -> parts_hold K e d nm r).

Lemma first_labels e (d : frame K) h v : labelled e d (var_cols K k0 k1 e d h v) (name_step e h [] v).
Proof.
  unfold var_cols, name_step. destruct (vt e v).
  - constructor; [|constructor]. intros r _ w l [E|[]]. discriminate.
  - rewrite level_range_filter. induction (filter _ _) as [|k l IH]; simpl; constructor; [|exact IH].
    intros r Hr w lv [E|[]]. injection E as <- <-. unfold on_level in Hr. unfold level_of.
    destruct (code d r v) as [j|]; [|congruence].
    destruct (Nat.eqb_spec j k); [subst; reflexivity|congruence].
Qed.

Lemma next_labels e (d : frame K) h A N v : N <> [] -> labelled e d A N ->
  labelled e d (kron K kmul A (var_cols K k0 k1 e d h v)) (name_step e h N v).
Proof.
  intros Hne H. unfold name_step. destruct (vt e v) eqn:Ev.
  - destruct N as [|n0 N0] eqn:EN; [congruence|]. cbv iota. rewrite <- EN in *. clear EN Hne.
    induction H as [|a nm A N E H IH]; simpl; [constructor|].
    unfold var_cols. rewrite Ev. simpl. constructor.
    + intros r Hr. apply times_nonzero in Hr. destruct Hr as [Ha _].
      intros w l Hin. apply in_app_iff in Hin. destruct Hin as [Hin|[E'|[]]]; [|discriminate].
      apply (E r Ha). exact Hin.
    + unfold var_cols in IH. rewrite Ev in IH. exact IH.
  - destruct N as [|n0 N0] eqn:EN; [congruence|]. cbv iota. rewrite <- EN in *. clear EN Hne.
    induction H as [|a nm A N E H IH]; simpl; [constructor|].
    apply Forall2_app; [|exact IH]. clear IH.
    unfold var_cols. rewrite Ev, level_range_filter, map_map.
    induction (filter _ _) as [|k l IH]; simpl; constructor; [|exact IH].
    intros r Hr. apply times_nonzero in Hr. destruct Hr as [Ha Hr].
    intros w lv Hin. apply in_app_iff in Hin. destruct Hin as [Hin|[E'|[]]]; [apply (E r Ha); exact Hin|].
    injection E' as <- <-. unfold on_level in Hr. unfold level_of.
    destruct (code d r v) as [j|]; [|congruence].
    destruct (Nat.eqb_spec j k); [subst; reflexivity|congruence].
Qed.

Lemma linear_labels e (d : frame K) h vars : vars <> [] -> length vars = 1 \/ codable e h vars ->
  labelled e d (linear_cols K k0 k1 kmul e d h vars)
    (match vars with
     | [v] => match vt e v with
              | Factor => map (fun fl => [(v, Some (decode e v fl))]) (level_range e h v)
              | Numeric => [[(v, None)]]
              end
     | _ => fold_left (name_step e h) vars []
     end).
Proof.
  intros Hne Hok. destruct vars as [|v vars]; [congruence|].
  assert (G : forall vs A N, codable e h vs -> N <> [] -> labelled e d A N ->
     labelled e d (fold_left (kron K kmul) (map (var_cols K k0 k1 e d h) vs) A) (fold_left (name_step e h) vs N)).
  { induction vs as [|w vs IH]; intros A N Hc HN HA; simpl; [exact HA|].
    inversion Hc as [|? ? Hw Hc']; subst. apply IH; [exact Hc'| |apply next_labels; assumption].
    pose proof (next_labels e d h A N w HN HA) as HL.
    intros E0. rewrite E0 in HL. apply Forall2_length in HL. apply length_zero_iff_nil in HL.
    assert (HA' : A <> []) by (intros E2; subst A; inversion HA; congruence).
    apply (kron_nonempty K kmul A (var_cols K k0 k1 e d h w) HA' (var_cols_nonempty K k0 k1 e d h w Hw)).
    exact HL. }
  destruct vars as [|w vars].
  - pose proof (first_labels e d h v) as F. unfold name_step in F. unfold linear_cols. simpl. exact F.
  - destruct Hok as [Hl|Hc]; [simpl in Hl; lia|]. inversion Hc as [|? ? Hv Hc']; subst.
    unfold linear_cols. change (fold_left (name_step e h) (v :: w :: vars) []) with
      (fold_left (name_step e h) (w :: vars) (name_step e h [] v)).
    apply G; [exact Hc'| |apply first_labels].
    pose proof (first_labels e d h v) as HL. intros E0. rewrite E0 in HL. apply Forall2_length in HL. apply length_zero_iff_nil in HL.
    apply (var_cols_nonempty K k0 k1 e d h v Hv). exact HL.
Qed.

Lemma random_labels (P : list (var * option level) -> nat -> Prop) e (d : frame K) v (A : list column)
    (N : list cname) (Q : cname -> level -> nat -> Prop) (mk : cname -> level -> cname) :
  Forall2 (fun a nm => forall r, a r <> k0 -> forall l, level_of K e d v r = Some l -> Q (mk nm l) l r) A N ->
  Forall2 (fun a nm => forall r, a r <> k0 -> exists l, level_of K e d v r = Some l /\ Q nm l r)
    (random_cols K k0 e d v A)
    (flat_map (fun fl => map (fun nm => mk nm (decode e v fl)) N) (seq 0 (length (levels e v)))).
Proof.
  intros H. unfold random_cols. induction (seq 0 (length (levels e v))) as [|k l IH]; simpl; [constructor|].
  apply Forall2_app; [|exact IH]. clear IH.
  induction H as [|a nm A N E H IH]; simpl; constructor; [|exact IH].
  intros r Hr. unfold on_level in Hr. destruct (code d r v) as [j|] eqn:Ec; [|congruence].
  destruct (Nat.eqb_spec j k); [|congruence]. subst j.
  assert (EL : level_of K e d v r = Some (decode e v k)) by (unfold level_of; rewrite Ec; reflexivity).
  exists (decode e v k). split; [exact EL|]. apply E; [exact Hr|exact EL].
Qed.

Lemma Forall2_impl (A B : Type) (R1 R2 : A -> B -> Prop) l m : (forall a b, R1 a b -> R2 a b) -> Forall2 R1 l m -> Forall2 R2 l m.
Proof. intros H; induction 1; constructor; auto. Qed.
Lemma Forall2_map_r (A B C : Type) (R : A -> C -> Prop) (f : B -> C) l m : Forall2 (fun a b => R a (f b)) l m -> Forall2 R l (map f m).
Proof. induction 1; constructor; auto. Qed.
Lemma Forall2_firstn (A B : Type) (R : A -> B -> Prop) l m k : Forall2 R l m -> Forall2 R (firstn k l) (firstn k m).
Proof. intros H; revert k; induction H; intros [|k]; simpl; constructor; auto. Qed.

Lemma smooth_labels s e (d : frame K) : well_formed K s e -> drops_last K k0 kadd kmul ksub big s e d ->
  (forall v, f_by s = Some v -> in_order e v) ->
  Forall2 (fun a nm => forall r, a r <> k0 -> name_holds K e d (TF s) nm r)
    (smooth_cols K k0 kadd kmul ksub big s e d) (snd (f_info s e)).
Proof.
  intros W D Hord.
  destruct (matrix_ok K k0 kadd kmul ksub s e d W) as (T & ET & HT & EC).
  assert (BL : length (smooth_base K k0 kadd kmul ksub s d) = f_term_coef s)
    by (rewrite <- (eqcols_length _ _ _ EC), cols_of_length; exact HT).
  assert (ALL : Forall2 (fun a nm => forall r, a r <> k0 -> name_holds K e d (TF s) nm r)
    (smooth_all K k0 kadd kmul ksub big s e d) (f_all_names s e)).
  { unfold smooth_all, f_all_names. simpl name_holds.
    assert (LEN : forall (f : column -> column) (lo : option level) (b : option var),
      (forall a r, f a r <> k0 -> match lo with Some l => exists v, f_by s = Some v /\ level_of K e d v r = Some l
                                            | None => f_by s = None end) ->
      Forall2 (fun a nm => forall r, a r <> k0 ->
          match nm with
          | NF _ _ _ (Some l) => exists v, f_by s = Some v /\ level_of K e d v r = Some l
          | NF _ _ _ None => f_by s = None
          | _ => False
          end)
        (map f (map (pruned K k0 big) (smooth_base K k0 kadd kmul ksub s d)))
        (map (fun ink => NF (f_vars s) b ink lo) (seq 0 (f_term_coef s)))).
    { intros f lo b Hf. rewrite <- BL. clear BL EC. generalize 0.
      induction (smooth_base K k0 kadd kmul ksub s d) as [|a l IH]; intros o; simpl; constructor; [|apply IH].
      intros r Hr. exact (Hf _ _ Hr). }
    destruct (f_by s) as [v|] eqn:Eby.
    - rewrite (Hord v eq_refl) at 2. generalize (length (levels e v)) as L. clear - LEN Eby.
      intros L. remember (seq 0 (f_term_coef s)) as Q eqn:EQ. clear EQ. generalize 0 as o. induction L as [|L IH]; intros o; simpl; [constructor|].
      apply Forall2_app; [|apply IH].
      apply LEN. intros a r Hr. exists v. split; [reflexivity|].
      unfold on_level in Hr. unfold level_of. destruct (code d r v) as [j|]; [|congruence].
      destruct (Nat.eqb_spec j o); [subst; reflexivity|congruence].
    - destruct (f_binary s) as [[v k]|].
      + apply LEN. reflexivity.
      + rewrite <- (map_id (map (pruned K k0 big) _)). apply LEN. reflexivity. }
  unfold f_info. cbn [snd]. rewrite keep_without. unfold smooth_cols, drops, drops_last in *.
  destruct (f_drop s) as [l|]; [|rewrite without_none; exact ALL].
  destruct D as (ND & k & Hk & HI).
  pose proof (Forall2_length _ _ _ _ _ ALL) as LN.
  rewrite (without_tail _ l _ k) by exact HI. rewrite (without_tail _ l _ k) by (rewrite <- LN; exact HI).
  apply Forall2_firstn. exact ALL.
Qed.

Lemma term_labels e (d : frame K) lens icpt h t : term_ok K k0 kadd kmul ksub big e d lens h t ->
  match t with TF s => forall v, f_by s = Some v -> in_order e v | TIrf _ => False | _ => True end ->
  Forall2 (fun a nm => forall r, a r <> k0 -> name_holds K e d t nm r)
    (term_cols K k0 k1 kadd kmul ksub big e d lens h t) (snd (term_info e icpt h t)).
Proof.
  intros Hok Hord. destruct t as [|vars|s|s|v|vars b].
  - simpl. constructor; [reflexivity|constructor].
  - destruct Hok as [Hne Hok]. cbn [term_cols term_info linear_info snd].
    apply Forall2_map_r. cbn [name_holds]. apply linear_labels; assumption.
  - destruct Hok as [W D]. apply smooth_labels; assumption.
  - contradiction.
  - cbn [term_cols term_info ri_info snd]. cbn [name_holds].
    pose proof (random_labels (fun _ _ => True) e d v [one K k1] [NInt]
      (fun nm l r => nm = NRi v l) (fun _ l => NRi v l)) as H.
    assert (E : flat_map (fun fl => map (fun _ : cname => NRi v (decode e v fl)) [NInt]) (seq 0 (length (levels e v)))
                = map (fun fl => NRi v (decode e v fl)) (seq 0 (length (levels e v)))).
    { clear. induction (seq 0 (length (levels e v))) as [|k l IH]; simpl; [reflexivity|]. rewrite <- IH. reflexivity. }
    rewrite <- E.
    eapply Forall2_impl; [|apply H; constructor; [reflexivity|constructor]].
    intros a nm Ha r Hr. destruct (Ha r Hr) as (l & EL & ->). auto.
  - destruct Hok as [Hne Hok]. pose proof (linear_labels e d false vars Hne Hok) as L.
    cbn [term_cols term_info rs_info linear_info]. destruct b as [v|]; cbn [snd].
    + pose proof (random_labels (fun _ _ => True) e d v (linear_cols K k0 k1 kmul e d false vars)
        (map NLin match vars with
         | [v0] => match vt e v0 with
                  | Numeric => [[(v0, None)]]
                  | Factor => map (fun fl => [(v0, Some (decode e v0 fl))]) (level_range e false v0)
                  end
         | _ => fold_left (name_step e false) vars []
         end)
        (fun nm l r => name_holds K e d (TRs vars (Some v)) nm r) (fun nm l => NRs nm (Some l))) as H.
      eapply Forall2_impl; [|apply H].
      * intros a nm Ha r Hr. destruct (Ha r Hr) as (l & _ & HQ). exact HQ.
      * apply Forall2_map_r. eapply Forall2_impl; [|exact L].
        intros a nm Ha r Hr l Hl. simpl. split; [apply Ha; exact Hr|exact Hl].
    + rewrite map_map. apply Forall2_map_r. cbn [name_holds]. exact L.
Qed.
End Names.
