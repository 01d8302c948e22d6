(** Grouping of penalties by start index: rank flags, pseudo-inverse blocks, effective
    degrees of freedom, alignment of trace terms. *)

From Coq Require Import List Arith Bool Lia Permutation Ring ZArith Sorted.
From Verif Require Import PenModel PenSpec PenProofs PenProofs2 PenProofs3 PenProofs4.
Import ListNotations.

Section Groups.
Variable K : Type.
Variables (k0 k1 : K) (kadd kmul ksub : K -> K -> K) (kopp : K -> K).
Variable Kring : ring_theory k0 k1 kadd kmul ksub kopp (@eq K).
Add Ring Kr : Kring.

Notation lterm := (lterm K).
Notation group := (group K).
Notation has_id := (@has_id K).
Notation start_le := (@start_le K).
Notation at_start := (@at_start K).
Notation lsum := (@lsum K k0 kadd _).

Lemma with_id_has k (ps : list lterm) : with_id k ps = filter (has_id k) ps.
Proof.
  unfold with_id. apply PenProofs.filter_ext_In. intros p _. unfold PenModel.has_id.
  destruct (optnat_eq_dec (t_id p) (Some k)) as [->|n].
  - now rewrite Nat.eqb_refl.
  - destruct (t_id p) as [k'|]; [|reflexivity]. destruct (Nat.eqb_spec k' k); [congruence|reflexivity].
Qed.

Lemma at_start_app s (a b : list lterm) : at_start s (a ++ b) = at_start s a ++ at_start s b.
Proof. apply filter_app. Qed.

Lemma at_start_one s (p : lterm) : at_start s [p] = if t_start p =? s then [p] else [].
Proof. reflexivity. Qed.

(** Strictly increasing lists. *)
Definition incr (l : list nat) : Prop := StronglySorted lt l.

Lemma incr_snoc l x : incr l -> (forall y, In y l -> y < x) -> incr (l ++ [x]).
Proof.
  intros H Hx. induction H; simpl; [repeat constructor|].
  constructor.
  - apply IHStronglySorted. intros; apply Hx; now right.
  - apply Forall_app. split; [assumption|]. constructor; [apply Hx; now left|constructor].
Qed.

(** State of the grouping loop after the penalties [dn]. *)
Record ginv (dn : list lterm) (gs : list group) : Prop := {
  gi_incr : incr (map (@g_start K) gs);
  gi_in : forall s, In s (map (@g_start K) gs) <-> exists p, In p dn /\ t_start p = s;
  gi_terms : forall g, In g gs -> g_terms g = length (at_start (g_start g) dn);
  gi_sum : forall g, In g gs -> forall i j, g_S g i j = block_sum k0 kadd kmul (g_start g) dn i j;
  gi_dim : forall g p, In g gs -> In p dn -> t_start p = g_start g -> g_dim g = t_dim p /\ g_rep g = t_rep p }.

Lemma NoDup_incr l : incr l -> NoDup l.
Proof.
  induction 1; constructor; [|assumption].
  intros Hin. rewrite Forall_forall in H0. specialize (H0 a Hin). lia.
Qed.

Lemma at_start_none s (dn : list lterm) : (forall p, In p dn -> t_start p < s) -> at_start s dn = [].
Proof.
  induction dn as [|p dn IH]; intros H; simpl; [reflexivity|].
  destruct (Nat.eqb_spec (t_start p) s).
  - specialize (H p (or_introl eq_refl)). lia.
  - apply IH. intros; apply H; now right.
Qed.

Lemma block_sum_snoc s dn p i j :
  block_sum k0 kadd kmul s (dn ++ [p]) i j
  = kadd (block_sum k0 kadd kmul s dn i j)
         (if t_start p =? s then kmul (t_S p i j) (t_lam p) else k0).
Proof.
  unfold block_sum. rewrite at_start_app, (PenProofs2.lsum_app _ _ _ _ _ _ _ Kring), at_start_one.
  destruct (t_start p =? s); simpl; ring.
Qed.

Lemma filter_unique (gs : list group) g : NoDup (map (@g_start K) gs) -> In g gs ->
  filter (fun h => g_start h =? g_start g) gs = [g].
Proof.
  induction gs as [|h gs IH]; intros Hnd Hin; [contradiction|].
  simpl in Hnd. inversion Hnd; subst. simpl. destruct Hin as [->|Hin].
  - rewrite Nat.eqb_refl. f_equal.
    assert (forall h, In h gs -> (g_start h =? g_start g) = false).
    { intros h Hh. apply Nat.eqb_neq. intros E. apply H1. rewrite <- E. now apply in_map. }
    clear -H. induction gs as [|h gs IH]; simpl; [reflexivity|].
    rewrite (H h) by now left. apply IH. intros; apply H; now right.
  - destruct (Nat.eqb_spec (g_start h) (g_start g)).
    + exfalso. apply H1. rewrite e. now apply in_map.
    + now apply IH.
Qed.

Lemma ginv_new dn gs p : ginv dn gs -> (forall q, In q dn -> t_start q < t_start p) ->
  ginv (dn ++ [p])
    (gs ++ [mkGroup (mscale kmul (t_lam p) (t_S p)) (t_dim p) 1 (t_rep p) (t_start p)]).
Proof.
  intros [G1 G2 G3 G4 G5] Hlt.
  assert (Hgs : forall g, In g gs -> g_start g <> t_start p).
  { intros g Hg E. assert (Hin : In (g_start g) (map (@g_start K) gs)) by now apply in_map.
    apply G2 in Hin. destruct Hin as [q [Hq Eq]]. specialize (Hlt q Hq). lia. }
  constructor.
  - rewrite map_app. simpl. apply incr_snoc; [assumption|].
    intros y Hy. apply G2 in Hy. destruct Hy as [q [Hq <-]]. now apply Hlt.
  - intros s. rewrite map_app, in_app_iff, G2. simpl. split.
    + intros [[q [Hq E]]|[<-|[]]].
      * exists q. split; [apply in_or_app; now left|assumption].
      * exists p. split; [apply in_or_app; right; now left|reflexivity].
    + intros [q [Hq E]]. apply in_app_or in Hq. destruct Hq as [Hq|[<-|[]]].
      * left. now exists q.
      * right. now left.
  - intros g Hg. apply in_app_or in Hg. destruct Hg as [Hg|[<-|[]]].
    + rewrite at_start_app, at_start_one, (G3 g Hg).
      destruct (Nat.eqb_spec (t_start p) (g_start g)); [now destruct (Hgs g Hg)|].
      now rewrite app_nil_r.
    + simpl. rewrite at_start_app, at_start_one, Nat.eqb_refl, at_start_none by assumption. reflexivity.
  - intros g Hg i j. rewrite block_sum_snoc. apply in_app_or in Hg. destruct Hg as [Hg|[<-|[]]].
    + rewrite (G4 g Hg).
      destruct (Nat.eqb_spec (t_start p) (g_start g)); [now destruct (Hgs g Hg)|]. ring.
    + simpl. rewrite Nat.eqb_refl. unfold block_sum. rewrite at_start_none by assumption.
      unfold mscale. simpl. ring.
  - intros g q Hg Hq E. apply in_app_or in Hg, Hq.
    destruct Hg as [Hg|[<-|[]]], Hq as [Hq|[<-|[]]].
    + now apply G5.
    + now destruct (Hgs g Hg).
    + simpl in E. specialize (Hlt q Hq). lia.
    + now split.
Qed.

Lemma ginv_add dn gs p gs' : ginv dn gs -> group_add kadd kmul gs p = Some gs' ->
  ginv (dn ++ [p]) gs'.
Proof.
  intros [G1 G2 G3 G4 G5]. unfold group_add.
  destruct (filter (fun g => g_start g =? t_start p) gs) as [|g0 [|]] eqn:Ef; try discriminate.
  destruct ((g_rep g0 =? t_rep p) && (g_dim g0 =? t_dim p)) eqn:Ec; [|discriminate].
  intros E. inversion E; subst gs'; clear E.
  apply andb_true_iff in Ec. destruct Ec as [Er Ed]. apply Nat.eqb_eq in Er, Ed.
  assert (Hg0 : In g0 gs /\ g_start g0 = t_start p).
  { assert (H : In g0 (filter (fun g => g_start g =? t_start p) gs)) by (rewrite Ef; now left).
    apply filter_In in H. destruct H. split; [assumption|now apply Nat.eqb_eq]. }
  destruct Hg0 as [Hg0 Es0].
  assert (Huniq : forall g, In g gs -> g_start g = t_start p -> g = g0).
  { intros g Hg E. assert (H : In g (filter (fun g => g_start g =? t_start p) gs)).
    { apply filter_In. split; [assumption|now apply Nat.eqb_eq]. }
    rewrite Ef in H. destruct H as [H|[]]. now symmetry. }
  set (upd := fun h => if g_start h =? t_start p
      then mkGroup (madd kadd (g_S h) (mscale kmul (t_lam p) (t_S p))) (g_dim h) (g_terms h + 1)
             (g_rep h) (g_start h) else h).
  assert (Hst : forall h, g_start (upd h) = g_start h).
  { intros h. unfold upd. now destruct (g_start h =? t_start p). }
  assert (Hdm : forall h, g_dim (upd h) = g_dim h /\ g_rep (upd h) = g_rep h).
  { intros h. unfold upd. now destruct (g_start h =? t_start p). }
  assert (Hmap : map (@g_start K) (map upd gs) = map (@g_start K) gs).
  { rewrite map_map. apply map_ext. exact Hst. }
  constructor.
  - now rewrite Hmap.
  - intros s. rewrite Hmap, G2. split.
    + intros [q [Hq E]]. exists q. split; [apply in_or_app; now left|assumption].
    + intros [q [Hq E]]. apply in_app_or in Hq. destruct Hq as [Hq|[<-|[]]].
      * now exists q.
      * apply G2. rewrite <- E, <- Es0. now apply in_map.
  - intros g Hg. apply in_map_iff in Hg. destruct Hg as [h [<- Hh]].
    rewrite Hst, at_start_app, at_start_one, app_length, <- (G3 h Hh). unfold upd.
    rewrite (Nat.eqb_sym (g_start h)).
    destruct (Nat.eqb_spec (t_start p) (g_start h)); simpl; lia.
  - intros g Hg i j. apply in_map_iff in Hg. destruct Hg as [h [<- Hh]].
    rewrite Hst, block_sum_snoc, <- (G4 h Hh). unfold upd.
    rewrite (Nat.eqb_sym (g_start h)).
    destruct (Nat.eqb_spec (t_start p) (g_start h)); simpl; [unfold madd, mscale|]; ring.
  - intros g q Hg Hq E. apply in_map_iff in Hg. destruct Hg as [h [<- Hh]].
    rewrite Hst in E. destruct (Hdm h) as [-> ->].
    apply in_app_or in Hq. destruct Hq as [Hq|[<-|[]]]; [now apply G5|].
    rewrite (Huniq h Hh) by now symmetry. now split.
Qed.

Lemma group_loop_inv : forall ps dn mx gs gs',
  ginv dn gs -> (forall q, In q dn -> t_start q <= mx) -> StronglySorted start_le ps ->
  (forall p, In p ps -> mx <= t_start p) ->
  group_loop kadd kmul false mx gs ps = Some gs' -> ginv (dn ++ ps) gs'.
Proof.
  induction ps as [|p ps IH]; intros dn mx gs gs' Hinv Hle HS Hge E; simpl in E.
  - inversion E; subst. now rewrite app_nil_r.
  - replace (dn ++ p :: ps) with ((dn ++ [p]) ++ ps) by now rewrite <- app_assoc.
    inversion HS as [|x y HS1 HS2]; subst. rewrite Forall_forall in HS2.
    assert (Hp : mx <= t_start p) by (apply Hge; now left).
    destruct (Nat.ltb_spec mx (t_start p)).
    + apply (IH (dn ++ [p]) (t_start p)) in E; try assumption.
      * apply ginv_new; [assumption|]. intros q Hq. specialize (Hle q Hq). lia.
      * intros q Hq. apply in_app_or in Hq. destruct Hq as [Hq|[<-|[]]]; [|lia].
        specialize (Hle q Hq). lia.
    + destruct (group_add kadd kmul gs p) as [gs1|] eqn:Ea; [|discriminate].
      apply (IH (dn ++ [p]) mx) in E; try assumption.
      * now apply ginv_add with (gs := gs).
      * intros q Hq. apply in_app_or in Hq. destruct Hq as [Hq|[<-|[]]]; [|lia]. now apply Hle.
      * intros q Hq. specialize (HS2 q Hq). unfold PenSpec.start_le in HS2. lia.
Qed.

Lemma group_loop_spec ps gs : Sorted start_le ps ->
  group_loop kadd kmul true 0 [] ps = Some gs -> ginv ps gs.
Proof.
  intros HS E. apply Sorted_StronglySorted in HS; [|apply start_le_trans].
  destruct ps as [|p ps]; simpl in E.
  - inversion E; subst. constructor; simpl; try contradiction; [constructor|].
    intros s. split; [contradiction|]. intros [q [[] _]].
  - inversion HS; subst. rewrite Forall_forall in H2.
    change (p :: ps) with ([p] ++ ps). eapply group_loop_inv; [| | | |exact E]; try assumption.
    + change [p] with (([] : list lterm) ++ [p]).
      apply (ginv_new [] []); [|intros q []].
      constructor; simpl; try contradiction; [constructor|].
      intros s. split; [contradiction|]. intros [q [[] _]].
    + intros q [<-|[]]. lia.
Qed.

(** The loop does not fail on a sorted list in which equal start means equal shape. *)
Lemma group_loop_defined_aux : forall ps dn mx gs,
  ginv dn gs -> In mx (map (@g_start K) gs) -> StronglySorted start_le ps ->
  (forall q, In q dn -> t_start q <= mx) ->
  (forall p, In p ps -> mx <= t_start p) ->
  (forall p q, In p (dn ++ ps) -> In q (dn ++ ps) -> t_start p = t_start q ->
      t_dim p = t_dim q /\ t_rep p = t_rep q) ->
  exists gs', group_loop kadd kmul false mx gs ps = Some gs'.
Proof.
  induction ps as [|p ps IH]; intros dn mx gs Hinv Hmx HS Hle Hge Hsh; simpl; [eauto|].
  inversion HS as [|x y HS1 HS2]; subst. rewrite Forall_forall in HS2.
  assert (Hp : mx <= t_start p) by (apply Hge; now left).
  destruct (Nat.ltb_spec mx (t_start p)).
  - apply (IH (dn ++ [p]) (t_start p)).
    + apply ginv_new; [assumption|]. intros q Hq. specialize (Hle q Hq). lia.
    + rewrite map_app. apply in_or_app. right. now left.
    + assumption.
    + intros q Hq. apply in_app_or in Hq. destruct Hq as [Hq|[<-|[]]]; [|lia].
      specialize (Hle q Hq). lia.
    + exact HS2.
    + intros a b Ha Hb. rewrite <- app_assoc in Ha, Hb. now apply Hsh.
  - assert (Emx : mx = t_start p) by lia.
    destruct (group_add kadd kmul gs p) as [gs1|] eqn:Ea.
    + apply (IH (dn ++ [p]) mx).
      * now apply ginv_add with (gs := gs).
      * pose proof (ginv_add _ _ _ _ Hinv Ea) as Hg1. apply (gi_in _ _ Hg1).
        exists p. split; [apply in_or_app; right; now left|now symmetry].
      * assumption.
      * intros q Hq. apply in_app_or in Hq. destruct Hq as [Hq|[<-|[]]]; [|lia]. now apply Hle.
      * intros q Hq. specialize (HS2 q Hq). unfold PenSpec.start_le in HS2. lia.
      * intros a b Ha Hb. rewrite <- app_assoc in Ha, Hb. now apply Hsh.
    + exfalso. unfold group_add in Ea.
      apply in_map_iff in Hmx. destruct Hmx as [g [Eg Hg]].
      replace (t_start p) with (g_start g) in Ea by lia.
      rewrite filter_unique in Ea; [|apply NoDup_incr; apply (gi_incr _ _ Hinv)|assumption].
      assert (Hin : In (g_start g) (map (@g_start K) gs)) by now apply in_map.
      apply (gi_in _ _ Hinv) in Hin. destruct Hin as [q [Hq Eq]].
      destruct (gi_dim _ _ Hinv g q Hg Hq Eq) as [Ed Er].
      destruct (Hsh q p) as [Ed2 Er2].
      * apply in_or_app. now left.
      * apply in_or_app. right. now left.
      * lia.
      * rewrite Ed, Er, Ed2, Er2, !Nat.eqb_refl in Ea. discriminate.
Qed.

Lemma group_loop_defined ps : Sorted start_le ps -> laid_out ps ->
  exists gs, group_loop kadd kmul true 0 [] ps = Some gs.
Proof.
  intros HS Hl. apply Sorted_StronglySorted in HS; [|apply start_le_trans].
  destruct ps as [|p ps]; simpl; [eauto|].
  inversion HS; subst. rewrite Forall_forall in H2.
  apply (group_loop_defined_aux ps [p] (t_start p)).
  - change [p] with (([] : list lterm) ++ [p]).
    apply (ginv_new [] []); [|intros q []].
    constructor; simpl; try contradiction; [constructor|].
    intros s. split; [contradiction|]. intros [q [[] _]].
  - now left.
  - assumption.
  - intros q [<-|[]]. lia.
  - exact H2.
  - intros a b Ha Hb E. simpl in Ha, Hb. now apply (Hl a b Ha Hb).
Qed.

(** ** Runs of a sorted list *)

Lemma sorted_runs : forall ss (ps : list lterm), incr ss -> StronglySorted start_le ps ->
  (forall p, In p ps -> In (t_start p) ss) ->
  ps = flat_map (fun s => at_start s ps) ss.
Proof.
  induction ss as [|s ss IH]; intros ps Hi HS Hin.
  - destruct ps as [|p ps]; [reflexivity|]. destruct (Hin p (or_introl eq_refl)).
  - inversion Hi; subst. rewrite Forall_forall in H2.
    assert (Hs : forall p, In p ps -> s <= t_start p).
    { intros p Hp. destruct (Hin p Hp) as [<-|Hp2]; [lia|]. specialize (H2 _ Hp2). lia. }
    assert (E : ps = at_start s ps ++ filter (fun p => negb (t_start p =? s)) ps).
    { clear -HS Hs. induction HS as [|p ps HS IH HF]; simpl; [reflexivity|].
      destruct (Nat.eqb_spec (t_start p) s) as [Ep|Ep]; simpl.
      - f_equal. apply IH. intros; apply Hs; now right.
      - assert (N : at_start s ps = []).
        { rewrite Forall_forall in HF. assert (Hp : s < t_start p).
          { specialize (Hs p (or_introl eq_refl)). lia. }
          clear -HF Hp. induction ps as [|q ps IHq]; simpl; [reflexivity|].
          destruct (Nat.eqb_spec (t_start q) s).
          - specialize (HF q (or_introl eq_refl)). unfold PenSpec.start_le in HF. lia.
          - apply IHq. intros; apply HF; now right. }
        rewrite N. simpl. f_equal. rewrite IH at 1 by (intros; apply Hs; now right).
        now rewrite N. }
    simpl. rewrite E at 1. f_equal.
    set (rest := filter (fun p => negb (t_start p =? s)) ps) in *.
    rewrite (IH rest).
    + rewrite !flat_map_concat_map. f_equal. apply map_ext_in. intros s' Hs'.
      specialize (H2 s' Hs'). unfold rest. clear -H2.
      induction ps as [|p ps IHp]; simpl; [reflexivity|].
      destruct (Nat.eqb_spec (t_start p) s); simpl.
      * destruct (Nat.eqb_spec (t_start p) s'); [lia|assumption].
      * destruct (Nat.eqb_spec (t_start p) s'); [now f_equal|assumption].
    + assumption.
    + apply Sorted_StronglySorted; [apply start_le_trans|]. apply filter_sorted.
      now apply StronglySorted_Sorted.
    + intros p Hp. apply filter_In in Hp. destruct Hp as [Hp Hne].
      apply negb_true_iff, Nat.eqb_neq in Hne.
      destruct (Hin p Hp); [congruence|assumption].
Qed.

Definition alone_b (ps : list lterm) (p : lterm) : bool := length (at_start (t_start p) ps) =? 1.

Lemma use_rank_spec ps gs : StronglySorted start_le ps -> ginv ps gs ->
  use_rank_of_groups gs = map (alone_b ps) ps.
Proof.
  intros HS Hinv.
  rewrite (sorted_runs (map (@g_start K) gs) ps) at 2.
  - unfold use_rank_of_groups.
    assert (G : forall gs2, (forall g, In g gs2 -> In g gs) ->
      flat_map (fun g => if g_terms g =? 1 then [true] else repeat false (g_terms g)) gs2
      = map (alone_b ps) (flat_map (fun s => at_start s ps) (map (@g_start K) gs2))).
    { induction gs2 as [|g gs2 IH]; intros Hsub; simpl; [reflexivity|].
      rewrite map_app, <- IH by (intros; apply Hsub; now right). f_equal.
      assert (Hg : In g gs) by (apply Hsub; now left).
      rewrite (gi_terms _ _ Hinv g Hg).
      assert (HF : forall p, In p (at_start (g_start g) ps) ->
         alone_b ps p = (length (at_start (g_start g) ps) =? 1)).
      { intros p Hp. apply filter_In in Hp. destruct Hp as [_ Hp]. apply Nat.eqb_eq in Hp.
        unfold alone_b. now rewrite Hp. }
      set (run := at_start (g_start g) ps) in *.
      assert (HM : map (alone_b ps) run = repeat (length run =? 1) (length run)).
      { clear -HF. generalize (length run =? 1) HF. intros b Hb. clear HF.
        induction run as [|p run IH]; simpl; [reflexivity|].
        rewrite (Hb p) by now left. f_equal. apply IH. intros; apply Hb; now right. }
      rewrite HM. destruct (Nat.eqb_spec (length run) 1) as [->|]; reflexivity. }
    apply G. auto.
  - apply (gi_incr _ _ Hinv).
  - assumption.
  - intros p Hp. apply (gi_in _ _ Hinv). now exists p.
Qed.

(** ** select *)

Lemma combine_map_r (A B : Type) (g : A -> B) l : combine l (map g l) = map (fun x => (x, g x)) l.
Proof. induction l; simpl; congruence. Qed.

Lemma select_map (B : Type) (f : lterm -> bool) (g : lterm -> B) ps :
  select f ps (map g ps) = map g (filter f ps).
Proof.
  unfold select. rewrite combine_map_r. induction ps as [|p ps IH]; simpl; [reflexivity|].
  destruct (f p); simpl; congruence.
Qed.

(** ** Alignment of per-penalty results with the merged list *)

(** What calculate_edf and compute_S_emb_pinv_det make of per-penalty results. *)
Lemma no_id_not_merged (ps : list lterm) d : no_single_id ps -> create_id_dict ps = Some d ->
  filter (fun p => not_merged d (t_id p)) ps = filter (@no_id K) ps.
Proof.
  intros Hs Hd. apply PenProofs.filter_ext_In. intros p Hp. unfold no_id.
  now apply (not_merged_None K ps).
Qed.

Lemma good_split (ps : list lterm) ms : good ps -> combine_shared_penalties kadd ps = Some ms ->
  good (split_shared_penalties ms).
Proof.
  intros Hg Hc. destruct (split_order K k0 kadd ps ms Hg Hc) as (HP & HS & Hk & Hn & HK).
  destruct Hg as (HL & Hs & Hp & Hf & HS0).
  assert (Hin : forall p, In p (split_shared_penalties ms) -> In p ps).
  { intros p. now apply Permutation_in. }
  unfold good. repeat split.
  - intros p q Hpi Hqi. apply HL; now apply Hin.
  - intros k. rewrite id_count_eq. unfold PenProofs.count_id. rewrite Hk.
    specialize (Hs k). now rewrite id_count_eq in Hs.
  - apply (Hp p); now apply Hin.
  - apply (Hp p); now apply Hin.
  - apply (Hp p); now apply Hin.
  - apply (Hf p); [now apply Hin|assumption].
  - apply (Hf p); [now apply Hin|assumption].
  - assumption.
Qed.

Lemma dict_same (ps qs : list lterm) :
  (forall k, filter (has_id k) qs = filter (has_id k) ps) ->
  (create_id_dict ps = None <-> create_id_dict qs = None).
Proof.
  intros Hk. rewrite !create_id_dict_None. unfold PenProofs.count_id.
  split; intros H k; specialize (H k); [now rewrite Hk|now rewrite <- Hk].
Qed.

(** Forall2 between the merged list and a list of results built in the code's way. *)
Lemma merged_align (B : Type) (R : lterm -> B -> Prop) (ps : list lterm) ms
    (f : lterm -> B) (g : nat -> B) :
  good ps -> combine_shared_penalties kadd ps = Some ms ->
  (forall p, In p ps -> create_id_dict ps <> None -> t_id p = None -> R p (f p)) ->
  (forall p, In p ps -> create_id_dict ps = None -> R p (f p)) ->
  (forall k m, In m ms -> t_id m = Some k -> create_id_dict ps <> None -> with_id k ps <> [] -> R m (g k)) ->
  Forall2 R ms
    (let qs := split_shared_penalties ms in
     match create_id_dict qs with
     | None => map f qs
     | Some d => map f (filter (fun p => not_merged d (t_id p)) qs) ++ map g (map fst d)
     end).
Proof.
  intros Hg Hc Hf0 Hf1 Hm. cbv zeta.
  destruct (split_order K k0 kadd ps ms Hg Hc) as (HP & HS & Hk & Hn & HK).
  set (qs := split_shared_penalties ms) in *.
  pose proof (good_split ps ms Hg Hc) as Hgq. fold qs in Hgq.
  destruct (create_id_dict qs) as [d|] eqn:Hdq.
  - destruct (create_id_dict ps) as [dp|] eqn:Hdp.
    2:{ apply (dict_same ps qs Hk) in Hdp. congruence. }
    rewrite (no_id_not_merged qs d) by (assumption || apply Hgq). rewrite Hn.
    rewrite (create_id_dict_Some qs Hdq), loop_keys. simpl map. rewrite HK.
    pose proof Hc as Hc'. rewrite (combine_form k0 kadd ps Hdp) in Hc'. inversion Hc' as [Ems].
    rewrite (no_id_not_merged ps dp) in * by (assumption || apply Hg).
    assert (Ekeys : map fst dp = keys_loop K ps []).
    { rewrite (create_id_dict_Some ps Hdp), loop_keys. reflexivity. }
    apply Forall2_app.
    + assert (HF : forall l, (forall p, In p l -> In p (filter (@no_id K) ps)) -> Forall2 R l (map f l)).
      { induction l as [|p l IH]; intros Hl; simpl; constructor.
        - assert (Hp : In p (filter (@no_id K) ps)) by (apply Hl; now left).
          apply filter_In in Hp. destruct Hp as [Hp1 Hp2]. apply Hf0; [assumption|congruence|].
          unfold no_id in Hp2. now destruct (t_id p).
        - apply IH. intros; apply Hl; now right. }
      apply HF. auto.
    + rewrite Ekeys.
      assert (HF : forall l, (forall k, In k l -> In k (keys_loop K ps [])) ->
        Forall2 R (map (merged_term k0 kadd ps) l) (map g l)).
      { induction l as [|k l IH]; intros Hl; simpl; constructor.
        - assert (Hkin : In k (keys_loop K ps [])) by (apply Hl; now left).
          apply (Hm k).
          + rewrite <- Ems. apply in_or_app. right. rewrite Ekeys. now apply in_map.
          + unfold merged_term, merge_id. apply keys_In in Hkin. destruct Hkin as [[]|[p [Hp Ep]]].
            destruct (filter (has_id k) ps) eqn:Ef; [|reflexivity].
            assert (Hin : In p (filter (has_id k) ps)).
            { apply filter_In. split; [assumption|now apply has_id_iff]. }
            rewrite Ef in Hin. contradiction.
          + congruence.
          + apply keys_In in Hkin. destruct Hkin as [[]|[p [Hp Ep]]].
            rewrite with_id_has. intros E.
            assert (Hin : In p (filter (has_id k) ps)).
            { apply filter_In. split; [assumption|now apply has_id_iff]. }
            rewrite E in Hin. contradiction.
        - apply IH. intros; apply Hl; now right. }
      apply HF. auto.
  - destruct (create_id_dict ps) as [dp|] eqn:Hdp.
    { apply (dict_same ps qs Hk) in Hdq. congruence. }
    assert (Eq : ms = ps /\ qs = ps).
    { unfold combine_shared_penalties in Hc. rewrite Hdp in Hc. inversion Hc; subst ms.
      split; [reflexivity|]. unfold qs, split_shared_penalties.
      destruct (filter_merged_plain ps) as [-> ->]; [intros p Hin; now apply Hg|]. reflexivity. }
    destruct Eq as [-> ->].
    assert (HF : forall l, (forall p, In p l -> In p ps) -> Forall2 R l (map f l)).
    { induction l as [|p l IH]; intros Hl; simpl; constructor.
      - apply Hf1; [apply Hl; now left|reflexivity].
      - apply IH. intros; apply Hl; now right. }
    apply HF. auto.
Qed.

(** ** C63: calculate_edf's trace terms line up with the smoothing parameters *)

Lemma edf_Bs_aligned (ps : list lterm) ms B colsX :
  good ps -> combine_shared_penalties kadd ps = Some ms ->
  Forall2 (fun m b => match t_id m with
                      | Some k => if 1 <? length (with_id k ps)
                                  then b = lsum B (with_id k ps) else In m ps /\ b = B m
                      | None => In m ps /\ b = B m end)
    ms (snd (calculate_edf k0 kadd kmul ksub B colsX ms)).
Proof.
  intros Hg Hc.
  destruct (split_order K k0 kadd ps ms Hg Hc) as (HP & HS & Hk & Hn & HK).
  set (R := fun m b => match t_id m with
                      | Some k => if 1 <? length (with_id k ps)
                                  then b = lsum B (with_id k ps) else In m ps /\ b = B m
                      | None => In m ps /\ b = B m end).
  assert (E : snd (calculate_edf k0 kadd kmul ksub B colsX ms)
    = let qs := split_shared_penalties ms in
      match create_id_dict qs with
      | None => map B qs
      | Some d => map B (filter (fun p => not_merged d (t_id p)) qs)
                  ++ map (fun k => lsum B (with_id k ps)) (map fst d)
      end).
  { unfold calculate_edf. simpl. destruct (create_id_dict (split_shared_penalties ms)); [|reflexivity].
    rewrite select_map. f_equal. apply map_ext. intros k. rewrite select_map, with_id_has, Hk.
    induction (filter (has_id k) ps); simpl; congruence. }
  rewrite E. apply (merged_align K R ps ms B (fun k => lsum B (with_id k ps)) Hg Hc); unfold R.
  - intros p Hp _ ->. now split.
  - intros p Hp Hd. destruct (t_id p) as [k|]; [|now split].
    rewrite create_id_dict_None in Hd. specialize (Hd k). unfold PenProofs.count_id in Hd.
    rewrite with_id_has. destruct (Nat.ltb_spec 1 (length (filter (has_id k) ps))); [lia|now split].
  - intros k m Hm -> _ Hne. destruct (Nat.ltb_spec 1 (length (with_id k ps))) as [|Hlt]; [reflexivity|].
    exfalso. destruct Hg as (_ & Hs & _). specialize (Hs k). rewrite id_count_eq in Hs.
    unfold PenProofs.count_id in Hs. rewrite <- with_id_has in Hs.
    destruct (with_id k ps) as [|? [|]]; simpl in *; try congruence; lia.
Qed.

(** ** C06: rank flags line up *)

Lemma alone_perm (ps qs : list lterm) p : Permutation qs ps -> alone_b qs p = alone_b ps p.
Proof.
  intros HP. unfold alone_b, PenSpec.at_start. f_equal.
  apply Permutation_length. induction HP; simpl.
  - constructor.
  - destruct (t_start x =? t_start p); [now constructor|assumption].
  - destruct (t_start x =? t_start p), (t_start y =? t_start p); try reflexivity. constructor.
  - now rewrite IHHP1.
Qed.

Lemma alone_b_iff ps p : alone_b ps p = true <-> alone ps p.
Proof. unfold alone_b, alone. apply Nat.eqb_eq. Qed.

Lemma all_some_Some (A B : Type) (f : A -> option B) (l : list A) r :
  all_some (map f l) = Some r -> Forall2 (fun a b => f a = Some b) l r.
Proof.
  revert r. induction l as [|a l IH]; simpl; intros r E.
  - inversion E. constructor.
  - destruct (f a) eqn:Ef; [|discriminate]. destruct (all_some (map f l)); [|discriminate].
    inversion E; subst. constructor; [assumption|now apply IH].
Qed.

Lemma rank_flags_aligned (pinv : nat -> mat K -> mat K) (ps : list lterm) ms Semb Sinv flags :
  good ps -> combine_shared_penalties kadd ps = Some ms ->
  compute_S_emb_pinv_det k0 kadd kmul pinv ms = Some (Semb, Sinv, flags) ->
  Forall2 (fun m fl => match t_id m with
                       | Some k => forall p, In p (with_id k ps) -> (fl = true <-> alone ps p)
                       | None => fl = true <-> alone ps m end) ms flags.
Proof.
  intros Hg Hc Hcomp.
  destruct (split_order K k0 kadd ps ms Hg Hc) as (HP & HS & Hk & Hn & HK).
  unfold compute_S_emb_pinv_det in Hcomp.
  set (qs := split_shared_penalties ms) in *.
  destruct (group_loop kadd kmul true 0 [] qs) as [gs|] eqn:Eg; [|discriminate].
  destruct gs as [|g0 gs0]; [discriminate|]. set (gs := g0 :: gs0) in *.
  pose proof (group_loop_spec qs gs HS Eg) as Hinv.
  assert (Efl : use_rank_of_groups gs = map (alone_b qs) qs).
  { apply use_rank_spec; [|assumption]. apply Sorted_StronglySorted; [apply start_le_trans|assumption]. }
  rewrite Efl in Hcomp. rewrite map_length, Nat.eqb_refl in Hcomp.
  destruct (merge_use_rank qs (map (alone_b qs) qs)) as [fl|] eqn:Em; [|discriminate].
  inversion Hcomp; subst fl; clear Hcomp.
  pose proof (good_split ps ms Hg Hc) as Hgq. fold qs in Hgq.
  (* flag of an id *)
  set (gk := fun k => match with_id k ps with [] => true | p :: _ => alone_b ps p end).
  assert (Em2 : flags = match create_id_dict qs with
      | None => map (alone_b ps) qs
      | Some d => map (alone_b ps) (filter (fun p => not_merged d (t_id p)) qs) ++ map gk (map fst d)
      end /\ (forall d, create_id_dict qs = Some d -> forall k, In k (map fst d) ->
        forall p, In p (with_id k ps) -> alone_b ps p = gk k)).
  { unfold merge_use_rank in Em. destruct (create_id_dict qs) as [d|] eqn:Hd.
    - destruct (all_some _) as [l|] eqn:El in Em; [|discriminate]. inversion Em; subst flags; clear Em.
      apply all_some_Some in El.
      assert (Hsel : forall k, select (has_id k) qs (map (alone_b qs) qs) = map (alone_b ps) (with_id k ps)).
      { intros k. rewrite select_map, Hk, with_id_has. apply map_ext. intros; now apply alone_perm. }
      assert (HF : forall ks l, Forall2 (fun a b =>
          match select (has_id a) qs (map (alone_b qs) qs) with
          | [] => None
          | r :: rs => if forallb (Bool.eqb r) rs then Some r else None end = Some b) ks l ->
          l = map gk ks /\ forall k, In k ks -> forall p, In p (with_id k ps) -> alone_b ps p = gk k).
      { induction 1 as [|k b ks l' E Hfo IH]; simpl; [split; [reflexivity|intros ? []]|].
        destruct IH as [-> IH]. rewrite Hsel in E.
        assert (Hthis : b = gk k /\ forall p, In p (with_id k ps) -> alone_b ps p = gk k).
        { unfold gk. destruct (with_id k ps) as [|p0 l0]; [discriminate|]. simpl in E.
          destruct (forallb _ _) eqn:Efb; [|discriminate]. inversion E; subst.
          split; [reflexivity|]. intros p [->|Hp]; [reflexivity|].
          rewrite forallb_forall in Efb. specialize (Efb (alone_b ps p)).
          symmetry. apply Bool.eqb_prop. apply Efb. now apply in_map. }
        destruct Hthis as [-> Hthis]. split; [reflexivity|].
        intros k' [<-|Hk']; [assumption|now apply IH]. }
      destruct (HF _ _ El) as [-> H2]. split.
      + rewrite select_map. f_equal. apply map_ext. intros; now apply alone_perm.
      + intros d' Ed'. inversion Ed'; subst. exact H2.
    - inversion Em. split; [|discriminate]. apply map_ext. intros; now apply alone_perm. }
  destruct Em2 as [Efl2 Hgk].
  set (R := fun m fl => match t_id m with
                       | Some k => forall p, In p (with_id k ps) -> (fl = true <-> alone ps p)
                       | None => fl = true <-> alone ps m end).
  rewrite Efl2. apply (merged_align bool R ps ms (alone_b ps) gk Hg Hc); unfold R.
  - intros p Hp _ ->. apply alone_b_iff.
  - intros p Hp Hd. destruct (t_id p) as [k|] eqn:Ep; [|apply alone_b_iff].
    intros q Hq. rewrite create_id_dict_None in Hd. specialize (Hd k).
    assert (Hpin : In p (with_id k ps)).
    { rewrite with_id_has. apply filter_In. split; [assumption|now apply has_id_iff]. }
    unfold PenProofs.count_id in Hd. rewrite <- with_id_has in Hd.
    destruct (with_id k ps) as [|a [|b l]]; simpl in *; [contradiction| |lia].
    destruct Hpin as [<-|[]]. destruct Hq as [<-|[]]. apply alone_b_iff.
  - intros k m Hm -> Hd Hne p Hp. rewrite <- alone_b_iff.
    destruct (create_id_dict qs) as [d|] eqn:Hdq.
    + rewrite (Hgk d eq_refl k); [tauto| |assumption].
      rewrite (create_id_dict_Some qs Hdq), loop_keys. simpl map. rewrite HK.
      apply keys_In. right. exists p. rewrite with_id_has in Hp. apply filter_In in Hp.
      destruct Hp as [Hp1 Hp2]. split; [assumption|now apply has_id_iff].
    + exfalso. apply Hd. now apply (dict_same ps qs Hk).
Qed.

(** ** C05: the blocks of the generalised inverse *)

Lemma blocks_at_spec n B i j : 0 < n -> forall rep c,
  blocks_at k0 kadd rep c n B i j = blockdiag k0 c n rep B i j.
Proof.
  intros Hn. induction rep as [|r IH]; intros c; simpl.
  - unfold mzero, blockdiag. simpl. rewrite Nat.add_0_r.
    destruct (Nat.leb_spec c i); [|reflexivity]. destruct (Nat.ltb_spec i c); [lia|].
    now rewrite !andb_false_r.
  - unfold madd. rewrite IH. rewrite <- (blockdiag_cons _ _ _ _ _ _ _ Kring) by assumption. f_equal.
    unfold block_at, blockdiag. simpl. rewrite Nat.add_0_r.
    destruct (Nat.leb_spec c i); [|reflexivity].
    destruct (Nat.leb_spec c j); [|rewrite !andb_false_r; simpl; now rewrite ?andb_false_r].
    destruct (Nat.ltb_spec i (c + n)); [|reflexivity].
    destruct (Nat.ltb_spec j (c + n)); [|reflexivity]. simpl.
    rewrite !Nat.div_small, Nat.eqb_refl, !Nat.mod_small by lia. reflexivity.
Qed.

Lemma pinv_loop_spec pinv : forall gs c, (forall g, In g gs -> 0 < g_dim g) ->
  (forall gs1 g gs2, gs = gs1 ++ g :: gs2 ->
     g_start g = c + fold_right Nat.add 0 (map (fun h => g_dim h * g_rep h) gs1)) ->
  forall i j, pinv_loop k0 kadd pinv c gs i j
   = lsum (fun g => if g_terms g =? 1 then k0
                    else blockdiag k0 (g_start g) (g_dim g) (g_rep g) (pinv (g_dim g) (g_S g)) i j) gs.
Proof.
  induction gs as [|g gs IH]; intros c Hd Hst i j; simpl; [reflexivity|].
  assert (Eg : g_start g = c).
  { specialize (Hst [] g gs eq_refl). simpl in Hst. lia. }
  assert (HIH : pinv_loop k0 kadd pinv (c + g_dim g * g_rep g) gs i j
   = lsum (fun g => if g_terms g =? 1 then k0
                    else blockdiag k0 (g_start g) (g_dim g) (g_rep g) (pinv (g_dim g) (g_S g)) i j) gs).
  { apply IH; [intros; apply Hd; now right|]. intros gs1 h gs2 E.
    specialize (Hst (g :: gs1) h gs2). simpl in Hst. rewrite E in Hst. specialize (Hst eq_refl). lia. }
  destruct (g_terms g =? 1).
  - rewrite HIH. ring.
  - unfold madd. rewrite HIH, blocks_at_spec by (apply Hd; now left). now rewrite Eg.
Qed.

Lemma blockdiag_ext_B c d r A B i j : (forall u v, A u v = B u v) ->
  blockdiag k0 c d r A i j = blockdiag k0 c d r B i j.
Proof. intros H. unfold blockdiag. now rewrite H. Qed.

Lemma blockdiag_zero c d r B i j : ~ (c <= i < c + r * d) \/ ~ (c <= j < c + r * d) ->
  blockdiag k0 c d r B i j = k0.
Proof.
  intros H. unfold blockdiag.
  destruct (Nat.leb_spec c i); [|reflexivity].
  destruct (Nat.leb_spec c j); [|reflexivity].
  destruct (Nat.ltb_spec i (c + r * d)); [|reflexivity].
  destruct (Nat.ltb_spec j (c + r * d)); [|reflexivity]. lia.
Qed.

(** Consecutive groups of a gapless layout tile the coefficients. *)
Lemma groups_tile ps gs : laid_out ps -> gapless ps -> (forall p, In p ps -> 0 < t_dim p * t_rep p) ->
  ginv ps gs ->
  forall gs1 g gs2 g0 r, gs = g0 :: r -> gs = gs1 ++ g :: gs2 ->
  g_start g = g_start g0 + fold_right Nat.add 0 (map (fun h => g_dim h * g_rep h) gs1).
Proof.
  intros Hl Hgap Hpos Hinv gs1. induction gs1 as [|h gs1 IH] using rev_ind; intros g gs2 g0 r E0 E.
  - simpl in E. rewrite E in E0. inversion E0; subst. simpl. lia.
  - rewrite <- app_assoc in E. simpl in E.
    pose proof (IH h (g :: gs2) g0 r E0 E) as Eh.
    rewrite map_app, fold_right_app. simpl.
    assert (Eadd : forall l x, fold_right Nat.add x l = fold_right Nat.add 0 l + x).
    { induction l; intros; simpl; [reflexivity|]. rewrite IHl. lia. }
    rewrite Eadd.
    assert (Hh : In h gs) by (rewrite E; apply in_or_app; right; now left).
    assert (Hg : In g gs) by (rewrite E; apply in_or_app; right; right; now left).
    (* representatives *)
    assert (Hrep : forall x, In x gs -> exists p, In p ps /\ t_start p = g_start x).
    { intros x Hx. apply (gi_in _ _ Hinv). now apply in_map. }
    destruct (Hrep h Hh) as [p [Hp Ep]]. destruct (Hrep g Hg) as [q [Hq Eq]].
    destruct (gi_dim _ _ Hinv h p Hh Hp Ep) as [Edim Erep].
    (* order of the starts *)
    pose proof (gi_incr _ _ Hinv) as Hi. rewrite E in Hi. rewrite map_app in Hi. simpl in Hi.
    assert (Hord : g_start h < g_start g /\ (forall x, In x gs -> g_start h < g_start x -> g_start g <= g_start x)).
    { assert (Hall : forall l1 l2, incr (l1 ++ l2) -> incr l2 /\ forall a b, In a l1 -> In b l2 -> a < b).
      { induction l1 as [|y l1 IHl]; intros l2 Hin; simpl in *; [split; [assumption|intros ? ? []]|].
        inversion Hin; subst. destruct (IHl _ H1) as [I1 I2]. split; [assumption|].
        intros a b [<-|Ha] Hb; [|now apply I2].
        rewrite Forall_forall in H2. apply H2. apply in_or_app. now right. }
      destruct (Hall _ _ Hi) as [Hi2 Hlt].
      apply StronglySorted_inv in Hi2. destruct Hi2 as [Hi3 HFa].
      apply StronglySorted_inv in Hi3. destruct Hi3 as [Hi4 H4].
      apply Forall_inv in HFa. split; [assumption|].
      intros x Hx Hgt. rewrite Forall_forall in H4.
      rewrite E in Hx. apply in_app_or in Hx. destruct Hx as [Hx|[<-|[<-|Hx]]]; try lia.
      - assert (g_start x < g_start h); [|lia]. apply Hlt; [now apply in_map|now left].
      - assert (g_start g < g_start x); [|lia]. apply H4. now apply in_map. }
    destruct Hord as [Hlt Hnext].
    destruct (Hgap p q Hp Hq) as [r' [Hr' Er']]; [lia|].
    pose proof (Hpos p Hp). unfold pen_end in Er'.
    assert (Hxr : exists x, In x gs /\ g_start x = t_start r').
    { assert (Hin : In (t_start r') (map (@g_start K) gs)) by (apply (gi_in _ _ Hinv); now exists r').
      apply in_map_iff in Hin. destruct Hin as [x [Ex Hx]]. now exists x. }
    destruct Hxr as [x [Hx Ex]].
    specialize (Hnext x Hx ltac:(lia)).
    destruct (Hl p q Hp Hq) as [_ Hend]. specialize (Hend ltac:(lia)). unfold pen_end in Hend.
    rewrite Edim, Erep. lia.
Qed.

Lemma pinv_blocks (pinv : nat -> mat K -> mat K) (ps : list lterm) ms Semb Sinv flags :
  (forall n A B, (forall i j, A i j = B i j) -> forall i j, pinv n A i j = pinv n B i j) ->
  good ps -> laid_out ps -> gapless ps -> (forall p, In p ps -> 0 < t_dim p * t_rep p) ->
  combine_shared_penalties kadd ps = Some ms ->
  compute_S_emb_pinv_det k0 kadd kmul pinv ms = Some (Semb, Sinv, flags) ->
  (forall i j, Semb i j = lsum (fun p => kmul (t_Semb p i j) (t_lam p)) ps) /\
  (forall p i j, In p ps -> ~ alone ps p -> t_start p <= i < pen_end p -> t_start p <= j < pen_end p ->
     Sinv i j = blockdiag k0 (t_start p) (t_dim p) (t_rep p)
                  (pinv (t_dim p) (block_sum k0 kadd kmul (t_start p) ps)) i j) /\
  (forall i j, (forall p, In p ps -> ~ alone ps p ->
        ~ (t_start p <= i < pen_end p /\ t_start p <= j < pen_end p)) -> Sinv i j = k0).
Proof.
  intros Hext Hg Hl Hgap Hpos Hc Hcomp.
  destruct (split_order K k0 kadd ps ms Hg Hc) as (HP & HS & Hk & Hn & HK).
  unfold compute_S_emb_pinv_det in Hcomp.
  set (qs := split_shared_penalties ms) in *.
  destruct (group_loop kadd kmul true 0 [] qs) as [gs|] eqn:Eg; [|discriminate].
  destruct gs as [|g0 gs0]; [discriminate|]. remember (g0 :: gs0) as gs eqn:Egs.
  pose proof (group_loop_spec qs gs HS Eg) as Hinv.
  destruct (_ =? _) in Hcomp; [|discriminate].
  destruct (merge_use_rank _ _) in Hcomp; [|discriminate].
  inversion Hcomp; subst Semb Sinv flags; clear Hcomp.
  assert (Hin : forall p, In p qs <-> In p ps).
  { intros p. split; apply Permutation_in; [assumption|now symmetry]. }
  assert (HatL : forall s, Permutation (at_start s qs) (at_start s ps)).
  { intros s. clear -HP. unfold PenSpec.at_start. induction HP; simpl.
    - constructor.
    - destruct (t_start x =? s); [now constructor|assumption].
    - destruct (t_start x =? s), (t_start y =? s); try reflexivity. constructor.
    - now rewrite IHHP1. }
  assert (Hlq : laid_out qs) by (intros p q Hp Hq; apply Hl; now apply Hin).
  assert (Hgq : gapless qs).
  { intros p q Hp Hq Hlt. destruct (Hgap p q) as [r [Hr Er]]; [now apply Hin|now apply Hin|assumption|].
    exists r. split; [now apply Hin|assumption]. }
  assert (Hposq : forall p, In p qs -> 0 < t_dim p * t_rep p) by (intros p Hp; apply Hpos; now apply Hin).
  assert (Hrep : forall x, In x gs -> exists p, In p qs /\ t_start p = g_start x).
  { intros x Hx. apply (gi_in _ _ Hinv). now apply in_map. }
  assert (Hval : forall i j, pinv_loop k0 kadd pinv (g_start g0) gs i j
     = lsum (fun g => if g_terms g =? 1 then k0
                    else blockdiag k0 (g_start g) (g_dim g) (g_rep g) (pinv (g_dim g) (g_S g)) i j) gs).
  { intros i j. apply pinv_loop_spec.
    - intros g Hgi. destruct (Hrep g Hgi) as [p [Hp Ep]].
      destruct (gi_dim _ _ Hinv g p Hgi Hp Ep) as [-> _]. specialize (Hposq p Hp). nia.
    - intros gs1 g gs2 E. now apply (groups_tile qs gs Hlq Hgq Hposq Hinv gs1 g gs2 g0 gs0). }
  assert (Hterms : forall g p, In g gs -> In p ps -> t_start p = g_start g ->
     (g_terms g = 1 <-> alone ps p)).
  { intros g p Hgi Hp Ep. rewrite (gi_terms _ _ Hinv g Hgi), (Permutation_length (HatL (g_start g))).
    unfold alone. rewrite Ep. tauto. }
  split; [|split].
  - intros i j. unfold S_emb_of.
    rewrite (fold_madd_entry Kring (fun p => mscale kmul (t_lam p) (t_Semb p))).
    unfold mzero. rewrite (lsum_perm Kring _ HP). unfold mscale. ring.
  - intros p i j Hp Hna Hi Hj. rewrite Hval.
    assert (Hg0 : exists g, In g gs /\ g_start g = t_start p).
    { assert (H : In (t_start p) (map (@g_start K) gs)).
      { apply (gi_in _ _ Hinv). exists p. split; [now apply Hin|reflexivity]. }
      apply in_map_iff in H. destruct H as [g [E H]]. now exists g. }
    destruct Hg0 as [g [Hgi Eg']].
    destruct (gi_dim _ _ Hinv g p Hgi (proj2 (Hin p) Hp) (eq_sym Eg')) as [Edim Erep].
    destruct (in_split _ _ Hgi) as [gs1 [gs2 Esp]].
    assert (Hother : forall h, In h gs -> g_start h <> t_start p ->
       (if g_terms h =? 1 then k0
        else blockdiag k0 (g_start h) (g_dim h) (g_rep h) (pinv (g_dim h) (g_S h)) i j) = k0).
    { intros h Hh Hne. destruct (g_terms h =? 1); [reflexivity|].
      destruct (Hrep h Hh) as [q [Hq Eq]].
      destruct (gi_dim _ _ Hinv h q Hh Hq Eq) as [-> ->].
      apply blockdiag_zero. left. unfold pen_end in Hi.
      destruct (Hl p q Hp (proj1 (Hin q) Hq)) as [_ H1].
      destruct (Hl q p (proj1 (Hin q) Hq) Hp) as [_ H2].
      unfold pen_end in *. nia. }
    pose proof (NoDup_incr _ (gi_incr _ _ Hinv)) as Hnd.
    rewrite Esp in Hnd |- *. rewrite (PenProofs2.lsum_app _ _ _ _ _ _ _ Kring). simpl.
    rewrite (PenProofs2.lsum_zero _ _ _ _ _ _ _ Kring _ _ gs1).
    2:{ intros h Hh. apply Hother.
        - rewrite Esp. apply in_or_app. now left.
        - rewrite <- Eg'. rewrite map_app in Hnd. simpl in Hnd. apply NoDup_remove_2 in Hnd.
          intros E. apply Hnd. apply in_or_app. left. rewrite <- E. now apply in_map. }
    rewrite (PenProofs2.lsum_zero _ _ _ _ _ _ _ Kring _ _ gs2).
    2:{ intros h Hh. apply Hother.
        - rewrite Esp. apply in_or_app. right. now right.
        - rewrite <- Eg'. rewrite map_app in Hnd. simpl in Hnd. apply NoDup_remove_2 in Hnd.
          intros E. apply Hnd. apply in_or_app. right. rewrite <- E. now apply in_map. }
    destruct (Nat.eqb_spec (g_terms g) 1) as [E1|_].
    { exfalso. apply Hna. now apply (Hterms g p). }
    rewrite Eg', Edim, Erep.
    rewrite (blockdiag_ext_B _ _ _ (pinv (t_dim p) (g_S g))
               (pinv (t_dim p) (block_sum k0 kadd kmul (t_start p) ps))); [ring|].
    apply Hext. intros u v. rewrite (gi_sum _ _ Hinv g Hgi), Eg'. unfold block_sum.
    apply (lsum_perm Kring). apply HatL.
  - intros i j Hno. rewrite Hval. apply (PenProofs2.lsum_zero _ _ _ _ _ _ _ Kring).
    intros g Hgi. destruct (Nat.eqb_spec (g_terms g) 1) as [|Hne]; [reflexivity|].
    destruct (Hrep g Hgi) as [p [Hp Ep]].
    destruct (gi_dim _ _ Hinv g p Hgi Hp Ep) as [-> ->].
    assert (Hp' : In p ps) by now apply Hin.
    specialize (Hno p Hp').
    assert (Hna : ~ alone ps p) by (intros H; apply Hne; now apply (Hterms g p)).
    specialize (Hno Hna). apply blockdiag_zero. unfold pen_end in Hno.
    rewrite <- Ep. nia.
Qed.

End Groups.
