(** Effective degrees of freedom per term. *)

From Coq Require Import List Arith Bool Lia Permutation Ring ZArith Sorted.
From Verif Require Import PenModel PenSpec PenProofs PenProofs2 PenProofs3 PenProofs4 PenProofs5.
Import ListNotations.

Section Edf.
Variable K : Type.
Variables (k0 k1 : K) (kadd kmul ksub : K -> K -> K) (kopp : K -> K).
Variable Kring : ring_theory k0 k1 kadd kmul ksub kopp (@eq K).
Add Ring Kr : Kring.

Notation lterm := (lterm K).
Notation edf_group := (edf_group K).
Notation start_le := (@start_le K).
Notation lsum := (@lsum K k0 kadd _).
Notation at_start := (@at_start K).
Notation incr := PenProofs5.incr.

Variable w : lterm -> K.   (* the share lambda * B of a penalty *)

Definition share (s : nat) (ps : list lterm) : K := lsum w (at_start s ps).

Record einv (dn : list lterm) (gs : list edf_group) : Prop := {
  ei_incr : incr (map (@e_start K) gs);
  ei_in : forall s, In s (map (@e_start K) gs) <-> exists p, In p dn /\ t_start p = s;
  ei_pen : forall g, In g gs -> e_pen g = share (e_start g) dn;
  ei_n : forall g p, In g gs -> In p dn -> t_start p = e_start g -> e_n g = t_dim p * t_rep p }.

Lemma share_snoc s dn p :
  share s (dn ++ [p]) = kadd (share s dn) (if t_start p =? s then w p else k0).
Proof.
  unfold share. rewrite at_start_app, (PenProofs2.lsum_app _ _ _ _ _ _ _ Kring), at_start_one.
  destruct (t_start p =? s); simpl; ring.
Qed.

Lemma einv_nil : einv [] [].
Proof.
  constructor; simpl; try contradiction; [constructor|].
  intros s. split; [contradiction|]. intros [q [[] _]].
Qed.

Lemma einv_new dn gs p : einv dn gs -> (forall q, In q dn -> t_start q < t_start p) ->
  einv (dn ++ [p]) (gs ++ [mkEdf (t_dim p * t_rep p) (w p) (t_start p)]).
Proof.
  intros [G1 G2 G4 G5] Hlt.
  assert (Hgs : forall g, In g gs -> e_start g <> t_start p).
  { intros g Hg E. assert (Hin : In (e_start g) (map (@e_start K) gs)) by now apply in_map.
    apply G2 in Hin. destruct Hin as [q [Hq Eq]]. specialize (Hlt q Hq). lia. }
  constructor.
  - rewrite map_app. simpl. apply incr_snoc; [assumption|].
    intros y Hy. apply G2 in Hy. destruct Hy as [q [Hq <-]]. now apply Hlt.
  - intros s. rewrite map_app, in_app_iff, G2. simpl. split.
    + intros [[q [Hq E]]|[<-|[]]].
      * exists q. split; [apply in_or_app; now left|assumption].
      * exists p. split; [apply in_or_app; right; now left|reflexivity].
    + intros [q [Hq E]]. apply in_app_or in Hq. destruct Hq as [Hq|[<-|[]]].
      * left. now exists q.
      * right. now left.
  - intros g Hg. rewrite share_snoc. apply in_app_or in Hg. destruct Hg as [Hg|[<-|[]]].
    + rewrite (G4 g Hg).
      destruct (Nat.eqb_spec (t_start p) (e_start g)); [now destruct (Hgs g Hg)|]. ring.
    + simpl. rewrite Nat.eqb_refl. unfold share. rewrite at_start_none by assumption. simpl. ring.
  - intros g q Hg Hq E. apply in_app_or in Hg, Hq.
    destruct Hg as [Hg|[<-|[]]], Hq as [Hq|[<-|[]]].
    + now apply G5.
    + now destruct (Hgs g Hg).
    + simpl in E. specialize (Hlt q Hq). lia.
    + reflexivity.
Qed.

Lemma einv_add dn gs p gs' : einv dn gs -> edf_add kadd gs p (w p) = Some gs' ->
  einv (dn ++ [p]) gs'.
Proof.
  intros [G1 G2 G4 G5]. unfold edf_add.
  destruct (filter (fun g => e_start g =? t_start p) gs) as [|g0 [|]] eqn:Ef; try discriminate.
  destruct (e_n g0 =? t_dim p * t_rep p) eqn:Ec; [|discriminate].
  intros E. inversion E; subst gs'; clear E. apply Nat.eqb_eq in Ec.
  assert (Hg0 : In g0 gs /\ e_start g0 = t_start p).
  { assert (H : In g0 (filter (fun g => e_start g =? t_start p) gs)) by (rewrite Ef; now left).
    apply filter_In in H. destruct H. split; [assumption|now apply Nat.eqb_eq]. }
  destruct Hg0 as [Hg0 Es0].
  assert (Huniq : forall g, In g gs -> e_start g = t_start p -> g = g0).
  { intros g Hg E. assert (H : In g (filter (fun g => e_start g =? t_start p) gs)).
    { apply filter_In. split; [assumption|now apply Nat.eqb_eq]. }
    rewrite Ef in H. destruct H as [H|[]]. now symmetry. }
  set (upd := fun h => if e_start h =? t_start p
      then mkEdf (e_n h) (kadd (e_pen h) (w p)) (e_start h) else h).
  assert (Hst : forall h, e_start (upd h) = e_start h).
  { intros h. unfold upd. now destruct (e_start h =? t_start p). }
  assert (Hdm : forall h, e_n (upd h) = e_n h).
  { intros h. unfold upd. now destruct (e_start h =? t_start p). }
  assert (Hmap : map (@e_start K) (map upd gs) = map (@e_start K) gs).
  { rewrite map_map. apply map_ext. exact Hst. }
  constructor.
  - now rewrite Hmap.
  - intros s. rewrite Hmap, G2. split.
    + intros [q [Hq E]]. exists q. split; [apply in_or_app; now left|assumption].
    + intros [q [Hq E]]. apply in_app_or in Hq. destruct Hq as [Hq|[<-|[]]].
      * now exists q.
      * apply G2. rewrite <- E, <- Es0. now apply in_map.
  - intros g Hg. apply in_map_iff in Hg. destruct Hg as [h [<- Hh]].
    rewrite Hst, share_snoc, <- (G4 h Hh). unfold upd.
    rewrite (Nat.eqb_sym (e_start h)).
    destruct (Nat.eqb_spec (t_start p) (e_start h)); simpl; ring.
  - intros g q Hg Hq E. apply in_map_iff in Hg. destruct Hg as [h [<- Hh]].
    rewrite Hst in E. rewrite Hdm.
    apply in_app_or in Hq. destruct Hq as [Hq|[<-|[]]]; [now apply G5|].
    now rewrite (Huniq h Hh) by now symmetry.
Qed.

Lemma edf_loop_inv : forall ps dn mx gs gs',
  einv dn gs -> (forall q, In q dn -> t_start q <= mx) -> StronglySorted start_le ps ->
  (forall p, In p ps -> mx <= t_start p) ->
  edf_loop kadd false mx gs (map (fun p => (p, w p)) ps) = Some gs' -> einv (dn ++ ps) gs'.
Proof.
  induction ps as [|p ps IH]; intros dn mx gs gs' Hinv Hle HS Hge E; simpl in E.
  - inversion E; subst. now rewrite app_nil_r.
  - replace (dn ++ p :: ps) with ((dn ++ [p]) ++ ps) by now rewrite <- app_assoc.
    inversion HS as [|x y HS1 HS2]; subst. rewrite Forall_forall in HS2.
    assert (Hp : mx <= t_start p) by (apply Hge; now left).
    destruct (Nat.ltb_spec mx (t_start p)).
    + apply (IH (dn ++ [p]) (t_start p)) in E; try assumption.
      * apply einv_new; [assumption|]. intros q Hq. specialize (Hle q Hq). lia.
      * intros q Hq. apply in_app_or in Hq. destruct Hq as [Hq|[<-|[]]]; [|lia].
        specialize (Hle q Hq). lia.
    + destruct (edf_add kadd gs p (w p)) as [gs1|] eqn:Ea; [|discriminate].
      apply (IH (dn ++ [p]) mx) in E; try assumption.
      * now apply einv_add with (gs := gs).
      * intros q Hq. apply in_app_or in Hq. destruct Hq as [Hq|[<-|[]]]; [|lia]. now apply Hle.
      * intros q Hq. specialize (HS2 q Hq). unfold PenSpec.start_le in HS2. lia.
Qed.

Lemma edf_loop_spec ps gs : Sorted start_le ps ->
  edf_loop kadd true 0 [] (map (fun p => (p, w p)) ps) = Some gs -> einv ps gs.
Proof.
  intros HS E. apply Sorted_StronglySorted in HS; [|apply start_le_trans].
  destruct ps as [|p ps]; simpl in E.
  - inversion E; subst. apply einv_nil.
  - inversion HS; subst. rewrite Forall_forall in H2.
    change (p :: ps) with ([p] ++ ps). eapply edf_loop_inv; [| | | |exact E]; try assumption.
    + change [p] with (([] : list lterm) ++ [p]). apply (einv_new [] []); [apply einv_nil|intros q []].
    + intros q [<-|[]]. lia.
Qed.

Lemma filter_unique_e (gs : list edf_group) g : NoDup (map (@e_start K) gs) -> In g gs ->
  filter (fun h => e_start h =? e_start g) gs = [g].
Proof.
  induction gs as [|h gs IH]; intros Hnd Hin; [contradiction|].
  simpl in Hnd. inversion Hnd; subst. simpl. destruct Hin as [->|Hin].
  - rewrite Nat.eqb_refl. f_equal.
    assert (forall h, In h gs -> (e_start h =? e_start g) = false).
    { intros h Hh. apply Nat.eqb_neq. intros E. apply H1. rewrite <- E. now apply in_map. }
    clear -H. induction gs as [|h gs IH]; simpl; [reflexivity|].
    rewrite (H h) by now left. apply IH. intros; apply H; now right.
  - destruct (Nat.eqb_spec (e_start h) (e_start g)).
    + exfalso. apply H1. rewrite e. now apply in_map.
    + now apply IH.
Qed.

Lemma edf_loop_defined_aux : forall ps dn mx gs,
  einv dn gs -> In mx (map (@e_start K) gs) -> StronglySorted start_le ps ->
  (forall q, In q dn -> t_start q <= mx) ->
  (forall p, In p ps -> mx <= t_start p) ->
  (forall p q, In p (dn ++ ps) -> In q (dn ++ ps) -> t_start p = t_start q ->
      t_dim p = t_dim q /\ t_rep p = t_rep q) ->
  exists gs', edf_loop kadd false mx gs (map (fun p => (p, w p)) ps) = Some gs'.
Proof.
  induction ps as [|p ps IH]; intros dn mx gs Hinv Hmx HS Hle Hge Hsh; simpl; [eauto|].
  inversion HS as [|x y HS1 HS2]; subst. rewrite Forall_forall in HS2.
  assert (Hp : mx <= t_start p) by (apply Hge; now left).
  destruct (Nat.ltb_spec mx (t_start p)).
  - apply (IH (dn ++ [p]) (t_start p)).
    + apply einv_new; [assumption|]. intros q Hq. specialize (Hle q Hq). lia.
    + rewrite map_app. apply in_or_app. right. now left.
    + assumption.
    + intros q Hq. apply in_app_or in Hq. destruct Hq as [Hq|[<-|[]]]; [|lia].
      specialize (Hle q Hq). lia.
    + exact HS2.
    + intros a b Ha Hb. rewrite <- app_assoc in Ha, Hb. now apply Hsh.
  - assert (Emx : mx = t_start p) by lia.
    destruct (edf_add kadd gs p (w p)) as [gs1|] eqn:Ea.
    + apply (IH (dn ++ [p]) mx).
      * now apply einv_add with (gs := gs).
      * pose proof (einv_add _ _ _ _ Hinv Ea) as Hg1. apply (ei_in _ _ Hg1).
        exists p. split; [apply in_or_app; right; now left|now symmetry].
      * assumption.
      * intros q Hq. apply in_app_or in Hq. destruct Hq as [Hq|[<-|[]]]; [|lia]. now apply Hle.
      * intros q Hq. specialize (HS2 q Hq). unfold PenSpec.start_le in HS2. lia.
      * intros a b Ha Hb. rewrite <- app_assoc in Ha, Hb. now apply Hsh.
    + exfalso. unfold edf_add in Ea.
      apply in_map_iff in Hmx. destruct Hmx as [g [Eg Hg]].
      replace (t_start p) with (e_start g) in Ea by lia.
      rewrite filter_unique_e in Ea; [|apply NoDup_incr; apply (ei_incr _ _ Hinv)|assumption].
      assert (Hin : In (e_start g) (map (@e_start K) gs)) by now apply in_map.
      apply (ei_in _ _ Hinv) in Hin. destruct Hin as [q [Hq Eq]].
      pose proof (ei_n _ _ Hinv g q Hg Hq Eq) as En.
      destruct (Hsh q p) as [Ed2 Er2].
      * apply in_or_app. now left.
      * apply in_or_app. right. now left.
      * lia.
      * rewrite En, Ed2, Er2, !Nat.eqb_refl in Ea. discriminate.
Qed.

Lemma edf_loop_defined ps : Sorted start_le ps -> laid_out ps ->
  exists gs, edf_loop kadd true 0 [] (map (fun p => (p, w p)) ps) = Some gs.
Proof.
  intros HS Hl. apply Sorted_StronglySorted in HS; [|apply start_le_trans].
  destruct ps as [|p ps]; simpl; [eauto|].
  inversion HS; subst. rewrite Forall_forall in H2.
  apply (edf_loop_defined_aux ps [p] (t_start p)).
  - change [p] with (([] : list lterm) ++ [p]). apply (einv_new [] []); [apply einv_nil|intros q []].
  - now left.
  - assumption.
  - intros q [<-|[]]. lia.
  - exact H2.
  - intros a b Ha Hb E. simpl in Ha, Hb. now apply (Hl a b Ha Hb).
Qed.

(** ** Sums over the groups *)

Lemma kof_add a b : kof k0 k1 kadd (a + b) = kadd (kof k0 k1 kadd a) (kof k0 k1 kadd b).
Proof. induction a; simpl; [ring|]. rewrite IHa. ring. Qed.

Lemma share_total ps gs : StronglySorted start_le ps -> einv ps gs ->
  lsum (@e_pen K) gs = lsum w ps.
Proof.
  intros HS Hinv.
  rewrite (sorted_runs K (map (@e_start K) gs) ps) at 1.
  - rewrite (lsum_flat_map Kring), (PenProofs2.lsum_map). apply PenProofs2.lsum_ext.
    intros g Hg. now rewrite (ei_pen _ _ Hinv g Hg).
  - apply (ei_incr _ _ Hinv).
  - assumption.
  - intros p Hp. apply (ei_in _ _ Hinv). now exists p.
Qed.

(** The groups' sizes add up to the number of penalised coefficients. *)
Lemma filter_range a b n : a <= b -> b <= n ->
  filter (fun i => (a <=? i) && (i <? b)) (seq 0 n) = seq a (b - a).
Proof.
  intros Hab Hbn. replace n with (a + ((b - a) + (n - b))) by lia.
  rewrite !seq_app, !filter_app. simpl.
  assert (E1 : forall l, (forall i, In i l -> (a <=? i) && (i <? b) = false) ->
     filter (fun i => (a <=? i) && (i <? b)) l = []).
  { induction l as [|x l IH]; intros H; simpl; [reflexivity|]. rewrite (H x) by now left.
    apply IH. intros; apply H; now right. }
  assert (E2 : forall l, (forall i, In i l -> (a <=? i) && (i <? b) = true) ->
     filter (fun i => (a <=? i) && (i <? b)) l = l).
  { induction l as [|x l IH]; intros H; simpl; [reflexivity|]. rewrite (H x) by now left.
    f_equal. apply IH. intros; apply H; now right. }
  rewrite (E1 (seq 0 a)), (E2 (seq a (b - a))), (E1 (seq (a + (b - a)) (n - b))).
  - now rewrite app_nil_r.
  - intros i Hi. apply in_seq in Hi. destruct (Nat.leb_spec a i), (Nat.ltb_spec i b); simpl; reflexivity || lia.
  - intros i Hi. apply in_seq in Hi. destruct (Nat.leb_spec a i), (Nat.ltb_spec i b); simpl; reflexivity || lia.
  - intros i Hi. apply in_seq in Hi. destruct (Nat.leb_spec a i), (Nat.ltb_spec i b); simpl; reflexivity || lia.
Qed.

Lemma length_filter_or (f g : nat -> bool) l : (forall i, In i l -> f i = true -> g i = true -> False) ->
  length (filter (fun i => f i || g i) l) = length (filter f l) + length (filter g l).
Proof.
  induction l as [|x l IH]; intros H; simpl; [reflexivity|].
  assert (IH' : length (filter (fun i => f i || g i) l) = length (filter f l) + length (filter g l)).
  { apply IH. intros i Hi. apply H. now right. }
  destruct (f x) eqn:Ef, (g x) eqn:Eg; simpl; try lia.
  exfalso. apply (H x); [now left|assumption|assumption].
Qed.

Lemma group_sizes ps gs n : laid_out ps -> einv ps gs -> (forall p, In p ps -> pen_end p <= n) ->
  fold_right Nat.add 0 (map (@e_n K) gs) = n_covered n ps.
Proof.
  intros Hl Hinv Hn.
  assert (Hrep : forall g, In g gs -> exists p, In p ps /\ t_start p = e_start g /\ e_n g = t_dim p * t_rep p).
  { intros g Hg. assert (Hin : In (e_start g) (map (@e_start K) gs)) by now apply in_map.
    apply (ei_in _ _ Hinv) in Hin. destruct Hin as [p [Hp Ep]]. exists p.
    repeat split; try assumption. now apply (ei_n _ _ Hinv g p). }
  assert (Hcov : forall i, covered ps i
     = existsb (fun g => (e_start g <=? i) && (i <? e_start g + e_n g)) gs).
  { intros i. unfold covered. apply Bool.eq_true_iff_eq. rewrite !existsb_exists. split.
    - intros [p [Hp Hc]].
      assert (Hg : In (t_start p) (map (@e_start K) gs)) by (apply (ei_in _ _ Hinv); now exists p).
      apply in_map_iff in Hg. destruct Hg as [g [Eg Hg]]. exists g. split; [assumption|].
      rewrite (ei_n _ _ Hinv g p Hg Hp (eq_sym Eg)), Eg. exact Hc.
    - intros [g [Hg Hc]]. destruct (Hrep g Hg) as [p [Hp [Ep En]]]. exists p. split; [assumption|].
      unfold pen_end. rewrite Ep, <- En. exact Hc. }
  unfold n_covered. rewrite (filter_ext _ _ Hcov).
  assert (Hdis : forall g h, In g gs -> In h gs -> e_start g < e_start h -> e_start g + e_n g <= e_start h).
  { intros g h Hg Hh Hlt. destruct (Hrep g Hg) as [p [Hp [Ep En]]]. destruct (Hrep h Hh) as [q [Hq [Eq _]]].
    destruct (Hl p q Hp Hq) as [_ H]. rewrite Ep, Eq in H. specialize (H Hlt).
    unfold pen_end in H. rewrite Ep, <- En in H. exact H. }
  assert (Hend : forall g, In g gs -> e_start g + e_n g <= n).
  { intros g Hg. destruct (Hrep g Hg) as [p [Hp [Ep En]]]. specialize (Hn p Hp).
    unfold pen_end in Hn. rewrite Ep, <- En in Hn. exact Hn. }
  pose proof (ei_incr _ _ Hinv) as Hi. clear Hrep Hcov Hinv Hn Hl.
  induction gs as [|g gs IH]; simpl.
  - clear. induction (seq 0 n); simpl; congruence.
  - simpl in Hi. inversion Hi; subst. rewrite Forall_forall in H2.
    rewrite length_filter_or.
    + rewrite filter_range, seq_length; [| lia | apply Hend; now left].
      rewrite IH; [lia| | |assumption].
      * intros a b Ha Hb. apply Hdis; now right.
      * intros a Ha. apply Hend. now right.
    + intros i _ Ha Hb. apply existsb_exists in Hb. destruct Hb as [h [Hh Hb]].
      apply andb_true_iff in Ha, Hb. destruct Ha as [_ Ha], Hb as [Hb _].
      apply Nat.ltb_lt in Ha. apply Nat.leb_le in Hb.
      assert (e_start g < e_start h) by (apply H2; now apply in_map).
      specialize (Hdis g h (or_introl eq_refl) (or_intror Hh) H). lia.
Qed.

End Edf.

Section Edf2.
Variable K : Type.
Variables (k0 k1 : K) (kadd kmul ksub : K -> K -> K) (kopp : K -> K).
Variable Kring : ring_theory k0 k1 kadd kmul ksub kopp (@eq K).
Add Ring Kr2 : Kring.

Notation lterm := (lterm K).
Notation lsum := (@lsum K k0 kadd _).

Lemma fold_sub_lsum (f : lterm -> K) l : forall c,
  fold_left ksub (map f l) c = ksub c (lsum f l).
Proof. induction l; intros c; simpl; [ring|]. rewrite IHl. ring. Qed.

Lemma edf_adds_up (ps : list lterm) ms B colsX n total pp Bs tedf :
  good ps -> laid_out ps -> (forall p, In p ps -> pen_end p <= n) ->
  combine_shared_penalties kadd ps = Some ms ->
  calculate_edf k0 kadd kmul ksub B colsX ms = (total, pp, Bs) ->
  calculate_term_edf k0 k1 kadd ksub ms pp = Some tedf ->
  total = ksub colsX (lsum (fun p => kmul (t_lam p) (B p)) ps) /\
  total = kadd (lsum (fun e => e) tedf) (ksub colsX (kof k0 k1 kadd (n_covered n ps))).
Proof.
  intros Hg Hl Hn Hc He Ht.
  destruct (split_order K k0 kadd ps ms Hg Hc) as (HP & HS & Hk & Hno & HK).
  set (qs := split_shared_penalties ms) in *.
  set (w := fun p => kmul (t_lam p) (B p)).
  unfold calculate_edf in He. injection He; intros _ E2 E1; clear He.
  fold qs in E1, E2. fold w in E1, E2.
  assert (T1 : total = ksub colsX (lsum w ps)).
  { rewrite <- E1, fold_sub_lsum. now rewrite (lsum_perm Kring w HP). }
  split; [exact T1|].
  unfold calculate_term_edf in Ht. fold qs in Ht. rewrite <- E2, combine_map_r in Ht.
  destruct (edf_loop kadd true 0 [] (map (fun x => (x, w x)) qs)) as [gs|] eqn:El; [|discriminate].
  inversion Ht; subst tedf; clear Ht.
  pose proof (edf_loop_spec K k0 k1 kadd kmul ksub kopp Kring w qs gs HS El) as Hinv.
  assert (HSS : StronglySorted (@start_le K) qs)
    by (apply Sorted_StronglySorted; [apply start_le_trans|assumption]).
  pose proof (share_total K k0 k1 kadd kmul ksub kopp Kring w qs gs HSS Hinv) as Hsh.
  assert (Hlq : laid_out qs).
  { intros p q Hp Hq. apply Hl; eapply Permutation_in; eauto. }
  assert (Hnq : forall p, In p qs -> pen_end p <= n).
  { intros p Hp. apply Hn. eapply Permutation_in; eauto. }
  pose proof (group_sizes K k0 kadd w qs gs n Hlq Hinv Hnq) as Hsz.
  assert (Ecov : n_covered n qs = n_covered n ps).
  { unfold n_covered. f_equal. apply filter_ext. intros i. unfold covered.
    apply Bool.eq_true_iff_eq. rewrite !existsb_exists. split; intros [p [Hp Hx]]; exists p; (split; [|assumption]).
    - eapply Permutation_in; eauto.
    - eapply Permutation_in; [symmetry; exact HP|assumption]. }
  assert (Esum : lsum (fun e => e) (map (fun g => ksub (kof k0 k1 kadd (e_n g)) (e_pen g)) gs)
     = ksub (kof k0 k1 kadd (fold_right Nat.add 0 (map (@e_n K) gs))) (lsum (@e_pen K) gs)).
  { clear - Kring. induction gs as [|g gs IH]; simpl; [ring|]. rewrite IH.
    rewrite (kof_add K k0 k1 kadd kmul ksub kopp Kring). ring. }
  rewrite Esum, Hsz, Ecov, Hsh, T1, (lsum_perm Kring w HP). ring.
Qed.

End Edf2.
