(** Proofs about the root of the total penalty (RootModel). *)

From Coq Require Import List Arith Bool Lia Permutation Ring Sorted.
From Verif Require Import PenModel PenSpec PenProofs PenProofs2 PenProofs3 PenProofs4 PenProofs5 RootModel.
Import ListNotations.

Section Root.
Variable K : Type.
Variables (k0 k1 : K) (kadd kmul ksub : K -> K -> K) (kopp : K -> K).
Variable Kring : ring_theory k0 k1 kadd kmul ksub kopp (@eq K).
Add Ring Kr : Kring.
Variable ksqrt : K -> K.
Variable eroot : nat -> mat K -> mat K.

Notation lterm := (lterm K).
Notation group := (group K).
Notation rgroup := (rgroup K).
Notation start_le := (@start_le K).
Notation at_start := (@at_start K).
Notation lsum := (@lsum K k0 kadd _).
Notation nsum := (@nsum K k0 kadd).
Notation rgroups := (@root_groups K kadd kmul ksqrt).

(** ** The groups are those of PenModel *)

Lemma group_add_length (gs : list group) p gs' : group_add kadd kmul gs p = Some gs' ->
  length gs' = length gs.
Proof.
  unfold group_add. destruct (filter _ gs) as [|g [|]]; try discriminate.
  destruct (_ && _); [|discriminate]. intros E. inversion E. apply map_length.
Qed.

Lemma root_add_groups (gs : list rgroup) p : 
  option_map (map (@r_group K)) (root_add kadd kmul gs p) = group_add kadd kmul (map (@r_group K) gs) p.
Proof.
  unfold root_add. destruct (group_add kadd kmul (map (@r_group K) gs) p) as [gs'|] eqn:E; [|reflexivity].
  simpl. f_equal. rewrite map_map. simpl.
  assert (H : length gs' = length (map (@r_D K) gs)).
  { rewrite (group_add_length _ _ _ E), !map_length. reflexivity. }
  clear E. revert H. generalize (map (@r_D K) gs). induction gs' as [|g gs' IH]; intros [|d ds] H; simpl in *; try discriminate.
  - reflexivity.
  - f_equal. apply IH. lia.
Qed.

Lemma root_groups_eq : forall ps first mx (gs : list rgroup),
  option_map (map (@r_group K)) (rgroups first mx gs ps)
  = group_loop kadd kmul first mx (map (@r_group K) gs) ps.
Proof.
  induction ps as [|p ps IH]; intros first mx gs; simpl; [reflexivity|].
  destruct (first || (mx <? t_start p)).
  - rewrite IH, map_app. reflexivity.
  - rewrite <- root_add_groups. destruct (root_add kadd kmul gs p); simpl; [apply IH|reflexivity].
Qed.

(** A group of one penalty holds this penalty's root. *)
Definition dinv (dn : list lterm) (gs : list rgroup) : Prop :=
  forall g, In g gs -> g_terms (r_group g) = 1 ->
    exists p, at_start (g_start (r_group g)) dn = [p] /\
      r_D g = Some (mscale kmul (ksqrt (t_lam p)) (t_Demb p)).

Lemma dinv_new dn gs p : ginv K k0 kadd kmul dn (map (@r_group K) gs) -> dinv dn gs ->
  (forall q, In q dn -> t_start q < t_start p) ->
  dinv (dn ++ [p])
    (gs ++ [mkRgroup (mkGroup (mscale kmul (t_lam p) (t_S p)) (t_dim p) 1 (t_rep p) (t_start p))
                     (Some (mscale kmul (ksqrt (t_lam p)) (t_Demb p)))]).
Proof.
  intros G D Hlt g Hg E1. apply in_app_or in Hg. destruct Hg as [Hg|[<-|[]]].
  - destruct (D g Hg E1) as [q [Eq ED]]. exists q. split; [|assumption].
    rewrite at_start_app, at_start_one, Eq.
    destruct (Nat.eqb_spec (t_start p) (g_start (r_group g))) as [E|]; [|reflexivity].
    exfalso. assert (Hin : In (g_start (r_group g)) (map (@g_start K) (map (@r_group K) gs))).
    { apply in_map. now apply in_map. }
    apply (gi_in _ _ _ _ _ _ G) in Hin. destruct Hin as [r [Hr Er]]. specialize (Hlt r Hr). lia.
  - exists p. simpl. split; [|reflexivity].
    rewrite at_start_app, at_start_one, Nat.eqb_refl, at_start_none by assumption. reflexivity.
Qed.

Lemma dinv_add dn gs p gs' : ginv K k0 kadd kmul dn (map (@r_group K) gs) -> dinv dn gs ->
  root_add kadd kmul gs p = Some gs' -> dinv (dn ++ [p]) gs'.
Proof.
  intros G D E. pose proof (root_add_groups gs p) as EG. rewrite E in EG. simpl in EG. symmetry in EG.
  pose proof (ginv_add _ _ _ _ _ _ _ Kring _ _ _ _ G EG) as G'.
  intros g Hg E1.
  assert (Hn : g_start (r_group g) <> t_start p).
  { intros Es. assert (Hr : In (r_group g) (map (@r_group K) gs')) by now apply in_map.
    pose proof (gi_terms _ _ _ _ _ _ G' _ Hr) as Ht. rewrite E1, at_start_app, at_start_one, <- Es, Nat.eqb_refl, app_length in Ht.
    simpl in Ht.
    (* the start was there before *)
    assert (Hz : at_start (g_start (r_group g)) dn = []) by (apply length_zero_iff_nil; lia).
    unfold group_add in EG. 
    destruct (filter (fun g => g_start g =? t_start p) (map (@r_group K) gs)) as [|h [|]] eqn:Ef; try discriminate.
    assert (Hh : In h (filter (fun g => g_start g =? t_start p) (map (@r_group K) gs))) by (rewrite Ef; now left).
    apply filter_In in Hh. destruct Hh as [Hh Eh]. apply Nat.eqb_eq in Eh.
    assert (Hs : In (t_start p) (map (@g_start K) (map (@r_group K) gs))) by (rewrite <- Eh; now apply in_map).
    apply (gi_in _ _ _ _ _ _ G) in Hs. destruct Hs as [q [Hq Eq]].
    assert (Hc : In q (at_start (g_start (r_group g)) dn)).
    { apply filter_In. split; [assumption|]. apply Nat.eqb_eq. congruence. }
    rewrite Hz in Hc. destruct Hc. }
  (* an unchanged group *)
  assert (Hold : In g gs).
  { unfold root_add in E. rewrite EG in E. inversion E as [E']. rewrite <- E' in Hg.
    unfold group_add in EG.
    destruct (filter (fun g => g_start g =? t_start p) (map (@r_group K) gs)) as [|h0 [|]]; try discriminate.
    destruct (_ && _) in EG; [|discriminate]. inversion EG as [EG']. rewrite <- EG' in Hg.
    apply in_map_iff in Hg. destruct Hg as [[h e] [<- H]]. simpl in Hn.
    clear -H Hn. revert H.
    induction gs as [|g gs IH]; simpl; [intros []|]. intros [H|H]; [|right; now apply IH].
    left. inversion H; subst. clear H. destruct g as [g d]. simpl in *.
    destruct (Nat.eqb_spec (g_start g) (t_start p)) as [Eg|Eg]; simpl in Hn; [now destruct (Hn Eg)|].
    destruct (Nat.eqb_spec (g_start g) (t_start p)); [contradiction|reflexivity]. }
  destruct (D g Hold E1) as [q [Eq ED]]. exists q. split; [|assumption].
  rewrite at_start_app, at_start_one, Eq.
  destruct (Nat.eqb_spec (t_start p) (g_start (r_group g))); [congruence|reflexivity].
Qed.

Lemma root_groups_inv : forall ps dn mx (gs gs' : list rgroup),
  ginv K k0 kadd kmul dn (map (@r_group K) gs) -> dinv dn gs ->
  (forall q, In q dn -> t_start q <= mx) -> StronglySorted start_le ps ->
  (forall p, In p ps -> mx <= t_start p) ->
  rgroups false mx gs ps = Some gs' -> dinv (dn ++ ps) gs'.
Proof.
  induction ps as [|p ps IH]; intros dn mx gs gs' Hinv D Hle HS Hge E; simpl in E.
  - inversion E; subst. now rewrite app_nil_r.
  - replace (dn ++ p :: ps) with ((dn ++ [p]) ++ ps) by now rewrite <- app_assoc.
    inversion HS as [|x y HS1 HS2]; subst. rewrite Forall_forall in HS2.
    assert (Hp : mx <= t_start p) by (apply Hge; now left).
    destruct (Nat.ltb_spec mx (t_start p)).
    + apply (IH (dn ++ [p]) (t_start p)) in E; try assumption.
      * rewrite map_app. apply (ginv_new _ _ _ _ _ _ _ Kring); [assumption|]. intros q Hq. specialize (Hle q Hq). lia.
      * apply dinv_new; [assumption|assumption|]. intros q Hq. specialize (Hle q Hq). lia.
      * intros q Hq. apply in_app_or in Hq. destruct Hq as [Hq|[<-|[]]]; [|lia].
        specialize (Hle q Hq). lia.
    + destruct (root_add kadd kmul gs p) as [gs1|] eqn:Ea; [|discriminate].
      apply (IH (dn ++ [p]) mx) in E; try assumption.
      * pose proof (root_add_groups gs p) as EG. rewrite Ea in EG. simpl in EG. symmetry in EG.
        now apply (ginv_add _ _ _ _ _ _ _ Kring) with (gs := map (@r_group K) gs).
      * now apply dinv_add with (gs := gs).
      * intros q Hq. apply in_app_or in Hq. destruct Hq as [Hq|[<-|[]]]; [|lia]. now apply Hle.
      * intros q Hq. specialize (HS2 q Hq). unfold PenSpec.start_le in HS2. lia.
Qed.

Lemma root_groups_spec ps gs : Sorted start_le ps ->
  rgroups true 0 [] ps = Some gs ->
  ginv K k0 kadd kmul ps (map (@r_group K) gs) /\ dinv ps gs.
Proof.
  intros HS E. split.
  - apply (group_loop_spec _ _ _ _ _ _ _ Kring); [assumption|].
    pose proof (root_groups_eq ps true 0 []) as H. rewrite E in H. simpl in H. now symmetry.
  - apply Sorted_StronglySorted in HS; [|apply start_le_trans].
    destruct ps as [|p ps]; simpl in E.
    + inversion E; subst. intros g [].
    + inversion HS; subst. rewrite Forall_forall in H2.
      change (p :: ps) with ([p] ++ ps).
      assert (G0 : ginv K k0 kadd kmul [] (map (@r_group K) [])).
      { constructor; simpl; try contradiction; [constructor|].
        intros s. split; [contradiction|]. intros [q [[] _]]. }
      refine (root_groups_inv ps [p] (t_start p) _ _ _ _ _ H1 H2 E).
      * change [p] with (([] : list lterm) ++ [p]).
        apply (ginv_new _ _ _ _ _ _ _ Kring [] []); [exact G0|intros q []].
      * change [p] with (([] : list lterm) ++ [p]).
        apply (dinv_new [] []); [exact G0|intros q []|intros q []].
      * intros q [<-|[]]. lia.
Qed.

(** ** The root as a sum over the groups *)

(** What a group contributes to the root. *)
Definition contrib (g : rgroup) : mat K :=
  let h := r_group g in
  if g_terms h =? 1 then match r_D g with Some D => D | None => mzero k0 end
  else blockdiag k0 (g_start h) (g_dim h) (g_rep h) (eroot (g_dim h) (g_S h)).

Lemma root_sum : forall gs c, (forall g, In g gs -> 0 < g_dim (r_group g)) ->
  (forall gs1 g gs2, gs = gs1 ++ g :: gs2 ->
     g_start (r_group g) = c + fold_right Nat.add 0 (map (fun h => g_dim (r_group h) * g_rep (r_group h)) gs1)) ->
  forall i j, madd kadd (root_blocks k0 kadd eroot c gs) (root_singles k0 kadd gs) i j
   = lsum (fun g => contrib g i j) gs.
Proof.
  induction gs as [|g gs IH]; intros c Hd Hst i j.
  - simpl. unfold madd, mzero. ring.
  - assert (Eg : g_start (r_group g) = c).
    { specialize (Hst [] g gs eq_refl). simpl in Hst. lia. }
    assert (HIH : madd kadd (root_blocks k0 kadd eroot (c + g_dim (r_group g) * g_rep (r_group g)) gs)
                    (root_singles k0 kadd gs) i j = lsum (fun g => contrib g i j) gs).
    { apply IH; [intros; apply Hd; now right|]. intros gs1 h gs2 E.
      specialize (Hst (g :: gs1) h gs2). simpl in Hst. rewrite E in Hst. specialize (Hst eq_refl). lia. }
    simpl. unfold contrib at 1. unfold madd in HIH |- *.
    destruct (g_terms (r_group g) =? 1).
    + rewrite <- HIH. ring.
    + rewrite <- HIH. rewrite (blocks_at_spec _ _ _ _ _ _ _ Kring) by (apply Hd; now left). rewrite Eg. ring.
Qed.

(** ** Products of sums with disjoint supports *)

Lemma nsum_zero n f : (forall k, k < n -> f k = k0) -> nsum n f = k0.
Proof.
  intros H. unfold PenSpec.nsum. apply (PenProofs2.lsum_zero _ _ _ _ _ _ _ Kring).
  intros k Hk. apply H. apply in_seq in Hk. lia.
Qed.

Lemma nsum_ext n f g : (forall k, k < n -> f k = g k) -> nsum n f = nsum n g.
Proof.
  intros H. unfold PenSpec.nsum.
  assert (HL : forall l, (forall k, In k l -> k < n) -> lsum f l = lsum g l).
  { induction l as [|a l IHl]; intros Hl; simpl; [reflexivity|].
    rewrite H, IHl; [reflexivity| |]; [intros; apply Hl; now right|apply Hl; now left]. }
  apply HL. intros k Hk. apply in_seq in Hk. lia.
Qed.

Lemma nsum_add n f g : nsum n (fun k => kadd (f k) (g k)) = kadd (nsum n f) (nsum n g).
Proof.
  unfold PenSpec.nsum. induction (seq 0 n) as [|a l IHl]; simpl; [ring|]. rewrite IHl. ring.
Qed.

(** A group's contribution lives on the group's coefficients. *)
Definition inside (g : rgroup) : Prop := forall i k,
  ~ (g_start (r_group g) <= k < g_start (r_group g) + g_dim (r_group g) * g_rep (r_group g)) ->
  contrib g i k = k0.

Definition apart (g h : rgroup) : Prop := forall k,
  g_start (r_group g) <= k < g_start (r_group g) + g_dim (r_group g) * g_rep (r_group g) ->
  g_start (r_group h) <= k < g_start (r_group h) + g_dim (r_group h) * g_rep (r_group h) -> False.

Lemma product_of_sums n i j : forall gs,
  (forall g, In g gs -> inside g) -> ForallOrdPairs apart gs ->
  nsum n (fun k => kmul (lsum (fun g => contrib g i k) gs) (lsum (fun g => contrib g j k) gs))
  = lsum (fun g => nsum n (fun k => kmul (contrib g i k) (contrib g j k))) gs.
Proof.
  induction gs as [|g gs IH]; intros Hin HP.
  - simpl. apply nsum_zero. intros. ring.
  - simpl. inversion HP as [|x l HA HP']; subst. rewrite Forall_forall in HA.
    assert (HZ : forall a b h k, In h gs -> kmul (contrib g a k) (contrib h b k) = k0).
    { intros a b h k Hh.
      destruct (le_dec (g_start (r_group g)) k) as [L1|L1];
        [destruct (lt_dec k (g_start (r_group g) + g_dim (r_group g) * g_rep (r_group g))) as [L2|L2]|].
      - rewrite (Hin h (or_intror Hh) b k); [ring|]. intros Hk. apply (HA h Hh k); [lia|assumption].
      - rewrite (Hin g (or_introl eq_refl) a k) by lia. ring.
      - rewrite (Hin g (or_introl eq_refl) a k) by lia. ring. }
    rewrite (nsum_ext _ _ (fun k => kadd (kmul (contrib g i k) (contrib g j k))
       (kmul (lsum (fun g => contrib g i k) gs) (lsum (fun g => contrib g j k) gs)))).
    + rewrite nsum_add, IH; [reflexivity| |assumption]. intros; apply Hin; now right.
    + intros k _.
      assert (HS : forall a b, kmul (contrib g a k) (lsum (fun g => contrib g b k) gs) = k0).
      { intros a b. assert (HL : forall l, (forall h, In h l -> In h gs) -> kmul (contrib g a k) (lsum (fun g => contrib g b k) l) = k0).
        { induction l as [|h l IHl]; intros Hl; simpl; [ring|].
          replace (kmul (contrib g a k) (kadd (contrib h b k) (lsum (fun g => contrib g b k) l)))
            with (kadd (kmul (contrib g a k) (contrib h b k)) (kmul (contrib g a k) (lsum (fun g => contrib g b k) l))) by ring.
          rewrite HZ by (apply Hl; now left). rewrite IHl by (intros; apply Hl; now right). ring. }
        now apply HL. }
      match goal with |- kmul (kadd ?a ?b) (kadd ?c ?d) = _ =>
        replace (kmul (kadd a b) (kadd c d)) with (kadd (kadd (kmul a c) (kmul a d)) (kadd (kmul c b) (kmul b d))) by ring end.
      rewrite !HS. ring.
Qed.

(** ** The product of a block diagonal matrix with its transpose *)

Lemma nsum_shift_le a n f : a <= n -> (forall k, k < n -> k < a -> f k = k0) ->
  nsum n f = nsum (n - a) (fun k => f (a + k)).
Proof.
  intros Ha Hz. unfold PenSpec.nsum.
  replace n with (a + (n - a)) at 1 by lia. rewrite seq_app, (PenProofs2.lsum_app _ _ _ _ _ _ _ Kring).
  rewrite (PenProofs2.lsum_zero _ _ _ _ _ _ _ Kring _ _ (seq 0 a)).
  2:{ intros k Hk. apply in_seq in Hk. apply Hz; lia. }
  simpl. clear Hz. revert a Ha. 
  assert (H : forall m a b, lsum f (seq (a + b) m) = lsum (fun k => f (a + k)) (seq b m)).
  { induction m as [|m IHm]; intros a b; simpl; [reflexivity|]. replace (S (a + b)) with (a + S b) by lia. now rewrite IHm. }
  intros a Ha. specialize (H (n - a) a 0). rewrite Nat.add_0_r in H. rewrite H. ring.
Qed.

Lemma nsum_upto a n f : a <= n -> (forall k, k < n -> a <= k -> f k = k0) -> nsum n f = nsum a f.
Proof.
  intros Ha Hz. unfold PenSpec.nsum.
  replace n with (a + (n - a)) at 1 by lia. rewrite seq_app, (PenProofs2.lsum_app _ _ _ _ _ _ _ Kring).
  rewrite (PenProofs2.lsum_zero _ _ _ _ _ _ _ Kring _ _ (seq (0 + a) (n - a))).
  2:{ intros k Hk. apply in_seq in Hk. apply Hz; lia. }
  ring.
Qed.

(** Summing over a window. *)
Lemma nsum_window a d n f : a + d <= n -> (forall k, k < n -> ~ (a <= k < a + d) -> f k = k0) ->
  nsum n f = nsum d (fun k => f (a + k)).
Proof.
  intros Ha Hz. rewrite (nsum_upto (a + d)) by (try lia; intros; apply Hz; lia).
  rewrite (nsum_shift_le a) by (try lia; intros; apply Hz; lia). now replace (a + d - a) with d by lia.
Qed.

Lemma blockdiag_square c d r n B i j : 0 < d -> c + d * r <= n ->
  nsum n (fun k => kmul (blockdiag k0 c d r B i k) (blockdiag k0 c d r B j k))
  = blockdiag k0 c d r (fun u v => nsum d (fun k => kmul (B u k) (B v k))) i j.
Proof.
  intros Hd Hn.
  assert (Hout : forall x, ~ (c <= x < c + r * d) -> forall k, blockdiag k0 c d r B x k = k0).
  { intros x Hx k. apply blockdiag_zero. now left. }
  destruct (le_dec c i) as [Hi1|]; [destruct (lt_dec i (c + r * d)) as [Hi2|]|].
  2,3: rewrite blockdiag_zero by (left; lia); apply nsum_zero; intros k _; rewrite (Hout i) by lia; ring.
  destruct (le_dec c j) as [Hj1|]; [destruct (lt_dec j (c + r * d)) as [Hj2|]|].
  2,3: rewrite blockdiag_zero by (right; lia); apply nsum_zero; intros k _; rewrite (Hout j) by lia; ring.
  set (q := (i - c) / d).
  assert (Hq : q < r) by (apply Nat.div_lt_upper_bound; nia).
  (* entries of the row of i *)
  assert (Hrow : forall x k, c <= x < c + r * d -> k < d ->
     blockdiag k0 c d r B x (c + d * q + k) = if (x - c) / d =? q then B ((x - c) mod d) k else k0).
  { intros x k Hx Hk. unfold blockdiag.
    destruct (Nat.leb_spec c x); [|lia]. destruct (Nat.leb_spec c (c + d * q + k)); [|lia].
    destruct (Nat.ltb_spec x (c + r * d)); [|lia]. destruct (Nat.ltb_spec (c + d * q + k) (c + r * d)); [|nia]. simpl.
    replace (c + d * q + k - c) with (k + q * d) by lia.
    rewrite Nat.div_add, Nat.mod_add, (Nat.div_small k d), (Nat.mod_small k d) by lia. now rewrite Nat.add_0_l. }
  rewrite (nsum_window (c + d * q) d).
  - rewrite (nsum_ext _ _ (fun k => kmul (B ((i - c) mod d) k) (if (j - c) / d =? q then B ((j - c) mod d) k else k0))).
    2:{ intros k Hk. rewrite (Hrow i), (Hrow j) by lia. unfold q at 1. now rewrite Nat.eqb_refl. }
    unfold blockdiag.
    destruct (Nat.leb_spec c i); [|lia]. destruct (Nat.leb_spec c j); [|lia].
    destruct (Nat.ltb_spec i (c + r * d)); [|lia]. destruct (Nat.ltb_spec j (c + r * d)); [|lia]. simpl.
    fold q. rewrite (Nat.eqb_sym q). destruct ((j - c) / d =? q); [reflexivity|].
    apply nsum_zero. intros; ring.
  - nia.
  - intros k Hk Hw.
    assert (Hz : blockdiag k0 c d r B i k = k0).
    { unfold blockdiag.
      destruct (Nat.leb_spec c i); [|reflexivity]. destruct (Nat.leb_spec c k); [|reflexivity].
      destruct (Nat.ltb_spec i (c + r * d)); [|reflexivity]. destruct (Nat.ltb_spec k (c + r * d)); [|reflexivity]. simpl.
      destruct (Nat.eqb_spec ((i - c) / d) ((k - c) / d)) as [E|]; [|reflexivity].
      exfalso. apply Hw. fold q in E.
      pose proof (Nat.div_mod (k - c) d ltac:(lia)) as E2. pose proof (Nat.mod_upper_bound (k - c) d ltac:(lia)).
      rewrite <- E in E2. nia. }
    rewrite Hz. ring.
Qed.

Lemma blockdiag_cong c d r A B i j : 0 < d -> (forall u v, u < d -> v < d -> A u v = B u v) ->
  blockdiag k0 c d r A i j = blockdiag k0 c d r B i j.
Proof.
  intros Hd H. unfold blockdiag. destruct (_ && _); [|reflexivity].
  apply H; apply Nat.mod_upper_bound; lia.
Qed.

Lemma blockdiag_lsum c d r (l : list lterm) (F : lterm -> nat -> nat -> K) i j :
  blockdiag k0 c d r (fun u v => lsum (fun p => F p u v) l) i j = lsum (fun p => blockdiag k0 c d r (F p) i j) l.
Proof.
  induction l as [|p l IH]; simpl.
  - unfold blockdiag. now destruct (_ && _).
  - rewrite <- IH. unfold blockdiag. destruct (_ && _); [reflexivity|ring].
Qed.

(** ** The root squared is the total penalty *)

Lemma at_start_perm s (ps qs : list lterm) : Permutation qs ps -> Permutation (at_start s qs) (at_start s ps).
Proof.
  unfold PenSpec.at_start. induction 1; simpl.
  - constructor.
  - destruct (t_start x =? s); [now constructor|assumption].
  - destruct (t_start x =? s), (t_start y =? s); try reflexivity. constructor.
  - now rewrite IHPermutation1.
Qed.

Lemma lsum_flat (A B : Type) (f : B -> K) (g : A -> list B) l :
  PenSpec.lsum k0 kadd f (flat_map g l) = PenSpec.lsum k0 kadd (fun x => PenSpec.lsum k0 kadd f (g x)) l.
Proof.
  induction l as [|x l IH]; simpl; [reflexivity|]. now rewrite (PenProofs2.lsum_app _ _ _ _ _ _ _ Kring), IH.
Qed.

Lemma lsum_ext_in (A : Type) (f g : A -> K) l : (forall x, In x l -> f x = g x) ->
  PenSpec.lsum k0 kadd f l = PenSpec.lsum k0 kadd g l.
Proof.
  induction l as [|x l IH]; intros H; simpl; [reflexivity|].
  rewrite H, IH; [reflexivity| |now left]. intros; apply H; now right.
Qed.

Lemma lsum_map (A B : Type) (f : B -> K) (g : A -> B) l :
  PenSpec.lsum k0 kadd f (map g l) = PenSpec.lsum k0 kadd (fun x => f (g x)) l.
Proof. induction l; simpl; congruence. Qed.

Lemma root_square (ps : list lterm) ms S_root n :
  good ps -> laid_out ps -> gapless ps -> (forall p, In p ps -> 0 < t_dim p * t_rep p) ->
  (forall p, In p ps -> pen_end p <= n) ->
  (forall p, In p ps -> kmul (ksqrt (t_lam p)) (ksqrt (t_lam p)) = t_lam p) ->
  (forall p i j, In p ps -> t_Semb p i j = blockdiag k0 (t_start p) (t_dim p) (t_rep p) (t_S p) i j) ->
  (forall p i j, In p ps -> nsum n (fun k => kmul (t_Demb p i k) (t_Demb p j k)) = t_Semb p i j) ->
  (forall p i k, In p ps -> ~ (t_start p <= k < pen_end p) -> t_Demb p i k = k0) ->
  (forall m A B, (forall i j, A i j = B i j) -> forall i j, eroot m A i j = eroot m B i j) ->
  (forall p i j, In p ps -> ~ alone ps p -> i < t_dim p -> j < t_dim p ->
     let B := block_sum k0 kadd kmul (t_start p) ps in
     nsum (t_dim p) (fun k => kmul (eroot (t_dim p) B i k) (eroot (t_dim p) B j k)) = B i j) ->
  combine_shared_penalties kadd ps = Some ms ->
  compute_S_root k0 kadd kmul ksqrt eroot ms = Some S_root ->
  forall i j, nsum n (fun k => kmul (S_root i k) (S_root j k)) = total k0 kadd kmul ps i j.
Proof.
  intros Hg Hl Hgap Hpos Hend Hsq Hemb HD Hsup Hext Hroot Hc Hcomp i j.
  destruct (split_order K k0 kadd ps ms Hg Hc) as (HP & HS & Hk & Hn & HK).
  unfold compute_S_root in Hcomp.
  set (qs := split_shared_penalties ms) in *.
  destruct (rgroups true 0 [] qs) as [gs|] eqn:Eg; [|discriminate].
  destruct gs as [|g0 gs0]; [discriminate|]. remember (g0 :: gs0) as gs eqn:Egs.
  destruct (root_groups_spec qs gs HS Eg) as [Hinv Hdinv].
  inversion Hcomp; subst S_root; clear Hcomp.
  assert (Hin : forall p, In p qs <-> In p ps).
  { intros p. split; apply Permutation_in; [assumption|now symmetry]. }
  assert (Hlq : laid_out qs) by (intros p q Hp Hq; apply Hl; now apply Hin).
  assert (Hgq : gapless qs).
  { intros p q Hp Hq Hlt. destruct (Hgap p q) as [r [Hr Er]]; [now apply Hin|now apply Hin|assumption|].
    exists r. split; [now apply Hin|assumption]. }
  assert (Hposq : forall p, In p qs -> 0 < t_dim p * t_rep p) by (intros p Hp; apply Hpos; now apply Hin).
  assert (Hrep : forall x, In x gs -> exists p, In p qs /\ t_start p = g_start (r_group x) /\
            g_dim (r_group x) = t_dim p /\ g_rep (r_group x) = t_rep p).
  { intros x Hx. assert (H : In (g_start (r_group x)) (map (@g_start K) (map (@r_group K) gs))) by (apply in_map; now apply in_map).
    apply (gi_in _ _ _ _ _ _ Hinv) in H. destruct H as [p [Hp Ep]]. exists p.
    destruct (gi_dim _ _ _ _ _ _ Hinv (r_group x) p) as [H1 H2]; [now apply in_map|assumption|assumption|].
    now repeat split. }
  assert (Hval : forall a k, madd kadd (root_blocks k0 kadd eroot (g_start (r_group g0)) gs) (root_singles k0 kadd gs) a k
     = lsum (fun g => contrib g a k) gs).
  { intros a k. apply root_sum.
    - intros g Hgi. destruct (Hrep g Hgi) as (p & Hp & _ & -> & _). specialize (Hposq p Hp). nia.
    - intros gs1 g gs2 E.
      pose proof (groups_tile _ _ _ _ qs (map (@r_group K) gs) Hlq Hgq Hposq Hinv
                    (map (@r_group K) gs1) (r_group g) (map (@r_group K) gs2) (r_group g0) (map (@r_group K) gs0)) as T.
      rewrite map_map in T. apply T; [now rewrite Egs|now rewrite E, map_app]. }
  rewrite (nsum_ext _ _ (fun k => kmul (lsum (fun g => contrib g i k) gs) (lsum (fun g => contrib g j k) gs)))
    by (intros k _; now rewrite !Hval).
  assert (Hins : forall g, In g gs -> inside g).
  { intros g Hgi a k Hkk. destruct (Hrep g Hgi) as (p & Hp & Es & Ed & Er). unfold contrib.
    destruct (Nat.eqb_spec (g_terms (r_group g)) 1) as [E1|_].
    - destruct (Hdinv g Hgi E1) as [q [Eq ->]]. unfold mscale.
      assert (Hq : In q (at_start (g_start (r_group g)) qs)) by (rewrite Eq; now left).
      apply filter_In in Hq. destruct Hq as [Hq Esq]. apply Nat.eqb_eq in Esq.
      assert (Hsh : t_dim q = t_dim p /\ t_rep q = t_rep p) by (apply (Hlq q p Hq Hp); lia).
      rewrite (Hsup q a k); [ring|now apply Hin|]. unfold pen_end. destruct Hsh as [-> ->].
      rewrite Ed, Er in Hkk. lia.
    - apply blockdiag_zero. right. lia. }
  assert (Hap : ForallOrdPairs apart gs).
  { assert (Hsort : incr (map (@g_start K) (map (@r_group K) gs))) by apply (gi_incr _ _ _ _ _ _ Hinv).
    assert (HG : forall l, (forall g, In g l -> In g gs) -> incr (map (@g_start K) (map (@r_group K) l)) -> ForallOrdPairs apart l).
    { induction l as [|g l IHl]; intros Hsub Hs; [constructor|]. simpl in Hs. inversion Hs; subst.
      constructor; [|apply IHl; [intros; apply Hsub; now right|assumption]].
      apply Forall_forall. intros h Hh k H1' H2'.
      rewrite Forall_forall in H2. assert (Hlt : g_start (r_group g) < g_start (r_group h)).
      { apply H2. apply in_map. now apply in_map. }
      destruct (Hrep g) as (p & Hp & Es & Ed & Er); [apply Hsub; now left|].
      destruct (Hrep h) as (q & Hq & Es' & Ed' & Er'); [apply Hsub; now right|].
      destruct (Hlq p q Hp Hq) as [_ HE]. unfold pen_end in HE. rewrite Ed, Er in H1'. rewrite Es, Es' in HE. lia. }
    now apply HG. }
  rewrite product_of_sums by assumption.
  (* the group's share *)
  assert (Hshare : forall g, In g gs -> nsum n (fun k => kmul (contrib g i k) (contrib g j k))
     = lsum (fun p => kmul (t_lam p) (t_Semb p i j)) (at_start (g_start (r_group g)) qs)).
  { intros g Hgi. destruct (Hrep g Hgi) as (p & Hp & Es & Ed & Er).
    assert (Hp' : In p ps) by now apply Hin.
    assert (Htn : g_terms (r_group g) = length (at_start (g_start (r_group g)) qs)).
    { apply (gi_terms _ _ _ _ _ _ Hinv). now apply in_map. }
    unfold contrib. destruct (Nat.eqb_spec (g_terms (r_group g)) 1) as [E1|Hne].
    - destruct (Hdinv g Hgi E1) as [q [Eq ->]]. rewrite Eq. simpl.
      assert (Hq : In q ps).
      { assert (Hq : In q (at_start (g_start (r_group g)) qs)) by (rewrite Eq; now left).
        apply filter_In in Hq. now apply Hin. }
      rewrite <- (Hsq q Hq) at 1. rewrite <- (HD q i j Hq).
      assert (HM : forall a f, nsum n (fun k => kmul a (f k)) = kmul a (nsum n f)).
      { intros a f. unfold PenSpec.nsum. induction (seq 0 n) as [|b l IHl]; simpl; [ring|]. rewrite IHl. ring. }
      rewrite <- HM. unfold mscale.
      rewrite (nsum_ext _ _ (fun k => kmul (kmul (ksqrt (t_lam q)) (ksqrt (t_lam q))) (kmul (t_Demb q i k) (t_Demb q j k))))
        by (intros; ring). ring.
    - assert (Hd : 0 < t_dim p) by (specialize (Hposq p Hp); nia).
      rewrite Ed, Er, <- Es in *. rewrite blockdiag_square; [|assumption|].
      2:{ specialize (Hend p Hp'). unfold pen_end in Hend. lia. }
      assert (Hna : ~ alone ps p).
      { unfold alone. intros H. apply Hne. rewrite Htn. rewrite <- H. apply Permutation_length. now apply at_start_perm. }
      rewrite (blockdiag_cong _ _ _ _ (fun u v => lsum (fun q => kmul (t_S q u v) (t_lam q)) (at_start (t_start p) qs))); [|assumption|].
      2:{ intros u v Hu Hv.
          assert (HB : forall a b, g_S (r_group g) a b = block_sum k0 kadd kmul (t_start p) ps a b).
          { intros a b. rewrite (gi_sum _ _ _ _ _ _ Hinv (r_group g)) by (now apply in_map).
            unfold block_sum. rewrite Es. apply (lsum_perm Kring). now apply at_start_perm. }
          rewrite (nsum_ext _ _ (fun k => kmul (eroot (t_dim p) (block_sum k0 kadd kmul (t_start p) ps) u k)
                                          (eroot (t_dim p) (block_sum k0 kadd kmul (t_start p) ps) v k))).
          2:{ intros k _. now rewrite !(Hext _ _ _ HB). }
          pose proof (Hroot p u v Hp' Hna Hu Hv) as HR. cbv zeta in HR. rewrite HR. unfold block_sum.
          apply (lsum_perm Kring). symmetry. now apply at_start_perm. }
      rewrite (blockdiag_lsum _ _ _ _ (fun q u v => kmul (t_S q u v) (t_lam q))).
      apply lsum_ext_in. intros q Hq. apply filter_In in Hq. destruct Hq as [Hq Eq]. apply Nat.eqb_eq in Eq.
      rewrite Hemb by now apply Hin.
      destruct (Hlq q p Hq Hp) as [Hsh _]. destruct (Hsh Eq) as [-> ->]. rewrite Eq.
      unfold blockdiag. destruct (_ && _); ring. }
  rewrite (lsum_ext_in _ _ _ _ Hshare).
  unfold total. rewrite <- (lsum_perm Kring _ HP).
  assert (Eruns : qs = flat_map (fun s => at_start s qs) (map (@g_start K) (map (@r_group K) gs))).
  { apply sorted_runs.
    - apply (gi_incr _ _ _ _ _ _ Hinv).
    - apply Sorted_StronglySorted; [apply start_le_trans|assumption].
    - intros p Hp. apply (gi_in _ _ _ _ _ _ Hinv). now exists p. }
  transitivity (PenSpec.lsum k0 kadd (fun p => kmul (t_lam p) (t_Semb p i j))
     (flat_map (fun s => at_start s qs) (map (@g_start K) (map (@r_group K) gs)))).
  - rewrite lsum_flat, !lsum_map. reflexivity.
  - now rewrite <- Eruns.
Qed.
End Root.
