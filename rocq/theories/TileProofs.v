(** Positions of penalties: proofs. *)

From Coq Require Import List Bool Arith Lia.
From Verif Require Import FormModel FormSpec FormProofs4 TileModel TileSpec.
Import ListNotations.

Lemma total_app a b : total (a ++ b) = total a + total b.
Proof. induction a as [|x a IH]; simpl; lia. Qed.
Lemma total_repeat w n : total (repeat w n) = w * n.
Proof. induction n as [|n IH]; simpl; lia. Qed.
Lemma map_const (A : Type) (w : A) l : map (fun _ : nat => w) l = repeat w (length l).
Proof. induction l as [|x l IH]; simpl; congruence. Qed.
Lemma sum_nat_total l : sum_nat l = total l.
Proof.
  unfold sum_nat. rewrite <- (Nat.add_0_l (total l)). generalize 0.
  induction l as [|x l IH]; intros a; simpl; [lia|]. rewrite IH. lia.
Qed.

Record layer (ti c : nat) (ws : list nat) (ps : list pen) : Prop := {
  l_on : Forall (on_blocks c ws) ps;
  l_term : Forall (fun p => p_term p = ti) ps;
  l_all : forall j, c <= j < c + total ws -> covered ti ps j;
  l_ne : ps <> [] }.

Lemma layer_app ti c ws ps qs : layer ti c ws ps -> layer ti c ws qs -> layer ti c ws (ps ++ qs).
Proof.
  intros [A1 A2 A3 A4] [B1 B2 B3 B4]. constructor.
  - apply Forall_app; auto.
  - apply Forall_app; auto.
  - intros j Hj. destruct (A3 j Hj) as (p & Hp & H). exists p. split; [apply in_or_app; auto|exact H].
  - destruct ps; simpl; congruence.
Qed.

Lemma layer_one ti c ws w r : w * r = total ws -> r = 1 \/ ws = repeat w r -> layer ti c ws [Pen ti c w r].
Proof.
  intros HT Hr. constructor; [| | |discriminate].
  - constructor; [|constructor]. exists [], ws, []. rewrite app_nil_r. simpl. repeat split; try lia. exact Hr.
  - constructor; [reflexivity|constructor].
  - intros j Hj. exists (Pen ti c w r). simpl. repeat split; try lia. left; reflexivity.
Qed.

Lemma place_end ti : forall ws c, snd (place ti c ws) = c + total ws.
Proof.
  induction ws as [|w ws IH]; intros c; simpl; [lia|].
  specialize (IH (c + w)). destruct (place ti (c + w) ws) as [ps c']. simpl in *. lia.
Qed.
Lemma place_length ti : forall ws c, length (fst (place ti c ws)) = length ws.
Proof.
  induction ws as [|w ws IH]; intros c; simpl; [reflexivity|].
  specialize (IH (c + w)). destruct (place ti (c + w) ws) as [ps c']. simpl in *. lia.
Qed.
Lemma place_dims ti : forall ws c, map p_dim (fst (place ti c ws)) = ws.
Proof.
  induction ws as [|w ws IH]; intros c; simpl; [reflexivity|].
  specialize (IH (c + w)). destruct (place ti (c + w) ws) as [ps c']. simpl in *. congruence.
Qed.
Lemma place_reps ti : forall ws c, Forall (fun p => p_rep p = 1) (fst (place ti c ws)).
Proof.
  induction ws as [|w ws IH]; intros c; simpl; [constructor|].
  specialize (IH (c + w)). destruct (place ti (c + w) ws) as [ps c']. simpl in *. constructor; auto.
Qed.
Lemma place_layer_at ti c0 pre : forall ws c, c = c0 + total pre ->
  Forall (on_blocks c0 (pre ++ ws)) (fst (place ti c ws)) /\
  Forall (fun p => p_term p = ti) (fst (place ti c ws)) /\
  (forall j, c <= j < c + total ws -> covered ti (fst (place ti c ws)) j).
Proof.
  intros ws. revert pre. induction ws as [|w ws IH]; intros pre c Hc; simpl.
  - repeat split; try constructor. intros j Hj. lia.
  - destruct (IH (pre ++ [w]) (c + w)) as (A & B & D).
    { rewrite total_app. simpl. lia. }
    rewrite <- app_assoc in A. simpl in A.
    destruct (place ti (c + w) ws) as [ps c']. simpl in *. repeat split.
    + constructor; [|exact A]. exists pre, [w], ws. cbn [app total fold_right p_start p_dim p_rep]. split; [reflexivity|]. split; [lia|]. split; [lia|]. left; reflexivity.
    + constructor; [reflexivity|exact B].
    + intros j Hj. destruct (Nat.lt_ge_cases j (c + w)) as [H|H].
      * exists (Pen ti c w 1). simpl. repeat split; try lia. left; reflexivity.
      * destruct (D j) as (p & Hp & HP); [lia|]. exists p. split; [right; exact Hp|exact HP].
Qed.
Lemma place_layer ti ws c : ws <> [] -> layer ti c ws (fst (place ti c ws)).
Proof.
  intros Hw. destruct (place_layer_at ti c [] ws c) as (A & B & D); [simpl; lia|].
  constructor; auto. intros E. apply Hw. rewrite <- (place_dims ti ws c), E. reflexivity.
Qed.
Lemma null_levels_place ti : forall ws c, null_levels ti c ws = place ti c ws.
Proof. induction ws as [|w ws IH]; intros c; simpl; [reflexivity|]. rewrite IH. reflexivity. Qed.

(** Null penalties of one size. *)
Lemma null_one_layer ti c ws w r added : 0 < added -> 0 < r ->
  w * r * added = total ws -> (r = 1 \/ added = 1) ->
  (added = 1 /\ r = 1) \/ ws = repeat w (r * added) ->
  layer ti c ws (fst (null_one ti c w r added)) /\ snd (null_one ti c w r added) = c + total ws.
Proof.
  intros Ha Hr HT H1 H2. unfold null_one. destruct (Nat.eqb_spec added 1) as [E|E].
  - subst added. rewrite Nat.mul_1_r in HT. split.
    + apply layer_one; [exact HT|]. destruct H2 as [[_ H]|H]; [left; exact H|right]. rewrite Nat.mul_1_r in H. exact H.
    + simpl. destruct (Nat.ltb_spec 1 r); nia.
  - destruct H1 as [->|H1]; [|contradiction]. destruct H2 as [[H _]|H2]; [contradiction|].
    rewrite Nat.mul_1_l in H2.
    assert (EW : ws = w :: repeat w (added - 1)).
    { rewrite H2. destruct added as [|a]; [lia|]. simpl. rewrite Nat.sub_0_r. reflexivity. }
    pose proof (place_layer ti ws c) as L. pose proof (place_end ti ws c) as E2.
    rewrite EW in L, E2 |- *. simpl in L, E2.
    destruct (place ti (c + w) (repeat w (added - 1))) as [ps c']. simpl in *. split; [apply L; discriminate|exact E2].
Qed.

Lemma null_many_layer ti c ws w r added : forall nulls cur, 0 < added -> 0 < r ->
  w * r * added = total ws -> (r = 1 \/ added = 1) ->
  (added = 1 /\ r = 1) \/ ws = repeat w (r * added) -> cur = c + total ws ->
  (fst (null_many ti c w r added cur nulls) = [] \/ layer ti c ws (fst (null_many ti c w r added cur nulls)))
  /\ snd (null_many ti c w r added cur nulls) = c + total ws.
Proof.
  induction nulls as [|m IH]; intros cur Ha Hr HT H1 H2 Hc; simpl; [auto|].
  destruct (null_one_layer ti c ws w r added Ha Hr HT H1 H2) as [L E].
  destruct (null_one ti c w r added) as [ps c1]. simpl in L, E.
  destruct (IH c1 Ha Hr HT H1 H2 E) as [L2 E2].
  destruct (null_many ti c w r added c1 m) as [qs c2]. simpl in *. split; [|exact E2].
  right. destruct L2 as [->|L2]; [rewrite app_nil_r; exact L|apply layer_app; assumption].
Qed.

Lemma layer_app_nil ti c ws ps qs : layer ti c ws ps -> qs = [] \/ layer ti c ws qs -> layer ti c ws (ps ++ qs).
Proof. intros L [->|M]; [rewrite app_nil_r; exact L|apply layer_app; assumption]. Qed.

Section Terms.
Variable K : Type.
Notation smooth := (smooth K).

Lemma total_minus (f : nat -> nat) w l : (forall k, f k <= w) ->
  total (map (fun k => w - f k) l) = w * length l - total (map f l) /\ total (map f l) <= w * length l.
Proof.
  intros H. induction l as [|k l [IH1 IH2]]; simpl; [lia|]. specialize (H k). nia.
Qed.

(** What one call of f.build_penalty adds. *)
Lemma f_layer (s : smooth) e sp ti c : spec_ok K e (TF s) sp ->
  let ws := blocks K e (TF s) sp in
  let out := f_build_penalty K s e sp ti c in
  layer ti c ws (fst out) /\ snd out = c + total ws /\
  let w := p_dim (last (fst out) (Pen ti 0 0 0)) in
  let r := p_rep (last (fst out) (Pen ti 0 0 0)) in
  (* what the null penalties need *)
  0 < r /\ 0 < length (fst out) /\
  ((r = 1 \/ length (fst out) = 1) /\ w * r * length (fst out) = total ws /\
   ((length (fst out) = 1 /\ r = 1) \/ ws = repeat w (r * length (fst out)))
   \/ (exists l v, f_drop s = Some l /\ f_by s = Some v /\ ps_shared sp = false /\ 1 < length (levels e v) /\
       map p_dim (fst out) = ws)).
Proof.
  intros (Hp & Hv & Hm & Hby & Hd). cbn [blocks].
  change (fun k => f_term_coef s - match f_drop s with Some _ => ps_dropped sp k | None => 0 end)
    with (fun k => f_term_coef s - dropped_at K s sp k).
  change (match f_drop s with Some _ => ps_dropped sp 0 | None => 0 end) with (dropped_at K s sp 0).
  unfold f_build_penalty.
  assert (Hdr : forall k, dropped_at K s sp k <= f_term_coef s).
  { intros k. unfold dropped_at. destruct (f_drop s); [apply (proj1 (proj2 Hd))|lia]. }
  assert (Hno : f_drop s = None -> forall k, dropped_at K s sp k = 0).
  { intros E k. unfold dropped_at. rewrite E. reflexivity. }
  revert Hdr Hno. generalize (dropped_at K s sp). intros dr Hdr Hno. clear Hd.
  destruct (f_by s) as [v|] eqn:Eby.
  2:{ cbn zeta. cbn [fst snd last p_dim p_rep length]. split; [apply layer_one; [simpl; lia|left; reflexivity]|].
      split; [simpl; lia|]. split; [lia|]. split; [lia|]. left. split; [left; reflexivity|].
      split; [simpl; lia|]. left. split; reflexivity. }
  destruct (length (levels e v)) as [|L] eqn:EL; [destruct (levels e v); [congruence|discriminate]|].
  replace (S L - 1) with L by lia.
  destruct (ps_shared sp) eqn:Esh.
  - destruct (f_drop s) as [l|] eqn:Edr.
    + cbn zeta. cbn [fst snd].
      assert (ET : total (map (fun k => f_term_coef s - dr k) (seq 0 (S L)))
                   = f_term_coef s - dr 0 + (f_term_coef s * L - sum_nat (map dr (seq 1 L)))).
      { cbn [seq map total fold_right]. change (fold_right Nat.add 0) with total.
        rewrite (proj1 (total_minus dr (f_term_coef s) (seq 1 L) Hdr)), seq_length, sum_nat_total. reflexivity. }
      set (c2 := c + (f_term_coef s - dr 0) + _).
      assert (EC : c2 - c = total (map (fun k => f_term_coef s - dr k) (seq 0 (S L)))).
      { rewrite ET. unfold c2. lia. }
      cbn [last p_dim p_rep length]. rewrite EC. split; [apply layer_one; [lia|left; reflexivity]|].
      split; [rewrite <- EC; unfold c2; lia|]. split; [lia|]. split; [lia|].
      left. split; [left; reflexivity|]. split; [lia|]. left; split; reflexivity.
    + cbn zeta. cbn [fst snd last p_dim p_rep length].
      assert (EW : map (fun k => f_term_coef s - dr k) (seq 0 (S L)) = repeat (f_term_coef s) (L + 1)).
      { rewrite (map_ext (fun k => f_term_coef s - dr k) (fun _ => f_term_coef s)) by (intros k; rewrite (Hno eq_refl k); lia).
        rewrite map_const, seq_length. f_equal. lia. }
      rewrite EW, total_repeat. split; [apply layer_one; [symmetry; apply total_repeat|right; reflexivity]|].
      split; [rewrite (Hno eq_refl 0); lia|]. split; [lia|]. split; [lia|].
      left. split; [right; reflexivity|]. split; [lia|]. right. f_equal. lia.
  - set (ws := map (fun k => f_term_coef s - dr k) (seq 0 (S L))).
    assert (EP : (let '(ps, c0) := place ti (c + (f_term_coef s - dr 0)) (map (fun k => f_term_coef s - dr k) (seq 1 L)) in
                  (Pen ti c (f_term_coef s - dr 0) 1 :: ps, c0)) = place ti c ws).
    { unfold ws. reflexivity. }
    rewrite EP. cbn zeta.
    assert (NE : ws <> []) by discriminate.
    split; [apply place_layer; exact NE|]. split; [apply place_end|].
    assert (LEN : length (fst (place ti c ws)) = S L) by (rewrite place_length; unfold ws; rewrite map_length, seq_length; reflexivity).
    assert (NP : fst (place ti c ws) <> []) by (intros E; rewrite E in LEN; discriminate).
    destruct (exists_last NP) as (l' & p & EL').
    pose proof (place_reps ti ws c) as HR. pose proof (place_dims ti ws c) as HD.
    rewrite EL', last_last in *. rewrite Forall_app in HR. destruct HR as [_ HR]. inversion HR; subst. clear HR.
    rewrite H1. split; [lia|]. split; [lia|].
    destruct (f_drop s) as [l|] eqn:Edr.
    + destruct L as [|L].
      * left. split; [left; reflexivity|]. rewrite LEN. destruct l' as [|q l']; [|rewrite app_length in LEN; simpl in LEN; lia].
        simpl in HD. split; [|left; split; reflexivity].
        rewrite <- HD. simpl. lia.
      * right. exists l, v. repeat split; try assumption; lia.
    + assert (EW : ws = repeat (f_term_coef s) (S L)).
      { unfold ws. rewrite (map_ext (fun k => f_term_coef s - dr k) (fun _ => f_term_coef s)) by (intros k; rewrite (Hno eq_refl k); lia).
        rewrite map_const, seq_length. reflexivity. }
      assert (EP2 : p_dim p = f_term_coef s).
      { assert (I : In (p_dim p) ws) by (rewrite <- HD, map_app; apply in_or_app; right; left; reflexivity).
        rewrite EW in I. symmetry. apply repeat_spec in I. symmetry. exact I. }
      rewrite EP2, LEN, EW, total_repeat. left. split; [left; reflexivity|]. split; [lia|].
      right. f_equal. lia.
Qed.

Lemma penids_layer (s : smooth) e sp ti c : spec_ok K e (TF s) sp ->
  let ws := blocks K e (TF s) sp in
  forall left done acc,
    (done = 0 /\ acc = [] /\ 0 < left \/ 0 < done /\ layer ti c ws acc) ->
    (1 < length (f_vars s) -> length acc = done * length (fst (f_build_penalty K s e sp ti c)) /\
                              (ps_null sp = true -> 0 < left /\ left + done = length (f_vars s))) ->
    forall cur, (left = 0 -> cur = c + total ws) ->
    layer ti c ws (fst (f_penids K s e sp ti c left (acc, cur))) /\
    snd (f_penids K s e sp ti c left (acc, cur)) = c + total ws.
Proof.
  intros Hok ws. pose proof (f_layer s e sp ti c Hok) as F. cbn zeta in F. fold ws in F.
  destruct F as (FL & FE & F0 & F1 & F2).
  induction left as [|m IH]; intros done acc Hacc Hlen cur Hcur.
  - simpl. destruct Hacc as [H|[_ H]]; [lia|]. split; [exact H|apply Hcur; reflexivity].
  - cbn [f_penids]. destruct (f_build_penalty K s e sp ti c) as [ps c1] eqn:EB. cbn [fst snd] in *.
    assert (LA : layer ti c ws (acc ++ ps)).
    { destruct Hacc as [(_ & -> & _)|[_ H]]; [exact FL|apply layer_app; assumption]. }
    destruct (ps_null sp) eqn:En; cbn [negb].
    2:{ apply (IH (S done)).
        - right. split; [lia|exact LA].
        - intros Hv. destruct (Hlen Hv) as [E _]. split; [rewrite app_length, E; lia|discriminate].
        - intros _. exact FE. }
    destruct (Nat.ltb_spec 1 (length (f_vars s))) as [Hv|Hv].
    + destruct (Hlen Hv) as [E HN]. destruct (HN eq_refl) as [_ HN'].
      destruct (Nat.ltb_spec 0 m) as [Hm|Hm].
      * apply (IH (S done)).
        -- right. split; [lia|exact LA].
        -- intros _. split; [rewrite app_length, E; lia|intros _; lia].
        -- intros _. exact FE.
      * assert (EA : length (acc ++ ps) / length (f_vars s) = length ps).
        { rewrite app_length, E. replace (done * length ps + length ps) with (length ps * length (f_vars s)) by nia.
          apply Nat.div_mul. lia. }
        rewrite EA. set (w := p_dim _) in *. set (r := p_rep _) in *.
        assert (ONE : (r = 1 \/ length ps = 1) /\ w * r * length ps = total ws /\
                      (length ps = 1 /\ r = 1 \/ ws = repeat w (r * length ps)) ->
                layer ti c ws (fst (let '(qs, c0) := null_many ti c w r (length ps) c1 1 in ((acc ++ ps) ++ qs, c0))) /\
                snd (let '(qs, c0) := null_many ti c w r (length ps) c1 1 in ((acc ++ ps) ++ qs, c0)) = c + total ws).
        { intros (A1 & A2 & A3). destruct (null_many_layer ti c ws w r (length ps) 1 c1 F1 F0 A2 A1 A3 FE) as [N1 N2].
          destruct (null_many ti c w r (length ps) c1 1) as [qs c2]. cbn [fst snd] in *.
          split; [apply layer_app_nil; assumption|exact N2]. }
        destruct F2 as [F2|(l & v & E1 & E2 & E3 & E4 & E5)].
        -- destruct (f_drop s) as [l|] eqn:Ed; [|exact (ONE F2)].
           destruct (f_by s) as [v|] eqn:Eb; [|exact (ONE F2)].
           destruct (ps_shared sp || (length (levels e v) <=? 1)) eqn:Es; [exact (ONE F2)|].
           (* independent levels *)
           apply orb_false_iff in Es. destruct Es as [Es El]. apply Nat.leb_gt in El.
           assert (EWS : map p_dim ps = ws).
           { unfold f_build_penalty, dropped_at in EB. rewrite Ed, Eb, Es in EB.
             pose proof (place_dims ti ws c) as PD. unfold ws in PD at 1. cbn [blocks] in PD. rewrite Ed, Eb in PD.
             destruct (length (levels e v)) as [|L] eqn:EL; [lia|]. replace (S L - 1) with L in EB by lia.
             cbn [seq map place] in PD.
             destruct (place ti (c + (f_term_coef s - ps_dropped sp 0)) (map (fun k => f_term_coef s - ps_dropped sp k) (seq 1 L))) as [qs c2].
             injection EB as <- _. cbn [fst] in PD. rewrite PD. unfold ws. cbn [blocks]. rewrite Ed, Eb, EL. reflexivity. }
           rewrite EWS, null_levels_place. pose proof (place_end ti ws c) as PE.
           pose proof (place_layer ti ws c) as PL. destruct (place ti c ws) as [qs c2]. cbn [fst snd] in *.
           split; [|exact PE]. apply layer_app; [exact LA|]. apply PL. intros E0. rewrite E0 in EWS.
           destruct ps; [simpl in F1; lia|discriminate].
        -- rewrite E1, E2, E3. cbn [orb].
           assert (E4' : (length (levels e v) <=? 1) = false) by (apply Nat.leb_gt; exact E4).
           rewrite E4', E5, null_levels_place. pose proof (place_end ti ws c) as PE.
           pose proof (place_layer ti ws c) as PL. destruct (place ti c ws) as [qs c2]. cbn [fst snd] in *.
           split; [|exact PE]. apply layer_app; [exact LA|]. apply PL. intros E0. rewrite E0 in E5.
           destruct ps; [simpl in F1; lia|discriminate].
    + assert (F2' : (p_rep (last ps (Pen ti 0 0 0)) = 1 \/ length ps = 1) /\
          p_dim (last ps (Pen ti 0 0 0)) * p_rep (last ps (Pen ti 0 0 0)) * length ps = total ws /\
          (length ps = 1 /\ p_rep (last ps (Pen ti 0 0 0)) = 1 \/
           ws = repeat (p_dim (last ps (Pen ti 0 0 0))) (p_rep (last ps (Pen ti 0 0 0)) * length ps))).
      { destruct F2 as [F2|(l & v & E1 & _)]; [exact F2|].
        destruct Hok as (_ & _ & _ & _ & Hd). rewrite E1 in Hd. lia. }
      destruct F2' as (A1 & A2 & A3).
      destruct (null_many_layer ti c ws _ _ (length ps) (match ps_reparam sp with Some k => k | None => 1 end) c1 F1 F0 A2 A1 A3 FE)
        as [N1 N2].
      destruct (null_many ti c _ _ (length ps) c1 _) as [qs c2]. cbn [fst snd] in *.
      apply (IH (S done)).
      * right. split; [lia|]. apply layer_app_nil; assumption.
      * lia.
      * intros _. exact N2.
Qed.

Lemma irf_layer (s : irf K) e sp ti c : spec_ok K e (TIrf s) sp ->
  let ws := blocks K e (TIrf s) sp in
  layer ti c ws (fst (irf_build_penalty K s e sp ti c)) /\ snd (irf_build_penalty K s e sp ti c) = c + total ws.
Proof.
  intros (Hp & Hby). cbn [blocks]. unfold irf_build_penalty. destruct (i_by s) as [v|].
  2:{ cbn [fst snd]. split; [apply layer_one; [simpl; lia|left; reflexivity]|simpl; lia]. }
  destruct (length (levels e v)) as [|L] eqn:EL; [destruct (levels e v); [congruence|discriminate]|].
  rewrite map_const, seq_length. replace (S L - 1) with L by lia.
  destruct (ps_shared sp).
  - cbn [fst snd]. rewrite total_repeat. split; [|lia].
    apply layer_one; [symmetry; apply total_repeat|right; reflexivity].
  - change (let '(ps, c0) := place ti (c + i_term_coef s) (repeat (i_term_coef s) L) in
            (Pen ti c (i_term_coef s) 1 :: ps, c0)) with (place ti c (repeat (i_term_coef s) (S L))).
    split; [apply place_layer; discriminate|apply place_end].
Qed.

Lemma irf_penids_layer (s : irf K) e sp ti c : spec_ok K e (TIrf s) sp ->
  let ws := blocks K e (TIrf s) sp in
  forall n acc cur, (acc = [] /\ 0 < n \/ layer ti c ws acc) -> (n = 0 -> cur = c + total ws) ->
  layer ti c ws (fst (irf_penids K s e sp ti c n (acc, cur))) /\
  snd (irf_penids K s e sp ti c n (acc, cur)) = c + total ws.
Proof.
  intros Hok ws. destruct (irf_layer s e sp ti c Hok) as [FL FE]. fold ws in FL, FE.
  induction n as [|n IH]; intros acc cur Hacc Hcur; simpl.
  - destruct Hacc as [H|H]; [lia|]. split; [exact H|apply Hcur; reflexivity].
  - destruct (irf_build_penalty K s e sp ti c) as [ps c1]. simpl in FL, FE. apply IH.
    + right. destruct Hacc as [[-> _]|H]; [exact FL|apply layer_app; assumption].
    + intros _. exact FE.
Qed.

Lemma blocks_count e icpt h t sp : penalised K t = true -> spec_ok K e t sp ->
  total (blocks K e t sp) = fst (fst (term_info e icpt h t)).
Proof.
  destruct t as [|vars|s|s|v|vars b]; intros Hp Hok; try discriminate.
  - destruct Hok as (_ & _ & _ & Hby & Hd). cbn [term_info f_info fst blocks].
    unfold f_all_coef, n_dropped. destruct (f_by s) as [v|].
    + destruct (f_drop s) as [l|].
      * destruct Hd as (_ & Hk & HS). destruct (total_minus (ps_dropped sp) (f_term_coef s) (seq 0 (length (levels e v))) Hk) as [E _].
        rewrite E, seq_length, HS. reflexivity.
      * rewrite (map_ext _ (fun _ => f_term_coef s)) by (intros k; lia).
        rewrite map_const, seq_length, total_repeat. lia.
    + destruct (f_drop s) as [l|]; simpl; [|lia]. destruct Hd as (_ & _ & HS). simpl in HS. lia.
  - cbn [term_info irf_info fst blocks]. unfold i_n_coef. destruct (i_by s); simpl; [|lia].
    rewrite map_const, seq_length, total_repeat. reflexivity.
  - simpl. rewrite map_length, seq_length. lia.
  - cbn [term_info blocks]. unfold rs_info. 
    destruct (linear_info e vars false) as [[n u] names] eqn:E.
    assert (EN : n = length names) by (unfold linear_info in E; injection E as <- _ <-; rewrite map_length; reflexivity).
    cbn [snd]. destruct b as [v|]; cbn [fst].
    + rewrite map_const, seq_length, total_repeat, EN. reflexivity.
    + simpl. lia.
Qed.

Lemma pen_term_ok e icpt h t sp ti st c : penalised K t = true -> spec_ok K e t sp -> st_cur st = c ->
  (kind K t < 3 -> st_prev st = c) ->
  exists ps st', pen_term K e t sp ti st = Some st' /\ st_pens st' = st_pens st ++ ps /\
    st_cur st' = c + fst (fst (term_info e icpt h t)) /\ (kind K t < 3 -> st_prev st' = st_cur st') /\
    layer ti c (blocks K e t sp) ps.
Proof.
  intros Hp Hok Hc Hprev. rewrite <- (blocks_count e icpt h t sp Hp Hok).
  destruct t as [|vars|s|s|v|vars b]; try discriminate; cbn [pen_term kind] in *.
  - cbn in Hp. rewrite Hp. specialize (Hprev ltac:(lia)). rewrite Hprev.
    pose proof (penids_layer s e sp ti c Hok (ps_pens sp) 0 []) as P.
    destruct (P ltac:(left; split; [reflexivity|split; [reflexivity|apply Hok]])) with (cur := st_cur st) as [L E].
    + intros Hv. split; [reflexivity|]. intros _. destruct Hok as (H1 & _ & H2 & _). specialize (H2 Hv). lia.
    + intros H. destruct Hok as (H1 & _). lia.
    + destruct (f_penids K s e sp ti c (ps_pens sp) ([], st_cur st)) as [ps c1]. cbn [fst snd] in *.
      eexists _, _. split; [reflexivity|]. cbn. auto.
  - cbn in Hp. rewrite Hp. specialize (Hprev ltac:(lia)). rewrite Hprev.
    destruct (irf_penids_layer s e sp ti c Hok (ps_pens sp) [] (st_cur st)) as [L E].
    + left. split; [reflexivity|apply Hok].
    + intros H. destruct Hok as (H1 & _). lia.
    + destruct (irf_penids K s e sp ti c (ps_pens sp) ([], st_cur st)) as [ps c1]. cbn [fst snd] in *.
      eexists _, _. split; [reflexivity|]. cbn. auto.
  - eexists _, _. split; [reflexivity|]. cbn. rewrite Hc. split; [reflexivity|]. split; [lia|]. split; [lia|].
    apply layer_one; [simpl; lia|left; reflexivity].
  - unfold random_build_penalty. cbn [blocks].
    assert (EN : fst (fst (linear_info e vars false)) = length (snd (linear_info e vars false)))
      by (unfold linear_info; cbn [fst snd]; rewrite map_length; reflexivity).
    rewrite EN, Hc. destruct b as [v|].
    + rewrite map_const, seq_length.
      pose proof (place_end ti (repeat (length (snd (linear_info e vars false))) (length (levels e v))) c) as E.
      pose proof (place_layer ti (repeat (length (snd (linear_info e vars false))) (length (levels e v))) c) as L.
      destruct (place ti c _) as [ps c1]. cbn [fst snd] in *.
      eexists _, _. split; [reflexivity|]. cbn. split; [reflexivity|]. split; [exact E|]. split; [lia|].
      apply L. simpl in Hok. destruct (levels e v); [congruence|discriminate].
    + eexists _, _. split; [reflexivity|]. cbn. split; [reflexivity|]. split; [lia|]. split; [lia|].
      apply layer_one; [simpl; lia|left; reflexivity].
Qed.

Fixpoint ranges (e : env) (icpt h : bool) (c : nat) (l : list (nat * term K)) : list (nat * (nat * nat)) :=
  match l with
  | [] => []
  | (ti, t) :: r => let n := fst (fst (term_info e icpt h t)) in
                    (ti, (c, n)) :: ranges e icpt (constant_after e h t) (c + n) r
  end.
Fixpoint count (e : env) (icpt h : bool) (l : list (nat * term K)) : nat :=
  match l with
  | [] => 0
  | (ti, t) :: r => fst (fst (term_info e icpt h t)) + count e icpt (constant_after e h t) r
  end.
Fixpoint unpen (e : env) (icpt h : bool) (l : list (nat * term K)) : nat :=
  match l with
  | [] => 0
  | (ti, t) :: r => snd (fst (term_info e icpt h t)) + unpen e icpt (constant_after e h t) r
  end.

Lemma info_ranges e terms : forall l h acc, Forall (fun p => nth_error terms (fst p) = Some (snd p)) l ->
  let out := info_loop e terms (map fst l) h acc in
  in_terms out = in_terms acc ++ ranges e (has_intercept terms) h (in_n acc) l /\
  in_n out = in_n acc + count e (has_intercept terms) h l /\
  in_unpen out = in_unpen acc + unpen e (has_intercept terms) h l.
Proof.
  induction l as [|[ti t] l IH]; intros h acc HF; simpl.
  - rewrite app_nil_r. repeat split; lia.
  - inversion HF as [|? ? H1 H2]; subst. cbn [fst snd] in H1. rewrite H1.
    destruct (term_info e (has_intercept terms) h t) as [[n u] names]. cbn [fst snd].
    destruct (IH (constant_after e h t) (Info (in_n acc + n) (in_unpen acc + u) (in_names acc ++ names)
                                           (in_terms acc ++ [(ti, (in_n acc, n))])) H2) as (A & B & D).
    cbn [in_n in_unpen in_names in_terms] in *. rewrite A, B, D, <- app_assoc. repeat split; lia.
Qed.

Fixpoint sorted (l : list (nat * term K)) : Prop :=
  match l with [] => True | (ti, t) :: r => Forall (fun p => kind K t <= kind K (snd p)) r /\ sorted r end.

(** What is said about the penalties of a list of terms. *)
Definition placed (e : env) (terms : list (term K)) (spec : nat -> pspec) (rs : list (nat * (nat * nat))) (ps : list pen) : Prop :=
  (forall p, In p ps -> exists t start n, nth_error terms (p_term p) = Some t /\ In (p_term p, (start, n)) rs /\
     penalised K t = true /\ total (blocks K e t (spec (p_term p))) = n /\ on_blocks start (blocks K e t (spec (p_term p))) p) /\
  (forall ti t start n j, nth_error terms ti = Some t -> penalised K t = true -> In (ti, (start, n)) rs ->
     start <= j < start + n -> covered ti ps j).

Lemma kind3 (l : list (nat * term K)) : Forall (fun p => 3 <= kind K (snd p)) l -> Forall (fun p => kind K (snd p) = 3) l.
Proof. apply Forall_impl. intros [i t] H. simpl in *. destruct t; simpl in *; lia. Qed.

Lemma phase2 e terms spec icpt : forall l h st c,
  Forall (fun p => nth_error terms (fst p) = Some (snd p)) l ->
  Forall (fun p => penalised K (snd p) = true) l -> Forall (fun p => spec_ok K e (snd p) (spec (fst p))) l ->
  sorted l -> st_cur st = c -> (Forall (fun p => kind K (snd p) = 3) l \/ st_prev st = c) ->
  exists ps st', pen_loop K e terms spec (map fst l) st = Some st' /\ st_pens st' = st_pens st ++ ps /\
    st_cur st' = c + count e icpt h l /\ placed e terms spec (ranges e icpt h c l) ps.
Proof.
  induction l as [|[ti t] l IH]; intros h st c Hn Hp Hs Hk Hc Hprev.
  - exists [], st. simpl. rewrite app_nil_r. repeat split; try lia.
    all: intros; simpl in *; contradiction.
  - inversion Hn as [|? ? N1 N2]; subst. inversion Hp as [|? ? P1 P2]; subst. inversion Hs as [|? ? S1 S2]; subst.
    cbn [fst snd] in *. destruct Hk as [K1 K2].
    destruct (pen_term_ok e icpt h t (spec ti) ti st (st_cur st) P1 S1 eq_refl) as (ps & st1 & E1 & E2 & E3 & E4 & L).
    { intros Hlt. destruct Hprev as [H|H]; [|exact H]. inversion H as [|? ? H1 H2]; subst. simpl in H1. lia. }
    destruct (IH (constant_after e h t) st1 (st_cur st1) N2 P2 S2 K2 eq_refl) as (qs & st2 & F1 & F2 & F3 & F4 & F5).
    { destruct (Nat.lt_ge_cases (kind K t) 3) as [H|H]; [right; apply E4; exact H|left].
      apply kind3. eapply Forall_impl; [|exact K1]. simpl. intros; lia. }
    exists (ps ++ qs), st2. cbn [map fst pen_loop]. rewrite N1, E1.
    split; [exact F1|]. split; [rewrite F2, E2, app_assoc; reflexivity|].
    split; [rewrite F3, E3; simpl; lia|]. rewrite E3 in F4, F5. cbn [ranges].
    pose proof (blocks_count e icpt h t (spec ti) P1 S1) as BC.
    split.
    + intros p Hin. apply in_app_or in Hin. destruct Hin as [Hin|Hin].
      * pose proof (proj1 (Forall_forall _ _) (l_term _ _ _ _ L) p Hin) as Et. simpl in Et. rewrite Et.
        pose proof (proj1 (Forall_forall _ _) (l_on _ _ _ _ L) p Hin) as Eo.
        exists t, (st_cur st), (fst (fst (term_info e icpt h t))).
        repeat split; try assumption. left; reflexivity.
      * destruct (F4 p Hin) as (t' & start & n & A & B & D). exists t', start, n. split; [exact A|]. split; [right; exact B|exact D].
    + intros ti' t' start n j A B D Hj. destruct D as [D|D].
      * injection D as -> <- <-. rewrite A in N1. injection N1 as ->.
        rewrite <- BC in Hj. destruct (l_all _ _ _ _ L j Hj) as (p & Q1 & Q2). exists p. split; [apply in_or_app; left; exact Q1|exact Q2].
      * destruct (F5 ti' t' start n j A B D Hj) as (p & Q1 & Q2). exists p. split; [apply in_or_app; right; exact Q1|exact Q2].
Qed.

Lemma all_penalised e terms spec : forall l st st',
  Forall (fun p => nth_error terms (fst p) = Some (snd p)) l -> Forall (fun p => 1 <= kind K (snd p)) l ->
  st_pens st <> [] -> pen_loop K e terms spec (map fst l) st = Some st' ->
  Forall (fun p => penalised K (snd p) = true) l.
Proof.
  induction l as [|[ti t] l IH]; intros st st' Hn Hk Hne HL; [constructor|].
  inversion Hn as [|? ? N1 N2]; subst. inversion Hk as [|? ? K1 K2]; subst. cbn [fst snd map pen_loop] in *.
  rewrite N1 in HL. destruct (pen_term K e t (spec ti) ti st) as [st1|] eqn:E; [|discriminate].
  assert (NE : st_pens st1 <> []).
  { assert (AP : forall x, st_pens st ++ x <> []) by (intros x; destruct (st_pens st); simpl; congruence).
    destruct t; cbn [pen_term] in E.
    - injection E as <-. exact Hne.
    - injection E as <-. exact Hne.
    - destruct (f_penalized s).
      + destruct (f_penids _ _ _ _ _ _ _ _) in E. injection E as <-. apply AP.
      + destruct (st_pens st) eqn:X; [congruence|discriminate].
    - destruct (i_penalized s).
      + destruct (irf_penids _ _ _ _ _ _ _ _) in E. injection E as <-. apply AP.
      + destruct (st_pens st) eqn:X; [congruence|discriminate].
    - injection E as <-. apply AP.
    - destruct (random_build_penalty _ _ _ _ _) in E. injection E as <-. apply AP. }
  constructor; [|apply (IH st1 st' N2 K2 NE HL)]. simpl.
  destruct t; simpl in *; try reflexivity; try lia.
  - destruct (f_penalized s); [reflexivity|]. destruct (st_pens st); [congruence|discriminate].
  - destruct (i_penalized s); [reflexivity|]. destruct (st_pens st); [congruence|discriminate].
Qed.

Lemma unpen_count e icpt h t : penalised K t = false -> snd (fst (term_info e icpt h t)) = fst (fst (term_info e icpt h t)).
Proof. destruct t; simpl; intros H; try discriminate; try rewrite H; reflexivity. Qed.
Lemma pen_count e icpt h t : penalised K t = true -> snd (fst (term_info e icpt h t)) = 0.
Proof.
  destruct t as [|vars|s|s|v|vars b]; simpl; intros H; try discriminate; try rewrite H; try reflexivity.
  unfold rs_info. destruct (linear_info e vars false) as [[n u] nm]. destruct b; reflexivity.
Qed.

(** How far the position runs ahead: unpenalised impulse responses. *)
Fixpoint ahead (e : env) (l : list (nat * term K)) : nat :=
  match l with
  | [] => 0
  | (ti, t) :: r => (match t with TIrf s => if i_penalized s then 0 else i_n_coef s e | _ => 0 end) + ahead e r
  end.

Fixpoint after (e : env) (h : bool) (l : list (nat * term K)) : bool :=
  match l with [] => h | (ti, t) :: r => after e (constant_after e h t) r end.

Lemma ranges_app e icpt l2 : forall l1 h c, ranges e icpt h c (l1 ++ l2)
  = ranges e icpt h c l1 ++ ranges e icpt (after e h l1) (c + count e icpt h l1) l2.
Proof.
  induction l1 as [|[ti t] l1 IH]; intros h c; simpl; [rewrite Nat.add_0_r; reflexivity|].
  rewrite IH. do 3 f_equal. lia.
Qed.
Lemma count_app e icpt l2 : forall l1 h, count e icpt h (l1 ++ l2) = count e icpt h l1 + count e icpt (after e h l1) l2.
Proof. induction l1 as [|[ti t] l1 IH]; intros h; simpl; [reflexivity|]. rewrite IH. lia. Qed.
Lemma unpen_app e icpt l2 : forall l1 h, unpen e icpt h (l1 ++ l2) = unpen e icpt h l1 + unpen e icpt (after e h l1) l2.
Proof. induction l1 as [|[ti t] l1 IH]; intros h; simpl; [reflexivity|]. rewrite IH. lia. Qed.
Lemma unpen_all e icpt : forall l h, Forall (fun p => penalised K (snd p) = false) l -> unpen e icpt h l = count e icpt h l.
Proof.
  induction l as [|[ti t] l IH]; intros h H; simpl; [reflexivity|]. inversion H; subst.
  rewrite IH by assumption. rewrite unpen_count by assumption. reflexivity.
Qed.
Lemma unpen_none e icpt : forall l h, Forall (fun p => penalised K (snd p) = true) l -> unpen e icpt h l = 0.
Proof.
  induction l as [|[ti t] l IH]; intros h H; simpl; [reflexivity|]. inversion H; subst.
  rewrite IH by assumption. rewrite pen_count by assumption. reflexivity.
Qed.
Lemma ranges_in e icpt : forall l h c ti start n, In (ti, (start, n)) (ranges e icpt h c l) -> exists t, In (ti, t) l.
Proof.
  induction l as [|[i t] l IH]; intros h c ti start n H; simpl in H; [contradiction|].
  destruct H as [H|H]; [injection H as -> _ _; exists t; left; reflexivity|].
  destruct (IH _ _ _ _ _ H) as [t' I]. exists t'. right; exact I.
Qed.

Lemma skip_unpenalised e terms spec : forall l0 rest c, Forall (fun p => nth_error terms (fst p) = Some (snd p)) l0 ->
  Forall (fun p => penalised K (snd p) = false) l0 ->
  pen_loop K e terms spec (map fst l0 ++ rest) (St [] c c c)
  = pen_loop K e terms spec rest (St [] (c + ahead e l0) (c + ahead e l0) (c + ahead e l0)).
Proof.
  induction l0 as [|[ti t] l0 IH]; intros rest c Hn Hp; simpl; [rewrite Nat.add_0_r; reflexivity|].
  inversion Hn as [|? ? N1 N2]; subst. inversion Hp as [|? ? P1 P2]; subst. cbn [fst snd] in *. rewrite N1.
  destruct t; cbn in P1; try discriminate; cbn [pen_term]; try (rewrite IH by assumption; reflexivity).
  - rewrite P1. cbn [st_pens st_start st_cur]. rewrite IH by assumption. reflexivity.
  - rewrite P1. cbn [st_pens st_start st_cur]. rewrite IH by assumption. do 2 f_equal; lia.
Qed.

Lemma phase1 e terms spec : forall l c st', Forall (fun p => nth_error terms (fst p) = Some (snd p)) l -> sorted l ->
  Forall (fun p => spec_ok K e (snd p) (spec (fst p))) l ->
  pen_loop K e terms spec (map fst l) (St [] c c c) = Some st' ->
  exists l0 l1, l = l0 ++ l1 /\ Forall (fun p => penalised K (snd p) = false) l0 /\
    Forall (fun p => penalised K (snd p) = true) l1.
Proof.
  induction l as [|[ti t] l IH]; intros c st' Hn Hk Hs HL.
  - exists [], []. repeat split; constructor.
  - inversion Hn as [|? ? N1 N2]; subst. inversion Hs as [|? ? S1 S2]; subst. destruct Hk as [K1 K2]. cbn [fst snd] in *.
    cbn [map fst pen_loop] in HL. rewrite N1 in HL. destruct (penalised K t) eqn:Ep.
    + exists [], ((ti, t) :: l). split; [reflexivity|]. split; [constructor|]. constructor; [exact Ep|].
      destruct (pen_term_ok e false false t (spec ti) ti (St [] c c c) c Ep S1 eq_refl) as (ps & st1 & E1 & E2 & _ & _ & L).
      { reflexivity. }
      rewrite E1 in HL. eapply all_penalised; [exact N2| | |exact HL].
      * eapply Forall_impl; [|exact K1]. intros p Hp. simpl in Hp. assert (1 <= kind K t) by (destruct t; simpl in *; try discriminate; lia). lia.
      * rewrite E2. simpl. apply (l_ne _ _ _ _ L).
    + assert (EX : exists c', pen_term K e t (spec ti) ti (St [] c c c) = Some (St [] c' c' c')).
      { destruct t; cbn in Ep; try discriminate; cbn [pen_term]; try rewrite Ep; cbn; eexists; reflexivity. }
      destruct EX as [c' EX]. rewrite EX in HL. destruct (IH c' st' N2 K2 S2 HL) as (l0 & l1 & -> & A & B).
      exists ((ti, t) :: l0), l1. split; [reflexivity|]. split; [constructor; assumption|exact B].
Qed.

Lemma sorted_app l1 l2 : sorted (l1 ++ l2) -> sorted l2.
Proof. induction l1 as [|[ti t] l1 IH]; simpl; [auto|]. intros [_ H]. auto. Qed.

Lemma ordered_sorted terms : sorted (ordered K terms).
Proof.
  unfold ordered. generalize (combine (seq 0 (length terms)) terms). intros l. cbn [flat_map]. rewrite app_nil_r.
  assert (ONE : forall k m rest, (forall p, In p rest -> k <= kind K (snd p)) -> sorted rest ->
                sorted (filter (fun p => kind K (snd p) =? k) m ++ rest)).
  { intros k m rest Hr Hs. induction m as [|[i t] m IH]; simpl; [exact Hs|].
    destruct (Nat.eqb_spec (kind K t) k); [|exact IH]. simpl. split; [|exact IH].
    apply Forall_forall. intros p Hp. apply in_app_or in Hp. destruct Hp as [Hp|Hp].
    - apply filter_In in Hp. destruct Hp as [_ Hp]. apply Nat.eqb_eq in Hp. lia.
    - specialize (Hr p Hp). lia. }
  assert (IN : forall k (m : list (nat * term K)) p, In p (filter (fun p => kind K (snd p) =? k) m) -> kind K (snd p) = k).
  { intros k m p Hp. apply filter_In in Hp. apply Nat.eqb_eq, Hp. }
  apply ONE; [intros; lia|]. apply ONE.
  { intros p Hp. rewrite !in_app_iff in Hp. destruct Hp as [Hp|Hp]; apply IN in Hp; lia. }
  apply ONE.
  { intros p Hp. apply IN in Hp; lia. }
  rewrite <- (app_nil_r (filter _ _)). apply ONE; [intros p []|constructor].
Qed.
End Terms.
