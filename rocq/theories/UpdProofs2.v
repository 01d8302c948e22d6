(** Lemmas for UpdProps: the loop keeps fit and coefficients together. *)

From Coq Require Import List Bool Arith ZArith Reals Lra Lia.
From Verif Require Import Ext StepModel StepSpec StepProofs AsmModel AsmSpec AsmProofs3 AsmProps UpdModel UpdSpec UpdProofs.
Import ListNotations.
Local Open Scope R_scope.

Section Proofs.
Variable fi : nat -> R -> ext.
Variable llk : list R -> list (list ext) -> ext.
Variable y : list R.
Variable draw : nat -> nat -> list R.
Hypothesis draw_length : forall n s, length (draw n s) = n.

(** The model with all columns. *)
Variable Xs : list (list (nat -> R)).
Hypothesis Xs_ne : Xs <> [].
Variable S : nat -> nat -> R.
Notation sizes := (map (@length (nat -> R)) Xs).
Notation n := (fold_right Nat.add 0%nat sizes).
Notation n_par := (length Xs).
Notation full := (Design Xs (cuts 0 sizes) S).
Notation eval := (UpdModel.eval fi llk n_par y).
Notation belongs := (UpdSpec.belongs fi llk y Xs S).

Definition fields_agree (e f : lfit) : Prop :=
  l_mus e = l_mus f /\ l_etas e = l_etas f /\ l_llk e = l_llk f /\ l_pen e = l_pen f.

Lemma sizes_ne : sizes <> [].
Proof. destruct Xs; [congruence|discriminate]. Qed.

Lemma full_idx : cuts 0 sizes = coef_split_idx sizes None.
Proof.
  rewrite split_idx_eq by apply sizes_ne. unfold AsmProofs3.sizes. rewrite app_nil_r. apply cuts_csum. apply sizes_ne.
Qed.

Lemma inval_same i1 i2 mus : (i1 = [] <-> i2 = []) \/ (length mus <= 1)%nat -> inval_rows i1 mus = inval_rows i2 mus.
Proof.
  intros H. unfold inval_rows. destruct mus as [|m ms]; [reflexivity|].
  destruct H as [H|H].
  - destruct i1, i2; try reflexivity; [destruct H as [H _]; specialize (H eq_refl); discriminate|destruct H as [_ H]; specialize (H eq_refl); discriminate].
  - destruct ms; [|cbn in H; lia]. now destruct i1, i2.
Qed.

Lemma csum_length p l : length (csum p l) = length l.
Proof. revert p. induction l as [|x l IH]; intros p; cbn; [reflexivity|]. now rewrite IH. Qed.

Lemma removelast_length {A} (l : list A) : length (removelast l) = (length l - 1)%nat.
Proof.
  induction l as [|x l IH]; [reflexivity|]. destruct l as [|y' l]; [reflexivity|].
  change (removelast (x :: y' :: l)) with (x :: removelast (y' :: l)). cbn [length] in *. rewrite IH. lia.
Qed.

Lemma reduce_eq drop : reduce full (keep_of n drop) =
  Design (reduced drop 0 Xs)
    (match Xs with [X] => [length (survivors drop 0 X)] | _ => csum 0 (removelast (map (@length _) (reduced drop 0 Xs))) end)
    (fun a b => S (nth a (keep_of n drop) 0%nat) (nth b (keep_of n drop) 0%nat)).
Proof. unfold reduce. cbn [d_Xs d_S]. now rewrite (drop_terms_eq (fun _ : nat => 0) n drop Xs Xs_ne) by lia. Qed.

Lemma reduced_eval drop c : let keep := keep_of n drop in length c = length keep ->
  fields_agree (eval (reduce full keep) c) (eval full (pad 0 n keep c)).
Proof.
  intros keep Hc.
  set (f := pad 0 n keep c).
  assert (Lf : length f = n) by apply pad_length.
  assert (Ec : take 0 f keep = c) by (now apply take_pad).
  destruct (handle_drop 0 (fun _ : nat => 0) f (map Some Xs) keep) as [[[coef' idx] rXs]|] eqn:E.
  2:{ unfold handle_drop in E. unfold keep in E. rewrite (drop_terms_eq (fun _ : nat => 0) n drop Xs Xs_ne) in E by lia. discriminate. }
  assert (E' := E). unfold keep in E'. rewrite <- Lf in E'.
  destruct (C62_predictors (fun _ => 0) Xs f drop idx rXs coef' Xs_ne Lf E') as (_ & _ & P).
  clear E'. unfold handle_drop in E.
  destruct (drop_terms_X (fun _ : nat => 0) (map Some Xs) keep) as [[rXs' idx']|] eqn:Ed; [|discriminate].
  injection E as E1 E2 E3. subst rXs' idx'. rewrite Ec in E1. subst coef'.
  assert (Hred : reduce full keep = Design rXs idx (fun a b => S (nth a keep 0%nat) (nth b keep 0%nat))).
  { unfold reduce. cbn [d_Xs d_S]. now rewrite Ed. }
  assert (Hidx : (idx = [] <-> cuts 0 sizes = []) \/ (n_par <= 1)%nat).
  { pose proof Hred as Hr. unfold keep in Hr. rewrite (reduce_eq drop) in Hr. injection Hr as _ <-. clear -Xs_ne.
    destruct Xs as [|X [|X' Xs']] eqn:EX; [congruence|right; cbn; lia|left].
    rewrite cuts_csum by discriminate.
    assert (L1 : length (csum 0 (removelast (map (@length (nat -> R)) (reduced drop 0 (X :: X' :: Xs'))))) = Datatypes.S (length Xs'))
      by (rewrite csum_length, removelast_length, map_length, reduced_length; cbn; lia).
    assert (L2 : length (csum 0 (removelast (map (@length (nat -> R)) (X :: X' :: Xs')))) = Datatypes.S (length Xs'))
      by (rewrite csum_length, removelast_length, map_length; cbn; lia).
    split; intros Q; [rewrite Q in L1|rewrite Q in L2]; discriminate. }
  rewrite <- full_idx in P.
  assert (P2 : forall i, In i (seq 0 n_par) -> Xmul y (reduce full keep) i (nth i (StepModel.np_split c idx) []) =
                Xmul y full i (nth i (StepModel.np_split f (cuts 0 sizes)) [])).
  { intros i I. apply in_seq in I. unfold Xmul, mat_times. rewrite Hred. cbn [d_Xs]. apply map_ext. intros r.
    rewrite !row_times_dot. 
    specialize (P i r ltac:(lia)).
    assert (Fp : pad 0 (length f) (keep_of (length f) drop) c = f) by (rewrite Lf; reflexivity). rewrite Fp in P. exact P. }
  rewrite Hred. unfold UpdModel.eval, gammlss_eval. rewrite <- Hred. cbn [d_idx d_S]. rewrite Hred. cbn [d_idx d_S]. rewrite <- Hred.
  unfold fields_agree. cbn [l_mus l_etas l_llk l_pen].
  rewrite (map_ext_in _ _ _ P2).
  match goal with |- ?A = ?A /\ _ => set (mus := A) end.
  assert (Hi : inval_rows idx mus = inval_rows (cuts 0 sizes) mus).
  { apply inval_same. destruct Hidx as [Hidx|Hidx]; [now left|right]. unfold mus. now rewrite map_length, seq_length. }
  rewrite Hi. split; [reflexivity|]. split; [reflexivity|]. split; [reflexivity|].
  do 3 f_equal. now apply quad_reduced.
Qed.

(** Evaluation in the full model *)
Lemma full_eval_belongs c : length c = n ->
  let e := eval full c in belongs c (l_split e) (l_mus e) (l_etas e) (l_llk e) (l_pen e).
Proof.
  intros Hc e. split; [assumption|].
  destruct (gammlss_eval_fits (Xmul y full) fi llk (quad S) sizes y sizes_ne) with (c := c) as [E F]; [|assumption|].
  - intros i b. unfold Xmul, mat_times. now rewrite map_length, seq_length.
  - unfold e, UpdModel.eval. cbn [d_S d_idx]. rewrite E in F. rewrite map_length in F.
    destruct F as (F1 & F2 & F3 & F4 & F5 & F6). unfold gammlss_fit_of.
    split; [exact F1|]. split; [exact F2|]. split; [exact F3|]. split; [|split; [exact F5|]].
    + intros i Hi. destruct (F4 i Hi) as [G1 G2]. split; [|exact G2]. rewrite G1. unfold Xmul. apply mat_times_predictor.
    + rewrite F6. now rewrite quad_penalty.
Qed.

(** Every state of the loop has the fit of its coefficients. *)
Definition consistent (d : design) (st : lfit) : Prop := st = eval d (l_coef st).

Lemma gammlss_loop_consistent d coef prev : forall rem k st, consistent d st ->
  consistent d (fst (gammlss_loop (Xmul y d) fi llk (quad (d_S d)) n_par (d_idx d) y rem k coef prev st)).
Proof.
  induction rem as [|rem IH]; intros k st H; cbn [gammlss_loop]; [exact H|].
  match goal with |- context [if ?b then _ else _] => destruct b end; [exact H|].
  apply IH. reflexivity.
Qed.

Lemma step_consistent d coef next l a :
  consistent d (fst (correct_coef_step_gammlss (Xmul y d) fi llk (quad (d_S d)) n_par (d_idx d) y coef next l a)).
Proof.
  unfold correct_coef_step_gammlss.
  match goal with |- context [gammlss_loop _ _ _ _ _ _ _ 32 0 coef ?p ?s] =>
    pose proof (gammlss_loop_consistent d coef p 32 0%nat s) as H;
    destruct (gammlss_loop (Xmul y d) fi llk (quad (d_S d)) n_par (d_idx d) y 32 0 coef p s) as [st k] end.
  cbn [fst] in *. apply H. reflexivity.
Qed.

Lemma gammlss_loop_length d coef prev : forall rem k st, length (l_coef st) = length coef ->
  length (l_coef (fst (gammlss_loop (Xmul y d) fi llk (quad (d_S d)) n_par (d_idx d) y rem k coef prev st))) = length coef.
Proof.
  induction rem as [|rem IH]; intros k st H; cbn [gammlss_loop]; [exact H|].
  match goal with |- context [if ?b then _ else _] => destruct b end; [exact H|].
  apply IH. cbn [gammlss_eval l_coef]. destruct (30 <? k)%nat; apply vmid_length; congruence.
Qed.

Lemma step_length d coef next l a : length next = length coef ->
  length (l_coef (fst (correct_coef_step_gammlss (Xmul y d) fi llk (quad (d_S d)) n_par (d_idx d) y coef next l a))) = length coef.
Proof.
  intros Hn. unfold correct_coef_step_gammlss.
  match goal with |- context [gammlss_loop _ _ _ _ _ _ _ 32 0 coef ?p ?s] =>
    pose proof (gammlss_loop_length d coef p 32 0%nat s) as H;
    destruct (gammlss_loop (Xmul y d) fi llk (quad (d_S d)) n_par (d_idx d) y 32 0 coef p s) as [st k] end.
  cbn [fst] in *. apply H. exact Hn.
Qed.

Lemma restart_good d outer : forall rem k st, consistent d st ->
  consistent d (restart_loop fi llk n_par y draw rem k outer d st) /\
  length (l_coef (restart_loop fi llk n_par y draw rem k outer d st)) = length (l_coef st).
Proof.
  induction rem as [|rem IH]; intros k st H; cbn [restart_loop]; [now split|].
  match goal with |- context [if ?b then _ else _] => destruct b end; [now apply IH|].
  split; [reflexivity|]. cbn [UpdModel.eval gammlss_eval l_coef]. unfold res_coef. rewrite map_length, combine_length, draw_length. lia.
Qed.

Section Loop.
Variable close : ext -> ext -> bool.
Variable propose : design -> list R -> list (list ext) -> R -> list R * R.
Hypothesis propose_length : forall d c mus a, length (fst (propose d c mus a)) = length c.
Variable identify : list (list (nat -> R)) -> list (list ext) -> list nat.
Variables (grad_only identifies : bool) (outer min_inner max_inner : nat).

Notation one_step := (UpdModel.one_step fi llk n_par y draw close grad_only outer).
Notation inner_loop := (UpdModel.inner_loop fi llk n_par y draw close propose identify grad_only identifies outer min_inner max_inner).

Lemma one_step_good inner d st a next : length next = length (l_coef st) ->
  consistent d (fst (one_step inner d st a next)) /\ length (l_coef (fst (one_step inner d st a next))) = length (l_coef st).
Proof.
  intros Hn. unfold UpdModel.one_step.
  pose proof (step_consistent d (l_coef st) next (l_llk st) a) as C.
  pose proof (step_length d (l_coef st) next (l_llk st) a Hn) as L.
  destruct (correct_coef_step_gammlss (Xmul y d) fi llk (quad (d_S d)) n_par (d_idx d) y (l_coef st) next (l_llk st) a) as [st1 a1].
  cbn [fst] in C, L. match goal with |- context [if ?b then _ else _] => destruct b end; cbn [fst]; [|now split].
  destruct (restart_good d inner 30 0 st1 C) as [R1 R2]. unfold restart_coef_gammlss. split; [exact R1|]. now rewrite R2.
Qed.

(** The design that goes with what is kept. *)
Definition design_of (kd : option (list nat * list nat)) : design :=
  match kd with None => full | Some (keep, _) => reduce full keep end.
Definition length_of (kd : option (list nat * list nat)) : nat :=
  match kd with None => n | Some (keep, _) => length keep end.
Definition kd_ok (kd : option (list nat * list nat)) : Prop :=
  match kd with None => True | Some (keep, drop) => keep = keep_of n drop end.

Lemma inner_loop_good : forall fuel inner may_drop kd st a H kd' st' H',
  kd_ok kd -> (may_drop = true -> kd = None) -> length (l_coef st) = length_of kd ->
  (H <> None -> consistent (design_of kd) st) ->
  inner_loop fuel inner may_drop (design_of kd) kd st a H = Some (kd', st', Some H') ->
  kd_ok kd' /\ consistent (design_of kd') st' /\ length (l_coef st') = length_of kd'.
Proof.
  induction fuel as [|fuel IH]; intros inner may_drop kd st a H kd' st' H' OK MD L C E; cbn [UpdModel.inner_loop] in E; [discriminate|].
  destruct (max_inner <=? inner)%nat.
  { injection E as <- <- ->. split; [assumption|]. split; [apply C; discriminate|assumption]. }
  pose proof (propose_length (design_of kd) (l_coef st) (l_mus st) a) as PL.
  destruct (propose (design_of kd) (l_coef st) (l_mus st) a) as [next eps]. cbn [fst] in PL.
  destruct (one_step_good inner (design_of kd) st a next PL) as [G1 G2].
  destruct (one_step inner (design_of kd) st a next) as [st1 a1]. cbn [fst] in G1, G2.
  rewrite L in G2.
  destruct (close _ _).
  - destruct (may_drop && identifies) eqn:Em.
    + apply andb_prop in Em as [Em _]. specialize (MD Em). subst kd. cbn [design_of length_of kd_ok] in *.
      set (drop := identify (d_Xs full) (l_mus st)) in *.
      destruct (length drop =? 0)%nat; [injection E as <- <- <-; now split|].
      destruct (negb (drop_valid _ _ _ _ _ _ _)); [injection E as <- <- <-; now split|].
      destruct (length (l_coef st1) <=? Datatypes.S (length drop))%nat; [injection E as <- <- <-; now split|].
      unfold handle_drop_gammlss in E. rewrite G2 in E.
      destruct (stop_early outer min_inner eps (-1)).
      * injection E as <- <- <-. cbn [design_of length_of kd_ok]. split; [reflexivity|]. split; [reflexivity|]. apply take_length.
      * refine (IH _ _ (Some (keep_of n drop, drop)) _ _ _ _ _ _ _ _ _ _ E).
        -- reflexivity.
        -- discriminate.
        -- apply take_length.
        -- intros _. reflexivity.
    + injection E as <- <- <-. now split.
  - destruct (stop_early outer min_inner eps (Z.of_nat inner)); [injection E as <- <- <-; now split|].
    exact (IH _ _ _ _ _ _ _ _ _ OK MD G2 (fun _ => G1) E).
Qed.

Notation update := (UpdModel.update_coef_gammlss fi llk n_par y draw close propose identify grad_only identifies outer min_inner max_inner).

(** The result belongs to the full model. *)
Lemma update_belongs fuel coef mus l kd u : length coef = n -> kd_ok kd ->
  update fuel full coef mus l kd = Done u ->
  belongs (u_coef u) (u_split u) (u_mus u) (u_etas u) (u_llk u) (u_pen u) /\
  (forall keep drop, u_kd u = Some (keep, drop) -> keep = keep_of n drop /\ forall k, In k drop -> nth k (u_coef u) 0 = 0).
Proof.
  intros Hc OK E. unfold UpdModel.update_coef_gammlss in E.
  assert (M : exists kd' st H, kd_ok kd' /\ consistent (design_of kd') st /\ length (l_coef st) = length_of kd' /\
    match kd' with
    | None => Done (Updated (l_coef st) (l_split st) (l_mus st) (l_etas st) (l_llk st) (l_pen st) None H)
    | Some (keep, drop) => let full_coef := pad 0 (length coef) keep (l_coef st) in
        Done (Updated full_coef (StepModel.np_split full_coef (cuts 0 sizes)) (l_mus st) (l_etas st) (l_llk st) (l_pen st) (Some (keep, drop)) H)
    end = Done u).
  { match type of E with match ?o with _ => _ end = _ => destruct o as [[[kd' st] [H|]]|] eqn:Eo; try discriminate end.
    2:{ destruct kd' as [[? ?]|]; discriminate. }
    exists kd', st, H.
    assert (G : kd_ok kd' /\ consistent (design_of kd') st /\ length (l_coef st) = length_of kd').
    { destruct kd as [[keep drop]|].
      - cbn [kd_ok] in OK. unfold handle_drop_gammlss in Eo.
        refine (inner_loop_good _ _ _ (Some (keep, drop)) _ _ _ _ _ _ _ _ _ _ Eo).
        + exact OK.
        + discriminate.
        + apply take_length.
        + intros C; congruence.
      - refine (inner_loop_good _ _ _ None _ _ _ _ _ _ _ _ _ _ Eo).
        + exact I.
        + reflexivity.
        + exact Hc.
        + intros C; congruence. }
    destruct G as (G1 & G2 & G3). split; [assumption|]. split; [assumption|]. split; [assumption|].
    destruct kd' as [[keep drop]|]; [|exact E].
    destruct grad_only; [discriminate|]. destruct (length keep <? length (concat (fst H)))%nat; [discriminate|]. exact E. }
  destruct M as (kd' & st & H & G1 & G2 & G3 & E').
  destruct kd' as [[keep drop]|].
  - cbn [kd_ok design_of length_of] in *. subst keep. rewrite Hc in E'. cbv zeta in E'. injection E' as <-. cbn [u_coef u_split u_mus u_etas u_llk u_pen u_kd].
    destruct (reduced_eval drop (l_coef st) G3) as (A1 & A2 & A3 & A4). unfold consistent in G2. rewrite <- G2 in A1, A2, A3, A4.
    rewrite A1, A2, A3, A4. split.
    + exact (full_eval_belongs (pad 0 n (keep_of n drop) (l_coef st)) (pad_length _ _ _ _)).
    + intros keep drop' Ek. injection Ek as <- <-. split; [reflexivity|]. intros k Ik.
      destruct (le_lt_dec n k) as [Hk|Hk]; [apply nth_overflow; now rewrite pad_length|].
      apply pad_dropped; [assumption|]. intros C. apply keep_in in C. tauto.
  - injection E' as <-. cbn [u_coef u_split u_mus u_etas u_llk u_pen u_kd]. cbn [design_of length_of] in *. split; [|discriminate].
    unfold consistent in G2. rewrite G2. cbn [UpdModel.eval gammlss_eval l_coef]. exact (full_eval_belongs (l_coef st) G3).
Qed.
(** ** Steps are never for the worse *)
Definition starts (d : design) (st : lfit) : Prop :=
  l_mus st = l_mus (eval d (l_coef st)) /\ l_llk st = l_llk (eval d (l_coef st)).

Lemma consistent_starts d st : consistent d st -> starts d st.
Proof. intros H. unfold consistent in H. split; now rewrite <- H. Qed.

Lemma loop_not_worse d coef prev : forall rem k st, (rem + k = 32)%nat -> ((31 < k)%nat -> l_coef st = coef) ->
  let r := fst (gammlss_loop (Xmul y d) fi llk (quad (d_S d)) n_par (d_idx d) y rem k coef prev st) in
  llk_not_worse prev (l_pen r) \/ l_coef r = coef.
Proof.
  induction rem as [|rem IH]; intros k st Hk Hs; cbn [gammlss_loop].
  - right. apply Hs. lia.
  - destruct (eleb prev (l_pen st) && (negb (isinf (l_pen st)) && negb (isnan (l_pen st)))) eqn:E.
    + left. now apply accept_llk.
    + apply IH; [lia|]. intros H. destruct (Nat.ltb_spec 30 k) as [L|L]; [|lia]. cbn. apply vmid_same.
Qed.


Definition pen_at (d : design) (c : list R) : ext := l_pen (eval d c).
Definition better (d : design) (c c' : list R) : Prop := llk_not_worse (pen_at d c) (pen_at d c') \/ c' = c.

Lemma not_worse_trans a b c : llk_not_worse a b -> llk_not_worse b c -> llk_not_worse a c.
Proof.
  intros (v & -> & Ha) (w & -> & Hb). exists w. split; [reflexivity|]. destruct a; try exact Ha. lra.
Qed.

Lemma better_trans' d a b c : better d a b -> better d b c -> better d a c.
Proof. intros [H1| ->] [H2| ->]; [left; now apply not_worse_trans with (pen_at d b)|now left..|now right]. Qed.

Lemma step_better d st next a : grad_only = false -> starts d st -> length next = length (l_coef st) -> forall inner,
  better d (l_coef st) (l_coef (fst (one_step inner d st a next))).
Proof.
  intros NG [_ Hl] Hn inner. destruct (one_step_good inner d st a next Hn) as [C _].
  unfold better. unfold pen_at at 2. unfold consistent in C. rewrite <- C. clear C.
  unfold UpdModel.one_step, correct_coef_step_gammlss.
  pose proof (loop_not_worse d (l_coef st) (eadd (l_llk st) (- (1 / 2 * quad (d_S d) (l_coef st)))) 32 0
     (gammlss_eval (Xmul y d) fi llk (quad (d_S d)) n_par (d_idx d) y next) eq_refl ltac:(lia)) as H. cbv zeta in H.
  match goal with |- context [let (_, _) := let (_, _) := ?g in _ in _] => destruct g as [r k] end. cbn [fst] in H.
  rewrite NG. cbn [andb fst]. rewrite Hl in H. exact H.
Qed.

Lemma kd_stays : forall fuel inner d kd st a H out, inner_loop fuel inner false d kd st a H = Some out -> fst (fst out) = kd.
Proof.
  induction fuel as [|fuel IH]; intros inner d kd st a H out E; cbn [UpdModel.inner_loop] in E; [discriminate|].
  destruct (max_inner <=? inner)%nat; [injection E as <-; reflexivity|].
  destruct (propose d (l_coef st) (l_mus st) a) as [next eps]. destruct (one_step inner d st a next) as [st1 a1].
  destruct (close _ _); [injection E as <-; reflexivity|].
  destruct (stop_early _ _ _ _); [injection E as <-; reflexivity|]. exact (IH _ _ _ _ _ _ _ E).
Qed.

Lemma loop_better c0 : grad_only = false -> forall fuel inner st a H st' H',
  length (l_coef st) = n -> starts full st -> better full c0 (l_coef st) ->
  inner_loop fuel inner true full None st a H = Some (None, st', H') -> better full c0 (l_coef st').
Proof.
  intros NG. induction fuel as [|fuel IH]; intros inner st a H st' H' L ST B E; cbn [UpdModel.inner_loop] in E; [discriminate|].
  destruct (max_inner <=? inner)%nat; [injection E as <- <-; assumption|].
  pose proof (propose_length full (l_coef st) (l_mus st) a) as PL.
  destruct (propose full (l_coef st) (l_mus st) a) as [next eps]. cbn [fst] in PL.
  destruct (one_step_good inner full st a next PL) as [G1 G2]. pose proof (step_better full st next a NG ST PL inner) as G3.
  destruct (one_step inner full st a next) as [st1 a1]. cbn [fst] in G1, G2, G3. rewrite L in G2.
  pose proof (better_trans' _ _ _ _ B G3) as G4.
  destruct (close _ _).
  - destruct (true && identifies) eqn:Em; [|injection E as <- <-; assumption].
    set (drop := identify (d_Xs full) (l_mus st)) in *.
    destruct (length drop =? 0)%nat; [injection E as <- <-; assumption|].
    destruct (negb (drop_valid _ _ _ _ _ _ _)); [injection E as <- <-; assumption|].
    destruct (length (l_coef st1) <=? Datatypes.S (length drop))%nat; [injection E as <- <-; assumption|].
    unfold handle_drop_gammlss in E. destruct (stop_early _ _ _ _); [discriminate|].
    apply kd_stays in E. discriminate.
  - destruct (stop_early _ _ _ _); [injection E as <- <-; assumption|].
    exact (IH _ _ _ _ _ _ G2 (consistent_starts _ _ G1) G4 E).
Qed.

(** ** The Hessian *)
Hypothesis identify_valid : forall Xs mus k, In k (identify Xs mus) -> (k < length (concat Xs))%nat.

Definition linked (kd : option (list nat * list nat)) (st : lfit) (h : list (list (nat -> R)) * list (list ext)) : Prop :=
  exists c, length c = length_of kd /\ snd h = l_mus (eval (design_of kd) c) /\ better (design_of kd) c (l_coef st).

Lemma concat_length {A} (l : list (list A)) : length (concat l) = fold_right Nat.add 0%nat (map (@length A) l).
Proof. induction l as [|x l IH]; cbn; [reflexivity|]. now rewrite app_length, IH. Qed.

Lemma filter_length_le' {A} (f : A -> bool) l : (length (filter f l) <= length l)%nat.
Proof. induction l as [|x l IH]; cbn; [lia|]. destruct (f x); cbn; lia. Qed.

Lemma keep_shorter m drop k : In k drop -> (k < m)%nat -> (length (keep_of m drop) < m)%nat.
Proof.
  intros I Hk. unfold keep_of. set (f := fun c => negb (existsb (Nat.eqb c) drop)).
  assert (F : f k = false). { unfold f. apply negb_false_iff. apply existsb_exists. exists k. split; [assumption|apply Nat.eqb_refl]. }
  assert (IS : In k (seq 0 m)) by (apply in_seq; lia).
  assert (G : forall l, In k l -> (length (filter f l) < length l)%nat).
  { clear -F. induction l as [|x l IH]; intros I; [destruct I|]. cbn. destruct I as [->|I].
    - rewrite F. pose proof (filter_length_le' f l). lia.
    - specialize (IH I). destruct (f x); cbn; lia. }
  specialize (G _ IS). now rewrite seq_length in G.
Qed.

Lemma loop_linked : grad_only = false -> forall fuel inner may_drop kd st a H kd' st' H',
  kd_ok kd -> (may_drop = true -> kd = None) -> length (l_coef st) = length_of kd -> starts (design_of kd) st ->
  ((max_inner <= inner)%nat -> forall h, H = Some h -> linked kd st h) ->
  inner_loop fuel inner may_drop (design_of kd) kd st a H = Some (kd', st', Some H') ->
  (forall keep drop, kd' = Some (keep, drop) -> (length (concat (fst H')) <= length keep)%nat) ->
  linked kd' st' H'.
Proof.
  intros NG. induction fuel as [|fuel IH]; intros inner may_drop kd st a H kd' st' H' OK MD L ST C E NI; cbn [UpdModel.inner_loop] in E; [discriminate|].
  destruct (Nat.leb_spec max_inner inner) as [Hi|Hi].
  { injection E as <- <- ->. now apply C. }
  pose proof (propose_length (design_of kd) (l_coef st) (l_mus st) a) as PL.
  destruct (propose (design_of kd) (l_coef st) (l_mus st) a) as [next eps]. cbn [fst] in PL.
  destruct (one_step_good inner (design_of kd) st a next PL) as [G1 G2]. pose proof (step_better (design_of kd) st next a NG ST PL inner) as G3.
  destruct (one_step inner (design_of kd) st a next) as [st1 a1]. cbn [fst] in G1, G2, G3. rewrite L in G2.
  assert (LK : linked kd st1 (d_Xs (design_of kd), l_mus st)).
  { exists (l_coef st). split; [assumption|]. split; [apply ST|assumption]. }
  destruct (close _ _).
  - destruct (may_drop && identifies) eqn:Em; [|injection E as <- <- <-; assumption].
    apply andb_prop in Em as [Em _]. specialize (MD Em). subst kd. cbn [design_of length_of kd_ok] in *.
    set (drop := identify (d_Xs full) (l_mus st)) in *.
    destruct (length drop =? 0)%nat eqn:E0; [injection E as <- <- <-; assumption|].
    destruct (negb (drop_valid _ _ _ _ _ _ _)); [injection E as <- <- <-; assumption|].
    destruct (length (l_coef st1) <=? Datatypes.S (length drop))%nat; [injection E as <- <- <-; assumption|].
    unfold handle_drop_gammlss in E. rewrite G2 in E.
    destruct (stop_early outer min_inner eps (-1)).
    + injection E as <- <- <-. exfalso. specialize (NI _ _ eq_refl). cbn [fst d_Xs] in NI.
      destruct drop as [|k drop'] eqn:Ed; [discriminate|].
      assert (K : In k drop) by (rewrite Ed; now left). unfold drop in K. apply identify_valid in K. cbn [d_Xs] in K.
      rewrite concat_length in K, NI. pose proof (keep_shorter n (k :: drop') k (or_introl eq_refl) K). lia.
    + refine (IH _ _ (Some (keep_of n drop, drop)) _ _ _ _ _ _ _ _ _ _ _ E NI).
      * reflexivity.
      * discriminate.
      * apply take_length.
      * apply consistent_starts. reflexivity.
      * intros Q. lia.
  - destruct (stop_early _ _ _ _); [injection E as <- <- <-; assumption|].
    refine (IH _ _ _ _ _ _ _ _ _ OK MD G2 (consistent_starts _ _ G1) _ E NI).
    intros _ h Eh. injection Eh as <-. exact LK.
Qed.

(** ** Termination *)
Lemma terminates_fixed : forall fuel inner d kd st a H, (max_inner - inner < fuel)%nat ->
  inner_loop fuel inner false d kd st a H <> None.
Proof.
  induction fuel as [|fuel IH]; intros inner d kd st a H Hf; [lia|]. cbn [UpdModel.inner_loop].
  destruct (Nat.leb_spec max_inner inner); [discriminate|].
  destruct (propose d (l_coef st) (l_mus st) a) as [next eps]. destruct (one_step inner d st a next) as [st1 a1].
  destruct (close _ _); [discriminate|]. destruct (stop_early _ _ _ _); [discriminate|]. apply IH. lia.
Qed.

Lemma terminates : forall fuel inner d st a H, ((max_inner - inner) + max_inner + 1 < fuel)%nat ->
  inner_loop fuel inner true d None st a H <> None.
Proof.
  induction fuel as [|fuel IH]; intros inner d st a H Hf; [lia|]. cbn [UpdModel.inner_loop].
  destruct (Nat.leb_spec max_inner inner); [discriminate|].
  destruct (propose d (l_coef st) (l_mus st) a) as [next eps]. destruct (one_step inner d st a next) as [st1 a1].
  destruct (close _ _).
  - destruct (true && identifies); [|discriminate].
    destruct (length _ =? 0)%nat; [discriminate|]. destruct (negb _); [discriminate|]. destruct (_ <=? _)%nat; [discriminate|].
    destruct (handle_drop_gammlss _ _ _ _ _ _ _) as [d' st'']. destruct (stop_early _ _ _ _); [discriminate|].
    apply terminates_fixed. lia.
  - destruct (stop_early _ _ _ _); [discriminate|]. apply IH. lia.
Qed.

Lemma update_terminates fuel coef mus l kd : (2 * max_inner + 1 < fuel)%nat -> update fuel full coef mus l kd <> OutOfFuel.
Proof.
  intros Hf. unfold UpdModel.update_coef_gammlss.
  match goal with |- match ?o with _ => _ end <> _ => assert (NN : o <> None) end.
  { destruct kd as [[keep drop]|]; [unfold handle_drop_gammlss; apply terminates_fixed; lia|apply terminates; lia]. }
  match goal with |- match ?o with _ => _ end <> _ => destruct o as [[[kd' st] [H|]]|]; [|destruct kd' as [[? ?]|]; discriminate|congruence] end.
  destruct kd' as [[keep drop]|]; [|discriminate]. destruct grad_only; [discriminate|]. destruct (_ <? _)%nat; discriminate.
Qed.

Lemma update_better fuel coef mus l u : grad_only = false -> length coef = n ->
  mus = l_mus (eval full coef) -> l = l_llk (eval full coef) ->
  update fuel full coef mus l None = Done u -> u_kd u = None -> better full coef (u_coef u).
Proof.
  intros NG Hc Hm Hl E K. unfold UpdModel.update_coef_gammlss in E.
  match type of E with match ?o with _ => _ end = _ => destruct o as [[[kd' st] [H|]]|] eqn:Eo; try discriminate end.
  2:{ destruct kd' as [[? ?]|]; discriminate. }
  destruct kd' as [[keep drop]|].
  { rewrite NG in E. destruct (_ <? _)%nat; [discriminate|]. injection E as <-. discriminate. }
  injection E as <-. cbn [u_coef].
  refine (loop_better coef NG _ _ _ _ _ _ _ _ _ _ Eo); [exact Hc| |now right].
  split; cbn [l_mus l_llk l_coef]; assumption.
Qed.

Lemma update_linked fuel coef mus l kd u : grad_only = false -> length coef = n -> kd_ok kd ->
  mus = l_mus (eval full coef) -> l = l_llk (eval full coef) ->
  update fuel full coef mus l kd = Done u ->
  exists c, length c = n /\ snd (u_H u) = l_mus (eval full c) /\ better full c (u_coef u).
Proof.
  intros NG Hc OK Hm Hl E. unfold UpdModel.update_coef_gammlss in E.
  match type of E with match ?o with _ => _ end = _ => destruct o as [[[kd' st] [H|]]|] eqn:Eo; try discriminate end.
  2:{ destruct kd' as [[? ?]|]; discriminate. }
  assert (G : (forall keep drop, kd' = Some (keep, drop) -> (length (concat (fst H)) <= length keep)%nat) ->
    kd_ok kd' /\ length (l_coef st) = length_of kd' /\ linked kd' st H).
  { intros NI. destruct kd as [[keep drop]|].
    - cbn [kd_ok] in OK. unfold handle_drop_gammlss in Eo.
      assert (Q : kd_ok kd' /\ consistent (design_of kd') st /\ length (l_coef st) = length_of kd').
      { refine (inner_loop_good _ _ _ (Some (keep, drop)) _ _ _ _ _ _ _ _ _ _ Eo); [exact OK|discriminate|apply take_length|intros C; congruence]. }
      split; [apply Q|]. split; [apply Q|].
      refine (loop_linked NG _ _ _ (Some (keep, drop)) _ _ _ _ _ _ _ _ _ _ _ Eo NI);
        [exact OK|discriminate|apply take_length|apply consistent_starts; reflexivity|intros _ h C; congruence].
    - assert (Q : kd_ok kd' /\ consistent (design_of kd') st /\ length (l_coef st) = length_of kd').
      { refine (inner_loop_good _ _ _ None _ _ _ _ _ _ _ _ _ _ Eo); [exact I|reflexivity|exact Hc|intros C; congruence]. }
      split; [apply Q|]. split; [apply Q|].
      refine (loop_linked NG _ _ _ None _ _ _ _ _ _ _ _ _ _ _ Eo NI);
        [exact I|reflexivity|exact Hc|split; cbn [l_mus l_llk l_coef]; assumption|intros _ h C; congruence]. }
  destruct kd' as [[keep drop]|].
  - rewrite NG in E. destruct (Nat.ltb_spec (length keep) (length (concat (fst H)))) as [Q|Q]; [discriminate|].
    injection E as <-. cbn [u_H u_coef]. destruct G as (G1 & G2 & c & G3 & G4 & G5).
    { intros k d Ek. injection Ek as <- <-. exact Q. }
    cbn [kd_ok design_of length_of] in *. subst keep. rewrite Hc. exists (pad 0 n (keep_of n drop) c).
    split; [apply pad_length|].
    destruct (reduced_eval drop c G3) as (A1 & _ & _ & A4). destruct (reduced_eval drop (l_coef st) G2) as (_ & _ & _ & B4).
    split; [now rewrite G4|]. unfold better, pen_at in *. rewrite <- A4, <- B4. destruct G5 as [G5|G5]; [now left|right; now rewrite G5].
  - injection E as <-. cbn [u_H u_coef]. destruct G as (G1 & G2 & c & G3 & G4 & G5); [discriminate|].
    exists c. now split.
Qed.
End Loop.
End Proofs.
