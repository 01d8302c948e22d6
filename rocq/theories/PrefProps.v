(** C180-C183: reference distributions and p-values of smooth terms. *)
From Coq Require Import List Arith ZArith Reals Lia Lra Psatz FinFun.
From Verif Require Import PrefModel PrefSpec PrefProofs.
Import ListNotations.
Local Open Scope R_scope.

(** ** C180: the reference distribution *)
(** The mixture has the mean and the variance of a chi-square variable with r degrees of freedom. *)
Theorem C180_moments : forall r, fractional r ->
  let l := chi_mix (trunc r) (r - IZR (trunc r)) in mean l = r /\ variance l = 2 * r /\ forall w n, In (w, n) l -> 0 < w /\ (0 < n)%Z.
Proof.
  intros r H. destruct (frac r H) as [K V]. cbn zeta. repeat split.
  - rewrite chi_mean by exact K. lra.
  - rewrite chi_var by assumption. lra.
  - pose proof (v1_pos _ V) as W1. pose proof (v2_pos _ V) as W2. revert H0. unfold chi_mix.
    destruct (1 <? trunc r)%Z eqn:E; cbn [app In];
      intros I; repeat (destruct I as [I|I]); try contradiction; injection I as <- _; lra || assumption.
  - revert H0. unfold chi_mix. destruct (1 <? trunc r)%Z eqn:E; cbn [app In]; [apply Z.ltb_lt in E|];
      intros I; repeat (destruct I as [I|I]); try contradiction; injection I as _ <-; lia.
Qed.
(** The two weights are the eigenvalues of the block that the statistic uses. *)
Theorem C180_weights : forall v x, 0 < v < 1 ->
  (block v 0 0 - x) * (block v 1 1 - x) - block v 0 1 * block v 1 0 = (x - v1 v) * (x - v2 v).
Proof. exact weights. Qed.
(** With an estimated scale the statistic times a chi-square variable over its degrees of freedom is subtracted, so that the
    whole sum has mean r - Tr: when the residual degrees of freedom are a whole number. *)
Theorem C180_scale : forall r Tr n, fractional r -> (0 < n)%Z ->
  mean (f_mix (trunc r) (r - IZR (trunc r)) (IZR n) Tr) = r - Tr /\
  In (- Tr / IZR n, n) (f_mix (trunc r) (r - IZR (trunc r)) (IZR n) Tr).
Proof.
  intros r Tr n H N. destruct (frac r H) as [K V]. unfold f_mix. rewrite mean_app, chi_mean, trunc_IZR by exact K. split.
  - assert (0 < IZR n) by (apply IZR_lt in N; exact N). cbn [mean fold_right fst snd]. field. lra.
  - apply in_or_app. right. now left.
Qed.
(** They hardly ever are; the fraction is cut off in the degrees of freedom, but not in the weight. *)
Theorem C180_scale_refuted : exists r rs_df Tr, fractional r /\ 0 < rs_df /\ 0 < Tr /\
  mean (f_mix (trunc r) (r - IZR (trunc r)) rs_df Tr) <> r - Tr.
Proof.
  exists (5 / 2), (5 / 2), 1.
  assert (F : fractional (5 / 2)).
  { split; [lra|]. intros z E. assert (IZR (2 * z) = IZR 5) by (rewrite mult_IZR; lra). apply eq_IZR in H. lia. }
  repeat split; try lra; [apply F|]. unfold f_mix. destruct (frac _ F) as [K _].
  rewrite mean_app, chi_mean by exact K. cbn [mean fold_right fst snd].
  assert (T : trunc (5 / 2) = 2%Z).
  { destruct (trunc_pos (5 / 2)) as [A B]; [lra|].
    assert (IZR (trunc (5 / 2)) < 3) by lra. assert (1 < IZR (trunc (5 / 2))) by lra. apply lt_IZR in H, H0. lia. }
  rewrite T. lra.
Qed.
Example C180_case : fractional (5 / 2) /\ 0 < 1 / 2 < 1 /\ chi_mix 1 0 = [(v1 0, 1%Z); (v2 0, 1%Z)] /\ v1 0 = 1.
Proof.
  repeat split; try lra.
  - intros z E. assert (IZR (2 * z) = IZR 5) by (rewrite mult_IZR; lra). apply eq_IZR in H. lia.
  - unfold v1. replace (1 - 0 * 0) with 1 by lra. rewrite sqrt_1. lra.
Qed.

(** ** C181: p-values lie between 0 and 1 *)
(** Never outside by more than the accuracy asked of Davies' routine, and not below 0 for a known scale. *)
Theorem C181_range : forall davies Pr fcdf chi2cdf betacdf gammacdf twopar force r rs_df Tr1 Tr2,
  davies_ok davies Pr -> (forall x a b, prob (fcdf x a b)) -> (forall x a, prob (chi2cdf x a)) ->
  (forall x a b, prob (betacdf x a b)) -> (forall x a, prob (gammacdf x a)) ->
  (forall l c, snd (davies l c) <> 2%Z) ->
  let p := p_value davies fcdf chi2cdf betacdf gammacdf twopar force r rs_df Tr1 Tr2 in
  - accuracy <= p <= 1 + accuracy /\ (twopar = false -> 0 <= p).
Proof.
  intros davies Pr fcdf chi2cdf betacdf gammacdf twopar force r rs_df Tr1 Tr2 Hd Hf Hc Hb Hg N. cbn zeta.
  assert (AC : 0 < accuracy) by (unfold accuracy; lra).
  unfold p_value. destruct (0 <? trunc r)%Z; [|split; [lra|intros; lra]].
  destruct twopar.
  - unfold p_scale. cbn zeta. destruct (Req_EM_T _ 0).
    + pose proof (Hf (Tr1 / IZR (trunc r)) (IZR (trunc r)) rs_df) as [A1 A2].
      pose proof (Hf (Tr2 / IZR (trunc r)) (IZR (trunc r)) rs_df) as [B1 B2]. split; [lra|discriminate].
    + set (m1 := f_mix _ _ _ Tr1). set (m2 := f_mix _ _ _ Tr2).
      pose proof (davies_range davies Pr Hd m1 0) as R1. pose proof (davies_range davies Pr Hd m2 0) as R2.
      destruct (Hd m1 0) as [_ [C1 _]]. destruct (Hd m2 0) as [_ [C2 _]]. pose proof (N m1 0) as N1.
      destruct (davies m1 0) as [q1 c1], (davies m2 0) as [q2 c2]. cbn [fst snd] in *.
      destruct (fall_back force c1 c2) eqn:E.
      * match goal with |- context [betacdf ?x ?a ?b] => pose proof (Hb x a b) as [A1 A2] end.
        match goal with |- context [_ + (1 - betacdf ?y ?a ?b)] => pose proof (Hb y a b) as [B1 B2] end.
        split; [lra|discriminate].
      * destruct (no_fall force c1 c2 C1 C2) as [-> [-> _]]; [intros [X _]; congruence|exact E|].
        specialize (R1 eq_refl). specialize (R2 eq_refl). split; [lra|discriminate].
  - unfold p_known. cbn zeta. destruct (Req_EM_T _ 0).
    + pose proof (Hc Tr1 (IZR (trunc r))) as [A1 A2]. pose proof (Hc Tr2 (IZR (trunc r))) as [B1 B2]. split; intros; lra.
    + set (m := chi_mix _ _).
      pose proof (davies_range davies Pr Hd m Tr1) as R1. pose proof (davies_range davies Pr Hd m Tr2) as R2.
      destruct (Hd m Tr1) as [_ [C1 _]]. destruct (Hd m Tr2) as [_ [C2 _]]. pose proof (N m Tr1) as N1.
      destruct (davies m Tr1) as [q1 c1], (davies m Tr2) as [q2 c2]. cbn [fst snd] in *.
      destruct (fall_back force c1 c2) eqn:E.
      * pose proof (Hg Tr1 (r / 2)) as [A1 A2]. pose proof (Hg Tr2 (r / 2)) as [B1 B2]. split; intros; lra.
      * destruct (no_fall force c1 c2 C1 C2) as [-> [-> _]]; [intros [X _]; congruence|exact E|].
        specialize (R1 eq_refl). specialize (R2 eq_refl).
        pose proof (Rmin_r q1 1). pose proof (Rmin_r q2 1).
        assert (- accuracy <= Rmin q1 1) by (apply Rmin_glb; lra). assert (- accuracy <= Rmin q2 1) by (apply Rmin_glb; lra).
        split; intros; lra.
Qed.
(** With an estimated scale a reported p-value can be negative. *)
Theorem C181_negative_refuted : exists davies Pr fcdf chi2cdf betacdf gammacdf r rs_df Tr,
  davies_ok davies Pr /\ (forall x a b, prob (fcdf x a b)) /\ (forall x a, prob (chi2cdf x a)) /\
  (forall x a b, prob (betacdf x a b)) /\ (forall x a, prob (gammacdf x a)) /\ fractional r /\ 0 < rs_df /\ 0 < Tr /\
  p_value davies fcdf chi2cdf betacdf gammacdf true false r rs_df Tr Tr < 0.
Proof.
  exists (fun _ _ => (1 + 1 / 100000, 0%Z)), (fun _ _ => 1), (fun _ _ _ => 0), (fun _ _ => 0), (fun _ _ _ => 0), (fun _ _ => 0), (5 / 2), 10, 100.
  assert (F : fractional (5 / 2)).
  { split; [lra|]. intros z E. assert (IZR (2 * z) = IZR 5) by (rewrite mult_IZR; lra). apply eq_IZR in H. lia. }
  destruct (frac _ F) as [K V].
  repeat split; try (unfold prob; lra); try lra; try apply F; cbn [fst snd].
  - lia.
  - intros _. unfold accuracy, Rabs. destruct (Rcase_abs _); lra.
  - unfold p_value. assert (E : (0 <? trunc (5 / 2))%Z = true) by (apply Z.ltb_lt; lia). rewrite E.
    unfold p_scale. cbn zeta. destruct (Req_EM_T _ 0); [lra|]. cbn [fall_back Z.ltb Z.eqb orb andb]. cbn. lra.
Qed.
(** When Davies' routine fails for one of the two values, both come from the approximation and lie between 0 and 1. *)
Theorem C181_failed : forall davies fcdf chi2cdf betacdf gammacdf (twopar : bool) force r rs_df Tr1 Tr2,
  (forall x a b, prob (betacdf x a b)) -> (forall x a, prob (gammacdf x a)) -> fractional r ->
  (forall l c, (2 < snd (davies l c))%Z) ->
  prob (p_value davies fcdf chi2cdf betacdf gammacdf twopar force r rs_df Tr1 Tr2).
Proof.
  intros davies fcdf chi2cdf betacdf gammacdf twopar force r rs_df Tr1 Tr2 Hb Hg F H.
  destruct (frac _ F) as [K V]. unfold p_value. assert (E : (0 <? trunc r)%Z = true) by (apply Z.ltb_lt; lia). rewrite E.
  assert (FB : forall c1 c2, (2 < c1)%Z -> fall_back force c1 c2 = true).
  { intros c1 c2 L. unfold fall_back. replace (0 <? c1)%Z with true by (symmetry; apply Z.ltb_lt; lia).
    replace (c1 =? 2)%Z with false by (symmetry; apply Z.eqb_neq; lia). reflexivity. }
  destruct twopar.
  - unfold p_scale. cbn zeta. destruct (Req_EM_T _ 0); [lra|].
    set (m1 := f_mix _ _ _ Tr1). set (m2 := f_mix _ _ _ Tr2). pose proof (H m1 0) as N1.
    destruct (davies m1 0) as [q1 c1], (davies m2 0) as [q2 c2]. cbn [fst snd] in *. rewrite FB by exact N1.
    match goal with |- context [betacdf ?x ?a ?b] => pose proof (Hb x a b) as [A1 A2] end.
    match goal with |- context [_ + (1 - betacdf ?y ?a ?b)] => pose proof (Hb y a b) as [B1 B2] end. unfold prob. lra.
  - unfold p_known. cbn zeta. destruct (Req_EM_T _ 0); [lra|].
    set (m := chi_mix _ _). pose proof (H m Tr1) as N1.
    destruct (davies m Tr1) as [q1 c1], (davies m Tr2) as [q2 c2]. cbn [fst snd] in *. rewrite FB by exact N1.
    pose proof (Hg Tr1 (r / 2)) as [A1 A2]. pose proof (Hg Tr2 (r / 2)) as [B1 B2]. unfold prob. lra.
Qed.
(** Where the routine reports no error the p-value is within its accuracy of the mean of the two upper tail probabilities
    of the reference distributions (known scale). *)
Theorem C181_close : forall davies Pr fcdf chi2cdf betacdf gammacdf r rs_df Tr1 Tr2,
  davies_ok davies Pr -> fractional r -> (forall l c, snd (davies l c) = 0%Z) ->
  let l := chi_mix (trunc r) (r - IZR (trunc r)) in
  Rabs (p_value davies fcdf chi2cdf betacdf gammacdf false false r rs_df Tr1 Tr2 - ((1 - Pr l Tr1) + (1 - Pr l Tr2)) / 2) <= accuracy.
Proof.
  intros davies Pr fcdf chi2cdf betacdf gammacdf r rs_df Tr1 Tr2 Hd F H0. cbn zeta.
  destruct (frac _ F) as [K V]. unfold p_value. assert (E : (0 <? trunc r)%Z = true) by (apply Z.ltb_lt; lia). rewrite E.
  unfold p_known. cbn zeta. destruct (Req_EM_T _ 0); [lra|]. set (m := chi_mix _ _).
  destruct (Hd m Tr1) as [[P1 P2] [_ D1]]. destruct (Hd m Tr2) as [[Q1 Q2] [_ D2]].
  specialize (D1 (H0 _ _)). specialize (D2 (H0 _ _)). pose proof (H0 m Tr1) as Z1. pose proof (H0 m Tr2) as Z2.
  destruct (davies m Tr1) as [q1 c1], (davies m Tr2) as [q2 c2]. cbn [fst snd] in *. subst.
  assert (FB : fall_back false 0 0 = false) by reflexivity. rewrite FB.
  apply Rabs_def2 in D1 || idtac.
  assert (G : forall q p, 0 <= p <= 1 -> Rabs (q - p) <= accuracy -> - accuracy <= Rmin q 1 - p <= accuracy).
  { intros q p Hp Hq. unfold Rabs in Hq. unfold Rmin. destruct (Rcase_abs _), (Rle_dec q 1); lra. }
  pose proof (G q1 _ (conj P1 P2) D1). pose proof (G q2 _ (conj Q1 Q2) D2).
  unfold Rabs. destruct (Rcase_abs _); lra.
Qed.
Example C181_case : davies_ok (fun _ _ => (1 / 2, 0%Z)) (fun _ _ => 1 / 2) /\ fractional (5 / 2) /\
  p_value (fun _ _ => (1 / 2, 0%Z)) (fun _ _ _ => 0) (fun _ _ => 0) (fun _ _ _ => 0) (fun _ _ => 0) false false (1 / 2) 1 1 1 = 1.
Proof.
  repeat split; try (unfold prob; lra); cbn [fst snd].
  - lia.
  - intros _. replace (1 / 2 - 1 / 2) with 0 by lra. rewrite Rabs_R0. unfold accuracy. lra.
  - intros z E. assert (IZR (2 * z) = IZR 5) by (rewrite mult_IZR; lra). apply eq_IZR in H. lia.
  - unfold p_value. assert (T : trunc (1 / 2) = 0%Z).
    { destruct (trunc_pos (1 / 2)) as [A B]; [lra|].
      assert (IZR (trunc (1 / 2)) < 1) by lra. assert (-1 < IZR (trunc (1 / 2))) by lra. apply lt_IZR in H, H0. lia. }
    rewrite T. reflexivity.
Qed.

(** ** C182: degrees of freedom of one parameter *)
Theorem C182_pick : forall par edf terms pens,
  in_order terms -> grouped terms (map to_term pens) -> (forall t, In t terms -> (0 <= fst (fst t))%Z) -> length edf = length terms ->
  test_edf par edf pens = Some (map (fun i => Rmin (nth i edf 0) (match nth_error terms i with Some t => snd t | None => 0 end)) (positions par terms)) /\
  list_edf par edf pens = Some (map (fun i => nth i edf 0) (positions par terms)).
Proof.
  intros par edf terms pens Ho [gs [Eg HF]] Hs Hl.
  assert (X : exists hs, pens = concat hs /\ Forall2 (fun t g => g <> [] /\ Forall (fun q => to_term q = t) g) terms hs).
  { clear -Eg HF. revert pens Eg. induction HF as [|t g ts gs [Hn Hg] HF IH]; intros pens Eg.
    - exists []. destruct pens; [|discriminate]. split; [reflexivity|constructor].
    - cbn [concat] in Eg. assert (S : map to_term (firstn (length g) pens) = g /\ map to_term (skipn (length g) pens) = concat gs).
      { rewrite <- firstn_map, <- skipn_map, Eg. rewrite firstn_app, skipn_app, firstn_all, skipn_all, Nat.sub_diag. cbn. rewrite app_nil_r. split; reflexivity. }
      destruct S as [S1 S2]. destruct (IH _ S2) as [hs [E1 E2]]. exists (firstn (length g) pens :: hs). split.
      + cbn [concat]. rewrite <- E1. symmetry. apply firstn_skipn.
      + constructor; [|exact E2]. split; [intros E; rewrite E in S1; cbn in S1; congruence|].
        rewrite <- S1 in Hg. rewrite Forall_map in Hg. exact Hg. }
  destruct X as [hs [Eh HF2]].
  unfold test_edf, list_edf. rewrite Eh.
  destruct (pick par edf terms hs (-1) 0 Ho HF2) as [A B].
  { intros u I. specialize (Hs u I). lia. }
  { cbn. lia. }
  rewrite A, B. pose proof (positions_eq par terms []) as P. cbn [app length] in P. rewrite <- P. unfold positions.
  rewrite !map_map. cbn [fst snd]. split; reflexivity.
Qed.
(** Two formulas, the first with two smooths (the second has two penalties), the second with one. *)
Example C182_case :
  let terms := [(1%Z, 0%nat, 9); (10%Z, 0%nat, 9); (20%Z, 1%nat, 4)] in
  let pens := [Build_pen 1 0 9; Build_pen 10 0 9; Build_pen 10 0 9; Build_pen 20 1 4] in
  grouped terms (map to_term pens) /\ positions 1 terms = [2%nat] /\ positions 0 terms = [0%nat; 1%nat] /\
  list_edf 1 [3; 2; 1] pens = Some [1] /\ list_edf 0 [3; 2; 1] pens = Some [3; 2].
Proof.
  cbn zeta. repeat split; try reflexivity.
  exists [[(1%Z, 0%nat, 9)]; [(10%Z, 0%nat, 9); (10%Z, 0%nat, 9)]; [(20%Z, 1%nat, 4)]]. split; [reflexivity|].
  repeat (constructor; [split; [discriminate|repeat constructor]|]). constructor.
Qed.

(** ** C183: rows used for the tests *)
Theorem C183_rows : forall (gen : Type) (choice : gen -> Z -> Z -> list Z * gen) g n_rows s n_smooths l,
  (forall g n k, (0 <= k <= n)%Z -> a_sample n k (fst (choice g n k))) -> (0 <= s)%Z -> (0 <= n_rows)%Z ->
  rows_all gen choice g n_rows (PyInt s) n_smooths = Some l ->
  length l = n_smooths /\ forall x, In x l -> a_sample n_rows (Z.min s n_rows) x.
Proof.
  intros gen choice g n_rows s n_smooths l Hc Hs Hn. revert g l. induction n_smooths as [|m IH]; intros g l E.
  - injection E as <-. split; [reflexivity|]. intros x [].
  - cbn [rows_all] in E. destruct (rows_used gen choice g n_rows (PyInt s)) as [[r g']|] eqn:R; [|discriminate].
    destruct (rows_all gen choice g' n_rows (PyInt s) m) as [l'|] eqn:A; [|discriminate]. injection E as <-.
    destruct (IH g' l' A) as [L P]. split; [cbn; now rewrite L|]. intros x [<-|I]; [|now apply P].
    unfold rows_used in R. cbn [val] in R. destruct (s <? n_rows)%Z eqn:C.
    + apply Z.ltb_lt in C. injection R as R. assert (r = fst (choice g n_rows s)) by now rewrite R. subst r.
      rewrite Z.min_l by lia. apply Hc. lia.
    + apply Z.ltb_ge in C. injection R as <- _. rewrite Z.min_r by lia. repeat split.
      * apply Injective_map_NoDup; [|apply seq_NoDup]. intros a b. apply Nat2Z.inj.
      * rewrite map_length, seq_length. lia.
      * apply in_map_iff in H. destruct H as [k [<- _]]. lia.
      * apply in_map_iff in H. destruct H as [k [<- K]]. apply in_seq in K. lia.
Qed.
(** An integer n_sel never fails. *)
Theorem C183_answers : forall (gen : Type) (choice : gen -> Z -> Z -> list Z * gen) g n_rows s n_smooths,
  rows_all gen choice g n_rows (PyInt s) n_smooths <> None.
Proof.
  intros gen choice g n_rows s n_smooths. revert g. induction n_smooths as [|m IH]; intros g; [discriminate|].
  cbn [rows_all]. unfold rows_used. cbn [val]. destruct (s <? n_rows)%Z;
    [destruct (choice g n_rows s) as [a b]; specialize (IH b)|specialize (IH g)];
    destruct (rows_all _ _ _ _ _ _); cbn; congruence.
Qed.
(** Models with at most n_sel rows are tested with all of them. *)
Theorem C183_small : forall (gen : Type) (choice : gen -> Z -> Z -> list Z * gen) g n_rows n_sel, (n_rows <= val n_sel)%Z ->
  rows_used gen choice g n_rows n_sel = Some (map Z.of_nat (seq 0 (Z.to_nat n_rows)), g).
Proof. intros gen choice g n_rows n_sel H. unfold rows_used. replace (val n_sel <? n_rows)%Z with false by (symmetry; apply Z.ltb_ge; lia). reflexivity. Qed.
(** With the default no p-value is returned for a model with more than 100000 rows. *)
Theorem C183_default_refuted : exists n_rows, forall (gen : Type) (choice : gen -> Z -> Z -> list Z * gen) g n_smooths,
  (0 < n_smooths)%nat -> rows_all gen choice g n_rows default_n_sel n_smooths = None.
Proof. exists 100001%Z. intros gen choice g [|n] H; [lia|]. reflexivity. Qed.
Example C183_case : rows_all unit (fun g _ k => (map Z.of_nat (seq 0 (Z.to_nat k)), g)) tt 5 (PyInt 3) 2 = Some [[0; 1; 2]; [0; 1; 2]]%Z /\
  rows_all unit (fun g _ k => (map Z.of_nat (seq 0 (Z.to_nat k)), g)) tt 5 default_n_sel 1 = Some [[0; 1; 2; 3; 4]]%Z.
Proof. split; reflexivity. Qed.

Print Assumptions C180_moments.
Print Assumptions C180_weights.
Print Assumptions C180_scale.
Print Assumptions C180_scale_refuted.
Print Assumptions C181_range.
Print Assumptions C181_negative_refuted.
Print Assumptions C181_failed.
Print Assumptions C181_close.
Print Assumptions C182_pick.
Print Assumptions C183_rows.
Print Assumptions C183_answers.
Print Assumptions C183_small.
Print Assumptions C183_default_refuted.
