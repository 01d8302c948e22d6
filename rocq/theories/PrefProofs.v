From Coq Require Import List Arith ZArith Reals Lia Lra Psatz.
From Verif Require Import PrefModel PrefSpec.
Import ListNotations.
Local Open Scope R_scope.

Lemma trunc_pos r : 0 <= r -> IZR (trunc r) <= r < IZR (trunc r) + 1.
Proof.
  intros H. unfold trunc. destruct (Rle_dec 0 r); [|lra].
  destruct (base_Int_part r) as [A B]. lra.
Qed.

Lemma trunc_IZR z : trunc (IZR z) = z.
Proof.
  unfold trunc. destruct (Rle_dec 0 (IZR z)).
  - destruct (base_Int_part (IZR z)) as [A B].
    apply le_IZR in A. assert (IZR z - 1 < IZR (Int_part (IZR z))) by lra.
    rewrite <- minus_IZR in H. apply lt_IZR in H. lia.
  - rewrite <- opp_IZR. destruct (base_Int_part (IZR (- z))) as [A B].
    apply le_IZR in A. assert (IZR (- z) - 1 < IZR (Int_part (IZR (- z)))) by lra.
    rewrite <- minus_IZR in H. apply lt_IZR in H. lia.
Qed.

Lemma frac r : fractional r -> (1 <= trunc r)%Z /\ 0 < r - IZR (trunc r) < 1.
Proof.
  intros [H1 H2]. destruct (trunc_pos r) as [A B]; [lra|].
  pose proof (H2 (trunc r)). split.
  - assert (IZR 0 < IZR (trunc r)) by lra. apply lt_IZR in H0. lia.
  - assert (r - IZR (trunc r) <> 0) by lra. lra.
Qed.

Lemma sq v : 0 < v < 1 -> sqrt (1 - v * v) * sqrt (1 - v * v) = 1 - v * v.
Proof. intros H. apply sqrt_sqrt. nra. Qed.

Lemma chi_mean k v : (1 <= k)%Z -> mean (chi_mix k v) = IZR k + v.
Proof.
  intros H. unfold chi_mix, v2. destruct (1 <? k)%Z eqn:E; cbn [app mean fold_right fst snd].
  - rewrite plus_IZR, minus_IZR. lra.
  - apply Z.ltb_ge in E. assert (k = 1%Z) by lia. subst. lra.
Qed.

Lemma chi_var k v : (1 <= k)%Z -> 0 < v < 1 -> variance (chi_mix k v) = 2 * (IZR k + v).
Proof.
  intros H Hv. pose proof (sq v Hv) as Q. unfold chi_mix, v2, v1.
  set (s := sqrt (1 - v * v)) in *.
  assert (F : 2 * ((v + 1 + s) / 2 * ((v + 1 + s) / 2)) * 1 + 2 * ((v + 1 - (v + 1 + s) / 2) * (v + 1 - (v + 1 + s) / 2)) * 1
    = 2 * (1 + v)) by nra.
  destruct (1 <? k)%Z eqn:E; cbn [app variance fold_right fst snd].
  - rewrite plus_IZR, minus_IZR. lra.
  - apply Z.ltb_ge in E. assert (k = 1%Z) by lia. subst. lra.
Qed.

Lemma weights v x : 0 < v < 1 ->
  (block v 0 0 - x) * (block v 1 1 - x) - block v 0 1 * block v 1 0 = (x - v1 v) * (x - v2 v).
Proof.
  intros H. unfold block, v2, v1. pose proof (sq v H) as Q.
  rewrite sqrt_sqrt by nra. set (s := sqrt (1 - v * v)) in *. nra.
Qed.

Lemma v1_pos v : 0 < v < 1 -> 0 < v1 v.
Proof. intros H. unfold v1. pose proof (sqrt_pos (1 - v * v)). lra. Qed.
Lemma v2_pos v : 0 < v < 1 -> 0 < v2 v.
Proof.
  intros H. unfold v2, v1. pose proof (sqrt_pos (1 - v * v)) as P. pose proof (sq v H) as Q.
  set (s := sqrt (1 - v * v)) in *.
  destruct (Rlt_dec s (v + 1)) as [L|L]; [lra|].
  assert ((v + 1) * (v + 1) <= s * s) by (apply Rmult_le_compat; lra). nra.
Qed.

Lemma mean_app a b : mean (a ++ b) = mean a + mean b.
Proof. unfold mean. induction a as [|x a IH]; cbn [app fold_right]; [lra|]. rewrite IH. lra. Qed.

(** ** ranges *)
Section Range.
Variable davies : mix -> R -> R * Z.
Variable Pr : mix -> R -> R.
Variable fcdf : R -> R -> R -> R.
Variable chi2cdf : R -> R -> R.
Variable betacdf : R -> R -> R -> R.
Variable gammacdf : R -> R -> R.
Hypothesis Hd : davies_ok davies Pr.
Hypothesis Hf : forall x a b, prob (fcdf x a b).
Hypothesis Hc : forall x a, prob (chi2cdf x a).
Hypothesis Hb : forall x a b, prob (betacdf x a b).
Hypothesis Hg : forall x a, prob (gammacdf x a).

Lemma davies_range l c : snd (davies l c) = 0%Z -> - accuracy <= fst (davies l c) <= 1 + accuracy.
Proof.
  intros E. destruct (Hd l c) as [[A B] [_ D]]. specialize (D E).
  unfold Rabs in D. destruct (Rcase_abs _); lra.
Qed.

Lemma no_fall force c1 c2 : (0 <= c1)%Z -> (0 <= c2)%Z -> ~ (c1 = 2 /\ c2 = 2)%Z ->
  fall_back force c1 c2 = false -> c1 = 0%Z /\ c2 = 0%Z /\ force = false.
Proof.
  intros A B N. unfold fall_back. intros E.
  destruct (0 <? c1)%Z eqn:E1; destruct (0 <? c2)%Z eqn:E2; destruct force; cbn in E;
    try (rewrite Bool.negb_false_iff, Bool.andb_true_iff, !Z.eqb_eq in E; exfalso; apply N; exact E);
    apply Z.ltb_ge in E1; apply Z.ltb_ge in E2; repeat split; lia.
Qed.
End Range.

(** ** picking degrees of freedom *)
Definition to_term (p : pen) : term := (p_start p, p_par p, p_coef p).

Lemma tested_group par edf t g rest prev idx :
  g <> [] -> Forall (fun q => to_term q = t) g -> (prev < fst (fst t))%Z -> (par <? snd (fst t))%nat = false ->
  tested par edf (g ++ rest) prev idx =
    if (snd (fst t) =? par)%nat then
      match nth_error edf idx with
      | Some e => option_map (cons (Rmin e (snd t))) (tested par edf rest (fst (fst t)) (idx + 1))
      | None => None
      end
    else tested par edf rest (fst (fst t)) (idx + 1).
Proof.
  intros Hn Hf Hp Hle. destruct g as [|q g]; [easy|].
  pose proof (Forall_inv Hf : to_term q = t) as Hq. apply Forall_inv_tail in Hf. subst t. unfold to_term in *. cbn [fst snd app] in *.
  cbn [tested]. assert (E : (prev <? p_start q)%Z = true) by (apply Z.ltb_lt; lia). rewrite E, Hle.
  assert (K : forall i, tested par edf (g ++ rest) (p_start q) i = tested par edf rest (p_start q) i).
  { intros i. clear -Hf. induction g as [|u g IH]; [reflexivity|]. cbn [app tested].
    pose proof (Forall_inv Hf : to_term u = to_term q) as Hu. injection Hu as E1 E2 E3. rewrite E1, Z.ltb_irrefl. apply IH. eapply Forall_inv_tail, Hf. }
  rewrite K. reflexivity.
Qed.

Lemma listed_group par edf t g rest prev idx :
  g <> [] -> Forall (fun q => to_term q = t) g -> (prev < fst (fst t))%Z -> (par <? snd (fst t))%nat = false ->
  listed par edf (g ++ rest) prev idx =
    if (snd (fst t) =? par)%nat then
      match nth_error edf idx with
      | Some e => option_map (cons e) (listed par edf rest (fst (fst t)) (idx + 1))
      | None => None
      end
    else listed par edf rest (fst (fst t)) (idx + 1).
Proof.
  intros Hn Hf Hp Hle. destruct g as [|q g]; [easy|].
  pose proof (Forall_inv Hf : to_term q = t) as Hq. apply Forall_inv_tail in Hf. subst t. unfold to_term in *. cbn [fst snd app] in *.
  cbn [listed]. assert (E : (prev <? p_start q)%Z = true) by (apply Z.ltb_lt; lia). rewrite E, Hle.
  assert (K : forall i, listed par edf (g ++ rest) (p_start q) i = listed par edf rest (p_start q) i).
  { intros i. clear -Hf Hle. induction g as [|u g IH]; [reflexivity|]. cbn [app listed].
    pose proof (Forall_inv Hf : to_term u = to_term q) as Hu. injection Hu as E1 E2 E3. rewrite E1, E2, Hle, Z.ltb_irrefl. apply IH. eapply Forall_inv_tail, Hf. }
  rewrite K. reflexivity.
Qed.

Lemma stop par edf t g rest prev idx :
  g <> [] -> Forall (fun q => to_term q = t) g -> (prev < fst (fst t))%Z -> (par <? snd (fst t))%nat = true ->
  tested par edf (g ++ rest) prev idx = Some [] /\ listed par edf (g ++ rest) prev idx = Some [].
Proof.
  intros Hn Hf Hp Hle. destruct g as [|q g]; [easy|].
  pose proof (Forall_inv Hf : to_term q = t) as Hq. subst t. unfold to_term in *. cbn [fst snd app] in *.
  cbn [tested listed]. assert (E : (prev <? p_start q)%Z = true) by (apply Z.ltb_lt; lia). rewrite E, Hle. split; reflexivity.
Qed.

(** positions shifted *)
Definition positions_from (par : nat) (ts : list term) (i0 : nat) : list (nat * R) :=
  flat_map (fun x => if (snd (fst (snd x)) =? par)%nat then [(fst x, snd (snd x))] else []) (combine (seq i0 (length ts)) ts).

Lemma in_order_tail t ts : in_order (t :: ts) -> in_order ts.
Proof. intros H i j a b L A B. apply (H (S i) (S j) a b); [lia|exact A|exact B]. Qed.
Lemma in_order_head t ts u : in_order (t :: ts) -> In u ts -> (fst (fst t) < fst (fst u))%Z /\ (snd (fst t) <= snd (fst u))%nat.
Proof. intros H I. apply In_nth_error in I. destruct I as [n E]. apply (H O (S n) t u); [lia|reflexivity|exact E]. Qed.

Lemma positions_none par ts i0 : (forall u, In u ts -> (par < snd (fst u))%nat) -> positions_from par ts i0 = [].
Proof.
  revert i0. induction ts as [|t ts IH]; intros i0 H; [reflexivity|].
  unfold positions_from in *. cbn [length seq combine flat_map fst snd].
  assert (E : (snd (fst t) =? par)%nat = false) by (apply Nat.eqb_neq; specialize (H t (or_introl eq_refl)); lia).
  rewrite E. cbn [app]. apply IH. intros u I. apply H. now right.
Qed.

Lemma pick par edf ts gs prev i0 :
  in_order ts -> Forall2 (fun t g => g <> [] /\ Forall (fun q => to_term q = t) g) ts gs ->
  (forall u, In u ts -> (prev < fst (fst u))%Z) -> (i0 + length ts <= length edf)%nat ->
  tested par edf (concat gs) prev i0 = Some (map (fun x => Rmin (nth (fst x) edf 0) (snd x)) (positions_from par ts i0)) /\
  listed par edf (concat gs) prev i0 = Some (map (fun x => nth (fst x) edf 0) (positions_from par ts i0)).
Proof.
  intros Ho HF. revert prev i0. induction HF as [|t g ts gs [Hn Hg] HF IH]; intros prev i0 Hp Hl; [split; reflexivity|].
  cbn [concat]. assert (Ht : (prev < fst (fst t))%Z) by (apply Hp; now left).
  destruct (par <? snd (fst t))%nat eqn:Hle.
  - destruct (stop par edf t g (concat gs) prev i0 Hn Hg Ht Hle) as [-> ->].
    rewrite positions_none; [split; reflexivity|].
    apply Nat.ltb_lt in Hle. intros u [<-|I]; [exact Hle|]. pose proof (in_order_head _ _ _ Ho I). lia.
  - rewrite (tested_group par edf t g (concat gs) prev i0 Hn Hg Ht Hle), (listed_group par edf t g (concat gs) prev i0 Hn Hg Ht Hle).
    destruct (IH (in_order_tail _ _ Ho) (fst (fst t)) (i0 + 1)%nat) as [A B].
    { intros u I. apply (in_order_head _ _ _ Ho I). }
    { cbn in Hl. lia. }
    rewrite A, B.
    assert (P : positions_from par (t :: ts) i0 =
      (if (snd (fst t) =? par)%nat then [(i0, snd t)] else []) ++ positions_from par ts (i0 + 1)).
    { unfold positions_from. cbn [length seq combine flat_map fst snd]. rewrite Nat.add_1_r. reflexivity. }
    rewrite P. destruct (snd (fst t) =? par)%nat; [|split; reflexivity].
    destruct (nth_error edf i0) as [e|] eqn:En.
    + rewrite (nth_error_nth _ _ 0 En) || idtac. cbn [option_map app map fst snd].
      rewrite (nth_error_nth _ _ 0 En). split; reflexivity.
    + apply nth_error_None in En. cbn in Hl. lia.
Qed.

Lemma positions_eq par ts pre :
  map (fun i => (i, match nth_error (pre ++ ts) i with Some t => snd t | None => 0 end))
    (filter (fun i => match nth_error (pre ++ ts) i with Some t => Nat.eqb (snd (fst t)) par | None => false end) (seq (length pre) (length ts)))
  = positions_from par ts (length pre).
Proof.
  revert pre. induction ts as [|t ts IH]; intros pre; [reflexivity|].
  unfold positions_from. cbn [length seq combine flat_map filter fst snd].
  assert (E : nth_error (pre ++ t :: ts) (length pre) = Some t).
  { rewrite nth_error_app2 by lia. rewrite Nat.sub_diag. reflexivity. }
  rewrite E. specialize (IH (pre ++ [t])). rewrite <- app_assoc in IH. cbn [app] in IH. rewrite app_length in IH. cbn [length] in IH.
  rewrite Nat.add_1_r in IH. unfold positions_from in IH.
  destruct (snd (fst t) =? par)%nat; cbn [map app]; rewrite ?E, IH; reflexivity.
Qed.
