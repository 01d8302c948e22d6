(** C188-C190: penalties on the diagonal and the attributes set at the end of a fit. *)
From Coq Require Import List Arith Reals Lra Lia Bool.
From Verif Require Import GfitModel GfitSpec GfitProofs FinModel FinSpec FinProofs.
Import ListNotations.
Local Open Scope R_scope.

(** C188: without [f] the root belongs to the penalty and the rank is that of the penalty. *)
Theorem C188_identity : forall n con, let '(Sp, D, r) := identity_constructor n con None in
  r = (n - if con then 1 else 0)%nat /\ root_of r (entry Sp) (entry D) /\ full_rank r (entry Sp) /\
  forall i j, (i < r)%nat -> (j < r)%nat -> entry Sp i j = if (i =? j)%nat then 1 else 0.
Proof.
  intros n con. unfold identity_constructor. split; [destruct con; lia|]. split; [|split].
  - apply root_diagonal. intros. right. reflexivity.
  - apply full_diagonal. intros i _ E. cbn in E. lra.
  - intros i j Hi _. rewrite entry_diagonal. destruct (Nat.ltb_spec i (if con then (n - 1)%nat else n)); [|lia].
    rewrite andb_true_r. reflexivity.
Qed.
Example C188_identity_case : identity_constructor 3 true None = ([(1%R, 0%nat, 0%nat); (1%R, 1%nat, 1%nat)], [(1%R, 0%nat, 0%nat); (1%R, 1%nat, 1%nat)], 2%nat).
Proof. reflexivity. Qed.

(** With [f] the penalty has the values of [f] on the diagonal. *)
Theorem C188_values : forall n con f i j, let '(Sp, _, r) := identity_constructor n con (Some f) in
  (i < r)%nat -> (j < r)%nat -> entry Sp i j = if (i =? j)%nat then f (i + 1)%nat else 0.
Proof.
  intros n con f i j. unfold identity_constructor. intros Hi _. rewrite entry_diagonal.
  destruct (Nat.ltb_spec i (if con then (n - 1)%nat else n)); [|lia]. rewrite andb_true_r. reflexivity.
Qed.

(** Then the root belongs to the penalty only if [f] takes no values other than 0 and 1, and the rank is that of the
    penalty, the full one, only if it does not take 0. *)
Theorem C188_root : forall n con f, let '(Sp, D, r) := identity_constructor n con (Some f) in
  root_of r (entry Sp) (entry D) <-> forall i, (1 <= i <= r)%nat -> f i = 0 \/ f i = 1.
Proof.
  intros n con f. unfold identity_constructor. rewrite root_diagonal. split; intros H i Hi.
  - specialize (H (i - 1)%nat ltac:(lia)). cbn in H. replace (i - 1 + 1)%nat with i in H by lia. exact H.
  - apply H. lia.
Qed.
Theorem C188_rank : forall n con f, let '(Sp, _, r) := identity_constructor n con (Some f) in
  r = (n - if con then 1 else 0)%nat /\ (full_rank r (entry Sp) <-> forall i, (1 <= i <= r)%nat -> f i <> 0).
Proof.
  intros n con f. unfold identity_constructor. split; [destruct con; lia|]. rewrite full_diagonal. split; intros H i Hi.
  - specialize (H (i - 1)%nat ltac:(lia)). cbn in H. replace (i - 1 + 1)%nat with i in H by lia. exact H.
  - apply H. lia.
Qed.
Example C188_case : let f := fun i => if (i =? 2)%nat then 0 else 1 in
  let '(Sp, D, r) := identity_constructor 3 false (Some f) in
  root_of r (entry Sp) (entry D) /\ entry Sp 1 1 = 0 /\ entry Sp 2 2 = 1 /\ ~ full_rank r (entry Sp).
Proof.
  cbv zeta. set (f := fun i => if (i =? 2)%nat then 0 else 1). pose proof (C188_root 3 false f) as H1. pose proof (C188_rank 3 false f) as H2.
  pose proof (C188_values 3 false f 1 1) as H3. pose proof (C188_values 3 false f 2 2) as H4.
  cbv beta iota zeta delta [identity_constructor] in *. repeat split.
  - apply H1. intros i _. unfold f. destruct (i =? 2)%nat; auto.
  - rewrite H3 by lia. reflexivity.
  - rewrite H4 by lia. reflexivity.
  - destruct H2 as [_ H2]. rewrite H2. intros C. apply (C 2%nat); [lia|reflexivity].
Qed.
(** C188 is false: weights that grow with the distance. *)
Theorem C188_root_refuted : exists f n, (forall i, (1 <= i)%nat -> 0 < f i) /\
  let '(Sp, D, r) := identity_constructor n false (Some f) in ~ root_of r (entry Sp) (entry D).
Proof.
  exists INR, 2%nat. split; [intros i Hi; apply lt_0_INR; lia|].
  pose proof (C188_root 2 false INR) as H. cbv beta iota zeta delta [identity_constructor] in *. rewrite H. intros C.
  destruct (C 2%nat ltac:(lia)) as [E|E]; cbn in E; lra.
Qed.
Theorem C188_rank_refuted : exists f n, (forall i, 0 <= f i) /\
  let '(Sp, _, r) := identity_constructor n false (Some f) in r = n /\ ~ full_rank r (entry Sp).
Proof.
  exists (fun i => if (i =? 1)%nat then 0 else 1), 2%nat. split; [intros i; destruct (i =? 1)%nat; lra|].
  pose proof (C188_rank 2 false (fun i => if (i =? 1)%nat then 0 else 1)) as H. cbv beta iota zeta delta [identity_constructor] in *. split; [reflexivity|].
  destruct H as [_ H]. rewrite H. intros C. apply (C 1%nat); [lia|reflexivity].
Qed.

(** ** C189 *)

(** A fit that builds all matrices stores, for each formula, the predictor from the coefficients of the formula, and the
    parameter computed from it, whatever was fitted before. *)
Theorem C189_built : forall fis cs c ns extra, f_build c = None -> ns <> [] -> length (f_Xs c) = length ns ->
  length (f_coef c) = list_sum (sizes ns extra) -> f_idx c = coef_split_idx ns extra ->
  let s := fits fis (cs ++ [c]) in
  a_coef s = Some (f_coef c) /\
  exists preds mus, a_preds s = Some preds /\ a_mus s = Some mus /\ length preds = length ns /\
    forall i X, nth_error (f_Xs c) i = Some X ->
      exists b eta, length b = nth i ns O /\
        (forall k, (k < length b)%nat -> nth_error b k = nth_error (f_coef c) (before ns i + k)) /\
        nth_error preds i = Some eta /\ predictor X b eta /\
        forall fi, nth_error fis i = Some fi -> nth_error mus i = Some (map fi eta).
Proof.
  intros fis cs c ns extra HB Hns HX HC HI. cbv zeta. unfold fits. rewrite fold_left_app. cbn [fold_left].
  unfold finish. rewrite HB. split; [reflexivity|]. cbn [a_preds a_mus].
  eexists. eexists. split; [reflexivity|]. split; [reflexivity|].
  rewrite HI. destruct (split_pieces _ (f_coef c) ns extra Hns HC) as [PL PP].
  split.
  - rewrite map_length, combine_length, PL, HX. unfold sizes. rewrite app_length. lia.
  - intros i X Hi.
    assert (Li : (i < length ns)%nat) by (rewrite <- HX; apply nth_error_Some; rewrite Hi; discriminate).
    destruct (nth_error (np_split (f_coef c) (coef_split_idx ns extra)) i) as [b|] eqn:Hb.
    2:{ apply nth_error_None in Hb. rewrite PL in Hb. unfold sizes in Hb. rewrite app_length in Hb. lia. }
    destruct (PP i b Hb) as [Q1 Q2]. unfold sizes in Q1. rewrite app_nth1 in Q1 by exact Li.
    pose proof (nth_error_combine _ _ _ _ _ _ _ Hi Hb) as HN.
    exists b, (mv X b). split; [exact Q1|]. split.
    + intros k Hk. rewrite (Q2 k Hk). unfold before, sizes. rewrite firstn_app.
      replace (i - length ns)%nat with O by lia. cbn [firstn]. rewrite app_nil_r. reflexivity.
    + assert (HP : nth_error (map (fun p : list (list R) * list R => mv (fst p) (snd p))
        (combine (f_Xs c) (np_split (f_coef c) (coef_split_idx ns extra)))) i = Some (mv X b))
        by (rewrite nth_error_map, HN; reflexivity).
      split; [exact HP|]. split; [apply mv_predictor|].
      intros fi Hf. rewrite nth_error_map. rewrite (nth_error_combine _ _ _ _ _ _ _ Hf HP). reflexivity.
Qed.
Example C189_built_case : fits [fun x => x; fun x => x + 1]
    [{| f_build := Some [true]; f_Xs := []; f_coef := [0]; f_idx := [] |};
     {| f_build := None; f_Xs := [[[1; 0]; [0; 1]]; [[1]; [1]]]; f_coef := [0; 0; 0]; f_idx := coef_split_idx [2; 1]%nat None |}]
  = {| a_coef := Some [0; 0; 0];
       a_preds := Some [[1 * 0 + (0 * 0 + 0); 0 * 0 + (1 * 0 + 0)]; [1 * 0 + 0; 1 * 0 + 0]];
       a_mus := Some [[1 * 0 + (0 * 0 + 0); 0 * 0 + (1 * 0 + 0)]; [1 * 0 + 0 + 1; 1 * 0 + 0 + 1]] |}.
Proof. reflexivity. Qed.

(** With build_mat, even if it asks for every matrix, predictors and parameters stay those of the last fit without. *)
Theorem C189_kept : forall fis cs c bs, f_build c = Some bs ->
  a_coef (fits fis (cs ++ [c])) = Some (f_coef c) /\
  a_preds (fits fis (cs ++ [c])) = a_preds (fits fis cs) /\ a_mus (fits fis (cs ++ [c])) = a_mus (fits fis cs).
Proof.
  intros fis cs c bs H. unfold fits. rewrite fold_left_app. cbn [fold_left]. unfold finish. rewrite H. repeat split.
Qed.
(** C189 is false: the second fit with build_mat=[True] stores new coefficients and old predictors. *)
Theorem C189_refuted : exists fis c1 c2 X b, f_build c2 = Some [true] /\ f_Xs c2 = [X] /\ f_coef c2 = b /\
  Forall (fun x => length x = length b) X /\
  exists eta, a_coef (fits fis [c1; c2]) = Some b /\ a_preds (fits fis [c1; c2]) = Some [eta] /\ ~ predictor X b eta.
Proof.
  exists [fun x => x], {| f_build := None; f_Xs := [[[1]]]; f_coef := [0]; f_idx := [] |},
    {| f_build := Some [true]; f_Xs := [[[1]]]; f_coef := [1]; f_idx := [] |}, [[1]], [1].
  repeat split; [repeat constructor|]. eexists. split; [reflexivity|]. split; [reflexivity|].
  intros [_ H]. specialize (H O ltac:(cbn; lia) ltac:(repeat constructor)). cbn in H. lra.
Qed.
(** And after a first fit with build_mat there are none. *)
Theorem C189_none_refuted : exists fis c, f_build c = Some [true] /\ a_coef (fits fis [c]) = Some [1] /\ a_preds (fits fis [c]) = None.
Proof. exists [fun x => x], {| f_build := Some [true]; f_Xs := [[[1]]]; f_coef := [1]; f_idx := [] |}. repeat split. Qed.

(** ** C190 *)

(** With the identity link for the first parameter the stored residuals are observation minus mean. *)
Theorem C190_identity : forall fi y X b i, (forall x, fi x = x) -> (i < length y)%nat -> (i < length X)%nat ->
  nth i (wres y X b) 0 = nth i y 0 - nth i (mu0 fi X b) 0.
Proof.
  intros fi y X b i H Hy HX. rewrite wres_nth by assumption. unfold mu0. rewrite (map_ext fi (fun x => x)) by exact H. rewrite map_id. reflexivity.
Qed.
Example C190_identity_case : wres [3] [[1]] [2] = [3 - (1 * 2 + 0)] /\ mu0 (fun x => x) [[1]] [2] = [1 * 2 + 0].
Proof. split; reflexivity. Qed.

(** Residuals are zero where the model is exact for no other link. *)
Theorem C190_only : forall fi,
  (forall y X b i, (i < length y)%nat -> (i < length X)%nat -> nth i y 0 = nth i (mu0 fi X b) 0 -> nth i (wres y X b) 0 = 0)
  <-> forall x, fi x = x.
Proof.
  intros fi. split.
  - intros H x. specialize (H [fi x] [[1]] [x] O ltac:(cbn; lia) ltac:(cbn; lia)). cbn in H.
    replace (1 * x + 0) with x in H by lra. specialize (H eq_refl). lra.
  - intros H y X b i Hy HX E. rewrite (C190_identity fi) by assumption. lra.
Qed.
(** C190 is false for the log link: the mean is met exactly and the residual is 1. *)
Theorem C190_refuted : exists y X b, mu0 exp X b = y /\ wres y X b = [1].
Proof.
  exists [1], [[1]], [0]. cbn. replace (1 * 0 + 0) with 0 by lra. rewrite exp_0. split; [reflexivity|]. f_equal. lra.
Qed.

Print Assumptions C188_identity.
Print Assumptions C188_values.
Print Assumptions C188_root.
Print Assumptions C188_rank.
Print Assumptions C188_root_refuted.
Print Assumptions C188_rank_refuted.
Print Assumptions C189_built.
Print Assumptions C189_kept.
Print Assumptions C189_refuted.
Print Assumptions C189_none_refuted.
Print Assumptions C190_identity.
Print Assumptions C190_only.
Print Assumptions C190_refuted.
