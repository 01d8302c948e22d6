(** C56 and C58: model comparison and priors of smoothing parameters. *)

From Coq Require Import List Bool Arith NArith Reals Lra Lia.
From Verif Require Import Ext CmpModel CmpSpec CmpProofs.
Import ListNotations.
Local Open Scope R_scope.

Section Comparison.
Variable f_sf : ext -> R -> R -> ext.
Variable chi2_sf : R -> R -> ext.
Notation compare_CDL := (compare_CDL f_sf chi2_sf).

(** *** C56: exchanging the models mirrors the result, if the settings do not depend on which model comes first and, for
    the test, the two models have as many coefficients and rows and likelihood and degrees of freedom order them alike. *)
Theorem C56_mirror o m1 m2 r : same_family m1 m2 -> est_theta m1 = est_theta m2 -> resolve o m1 = resolve o m2 ->
  (perform_GLRT o = true -> n_coef m1 = n_coef m2 /\ n_rows m1 = n_rows m2) ->
  compare_CDL o m1 m2 = Some r ->
  (perform_GLRT o = true -> agree (llk m1) (DOF1 r) (llk m2) (DOF2 r)) ->
  exists r', compare_CDL o m2 m1 = Some r' /\ mirrored r r'.
Proof. apply mirror. Qed.

(** *** C56: what is compared.  The AIC is -2 llk + 2 k, where k are the model's own (uncorrected or corrected) degrees of
    freedom and all other estimated parameters. *)
Theorem C56_aic o m1 m2 r : same_family m1 m2 -> (est_theta m2 = true -> est_theta m1 = true) -> compare_CDL o m1 m2 = Some r ->
  let c := resolve o m1 in
  let k m := if correct_V o then let '(d, _, e) := correct_VB m c in if expected_edf_only c then e else d else edf m in
  aic1 r = -2 * llk m1 + 2 * (k m1 + other_parameters m1) /\
  aic2 r = -2 * llk m2 + 2 * (k m2 + other_parameters m2) /\
  aic_diff r = aic1 r - aic2 r /\ test_stat r = 2 * (llk m1 - llk m2).
Proof.
  intros SF ET H c k. unfold CmpModel.compare_CDL in H. fold c in H.
  destruct (negb (fam m1 =? fam m2)%nat); [discriminate|]. destruct (perform_GLRT o && (n_coef m1 <? n_coef m2)%N); [discriminate|].
  rewrite (parameters_counted m1 m2 _ _ SF ET) in H. unfold plus_dof in H. cbv zeta in H.
  match type of H with (let '(h, p) := ?e in _) = _ => destruct e as [h p] end. injection H as <-. cbn.
  assert (K : forall m, (if form_t1 c then default (option_map (fun x => x + other_parameters m) (snd (dofs o c m))) 0 else fst (dofs o c m) + other_parameters m) = k m + other_parameters m).
  { intros m. unfold dofs, k. destruct (correct_V o).
    - destruct (correct_VB m c) as [[d d2] e]. destruct (form_t1 c), (expected_edf_only c); easy.
    - destruct (form_t1 c); easy. }
  rewrite !K. split; [easy|]. split; [easy|]. split; easy.
Qed.

(** Two Gaussian models without a test, and with one. *)
Definition case_options (glrt : bool) : options := Options false (Some false) glrt 10 (1/20) None None None None None.
Definition case_fit (l d : R) (theta : bool) : fitted := Fitted 0 false false true theta 2 20 100 l d d (fun _ => (d, d, d)).
Example C56_case : same_family (case_fit 3 4 true) (case_fit 1 2 true) /\
  resolve (case_options true) (case_fit 3 4 true) = resolve (case_options true) (case_fit 1 2 true) /\
  exists r, compare_CDL (case_options true) (case_fit 3 4 true) (case_fit 1 2 true) = Some r /\
    agree 3 (DOF1 r) 1 (DOF2 r) /\ test_stat r = 4 /\ aic_diff r = 0 /\ p_value r = chi2_sf 4 2.
Proof.
  split; [easy|]. split; [easy|]. unfold CmpModel.compare_CDL. cbn [case_options case_fit negb fam Nat.eqb perform_GLRT n_coef N.ltb N.compare andb].
  cbn [with_parameters dofs plus_dof twopar extended est_theta case_fit correct_V case_options resolve default o_correct_t1 form_t1 edf n_theta fst snd option_map llk andb].
  replace (rltb 3 1) with false by (symmetry; apply rltb_false; lra). cbn [andb].
  replace (rltb (2 * (3 - 1)) 0) with false by (symmetry; apply rltb_false; lra). cbn.
  eexists. split; [reflexivity|]. cbn. split; [|split; [lra|split; [lra|]]].
  - right. right. lra.
  - replace (2 * (3 - 1)) with 4 by ring. replace (4 + (1 + 1) - (2 + (1 + 1))) with 2 by ring. rewrite Rabs_right by lra. easy.
Qed.

(** *** C56: the theta parameters of the second model are not counted if those of the first were fixed, so exchanging the
    models does not negate the difference of the AICs. *)
Theorem C56_theta_refuted : exists o m1 m2 r r', same_family m1 m2 /\ resolve o m1 = resolve o m2 /\ perform_GLRT o = false /\
  compare_CDL o m1 m2 = Some r /\ compare_CDL o m2 m1 = Some r' /\ aic_diff r' <> - aic_diff r /\
  aic2 r <> -2 * llk m2 + 2 * (edf m2 + other_parameters m2).
Proof.
  exists (case_options false), (case_fit 1 2 false), (case_fit 1 2 true).
  eexists. eexists. split; [easy|]. split; [easy|]. split; [easy|].
  split; [unfold CmpModel.compare_CDL; cbn; reflexivity|]. split; [unfold CmpModel.compare_CDL; cbn; reflexivity|].
  cbn. unfold other_parameters. cbn. lra.
Qed.

(** *** C56: with equally many coefficients and a higher likelihood for the model with fewer degrees of freedom, the
    p-value depends on the order. *)
Theorem C56_order_refuted : (forall x d, chi2_sf x d <> NaN) ->
  exists o m1 m2 r r', same_family m1 m2 /\ est_theta m1 = est_theta m2 /\ resolve o m1 = resolve o m2 /\ n_coef m1 = n_coef m2 /\
  n_rows m1 = n_rows m2 /\ compare_CDL o m1 m2 = Some r /\ compare_CDL o m2 m1 = Some r' /\ p_value r <> p_value r' /\ H1 r <> H1 r'.
Proof.
  intros N. exists (case_options true), (case_fit 3 2 true), (case_fit 1 4 true).
  eexists. eexists. split; [easy|]. split; [easy|]. split; [easy|]. split; [easy|]. split; [easy|].
  split.
  { unfold CmpModel.compare_CDL. cbn [with_parameters dofs plus_dof twopar extended est_theta case_fit correct_V case_options resolve default o_correct_t1 form_t1 edf n_theta fst snd option_map llk andb].
    replace (rltb 3 1) with false by (symmetry; apply rltb_false; lra). cbn [andb].
    replace (rltb (2 * (3 - 1)) 0) with false by (symmetry; apply rltb_false; lra). cbn. reflexivity. }
  split.
  { unfold CmpModel.compare_CDL. cbn [with_parameters dofs plus_dof twopar extended est_theta case_fit correct_V case_options resolve default o_correct_t1 form_t1 edf n_theta fst snd option_map llk andb].
    replace (rltb (4 + INR 2) (2 + INR 2)) with false by (symmetry; apply rltb_false; lra). rewrite !andb_false_r.
    replace (rltb (2 * (1 - 3)) 0) with true by (symmetry; apply rltb_true; lra). cbn. reflexivity. }
  cbn. split; [apply N|discriminate].
Qed.

(** *** C56: the settings of the correction are resolved from the first model only. *)
Theorem C56_settings_refuted : exists o m1 m2 r r', same_family m1 m2 /\ est_theta m1 = est_theta m2 /\ perform_GLRT o = false /\
  compare_CDL o m1 m2 = Some r /\ compare_CDL o m2 m1 = Some r' /\ aic_diff r' <> - aic_diff r.
Proof.
  exists (Options true None false 10 (1/20) None None None None None),
         (Fitted 0 false false false false 0 10 100 1 2 2 (fun c => (if (grid_type c =? 3)%nat then 5 else 4, 5, 5))),
         (Fitted 0 false false false false 0 3000 100 1 2 2 (fun c => (6, 6, 6))).
  eexists. eexists. split; [easy|]. split; [easy|]. split; [easy|].
  split; [unfold CmpModel.compare_CDL; cbn; reflexivity|]. split; [unfold CmpModel.compare_CDL; cbn; reflexivity|].
  cbn. lra.
Qed.
End Comparison.

(** *** C58: values within the limits are kept and have the uniform log density; after make_valid every value has positive
    density, for all inputs, exactly if the limits lie on different sides of zero. *)
Theorem C58_uniform a b n : a < b -> (0 < n)%nat ->
  (forall row, length row = n -> log_density_of (repeat (a, b) n) row (nth 0 (mv_logpdf a b [row]) NaN)) /\
  (forall row, length row = n -> inside (repeat (a, b) n) row -> mv_make_valid a b [row] = [row]) /\
  ((forall rho, Forall (fun row => length row = n) rho -> Forall positive_density (mv_logpdf a b (mv_make_valid a b rho))) <-> a <= 0 <= b).
Proof.
  intros H Hn.
  assert (D : forall row, length row = n -> log_density_of (repeat (a, b) n) row (nth 0 (mv_logpdf a b [row]) NaN)).
  { intros row <-. apply mv_density; [easy|]. destruct row; [cbn in Hn; lia|easy]. }
  split; [exact D|]. split.
  - intros row Hl Hi. rewrite mv_valid_row. cbn. f_equal. rewrite <- (map_id row) at 2. apply map_ext_in. intros x Hx.
    apply fix1_inside. now apply (proj1 (inside_repeat a b row n Hl) Hi).
  - split.
    + intros V. specialize (V [repeat 0 n]). rewrite mv_valid_row in V. cbn [map] in V.
      assert (V' : Forall positive_density (mv_logpdf a b [map (fix1 a b) (repeat 0 n)])).
      { apply V. constructor; [apply repeat_length|constructor]. } clear V. apply Forall_inv in V'. rename V' into P.
      assert (Ln : length (map (fix1 a b) (repeat 0 n)) = n) by (rewrite map_length; apply repeat_length).
      pose proof (D _ Ln) as DD. unfold mv_logpdf in DD. cbn [map nth] in DD.
      destruct DD as [[I _]|[_ DD]].
      * apply (proj1 (inside_repeat a b _ n Ln)) with (x := fix1 a b 0) in I; [|apply in_map; destruct n; [lia|now left]].
        destruct (Rlt_dec 0 a) as [L|L]; [pose proof (fix1_low a b L H); lra|]. destruct (Rlt_dec b 0) as [L2|L2]; [pose proof (fix1_high a b L2 H); lra|lra].
      * destruct P as [x P]. rewrite P in DD. discriminate.
    + intros [Ha Hb] rho Hr. rewrite mv_valid_row. unfold mv_logpdf. rewrite map_map. apply Forall_map. eapply Forall_impl; [|exact Hr].
      intros row Hl. cbn beta. cbn in Hl.
      assert (Ln : length (map (fix1 a b) row) = n) by now rewrite map_length.
      pose proof (D _ Ln) as DD. unfold mv_logpdf in DD. cbn [map nth] in DD. destruct DD as [[_ (x & E & _)]|[I _]]; [now exists x|].
      exfalso. apply I. apply (proj2 (inside_repeat a b _ n Ln)). intros x Hx. apply in_map_iff in Hx. destruct Hx as (y & <- & _). now apply fix1_valid.
Qed.

Theorem C58_centered mrho a b c : Forall (fun l => fst l < snd l) (centered_limits mrho a b c) ->
  let limits := centered_limits mrho a b c in let prior := centered mrho a b c in
  (forall row, length row = length mrho -> log_density_of limits row (nth 0 (c_logpdf prior [row]) NaN)) /\
  (forall row, inside limits row -> c_make_valid prior [row] = [row]) /\
  ((forall rho, Forall (fun row => length row = length mrho) rho -> Forall positive_density (c_logpdf prior (c_make_valid prior rho))) <->
   Forall (fun l => fst l <= 0 <= snd l) limits).
Proof.
  intros H limits prior.
  assert (D : forall row, length row = length mrho -> log_density_of limits row (nth 0 (c_logpdf prior [row]) NaN)).
  { intros row Hl. unfold c_logpdf. cbn [map nth]. destruct (c_density a b c mrho row 0 Hl H) as [(I & x & E1 & E2)|(I & E)].
    - left. split; [exact I|]. exists x. split; [exact E1|]. rewrite E2, exp_0. apply Rmult_1_l.
    - right. easy. }
  assert (IN : forall row, inside limits row <-> length row = length mrho /\ Forall (fun p => fst (fst p) <= snd p <= snd (fst p)) (combine limits row)).
  { unfold limits. clear. induction mrho as [|m mrho IH]; intros [|x row]; cbn; split; try easy.
    - intros [H1 H2]. apply IH in H2. destruct H2 as [H2 H3]. split; [now f_equal|]. now constructor.
    - intros [H1 H2]. inversion H2; subst. split; [easy|]. apply IH. split; [now injection H1|easy]. }
  split; [exact D|]. split.
  - intros row Hi. apply IN in Hi. destruct Hi as [Hl Hf]. unfold c_make_valid. cbn [map]. f_equal. unfold prior. rewrite c_valid_rows by easy. fold limits.
    assert (Ll : length row = length limits) by (unfold limits, centered_limits; now rewrite map_length). clear -Hf Ll. revert Ll Hf.
    generalize limits. induction row as [|x row IH]; intros [|l ls] Ll Hf; try discriminate; [easy|]. cbn in *. inversion Hf; subst. rewrite fixc_inside by easy.
    f_equal. apply IH; [now injection Ll|easy].
  - assert (VL : forall row, length row = length mrho -> inside limits (c_valid_row prior row) <-> Forall (fun p => fst (fst p) <= fixc (fst (fst p)) (snd (fst p)) (snd p) <= snd (fst p)) (combine limits row)).
    { intros row Hl. unfold prior. rewrite c_valid_rows by easy. fold limits.
      assert (Ll : length row = length limits) by (unfold limits, centered_limits; now rewrite map_length).
      clear -Ll. revert Ll. generalize limits. induction row as [|x row IH]; intros [|[lo hi] ls] Ll; try discriminate; cbn.
      - split; [constructor|easy].
      - split.
        + intros [H1 H2]. constructor; [exact H1|]. apply IH; [now injection Ll|easy].
        + intros H. inversion H; subst. split; [easy|]. apply IH; [now injection Ll|easy]. }
    assert (LV : forall row, length row = length mrho -> length (c_valid_row prior row) = length mrho).
    { intros row Hl. unfold prior. rewrite c_valid_rows by easy. rewrite map_length, combine_length. unfold centered_limits. rewrite map_length. lia. }
    split.
    + intros V. specialize (V [repeat 0 (length mrho)]). cbn [map c_make_valid c_logpdf] in V.
      assert (V' : positive_density (c_logpdf_row prior (c_valid_row prior (repeat 0 (length mrho))) (Fin 0))).
      { assert (F : Forall (fun row : list R => length row = length mrho) [repeat 0 (length mrho)]) by (constructor; [apply repeat_length|constructor]).
        specialize (V F). now inversion V. } clear V.
      pose proof (D _ (LV _ (repeat_length 0 (length mrho)))) as DD. cbn in DD. destruct DD as [[I _]|[_ E]].
      2:{ destruct V' as [x E']. rewrite E in E'. discriminate. }
      apply (VL _ (repeat_length 0 (length mrho))) in I.
      assert (Ll : length mrho = length limits) by (unfold limits, centered_limits; now rewrite map_length). rewrite Ll in I. fold limits in H.
      clear -I H. induction limits as [|l ls IH]; [constructor|]. cbn in I. inversion I; subst. inversion H; subst. constructor; [|now apply IH].
      destruct (Rlt_dec 0 (fst l)) as [L1|L1]; [exfalso; apply (fixc_bad (fst l) (snd l)); [easy|lra|easy]|].
      destruct (Rlt_dec (snd l) 0) as [L2|L2]; [exfalso; apply (fixc_bad (fst l) (snd l)); [easy|lra|easy]|]. lra.
    + intros S rho Hr. unfold c_logpdf, c_make_valid. rewrite map_map. apply Forall_map. eapply Forall_impl; [|exact Hr]. intros row Hl. cbn in Hl.
      pose proof (D _ (LV row Hl)) as DD. cbn in DD. destruct DD as [[_ (x & E & _)]|[I _]]; [now exists x|]. exfalso. apply I. apply VL; [easy|].
      assert (G : forall ls rw, Forall (fun l => fst l <= 0 <= snd l) ls -> Forall (fun p => fst (fst p) <= fixc (fst (fst p)) (snd (fst p)) (snd p) <= snd (fst p)) (combine ls rw)).
      { clear. induction ls as [|l ls IH]; intros [|x rw] F; cbn; try constructor; inversion F; subst; [cbn; now apply fixc_valid|now apply IH]. }
      now apply G.
Qed.

(** Default limits lie around zero. *)
Example C58_case : ln (1 / 10000000) < ln 10000000 /\ ln (1 / 10000000) <= 0 <= ln 10000000 /\
  Forall (fun l => fst l < snd l /\ fst l <= 0 <= snd l) (centered_limits [1; -1] (-16) 16 2).
Proof.
  assert (A : 0 < ln 10000000) by (rewrite <- ln_1; apply ln_increasing; lra).
  assert (B : ln (1 / 10000000) = - ln 10000000) by (unfold Rdiv; rewrite Rmult_1_l; apply ln_Rinv; lra).
  split; [lra|]. split; [lra|]. unfold centered_limits. cbn.
  repeat constructor; cbn; unfold Rmax, Rmin; destruct Rle_dec; try destruct Rle_dec; lra.
Qed.

(** *** C58: with both limits on one side of zero, which is what centering on an estimate of log 5 with half width 2 or less
    gives, an invalid value stays invalid. *)
Theorem C58_valid_refuted : (exists a b row, a < b /\ mv_logpdf a b (mv_make_valid a b [row]) = [MInf]) /\
  (exists mrho row, let prior := centered mrho (-16) 16 2 in c_logpdf prior (c_make_valid prior [row]) = [MInf]).
Proof.
  split.
  - exists 1, 2, [0]. split; [lra|]. rewrite mv_valid_row. cbn. unfold row_min, row_max. cbn.
    replace (rltb (fix1 1 2 0) 1) with true; [easy|]. symmetry. apply rltb_true. apply fix1_low; lra.
  - exists [5], [0]. cbn [c_logpdf c_make_valid centered map c_valid_row c_logpdf_row].
    replace (Rmax (5 - 2) (-16)) with 3 by (rewrite Rmax_left; lra). replace (Rmin (5 + 2) 16) with 7 by (rewrite Rmin_left; lra).
    replace (rltb 0 3) with true by (symmetry; apply rltb_true; lra). replace (rltb 7 0) with false by (symmetry; apply rltb_false; lra). cbv zeta.
    replace (rltb (9 / 10 * 3) 3) with true by (symmetry; apply rltb_true; lra). cbn. reflexivity.
Qed.

Print Assumptions C56_mirror.
Print Assumptions C56_aic.
Print Assumptions C56_theta_refuted.
Print Assumptions C56_order_refuted.
Print Assumptions C56_settings_refuted.
Print Assumptions C58_uniform.
Print Assumptions C58_centered.
Print Assumptions C58_valid_refuted.
