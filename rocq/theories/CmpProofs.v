(** Lemmas for model comparison and priors. *)

From Coq Require Import List Bool Arith NArith Reals Lra Lia.
From Verif Require Import Ext CmpModel CmpSpec.
Import ListNotations.
Local Open Scope R_scope.

Lemma parameters_swap m1 m2 d1 d2 : same_family m1 m2 -> est_theta m1 = est_theta m2 ->
  with_parameters m2 m1 d2 d1 = (snd (with_parameters m1 m2 d1 d2), fst (with_parameters m1 m2 d1 d2)).
Proof.
  intros (_ & E1 & E2) E3. unfold with_parameters. rewrite <- E1, <- E2, <- E3.
  destruct (twopar m1), (extended m1), (est_theta m1); reflexivity.
Qed.

Lemma parameters_counted m1 m2 d1 d2 : same_family m1 m2 -> (est_theta m2 = true -> est_theta m1 = true) ->
  with_parameters m1 m2 d1 d2 = (plus_dof (other_parameters m1) d1, plus_dof (other_parameters m2) d2).
Proof.
  intros (_ & E1 & E2) E3. unfold with_parameters, other_parameters. rewrite <- E1, <- E2.
  destruct d1 as [x1 a1], d2 as [x2 a2]. unfold plus_dof. cbn [fst snd].
  destruct (twopar m1), (extended m1), (est_theta m1), (est_theta m2); cbn [andb]; try (specialize (E3 eq_refl); discriminate);
    destruct a1, a2; cbn [option_map fst snd];
    repeat (match goal with |- (_, _) = (_, _) => apply f_equal2 | |- Some _ = Some _ => apply f_equal | |- None = None => reflexivity end); try lra.
Qed.

Lemma mirror f_sf chi2_sf o m1 m2 r : same_family m1 m2 -> est_theta m1 = est_theta m2 -> resolve o m1 = resolve o m2 ->
  (perform_GLRT o = true -> n_coef m1 = n_coef m2 /\ n_rows m1 = n_rows m2) ->
  compare_CDL f_sf chi2_sf o m1 m2 = Some r ->
  (perform_GLRT o = true -> agree (llk m1) (DOF1 r) (llk m2) (DOF2 r)) ->
  exists r', compare_CDL f_sf chi2_sf o m2 m1 = Some r' /\ mirrored r r'.
Proof.
  intros SF ET RS GN H AG. unfold compare_CDL in *. rewrite <- RS. set (c := resolve o m1) in *.
  rewrite (parameters_swap m1 m2 (dofs o c m1) (dofs o c m2) SF ET).
  destruct SF as (F1 & F2 & F3). rewrite <- F1, <- F2, Nat.eqb_refl in *. cbn [negb] in *.
  destruct (perform_GLRT o && (n_coef m1 <? n_coef m2)%N) eqn:G; [discriminate|].
  assert (G' : perform_GLRT o && (n_coef m2 <? n_coef m1)%N = false).
  { destruct (perform_GLRT o); [|easy]. destruct (GN eq_refl) as [E _]. rewrite E, N.ltb_irrefl. easy. }
  rewrite G'. destruct (with_parameters m1 m2 (dofs o c m1) (dofs o c m2)) as [[d1 a1] [d2 a2]]. cbn [fst snd].
  assert (Ed : Rabs (d2 - d1) = Rabs (d1 - d2)) by apply Rabs_minus_sym.
  destruct (perform_GLRT o) eqn:GL; cbn [negb orb] in *.
  - destruct (GN eq_refl) as [_ EN]. rewrite <- EN. rewrite Ed. rewrite (Rmax_comm d2 d1).
    assert (AG' : agree (llk m1) d1 (llk m2) d2).
    { specialize (AG eq_refl). destruct (rltb (if rltb (llk m1) (llk m2) && rltb d1 d2 then -1 * (2 * (llk m1 - llk m2)) else 2 * (llk m1 - llk m2)) 0);
        injection H as <-; exact AG. }
    clear AG. remember (Rabs (d1 - d2)) as td.
    destruct AG' as [E|[[L D]|[L D]]].
    + rewrite E in *. replace (rltb (llk m2) (llk m2)) with false in * by (symmetry; apply rltb_false; lra). cbn [andb] in *.
      replace (2 * (llk m2 - llk m2)) with 0 in * by ring. replace (rltb 0 0) with false in * by (symmetry; apply rltb_false; lra).
      injection H as <-. eexists. split; [reflexivity|]. unfold mirrored. cbn. repeat split; auto; destruct (form_t1 c); lra.
    + replace (rltb (llk m1) (llk m2)) with true in * by (symmetry; now apply rltb_true).
      replace (rltb d1 d2) with true in * by (symmetry; now apply rltb_true). cbn [andb] in *.
      replace (rltb (llk m2) (llk m1)) with false by (symmetry; apply rltb_false; lra). cbn [andb].
      replace (2 * (llk m2 - llk m1)) with (-1 * (2 * (llk m1 - llk m2))) by ring.
      replace (rltb (-1 * (2 * (llk m1 - llk m2))) 0) with false in * by (symmetry; apply rltb_false; lra).
      injection H as <-. eexists. split; [reflexivity|]. unfold mirrored. cbn. repeat split; auto; try ring; destruct (form_t1 c); lra.
    + replace (rltb (llk m1) (llk m2)) with false in * by (symmetry; apply rltb_false; lra). cbn [andb] in *.
      replace (rltb (llk m2) (llk m1)) with true by (symmetry; now apply rltb_true).
      replace (rltb d2 d1) with true by (symmetry; now apply rltb_true). cbn [andb].
      replace (-1 * (2 * (llk m2 - llk m1))) with (2 * (llk m1 - llk m2)) by ring.
      replace (rltb (2 * (llk m1 - llk m2)) 0) with false in * by (symmetry; apply rltb_false; lra).
      injection H as <-. eexists. split; [reflexivity|]. unfold mirrored. cbn. repeat split; auto; try ring; destruct (form_t1 c); lra.
  - injection H as <-. eexists. split; [reflexivity|]. unfold mirrored. cbn. repeat split; auto; try ring; destruct (form_t1 c); lra.
Qed.

(** ** Priors *)
Lemma fold_min : forall l x, fold_left Rmin l x <= x /\ (forall y, In y l -> fold_left Rmin l x <= y) /\ (In (fold_left Rmin l x) (x :: l)).
Proof.
  induction l as [|y l IH]; intros x; cbn; [split; [lra|split; [easy|now left]]|].
  destruct (IH (Rmin x y)) as (H1 & H2 & H3). pose proof (Rmin_l x y). pose proof (Rmin_r x y). split; [lra|]. split.
  - intros z [<-|Hz]; [lra|now apply H2].
  - destruct H3 as [H3|H3]; [|right; now right]. rewrite <- H3. unfold Rmin. destruct (Rle_dec x y); [now left|right; now left].
Qed.
Lemma fold_max : forall l x, x <= fold_left Rmax l x /\ (forall y, In y l -> y <= fold_left Rmax l x) /\ (In (fold_left Rmax l x) (x :: l)).
Proof.
  induction l as [|y l IH]; intros x; cbn; [split; [lra|split; [easy|now left]]|].
  destruct (IH (Rmax x y)) as (H1 & H2 & H3). pose proof (Rmax_l x y). pose proof (Rmax_r x y). split; [lra|]. split.
  - intros z [<-|Hz]; [lra|now apply H2].
  - destruct H3 as [H3|H3]; [|right; now right]. rewrite <- H3. unfold Rmax. destruct (Rle_dec x y); [right; now left|now left].
Qed.
Lemma row_outside a b row : row <> [] -> (rltb (row_min row) a || rltb b (row_max row) = false <-> forall x, In x row -> a <= x <= b).
Proof.
  destruct row as [|x l]; [easy|]. intros _. unfold row_min, row_max. destruct (fold_min l x) as (A1 & A2 & A3). destruct (fold_max l x) as (B1 & B2 & B3).
  rewrite orb_false_iff, !rltb_false. split.
  - intros [H1 H2] y [<-|Hy]; [lra|]. specialize (A2 y Hy). specialize (B2 y Hy). lra.
  - intros H. destruct (H _ A3), (H _ B3). lra.
Qed.
Lemma inside_repeat a b : forall row n, length row = n -> (inside (repeat (a, b) n) row <-> forall x, In x row -> a <= x <= b).
Proof.
  induction row as [|x row IH]; intros n <-; cbn; [easy|]. rewrite (IH _ eq_refl). split.
  - intros [H1 H2] y [<-|Hy]; auto.
  - intros H. split; [apply H; now left|]. intros y Hy. apply H. now right.
Qed.
Lemma density_repeat a b n : a < b -> exp (0 + INR n * - ln (b - a)) = density (repeat (a, b) n).
Proof.
  intros H. induction n as [|n IH]; [cbn; now rewrite Rmult_0_l, Rplus_0_l, exp_0|]. rewrite S_INR.
  replace (0 + (INR n + 1) * - ln (b - a)) with (- ln (b - a) + (0 + INR n * - ln (b - a))) by ring. rewrite exp_plus, IH. cbn.
  rewrite exp_Ropp, exp_ln by lra. easy.
Qed.

Lemma mv_density a b row : a < b -> row <> [] -> log_density_of (repeat (a, b) (length row)) row (nth 0 (mv_logpdf a b [row]) NaN).
Proof.
  intros H Hr. unfold mv_logpdf. cbn [map nth]. unfold log_density_of. rewrite (inside_repeat a b row _ eq_refl).
  destruct (rltb (row_min row) a || rltb b (row_max row)) eqn:E.
  - right. split; [|easy]. intros F. apply (row_outside a b row Hr) in F. congruence.
  - left. split; [now apply row_outside|]. eexists. split; [reflexivity|]. now apply density_repeat.
Qed.

Definition fix1 (a b x : R) : R := let y := if rltb x a then 9/10 * a else x in if rltb b y then 9/10 * b else y.
Lemma mv_valid_row a b rho : mv_make_valid a b rho = map (map (fix1 a b)) rho.
Proof. unfold mv_make_valid. rewrite map_map. apply map_ext. intros row. rewrite map_map. apply map_ext. easy. Qed.
Lemma fix1_inside a b x : a <= x <= b -> fix1 a b x = x.
Proof.
  intros H. unfold fix1. replace (rltb x a) with false by (symmetry; apply rltb_false; lra). cbv zeta.
  now replace (rltb b x) with false by (symmetry; apply rltb_false; lra).
Qed.
Lemma fix1_valid a b x : a <= 0 -> 0 <= b -> a <= fix1 a b x <= b.
Proof.
  intros Ha Hb. unfold fix1. destruct (rltb x a) eqn:E.
  - destruct (rltb b (9 / 10 * a)) eqn:E2; [lra|]. apply rltb_false in E2. lra.
  - apply rltb_false in E. destruct (rltb b x) eqn:E2; [lra|]. apply rltb_false in E2. lra.
Qed.
Lemma fix1_low a b : 0 < a -> a < b -> fix1 a b 0 < a.
Proof.
  intros Ha Hb. unfold fix1. replace (rltb 0 a) with true by (symmetry; now apply rltb_true). cbv zeta.
  replace (rltb b (9/10 * a)) with false by (symmetry; apply rltb_false; lra). lra.
Qed.
Lemma fix1_high a b : b < 0 -> a < b -> b < fix1 a b 0.
Proof.
  intros Ha Hb. unfold fix1. replace (rltb 0 a) with false by (symmetry; apply rltb_false; lra). cbv zeta.
  replace (rltb b 0) with true by (symmetry; apply rltb_true; lra). lra.
Qed.

(** Separate priors. *)
Definition fixc (lo hi x : R) : R := let y := if rltb x lo then 9/10 * lo else x in if rltb hi x then 9/10 * hi else y.
Lemma fixc_inside a b x : a <= x <= b -> fixc a b x = x.
Proof.
  intros H. unfold fixc. replace (rltb x a) with false by (symmetry; apply rltb_false; lra). cbv zeta.
  now replace (rltb b x) with false by (symmetry; apply rltb_false; lra).
Qed.
Lemma fixc_valid a b x : a <= 0 -> 0 <= b -> a <= fixc a b x <= b.
Proof.
  intros Ha Hb. unfold fixc. destruct (rltb b x) eqn:E2; [lra|]. apply rltb_false in E2. destruct (rltb x a) eqn:E; [lra|]. apply rltb_false in E. lra.
Qed.
Lemma fixc_bad a b : a < b -> ~ (a <= 0 <= b) -> ~ (a <= fixc a b 0 <= b).
Proof.
  intros Hab N. unfold fixc. destruct (Rlt_dec 0 a) as [L|L].
  - replace (rltb 0 a) with true by (symmetry; now apply rltb_true). replace (rltb b 0) with false by (symmetry; apply rltb_false; lra). cbv zeta. lra.
  - destruct (Rlt_dec b 0) as [L2|L2]; [|lra]. replace (rltb b 0) with true by (symmetry; now apply rltb_true). cbv zeta. lra.
Qed.

Lemma c_valid_rows a b c : forall mrho row, length row = length mrho ->
  c_valid_row (centered mrho a b c) row = map (fun p => fixc (fst (fst p)) (snd (fst p)) (snd p)) (combine (centered_limits mrho a b c) row).
Proof. induction mrho as [|m mrho IH]; intros [|x row] H; try discriminate; cbn; [easy|]. f_equal. apply IH. now injection H. Qed.

Lemma c_minf a b c : forall mrho row, Forall (fun l => fst l < snd l) (centered_limits mrho a b c) -> c_logpdf_row (centered mrho a b c) row MInf = MInf.
Proof.
  induction mrho as [|m mrho IH]; intros row H; cbn; [easy|]. destruct row as [|x row]; [easy|]. inversion H as [|? ? H1 H2]; subst. cbn in H1.
  replace (rltb 0 (Rmin (m + c) b - Rmax (m - c) a)) with true by (symmetry; apply rltb_true; lra). cbn [eplus].
  destruct (rltb x (Rmax (m - c) a) || rltb (Rmin (m + c) b) x); now apply IH.
Qed.
Lemma c_density a b c : forall mrho row x0, length row = length mrho -> Forall (fun l => fst l < snd l) (centered_limits mrho a b c) ->
  (inside (centered_limits mrho a b c) row /\ exists x, c_logpdf_row (centered mrho a b c) row (Fin x0) = Fin x /\ exp x = exp x0 * density (centered_limits mrho a b c)) \/
  (~ inside (centered_limits mrho a b c) row /\ c_logpdf_row (centered mrho a b c) row (Fin x0) = MInf).
Proof.
  induction mrho as [|m mrho IH]; intros [|x row] x0 Hl H; try discriminate.
  - left. split; [easy|]. exists x0. cbn. split; [easy|]. ring.
  - inversion H as [|? ? H1 H2]; subst. cbn in H1. cbn [centered map c_logpdf_row centered_limits inside density fst snd].
    replace (rltb 0 (Rmin (m + c) b - Rmax (m - c) a)) with true by (symmetry; apply rltb_true; lra). cbn [eplus].
    fold (centered_limits mrho a b c). fold (centered mrho a b c).
    destruct (rltb x (Rmax (m - c) a) || rltb (Rmin (m + c) b) x) eqn:E.
    + right. split.
      * intros [[A B] _]. apply orb_true_iff in E. rewrite !rltb_true in E. lra.
      * apply (c_minf a b c mrho row H2).
    + apply orb_false_iff in E. rewrite !rltb_false in E. injection Hl as Hl.
      destruct (IH row (x0 + - ln (Rmin (m + c) b - Rmax (m - c) a)) Hl H2) as [(I & y & E1 & E2)|(I & E1)].
      * left. split; [split; [lra|easy]|]. exists y. split; [exact E1|]. rewrite E2, exp_plus, exp_Ropp, exp_ln by lra. ring.
      * right. split; [intros [_ C]; now apply I|exact E1].
Qed.
