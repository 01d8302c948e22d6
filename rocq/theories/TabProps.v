(** Tables of parametric terms, wrapped families and the data of log-likelihoods: C177 to C179. *)

From Coq Require Import Reals List Bool Arith ZArith Lia Lra.
From Verif Require Import FamModel FamSpec ResModel ResSpec ResProofs TabModel TabSpec TabProofs.
Import ListNotations.
Local Open Scope R_scope.

(** ** C177: the table of parametric terms *)

(** One line per coefficient of the linear terms of the formula asked for, in order, with its estimate, the estimate over
    its posterior standard deviation, and the two-sided p-value of a normal distribution or (families with a scale
    parameter) of a t distribution, if that has positive degrees of freedom. *)
Theorem C177_lines ncdf tcdf family twopar fs par f coef lvi scale :
  nth_error fs par = Some f -> (family = true -> par = 0%nat) ->
  symmetric_cdf ncdf -> (forall d, (0 < d)%Z -> symmetric_cdf (tcdf d)) ->
  let at_ := fun j => (list_sum (map n_coef (firstn par fs)) + j)%nat in
  let var := fun j => fold_right (fun row s => nth (at_ j) row 0 ^ 2 + s) 0 lvi * (if family then scale else 1) in
  (forall j, (j < length (concat (linear f)))%nat -> 0 < var j) ->
  exists ls, print_parametric ncdf tcdf family twopar fs par coef lvi scale = Some ls /\
    map l_name ls = concat (linear f) /\
    forall j ln, nth_error ls j = Some ln ->
      l_coef ln = nth (at_ j) coef 0 /\ l_stat ln = l_coef ln / sqrt (var j) /\
      (family && twopar = false -> l_dof ln = None /\ l_p ln = Some (two_sided ncdf (l_stat ln))) /\
      (family && twopar = true ->
         let df := (Z.of_nat (n_obs f) - Z.of_nat (length (concat (linear f)) + length (others f)))%Z in
         l_dof ln = Some df /\ ((0 < df)%Z -> l_p ln = Some (two_sided (tcdf df) (l_stat ln)))) /\
      (forall q, l_p ln = Some q -> 0 <= q <= 1 /\ l_mark ln = level q).
Proof.
  intros Ef Hpar Hn Ht at_ var Hv. unfold print_parametric.
  assert (Ef' : nth_error fs (if family then 0%nat else par) = Some f) by (destruct family; [now rewrite <- Hpar|assumption]).
  rewrite Ef'. eexists. split; [reflexivity|].
  set (cp := if family then coef else split_at coef fs par).
  set (lp := if family then lvi else map (fun row => split_at row fs par) lvi).
  set (sp := if family then scale else 1).
  split.
  - rewrite map_map. cbn [table_line l_name]. unfold coef_names. rewrite <- concat_len. apply names_prefix.
  - intros j ln H. rewrite nth_error_map in H.
    destruct (nth_error (seq 0 _) j) as [j'|] eqn:Ej; [|discriminate].
    assert (Hj : (j < list_sum (map (@length nat) (linear f)))%nat).
    { rewrite <- (seq_length (list_sum (map (@length nat) (linear f))) 0). apply nth_error_Some. congruence. }
    apply (nth_error_nth _ _ 0%nat) in Ej. rewrite seq_nth in Ej by assumption. cbn [Nat.add] in Ej. subst j'.
    injection H as <-. rewrite <- concat_len in Hj. specialize (Hv j Hj).
    assert (Hjn : (j < n_coef f)%nat) by (rewrite concat_len in Hj; pose proof (linear_le f); lia).
    assert (Ec : nth j cp 0 = nth (at_ j) coef 0).
    { unfold cp, at_. destruct family; [rewrite Hpar by reflexivity; reflexivity|]. now apply (split_nth coef fs par f). }
    assert (Evar : variance lp sp j = var j).
    { assert (V0 : forall k s, variance lvi s k = fold_right (fun row s => nth k row 0 ^ 2 + s) 0 lvi * s).
      { intros k s. unfold variance. f_equal. clear. induction lvi as [|r l IH]; [reflexivity|]. cbn [fold_right]. rewrite IH. ring. }
      unfold lp, sp, var, at_. destruct family.
      - rewrite Hpar by reflexivity. apply V0.
      - rewrite (variance_split lvi fs par f j Ef Hjn). apply V0. }
    cbn [table_line l_coef l_stat l_dof l_p l_mark]. rewrite Ec, Evar, signed_stat by assumption.
    set (b := nth (at_ j) coef 0). set (t := b / sqrt (var j)).
    assert (En : n_coef f = (length (concat (linear f)) + length (others f))%nat) by (unfold n_coef, coef_names; apply app_length).
    rewrite En. set (df := (Z.of_nat (n_obs f) - _)%Z).
    split; [reflexivity|]. split; [reflexivity|]. split; [|split].
    + intros ->. split; [reflexivity|]. f_equal. now apply two_tails.
    + intros ->. cbn zeta. split; [reflexivity|]. intros Hd. unfold t_cdf. destruct (Z.ltb_spec 0 df); [|lia].
      cbn [option_map]. f_equal. apply two_tails. now apply Ht.
    + intros q Hq. rewrite Hq. split; [|apply mark_level]. destruct (family && twopar).
      * unfold t_cdf in Hq. destruct (Z.ltb_spec 0 df) as [L|L]; [|discriminate]. injection Hq as <-.
        destruct (two_tails (tcdf df) t (Ht df L)) as [-> H2]. exact H2.
      * injection Hq as <-. destruct (two_tails ncdf t Hn) as [-> H2]. exact H2.
Qed.
Print Assumptions C177_lines.

(** REFUTED: every coefficient of a linear term has a p-value.  The degrees of freedom are observations minus all
    coefficients, penalised ones too: with as many coefficients as observations (say a random intercept per observation)
    the t distribution does not exist and every p-value is NaN. *)
Theorem C177_p_refuted : exists f coef lvi scale, (1 <= length (concat (linear f)))%nat /\ (1 <= n_obs f)%nat /\
  (forall j, (j < length (concat (linear f)))%nat -> 0 < fold_right (fun row s => nth j row 0 ^ 2 + s) 0 lvi * scale) /\
  forall ncdf tcdf, exists ls, print_parametric ncdf tcdf true true [f] 0 coef lvi scale = Some ls /\ ls <> [] /\
    forall ln, In ln ls -> l_p ln = None.
Proof.
  exists {| linear := [[0%nat]]; others := [1%nat; 2%nat]; n_obs := 3 |}, [1; 0; 0], [[1; 0; 0]; [0; 1; 0]; [0; 0; 1]], 1.
  split; [cbn; lia|]. split; [cbn; lia|]. split.
  - intros j Hj. cbn in Hj. assert (j = 0%nat) as -> by lia. cbn. lra.
  - intros ncdf tcdf. eexists. split; [reflexivity|]. split; [discriminate|].
    intros ln [<-|[]]. reflexivity.
Qed.
Print Assumptions C177_p_refuted.

(** Symmetric distribution functions exist, and two formulas with different numbers of coefficients meet the hypotheses for
    the second one. *)
Example C177_case :
  let F := fun x => / (1 + exp (- x)) in
  symmetric_cdf F /\
  let f1 := {| linear := [[0%nat]; [1%nat; 2%nat]]; others := []; n_obs := 10 |} in
  let f2 := {| linear := [[5%nat]]; others := [6%nat]; n_obs := 10 |} in
  exists ls, print_parametric F (fun _ => F) false true [f1; f2] 1 [1; 2; 3; 4; 5] [[0; 0; 0; 2; 0]] 7 = Some ls /\
    map l_name ls = [5%nat] /\ map l_coef ls = [4].
Proof.
  assert (P : forall x, 0 < 1 + exp (- x)) by (intros x; pose proof (exp_pos (- x)); lra).
  cbv zeta. split.
  - constructor.
    + intros x. specialize (P x). pose proof (exp_pos (- x)). split; [left; now apply Rinv_0_lt_compat|].
      rewrite <- Rinv_1. apply Rinv_le_contravar; lra.
    + intros x y H. apply Rinv_le_contravar; [apply P|]. destruct H as [H| ->]; [|lra].
      pose proof (exp_increasing (- y) (- x) ltac:(lra)). lra.
    + intros x. pose proof (P x). pose proof (P (- x)). rewrite Ropp_involutive in *.
      pose proof (exp_pos x). rewrite exp_Ropp in *. field. lra.
  - eexists. split; [reflexivity|]. split; reflexivity.
Qed.

(** ** C178: GAMMs fitted as general models *)

(** Initial coefficients are those of the GAMM followed by the additional parameters, the scale is 1; coefficients split
    back into the linear predictor and the parameters. *)
Theorem C178_parts k b extra :
  match k with OnePar => extra = [] | TwoPar => length extra = 1%nat | Extended th => length extra = length th /\ th <> [] end ->
  fst (parts k (b ++ extra)) = b /\
  match k with
  | OnePar => snd (parts k (b ++ extra)) = NoPar
  | TwoPar => snd (parts k (b ++ extra)) = Scale (exp (nth 0 extra 0))
  | Extended _ => snd (parts k (b ++ extra)) = Theta extra
  end /\
  init_coef k b = b ++ match k with OnePar => [] | TwoPar => [0] | Extended th => th end /\
  length (init_coef k b) = (length b + match extra_coef k with Some n => n | None => 0 end)%nat.
Proof.
  destruct k as [| |th]; cbn [parts init_coef extra_coef].
  - intros ->. rewrite app_nil_r, Nat.add_0_r. auto.
  - intros H. destruct extra as [|x [|z e]]; try discriminate. pose proof (upto_app b [x] ltac:(discriminate)) as [A _].
    change 1%nat with (length [x]). rewrite A. split; [reflexivity|]. split; [|split; [reflexivity|rewrite app_length; reflexivity]].
    cbn [snd]. do 2 f_equal. rewrite app_length. cbn [length]. replace (length b + 1 - 1)%nat with (length b) by lia.
    rewrite app_nth2, Nat.sub_diag by lia. reflexivity.
  - intros [H1 H2]. assert (He : extra <> []) by (destruct extra, th; discriminate || congruence).
    destruct (upto_app b extra He) as [A B]. rewrite <- H1, A, B. cbn [fst snd].
    split; [reflexivity|]. split; [reflexivity|]. split; [reflexivity|]. rewrite app_length, H1. reflexivity.
Qed.
Print Assumptions C178_parts.

(** The residuals are the deviance residuals GAMM.get_resid returns at the same coefficients, whatever the scale. *)
Theorem C178_resid f l X y b s res rho ar : length y = length X ->
  let eta := map (fun row => fold_right Rplus 0 (map (fun q => fst q * snd q) (combine row b))) X in
  let m := {| f_res := Some res; f_eta := Some eta; f_rho := rho; f_res_ar := ar; f_y := y |} in
  gamm_get_resid f l m TDeviance = Array (wrapped_resid (fun _ => fam_D f) l OnePar X y b) /\
  gamm_get_resid f l m TDeviance = Array (wrapped_resid (fun _ => fam_D f) l TwoPar X y (b ++ [s])).
Proof.
  intros Hl eta m.
  assert (A : gamm_get_resid f l m TDeviance
              = Array (map (fun q => sign (fst q - snd q) * sqrt (fam_D f (fst q) (snd q))) (combine y (map (link_fi l) eta)))).
  { unfold gamm_get_resid, m. cbn [f_res f_eta f_y]. rewrite general_mu. reflexivity. }
  rewrite A. unfold eta. rewrite map_map. split.
  - reflexivity.
  - unfold wrapped_resid. cbn [parts]. change 1%nat with (length [s]) at 1.
    rewrite (proj1 (upto_app b [s] ltac:(discriminate))). reflexivity.
Qed.
Print Assumptions C178_resid.

Example C178_case : length (A := R) [1; 2] = length (A := R) [3; 4] /\ [3; 4] <> (@nil R) /\ init_coef TwoPar [5] = [5; 0] /\
  fst (parts (Extended [0; 0]) [5; 6; 1; 2]) = [5; 6].
Proof. repeat split; try reflexivity. discriminate. Qed.

(** REFUTED: coefficients split for every ExtendedFamily.  Without parameters theta coef[:-0] is empty, so that the linear
    predictor has no coefficients and theta receives all of them. *)
Theorem C178_no_theta_refuted : exists b, b <> [] /\
  init_coef (Extended []) b = b /\ fst (parts (Extended []) b) = [] /\ snd (parts (Extended []) b) = Theta b.
Proof. exists [1; 2]. repeat split; try reflexivity. discriminate. Qed.
Print Assumptions C178_no_theta_refuted.

(** ** C179: data of log-likelihoods *)

(** The responses handed to a family: those of each formula that are there (all, without dropping), transformed; None
    exactly for a later formula with the same untransformed variable as the first. *)
Theorem C179_responses drop fs i r r0 : nth_error fs i = Some r -> nth_error fs 0 = Some r0 ->
  exists o, nth_error (get_ys drop fs) i = Some o /\
    (o = None <-> (0 < i)%nat /\ r_var r = r_var r0 /\ r_f r = None /\ r_f r0 = None) /\
    (forall y, o = Some y ->
       y = map (match r_f r with Some g => g | None => fun v => v end) (if drop then present (r_y r) else map fst (r_y r))).
Proof.
  intros Hi H0. unfold get_ys. rewrite nth_error_map.
  assert (L : (i < length fs)%nat) by (apply nth_error_Some; congruence).
  rewrite (nth_error_nth' _ 0%nat) by now rewrite seq_length. rewrite seq_nth by assumption. cbn [option_map Nat.add].
  rewrite Hi, H0. eexists. split; [reflexivity|].
  assert (K : kept drop (r_y r) = if drop then present (r_y r) else map fst (r_y r)).
  { destruct drop; [apply kept_present|reflexivity]. }
  destruct (Nat.ltb_spec 0 i) as [L0|L0], (Nat.eqb_spec (r_var r) (r_var r0)) as [V|V], (r_f r) as [g|], (r_f r0) as [g0|]; cbn [andb];
    (split; [split; [intros E; try discriminate E; auto|intros (A & B & C & D); try discriminate; try lia; try congruence; reflexivity]
            |intros y E; try discriminate E; injection E as <-; rewrite K; cbn [apply_f]; now rewrite ?map_id]).
Qed.
Print Assumptions C179_responses.

(** get_llk with the drop_NA of the fit is the log-likelihood of the data fitted, minus half the penalty if asked for. *)
Theorem C179_llk C X mats llk (m : gmodel C) c pen :
  g_coef m = Some c ->
  @get_llk C X mats llk m pen (g_drop m)
  = Some (llk c (get_ys (g_drop m) (g_forms m)) (mats (g_drop m)) - (if pen then g_penalty m / 2 else 0)) /\
  (g_drop m = true -> @compared_llk C X mats llk m (g_drop m) = @get_llk C X mats llk m false (g_drop m)).
Proof.
  intros H. unfold compared_llk, get_llk. rewrite H. split.
  - f_equal. destruct pen; unfold Rdiv; ring.
  - intros ->. reflexivity.
Qed.
Print Assumptions C179_llk.

(** A model that has not been fitted has no log-likelihood. *)
Theorem C179_unfitted C X mats llk (m : gmodel C) pen drop : g_coef m = None -> @get_llk C X mats llk m pen drop = None.
Proof. intros H. unfold get_llk. now rewrite H. Qed.
Print Assumptions C179_unfitted.

Example C179_case : exists m : gmodel R,
  g_coef m = Some 1 /\ g_drop m = true /\
  get_ys true (g_forms m) = [Some [3]; None; Some [7]] /\ get_ys false (g_forms m) = [Some [3; 0]; None; Some [7; 8]].
Proof.
  exists {| g_forms := [{| r_var := 0; r_f := None; r_y := [(3, true); (0, false)] |};
                        {| r_var := 0; r_f := None; r_y := [(3, true); (0, false)] |};
                        {| r_var := 1; r_f := None; r_y := [(7, true); (8, false)] |}];
            g_coef := Some 1; g_penalty := 2; g_drop := true |}.
  repeat split.
Qed.

(** REFUTED: compare_CDL with the drop_NA of the fits compares the log-likelihoods of the fits.  It always drops rows:
    for models fitted with drop_NA=False (rows with a missing response contribute, as in survival models or with own
    handling of NaN) another log-likelihood is compared. *)
Theorem C179_compare_refuted : exists (mats : bool -> unit) (llk : R -> list (option (list R)) -> unit -> R) (m : gmodel R),
  g_drop m = false /\
  get_llk mats llk m false (g_drop m) <> None /\
  compared_llk mats llk m (g_drop m) <> get_llk mats llk m false (g_drop m).
Proof.
  exists (fun _ => tt), (fun _ ys _ => match ys with Some y :: _ => INR (length y) | _ => 0 end),
    {| g_forms := [{| r_var := 0; r_f := None; r_y := [(3, true); (0, false)] |}]; g_coef := Some 1; g_penalty := 0; g_drop := false |}.
  split; [reflexivity|]. split; [discriminate|]. unfold compared_llk, get_llk. cbn. intros E. injection E as E. lra.
Qed.
Print Assumptions C179_compare_refuted.
