(** C54: after fitting again, results refer to the latest fit. *)

From Coq Require Import List Bool Reals Lra.
From Verif Require Import RefitModel.
Import ListNotations.
Local Open Scope R_scope.

Section Latest.
Variables V M Pens Theta : Type.
Variables (y : V) (X : M) (gauss twopar : bool).
Variables (mv : M -> V -> V) (vminus : V -> V -> V) (vplus : V -> V -> V) (vzero : V).
Variables (link_fi : V -> V) (fam_llk : Theta -> V -> V -> option R -> R) (dev_resid : Theta -> V -> V -> V).
Variable ar_cor : R -> R.
Variables (expected : option M -> option R -> M -> R -> M) (observed : M -> M -> R -> M).
Variable bias_edf : M -> M -> R -> Pens -> R.
Variables (fresh_pens : Pens) (zero_columns : M -> list nat -> M).
Variable solve : Pens -> Theta -> V -> M -> option V -> option R -> solution V M Pens Theta + (Pens * Theta).
Notation state := (state V M Pens Theta).
Notation call := (call V M).
Notation new_model := (new_model V M Pens Theta).
Notation fit := (fit V M Pens Theta y X gauss mv vminus vplus expected observed fresh_pens zero_columns solve).
Notation run := (run V M Pens Theta y X gauss mv vminus vplus expected observed bias_edf fresh_pens zero_columns solve).
Notation act := (act V M Pens Theta y X gauss mv vminus vplus expected observed bias_edf fresh_pens zero_columns solve).
Notation get_llk := (get_llk V M Pens Theta y gauss twopar vzero link_fi fam_llk ar_cor).
Notation get_resid := (get_resid V M Pens Theta y gauss link_fi dev_resid).
Notation get_mmat := (get_mmat V M Pens Theta X).
Notation compute_edf1 := (compute_edf1 V M Pens Theta bias_edf).

(** Everything a user can ask for. *)
Definition same_answers (st st' : state) : Prop :=
  (forall penalized, get_llk st penalized = get_llk st' penalized) /\ get_resid st Pearson = get_resid st' Pearson /\
  get_resid st Deviance = get_resid st' Deviance /\ get_mmat st = get_mmat st' /\
  coef _ _ _ _ st = coef _ _ _ _ st' /\ scale _ _ _ _ st = scale _ _ _ _ st' /\ hessian _ _ _ _ st = hessian _ _ _ _ st' /\
  lvi _ _ _ _ st = lvi _ _ _ _ st' /\ edf _ _ _ _ st = edf _ _ _ _ st' /\ penalty _ _ _ _ st = penalty _ _ _ _ st'.
Definition same_ar1_residuals (st st' : state) : Prop := get_resid st Ar1 = get_resid st' Ar1.
(** The bias corrected degrees of freedom after compute_bias_corrected_edf. *)
Definition edf1_of (st : state) (overwrite : bool) : option R := match compute_edf1 st overwrite with Some st' => edf1 _ _ _ _ st' | None => None end.

Lemma rho_kept st c : c_rho _ _ c = None -> rho _ _ _ _ (snd (fit st c)) = rho _ _ _ _ st.
Proof.
  intros E. unfold RefitModel.fit. rewrite E. destruct (if c_restart _ _ c then _ else _) as [p|]; [|easy]. cbv zeta.
  destruct solve as [s|[p' th']]; [|easy]. destruct gauss; easy.
Qed.
Lemma transform_kept st c : c_transform _ _ c = None -> transform _ _ _ _ (snd (fit st c)) = transform _ _ _ _ st.
Proof.
  intros E. unfold RefitModel.fit. rewrite E. destruct (if c_restart _ _ c then _ else _) as [p|]; [|easy]. cbv zeta.
  destruct solve as [s|[p' th']]; [|easy]. destruct gauss; destruct (c_rho _ _ c); easy.
Qed.
Lemma edf1_kept st c : edf1 _ _ _ _ (snd (fit st c)) = edf1 _ _ _ _ st.
Proof.
  unfold RefitModel.fit. destruct (if c_restart _ _ c then _ else _) as [p|]; [|easy]. cbv zeta.
  destruct solve as [s|[p' th']]; [|easy]. destruct gauss; destruct (c_rho _ _ c); easy.
Qed.
Lemma run_rho : forall h st, (forall c, In (Fit V M c) h -> c_rho _ _ c = None) -> rho _ _ _ _ (run st h) = rho _ _ _ _ st.
Proof.
  induction h as [|a h IH]; intros st H; [easy|]. change (run st (a :: h)) with (run (act st a) h). rewrite IH by (intros c Hc; apply H; now right). destruct a as [c|ow]; cbn.
  - apply rho_kept. apply H. now left.
  - unfold RefitModel.compute_edf1. destruct (edf1 _ _ _ _ st), ow; try easy; destruct (hessian _ _ _ _ st), (lvi _ _ _ _ st), (pens _ _ _ _ st); easy.
Qed.
Lemma run_transform : forall h st, (forall c, In (Fit V M c) h -> c_transform _ _ c = None) -> transform _ _ _ _ (run st h) = transform _ _ _ _ st.
Proof.
  induction h as [|a h IH]; intros st H; [easy|]. change (run st (a :: h)) with (run (act st a) h). rewrite IH by (intros c Hc; apply H; now right). destruct a as [c|ow]; cbn.
  - apply transform_kept. apply H. now left.
  - unfold RefitModel.compute_edf1. destruct (edf1 _ _ _ _ st), ow; try easy; destruct (hessian _ _ _ _ st), (lvi _ _ _ _ st), (pens _ _ _ _ st); easy.
Qed.
Lemma run_edf1 : forall h st, (forall ow, ~ In (Edf1 V M ow) h) -> edf1 _ _ _ _ (run st h) = edf1 _ _ _ _ st.
Proof.
  induction h as [|a h IH]; intros st H; [easy|]. change (run st (a :: h)) with (run (act st a) h). rewrite IH by (intros ow Ho; apply (H ow); now right). destruct a as [c|ow]; cbn.
  - apply edf1_kept.
  - exfalso. apply (H ow). now left.
Qed.

(** *** C54: after any history of fits and queries, a new fit without restart answers like a new model fitted the same way, if
    rho and transform_X are given in the last call or were never given, and the estimates do not depend on starting
    values of theta. *)
Theorem C54_latest th history c :
  (forall p t t' v m o r, solve p t v m o r = solve p t' v m o r) -> c_restart _ _ c = false ->
  (c_rho _ _ c <> None \/ forall c', In (Fit V M c') history -> c_rho _ _ c' = None) ->
  (c_transform _ _ c <> None \/ forall c', In (Fit V M c') history -> c_transform _ _ c' = None) ->
  let before := run (new_model th) history in
  fst (fit before c) = None ->
  let latest := snd (fit before c) in let fresh := snd (fit (new_model th) c) in
  fst (fit (new_model th) c) = None /\ same_answers latest fresh /\ same_ar1_residuals latest fresh /\
  edf1_of latest true = edf1_of fresh true /\
  ((forall ow, ~ In (Edf1 V M ow) history) -> edf1_of latest false = edf1_of fresh false).
Proof.
  intros Hth HR Hrho Htr before HF latest fresh.
  assert (Er : rho _ _ _ _ before = None \/ c_rho _ _ c <> None).
  { destruct Hrho as [H|H]; [now right|left]. unfold before. now rewrite run_rho. }
  assert (Et : transform _ _ _ _ before = None \/ c_transform _ _ c <> None).
  { destruct Htr as [H|H]; [now right|left]. unfold before. now rewrite run_transform. }
  assert (Ee : (forall ow, ~ In (Edf1 V M ow) history) -> edf1 _ _ _ _ before = None).
  { intros H. unfold before. now rewrite run_edf1. }
  clearbody before. clear Hrho Htr. unfold latest, fresh, RefitModel.fit in *. rewrite HR in *. cbv zeta in *.
  rewrite (Hth fresh_pens (theta _ _ _ _ (new_model th)) (theta _ _ _ _ before)).
  destruct solve as [s|[p' th']]; [|discriminate HF]. split; [now destruct gauss, (c_rho _ _ c)|].
  assert (Rn : c_rho _ _ c = None -> rho _ _ _ _ before = None) by (intros E; destruct Er as [H|H]; [exact H|contradiction]).
  assert (Tn : c_transform _ _ c = None -> transform _ _ _ _ before = None) by (intros E; destruct Et as [H|H]; [exact H|contradiction]).
  clear Er Et HF. unfold same_answers, same_ar1_residuals, RefitModel.get_llk, RefitModel.get_resid, RefitModel.get_mmat, edf1_of, RefitModel.compute_edf1.
  destruct (c_rho _ _ c) as [r|] eqn:R1; destruct (c_transform _ _ c) as [t|] eqn:T1; destruct gauss;
    cbn [snd preds res penalty rho theta scale res_ar transform hessian coef lvi edf edf1 pens RefitModel.new_model];
    try rewrite (Rn eq_refl); try rewrite (Tn eq_refl);
    (split; [repeat split|split; [reflexivity|split; [destruct (edf1 _ _ _ _ before); reflexivity|intros H; rewrite (Ee H); reflexivity]]]).
Qed.
(** *** C54: what is reported after a fit without rho (in this or an earlier call): the solver saw y minus the offset (Gaussian
    models) or y and the offset, and log-likelihood, residuals and bias corrected degrees of freedom are those of its
    solution. *)
Theorem C54_answers st c s : c_restart _ _ c = false -> c_rho _ _ c = None -> rho _ _ _ _ st = None ->
  let mat := match c_transform _ _ c with Some t => t X | None => X end in
  let seen := match gauss, c_offset _ _ c with true, Some o => vminus y o | _, _ => y end in
  solve fresh_pens (theta _ _ _ _ st) seen mat (if gauss then None else c_offset _ _ c) None = inl s -> s_dropped _ _ _ _ s = None ->
  let st' := snd (fit st c) in
  let mu := if gauss then match c_offset _ _ c with Some o => vplus (s_eta _ _ _ _ s) o | None => s_eta _ _ _ _ s end else link_fi (s_eta _ _ _ _ s) in
  let value := fam_llk (s_theta _ _ _ _ s) y mu (if twopar then Some (s_scale _ _ _ _ s) else None) in
  let info := expected (if gauss then None else Some (s_Wr _ _ _ _ s)) None mat (s_scale _ _ _ _ s) in
  get_llk st' false = Some value /\ get_llk st' true = Some (value - s_penalty _ _ _ _ s / 2) /\
  get_resid st' Pearson = Some (Some (s_wres _ _ _ _ s)) /\ get_resid st' Deviance = Some (Some (dev_resid (s_theta _ _ _ _ s) y mu)) /\
  coef _ _ _ _ st' = Some (s_coef _ _ _ _ s) /\ hessian _ _ _ _ st' = Some info /\
  edf1_of st' true = Some (bias_edf info (s_lvi _ _ _ _ s) (s_scale _ _ _ _ s) (s_pens _ _ _ _ s)).
Proof.
  intros HR Hr Hs mat seen E Hd st'. unfold st', RefitModel.fit. rewrite HR, Hr, Hs. cbv zeta.
  assert (Es : seen = if gauss then match c_offset _ _ c with Some o => vminus y o | None => y end else y) by
    (unfold seen; destruct gauss; now destruct (c_offset _ _ c)).
  rewrite <- Es.
  fold mat. rewrite E, Hd. cbv zeta.
  unfold RefitModel.get_llk, RefitModel.get_resid, edf1_of, RefitModel.compute_edf1.
  destruct gauss; destruct twopar; cbn [snd preds res penalty rho theta scale res_ar transform hessian coef lvi edf edf1 pens];
    (split; [f_equal; lra|]); (split; [f_equal; lra|]); repeat split; destruct (edf1 _ _ _ _ st); reflexivity.
Qed.
End Latest.

(** A small instance: vectors, matrices, penalties are numbers; the coefficient is y - rho, its prediction X times it; the family's
    log-likelihood is minus the squared difference. *)
Definition toy_solve (p : R) (th : unit) (v m : R) (o : option R) (r : option R) : solution R R R unit + (R * unit) :=
  match r with
  | Some r => if Rlt_dec 1 r then inr (p, tt) else inl (Solution R R R unit (v - r) (m * (v - r)) r r 1 1 1 1 1 0 None p tt)
  | None => inl (Solution R R R unit v (m * v) (v - m * v) 0 1 1 1 m 1 0 None p tt)
  end.
Notation toy_fit := (fit R R R unit 2 1 true Rmult Rminus Rplus (fun _ _ m s => m * s) (fun _ m s => m * s) 1 (fun m _ => m) toy_solve).
Notation toy_run := (run R R R unit 2 1 true Rmult Rminus Rplus (fun _ _ m s => m * s) (fun _ m s => m * s) (fun h l s p => h * l * s * p) 1 (fun m _ => m) toy_solve).
Notation toy_llk := (get_llk R R R unit 2 true true 0 (fun x => x) (fun _ y mu _ => - (y - mu) * (y - mu)) (fun r => r)).
Notation toy_resid := (get_resid R R R unit 2 true (fun x => x) (fun _ y mu => y - mu)).
Notation toy_mmat := (get_mmat R R R unit 1).
Definition plain : call R R := Call R R false None None None.
Definition with_rho (r : R) : call R R := Call R R false (Some r) None None.
Definition with_transform : call R R := Call R R false None (Some (fun m => 3 * m)) None.
Notation toy_new := (new_model R R R unit tt).

(** *** C54: a fit without rho after one with rho keeps using rho: the log-likelihood is that of the residuals of the earlier
    fit, which are also still returned. *)
Theorem C54_rho_refuted : exists c0 c, let st := toy_run toy_new [Fit R R c0; Fit R R c] in let fresh := toy_run toy_new [Fit R R c] in
  fst (toy_fit (toy_run toy_new [Fit R R c0]) c) = None /\ coef _ _ _ _ st = coef _ _ _ _ fresh /\
  toy_llk st false <> toy_llk fresh false /\ toy_resid st Ar1 = Some (Some (1/2)) /\ toy_resid fresh Ar1 = None.
Proof.
  exists (with_rho (1/2)), plain. cbn. unfold toy_solve. cbn. destruct (Rlt_dec 1 (1/2)) as [L|_]; [lra|]. cbn.
  split; [easy|]. split; [easy|]. split; [|easy]. intros H. injection H as H. lra.
Qed.

(** *** C54: a fit without transform_X after one with it returns the transformed model matrix. *)
Theorem C54_transform_refuted : exists c0 c, let st := toy_run toy_new [Fit R R c0; Fit R R c] in let fresh := toy_run toy_new [Fit R R c] in
  coef _ _ _ _ st = coef _ _ _ _ fresh /\ preds _ _ _ _ st = preds _ _ _ _ fresh /\ toy_mmat st <> toy_mmat fresh.
Proof. exists with_transform, plain. cbn. split; [easy|]. split; [easy|]. lra. Qed.

(** *** C54: bias corrected degrees of freedom computed once are never updated. *)
Theorem C54_edf1_refuted : exists c0 c,
  let st := toy_run toy_new [Fit R R c0; Edf1 R R false; Fit R R c; Edf1 R R false] in
  let fresh := toy_run toy_new [Fit R R c; Edf1 R R false] in
  lvi _ _ _ _ st = lvi _ _ _ _ fresh /\ edf1 _ _ _ _ st <> edf1 _ _ _ _ fresh /\ edf1 _ _ _ _ fresh <> None.
Proof.
  exists with_transform, plain. cbn. split; [easy|]. split; [|discriminate]. intros H. injection H as H. lra.
Qed.

(** *** C54: a fit that fails has already replaced rho, so the log-likelihood of the earlier, still stored, estimates changes. *)
Theorem C54_failed_refuted : exists c0 c, let before := toy_run toy_new [Fit R R c0] in
  fst (toy_fit before c) = Some SolverError /\ let after := snd (toy_fit before c) in
  coef _ _ _ _ after = coef _ _ _ _ before /\ preds _ _ _ _ after = preds _ _ _ _ before /\ toy_llk after false <> toy_llk before false.
Proof.
  exists plain, (with_rho 2). cbn. unfold toy_solve. cbn. destruct (Rlt_dec 1 2) as [_|L]; [|lra]. cbn.
  split; [easy|]. split; [easy|]. split; [easy|]. intros H. injection H as H. lra.
Qed.

(** The theorem applies to a fit with rho after several others. *)
Example C54_case : let h := [Fit R R plain; Edf1 R R false; Fit R R (with_rho (1/3))] in
  fst (toy_fit (toy_run toy_new h) (with_rho (1/2))) = None /\
  (c_rho _ _ (with_rho (1/2)) <> None) /\ (forall c', In (Fit R R c') h -> c_transform _ _ c' = None) /\
  toy_llk (snd (toy_fit (toy_run toy_new h) (with_rho (1/2)))) false = Some (1/4).
Proof.
  cbn. unfold toy_solve. cbn. destruct (Rlt_dec 1 (1/3)) as [L|_]; [lra|]. cbn. destruct (Rlt_dec 1 (1/2)) as [L|_]; [lra|]. cbn.
  split; [easy|]. split; [discriminate|]. split; [|f_equal; lra].
  intros c' [H|[H|[H|H]]]; try discriminate; try contradiction; injection H as <-; easy.
Qed.

(** And the explicit answers to one with an offset. *)
Example C54_answers_case : let c := Call R R false None None (Some 1) in
  toy_solve 1 tt (2 - 1) 1 None None = inl (Solution R R R unit (2 - 1) (1 * (2 - 1)) (2 - 1 - 1 * (2 - 1)) 0 1 1 1 1 1 0 None 1 tt) /\
  toy_llk (snd (toy_fit toy_new c)) true = Some 0.
Proof. cbn. split; [easy|]. f_equal. lra. Qed.

Print Assumptions C54_latest.
Print Assumptions C54_answers.
Print Assumptions C54_rho_refuted.
Print Assumptions C54_transform_refuted.
Print Assumptions C54_edf1_refuted.
Print Assumptions C54_failed_refuted.
