(** The properties of the vague prior. *)

From Coq Require Import List Arith Bool Reals Lra Lia.
From Verif Require Import VagueModel VagueSpec VagueProofs.
Import ListNotations.
Local Open Scope R_scope.

(** A model with one formula, or with several but without null-space penalties of its own, is given exactly the
    documented prior. *)
Theorem C103_documented lambda_0 values fs :
  (length fs <= 1)%nat \/ (forall t, In t (concat fs) -> has_null t = false) ->
  forall b, prior lambda_0 values fs b = documented lambda_0 values fs b.
Proof.
  intros H. apply prior_documented. intros fi ti o t i. destruct H as [H|H].
  - destruct fs as [|f [|]]; [contradiction|now apply chosen_one|simpl in H; lia].
  - now apply chosen_none.
Qed.

(** The prior is proper for all coefficients and extra parameters, however many formulas there are, if lambda_0 and
    the values for the extra parameters are positive and the model has no impulse response terms and no
    unpenalised smooths. *)
Theorem C103_proper lambda_0 values fs : 0 < lambda_0 -> Forall (fun v => 0 < v) values ->
  (forall t, In t (concat fs) -> regular t) ->
  proper (list_sum (map width (concat fs)) + length values) (prior lambda_0 values fs).
Proof.
  intros l0 V H b nz. apply Rlt_le_trans with (documented lambda_0 values fs b).
  - unfold documented. change (fun k => b (list_sum (map width (concat fs)) + k)%nat) with (part b (list_sum (map width (concat fs)))).
    apply (over_proper (fun t b => own t b + vague lambda_0 t b)); auto. intros t i. apply regular_proper; auto.
  - apply prior_ge; auto. intros t i. now destruct (H t i) as [_ [h _]].
Qed.

(** ** Cases *)

Definition intercept := Term Linear 1 false false (fun _ => 0) (fun _ => 0) 0.
(** A smooth of two coefficients: a first-order difference penalty leaves constants unpenalised. *)
Definition diff2 (b : coefs) : R := (b 1%nat - b 0%nat) ^ 2.
Definition mean2 (b : coefs) : R := (b 0%nat + b 1%nat) ^ 2 / 2.
Definition smooth (own_null : bool) := Term Smooth 2 false own_null diff2 mean2 3.
Definition impulse := Term Irf 2 false false diff2 (fun _ => 0) 0.
Definition unpenalised := Term Smooth 2 false false (fun _ => 0) (fun _ => 0) 0.

Lemma smooth_regular n : regular (smooth n).
Proof.
  assert (d : forall b, 0 <= diff2 b) by (intros b; apply pow2_ge_0).
  assert (m : forall b, 0 <= mean2 b). { intros b. unfold mean2. assert (h := pow2_ge_0 (b 0%nat + b 1%nat)). lra. }
  repeat split; cbn [pens nulls nlam smooth tkind is_fs andb width]; auto; try (intros; lra).
  intros b [k [kn nz]]. unfold diff2, mean2. destruct k as [|[|k]]; [| |lia].
  - apply sq_pos in nz. assert (h := pow2_ge_0 (b 1%nat)). 
    assert (h2 := pow2_ge_0 (b 0%nat - 3 * b 1%nat)). simpl in *. nra.
  - apply sq_pos in nz. assert (h := pow2_ge_0 (b 0%nat)). 
    assert (h2 := pow2_ge_0 (b 1%nat - 3 * b 0%nat)). simpl in *. nra.
Qed.

Example C103_case : (forall t, In t (concat [[intercept; smooth false]; [intercept; smooth true]]) -> regular t) /\
  documented 1 [5] [[intercept; smooth false]; [intercept; smooth true]] (fun k => INR k)
  = (0 + 0 ^ 2) + ((2 - 1) ^ 2 + (1 + 2) ^ 2 / 2) + (3 ^ 2 + ((5 - 4) ^ 2 + 3 * ((4 + 5) ^ 2 / 2)) + 5 * 6 ^ 2).
Proof.
  split.
  - intros t [<-|[<-|[<-|[<-|[]]]]]; try apply smooth_regular; repeat split; cbn; intros; lra || discriminate.
  - unfold documented. cbn [concat app over_terms over_values map list_sum fold_right width intercept smooth own vague pens nulls nlam has_null tkind is_fs squares].
    unfold own, vague, diff2, mean2. cbn. unfold mean2. cbn. lra.
Qed.

(** ** Refutations *)

(** Two formulas: the smooth of the second one that has its own null-space penalty is given another one with
    lambda_0, because its position is that of another smooth in the first formula. *)
Theorem C103_twice_refuted : exists fs b, (forall t, In t (concat fs) -> regular t) /\
  documented 1 [] fs b < prior 1 [] fs b.
Proof.
  exists [[intercept; smooth false]; [intercept; smooth true; smooth false]], (fun k => INR k). split.
  - intros t [<-|[<-|[<-|[<-|[<-|[]]]]]]; try apply smooth_regular; repeat split; cbn; intros; lra || discriminate.
  - unfold prior, S_emb, S_f_emb, extra, documented. cbn. unfold own, vague, diff2, mean2, part. cbn. unfold mean2. cbn. lra.
Qed.

(** Impulse response terms, penalised by differences or not, and smooths without penalties keep an improper prior. *)
Theorem C103_improper_refuted : exists (irf free : term) b, (forall b, 0 <= pens irf b) /\ (exists k, (k < 2)%nat /\ b (1 + k)%nat <> 0) /\
  tkind irf = Irf /\ tkind free = Smooth /\
  forall lambda_0 t, t = irf \/ t = free -> width t = 2%nat /\ prior lambda_0 [] [[intercept; t]] b = 0 /\
    ~ proper (list_sum (map width [intercept; t])) (prior lambda_0 [] [[intercept; t]]).
Proof.
  exists impulse, unpenalised, (fun k => match k with O => 0 | _ => 1 end).
  split; [intros b; apply pow2_ge_0|]. split; [exists 0%nat; split; [lia|simpl; lra]|]. split; [reflexivity|]. split; [reflexivity|].
  intros lambda_0 t ht.
  assert (E : prior lambda_0 [] [[intercept; t]] (fun k => match k with O => 0 | _ => 1 end) = 0).
  { destruct ht as [-> | ->]; unfold prior, S_emb, S_f_emb, extra; cbn; unfold diff2, part; cbn; lra. }
  split; [destruct ht as [-> | ->]; reflexivity|]. split; auto. intros P.
  specialize (P (fun k => match k with O => 0 | _ => 1 end)). rewrite E in P. apply (Rlt_irrefl 0), P.
  exists 1%nat. split; [destruct ht as [-> | ->]; simpl; lia|lra].
Qed.

Print Assumptions C103_documented.
Print Assumptions C103_proper.
Print Assumptions C103_twice_refuted.
Print Assumptions C103_improper_refuted.
