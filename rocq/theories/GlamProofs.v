(** Lemmas for GlamProps. *)

From Coq Require Import List Arith Bool Reals Lra Lia.
From Verif Require Import Ext LamModel LamSpec LamProofs GlamModel GlamSpec.
Import ListNotations.
Local Open Scope R_scope.

Lemma between l d r : in_range l -> in_range (l + d) -> 0 <= r <= 1 -> in_range (l + r * d).
Proof. unfold in_range. intros. nra. Qed.

Lemma sign_scale d m : 0 <= m <= Rabs d -> exists r, 0 <= r <= 1 /\ sign d * m = r * d.
Proof.
  intros [H0 H]. destruct (Rtotal_order d 0) as [N|[Z|P]].
  - rewrite (sign_neg d N). rewrite Rabs_left in H by assumption. exists (m / - d). split.
    + split; [apply Rmult_le_pos; [assumption|left; apply Rinv_0_lt_compat; lra]|]. apply Rmult_le_reg_r with (- d); [lra|].
      unfold Rdiv. rewrite Rmult_assoc, Rinv_l by lra. lra.
    + field. lra.
  - subst. rewrite sign_zero. exists 0. split; [lra|ring].
  - rewrite (sign_pos d P). rewrite Rabs_right in H by lra. exists (m / d). split.
    + split; [apply Rmult_le_pos; [assumption|left; apply Rinv_0_lt_compat; lra]|]. apply Rmult_le_reg_r with d; [lra|].
      unfold Rdiv. rewrite Rmult_assoc, Rinv_l by lra. lra.
    + field. lra.
Qed.

Lemma plain_range o p : in_range (lam p) -> in_range (lam p + plain_step o p).
Proof.
  intros H. destruct o as [[a b] c]. unfold plain_step.
  set (d := if frozen p then 0 else step_fellner_schall a b c (lam p) 1).
  assert (Hd : in_range (lam p + d)).
  { unfold d. destruct (frozen p); [now rewrite Rplus_0_r|]. apply range_lo_hi. apply fs_in_bounds. }
  destruct (rltb (a - b) 0); [|exact Hd].
  destruct (sign_scale d (Rmin (Rabs (lam p) * (1 / 1000)) (Rabs d))) as (r & Hr & Es).
  - split; [|apply Rmin_r]. apply Rmin_glb; [|apply Rabs_pos]. apply Rmult_le_pos; [apply Rabs_pos|lra].
  - rewrite Es. destruct (rltb (lam p + r * d) 0); [now rewrite Rplus_0_r|]. now apply between.
Qed.

Lemma plain_frozen o p : frozen p = true -> plain_step o p = 0.
Proof.
  intros H. destruct o as [[a b] c]. unfold plain_step. rewrite H. destruct (rltb (a - b) 0); [|reflexivity].
  rewrite sign_zero, Rmult_0_l. now destruct (rltb (lam p + 0) 0).
Qed.

Section Steps.
Variables (extend : bool) (meth : method).
Notation next := (next_pen extend meth).

Lemma undamped_ok outer o p : okc extend p -> okn extend (next outer None o p).
Proof.
  intros (H1 & H2 & H3 & H4 & H5). pose proof (plain_range o p H1) as HP. pose proof (plain_frozen o p) as HF.
  unfold next_pen. destruct extend eqn:Ee; cbn [andb].
  - destruct (frozen p) eqn:Ef; cbn [negb].
    + unfold okn. cbn [lam delta acc was frozen]. rewrite (HF eq_refl) in *. destruct (H4 eq_refl) as [_ W]. rewrite W.
      repeat split; try (apply H1); try (apply HP); try discriminate.
    + pose proof (extend_cases meth outer (plain_step o p) p) as Hx.
      destruct (extend_lambda_step meth outer (plain_step o p) p) as [d' q].
      destruct Hx as (E1 & E2 & E3 & E4 & Hx). unfold okn. cbn [lam delta acc was frozen]. rewrite E1, E2.
      destruct Hx as [(W & Ed & Hr & _)|(W & -> & _)]; rewrite W.
      * split; [exact H1|]. split; [exact Hr|]. split; [|split; [congruence|discriminate]].
        intros _. rewrite Ed. replace (lam p + (plain_step o p + acc q) - acc q) with (lam p + plain_step o p) by ring. exact HP.
      * split; [exact H1|]. split; [exact HP|]. split; [discriminate|]. split; [congruence|discriminate].
  - specialize (H5 eq_refl). unfold okn. cbn [lam delta acc was frozen]. rewrite H5.
    split; [exact H1|]. split; [exact HP|]. split; [discriminate|]. split; [|reflexivity]. intros Hf. split; [now apply HF|reflexivity].
Qed.

Lemma damped_ok r p : 0 <= r <= 1 -> okn extend p ->
  okn extend (mkPen (lam p) (frozen p) (r * delta p) (prev p) (if was p then acc p * r else acc p) (was p)).
Proof.
  intros Hr (H1 & H2 & H3 & H4 & H5). unfold okn. cbn [lam delta acc was frozen].
  split; [exact H1|]. split; [now apply between|]. split; [|split; [|exact H5]].
  - intros W. rewrite W. replace (lam p + r * delta p - acc p * r) with (lam p + r * (delta p - acc p)) by ring.
    apply between; [exact H1| |exact Hr]. replace (lam p + (delta p - acc p)) with (lam p + delta p - acc p) by ring. now apply H3.
  - intros Hf. destruct (H4 Hf) as [D W]. split; [rewrite D; ring|exact W].
Qed.

Lemma damping_range outer ps e l r : damping outer ps e l = Some r -> 0 <= r <= 1.
Proof.
  unfold damping. destruct (_ || _); [|discriminate]. intros E. injection E as <-. rewrite Rmult_1_l.
  split; [apply pow_le; lra|]. generalize (outer - 50)%nat. intros k. rewrite <- (pow1 k). apply pow_incr. lra.
Qed.

Lemma next_pen_ok outer ps e l o p : okc extend p -> okn extend (next outer (damping outer ps e l) o p).
Proof.
  intros H. pose proof (undamped_ok outer o p H) as U. destruct (damping outer ps e l) as [r|] eqn:E; [|exact U].
  unfold next_pen in *. exact (damped_ok r _ (damping_range _ _ _ _ _ E) U).
Qed.

Lemma next_pen_lam outer damp o p : lam (next outer damp o p) = lam p /\ frozen (next outer damp o p) = frozen p.
Proof.
  unfold next_pen. destruct (extend && negb (frozen p)).
  - pose proof (extend_cases meth outer (plain_step o p) p) as Hx.
    destruct (extend_lambda_step meth outer (plain_step o p) p) as [d' q]. destruct Hx as (E1 & E2 & _).
    destruct damp; cbn [lam frozen]; now split.
  - destruct damp; cbn [lam frozen]; now split.
Qed.
End Steps.

Section Loop.
Variable F : Type.
Variable refit : F -> nat -> list R -> F.
Variable obs : F -> list (R * R * R).
Hypothesis obs_each : forall f k ls, length (obs (refit f k ls)) = length ls.
Variable pen_llk : F -> R.
Variable eps_of : F -> R.
Variable general : bool.
Variable control : nat.
Variable extend : bool.
Variable meth : method.
Variable converged : nat -> list (F * list pen) -> F -> list pen -> bool.

Notation hc := (halving_control general control).
Notation orself := (or_self false hc extend).
Notation lam_loop := (GlamModel.lam_loop F refit obs pen_llk general control extend).
Notation step := (correct_lambda_step_gamlss F refit obs pen_llk eps_of general control extend meth).
Notation outer_loop := (GlamModel.outer_loop F refit obs pen_llk eps_of general control extend meth converged).

(** What the loop returns was computed with the smoothing parameters it was computed with. *)
Lemma lam_loop_fit : forall fuel outer last ps f fitted ps', lam_loop fuel outer last ps = Some (f, fitted, ps') ->
  f = refit last outer fitted /\ length fitted = length ps /\ length ps' = length ps.
Proof.
  induction fuel as [|fuel IH]; intros outer last ps f fitted ps' E; cbn [GlamModel.lam_loop] in E; [discriminate|].
  assert (B : (refit last outer (map lam ps), map lam ps, ps) = (f, fitted, ps') -> f = refit last outer fitted /\ length fitted = length ps /\ length ps' = length ps).
  { intros Q. injection Q as <- <- <-. split; [reflexivity|]. split; [apply map_length|reflexivity]. }
  destruct (unchecked _ _ _); [injection E; intros; apply B; congruence|].
  destruct (rltb _ _); [|injection E; intros; apply B; congruence].
  destruct (_ || _).
  - injection E as <- <- <-. split; [reflexivity|]. now rewrite !map_length.
  - apply IH in E as (E1 & E2 & E3). rewrite map_length in E2, E3. auto.
Qed.

Lemma lam_loop_ok : forall fuel outer last ps f fitted ps', (forall p, In p ps -> okc extend p) ->
  lam_loop fuel outer last ps = Some (f, fitted, ps') -> forall p, In p ps' -> okc extend p.
Proof.
  induction fuel as [|fuel IH]; intros outer last ps f fitted ps' OK E; cbn [GlamModel.lam_loop] in E; [discriminate|].
  assert (OK' : forall p, In p (map orself ps) -> okc extend p).
  { intros p I. apply in_map_iff in I as (q & <- & Iq). apply reduce_ok. auto. }
  destruct (unchecked _ _ _); [injection E as <- <- <-; exact OK|].
  destruct (rltb _ _); [|injection E as <- <- <-; exact OK].
  destruct (_ || _); [injection E as <- <- <-; exact OK'|]. exact (IH _ _ _ _ _ _ OK' E).
Qed.

(** Fixed smoothing parameters *)
Definition holds_fixed (p q : pen) : Prop := frozen q = frozen p /\ (frozen p = true -> lam q = lam p).

Lemma orself_fixed p : okc extend p -> holds_fixed p (orself p).
Proof.
  intros (_ & _ & _ & H4 & _). unfold or_self, reduce_step. destruct (extend && was p) eqn:E.
  - split; [reflexivity|]. intros Hf. destruct (H4 Hf) as [_ W]. rewrite W, andb_false_r in E. discriminate.
  - destruct (false || (hc =? 2)%nat); [|split; reflexivity]. split; [reflexivity|]. intros Hf. destruct (H4 Hf) as [D _]. cbn. rewrite D. field.
Qed.

Lemma Forall2_map_self {A} (P : A -> A -> Prop) (f : A -> A) l : (forall a, In a l -> P a (f a)) -> Forall2 P l (map f l).
Proof. induction l as [|a l IH]; intros H; cbn; constructor; [apply H; now left|]. apply IH. intros b I. apply H. now right. Qed.

Lemma Forall2_compose {A} (P : A -> A -> Prop) : (forall a b c, P a b -> P b c -> P a c) ->
  forall l m k, Forall2 P l m -> Forall2 P m k -> Forall2 P l k.
Proof.
  intros T l m k H. revert k. induction H as [|a b l m Hab H IH]; intros k K; inversion K; subst; constructor; eauto.
Qed.

Lemma fixed_trans a b c : holds_fixed a b -> holds_fixed b c -> holds_fixed a c.
Proof. intros [H1 H2] [H3 H4]. split; [congruence|]. intros Hf. rewrite H4 by congruence. now apply H2. Qed.

Lemma lam_loop_fixed : forall fuel outer last ps f fitted ps', (forall p, In p ps -> okc extend p) ->
  lam_loop fuel outer last ps = Some (f, fitted, ps') -> Forall2 holds_fixed ps ps'.
Proof.
  assert (R0 : forall ps, Forall2 holds_fixed ps ps) by (intros ps; apply Forall2_same; intros p; split; reflexivity).
  induction fuel as [|fuel IH]; intros outer last ps f fitted ps' OK E; cbn [GlamModel.lam_loop] in E; [discriminate|].
  assert (OK' : forall p, In p (map orself ps) -> okc extend p).
  { intros p I. apply in_map_iff in I as (q & <- & Iq). apply reduce_ok. auto. }
  assert (S1 : Forall2 holds_fixed ps (map orself ps)) by (apply Forall2_map_self; intros; apply orself_fixed; auto).
  destruct (unchecked _ _ _); [injection E as <- <- <-; apply R0|].
  destruct (rltb _ _); [|injection E as <- <- <-; apply R0].
  destruct (_ || _); [injection E as <- <- <-; exact S1|].
  refine (Forall2_compose _ fixed_trans _ _ _ S1 (IH _ _ _ _ _ _ OK' E)).
Qed.

Lemma next_all outer damp os ps : length os = length ps ->
  map lam (map (fun x => next_pen extend meth outer damp (fst x) (snd x)) (combine os ps)) = map lam ps /\
  map frozen (map (fun x => next_pen extend meth outer damp (fst x) (snd x)) (combine os ps)) = map frozen ps.
Proof.
  revert os. induction ps as [|p ps IH]; intros [|o os] L; try discriminate; [split; reflexivity|].
  cbn [combine map fst snd]. destruct (IH os) as [E1 E2]; [now injection L|]. rewrite E1, E2.
  destruct (next_pen_lam extend meth outer damp o p) as [F1 F2]. now rewrite F1, F2.
Qed.

(** One call of step control *)
Lemma step_spec fuel outer last le ps f fitted ps' : (forall p, In p ps -> okc extend p) ->
  step fuel outer last le ps = Some (f, fitted, ps') ->
  f = refit last outer fitted /\ (forall p, In p ps' -> okn extend p) /\
  exists ps1, lam_loop fuel outer last ps = Some (f, fitted, ps1) /\ map lam ps' = map lam ps1 /\ map frozen ps' = map frozen ps1.
Proof.
  intros OK E. unfold correct_lambda_step_gamlss in E.
  destruct (lam_loop fuel outer last ps) as [[[f1 fit1] ps1]|] eqn:EL; [|discriminate].
  injection E as <- <- <-. destruct (lam_loop_fit _ _ _ _ _ _ _ EL) as (E1 & E2 & E3). split; [exact E1|]. split.
  - intros p I. apply (in_combine_nexts (fun o p => next_pen extend meth outer (damping outer ps1 (eps_of f1) le) o p)) in I.
    destruct I as (o & q & Iq & ->). apply next_pen_ok. exact (lam_loop_ok _ _ _ _ _ _ _ OK EL q Iq).
  - exists ps1. split; [reflexivity|]. apply next_all. rewrite E1, obs_each, E2, E3. reflexivity.
Qed.

Lemma fixed_same_lams ps a b : map lam b = map lam a -> map frozen b = map frozen a -> Forall2 holds_fixed ps a -> Forall2 holds_fixed ps b.
Proof.
  intros E1 E2 H. revert b E1 E2. induction H as [|p q l m H1 H IH]; intros [|x b] E1 E2; try discriminate; constructor.
  - cbn in E1, E2. injection E1 as E1 _. injection E2 as E2 _. destruct H1 as [H1 H2]. split; [congruence|]. intros Hf. rewrite E1. auto.
  - cbn in E1, E2. injection E1 as _ E1. injection E2 as _ E2. now apply IH.
Qed.

Lemma apply_fixed p : okn extend p -> holds_fixed p (apply_step p).
Proof. intros (_ & _ & _ & H4 & _). split; [reflexivity|]. intros Hf. destruct (H4 Hf) as [D _]. cbn. rewrite D. ring. Qed.

(** The whole loop: range and fixed parameters *)
Lemma outer_spec : forall remaining fuel outer last le hist ps r, (forall p, In p ps -> okc extend p) ->
  outer_loop remaining fuel outer last le hist ps = Some r ->
  (forall p, In p (r_pens F r) -> in_range (lam p)) /\ Forall2 holds_fixed ps (r_pens F r) /\
  exists last' outer', r_fit F r = refit last' outer' (r_fitted F r).
Proof.
  induction remaining as [|remaining IH]; intros fuel outer last le hist ps r OK E; cbn [GlamModel.outer_loop] in E.
  all: destruct (step fuel outer last le ps) as [[[f fitted] ps1]|] eqn:ES; [|discriminate].
  all: destruct (step_spec _ _ _ _ _ _ _ _ OK ES) as (E1 & OKN & ps0 & EL & EM & EF).
  all: assert (FX : Forall2 holds_fixed ps ps1) by (apply (fixed_same_lams ps ps0 ps1 EM EF); exact (lam_loop_fixed _ _ _ _ _ _ _ OK EL)).
  all: assert (OK' : forall p, In p (map apply_step ps1) -> okc extend p) by
    (intros p I; apply in_map_iff in I as (q & <- & Iq); apply apply_ok; auto).
  all: assert (FX' : Forall2 holds_fixed ps (map apply_step ps1)) by
    (refine (Forall2_compose _ fixed_trans _ _ _ FX _); apply Forall2_map_self; intros; apply apply_fixed; auto).
  all: destruct (_ && _).
  - injection E as <-. cbn [r_pens r_fit r_fitted]. split; [intros p I; apply OKN; exact I|]. split; [exact FX|]. now exists last, outer.
  - injection E as <-. cbn [r_pens r_fit r_fitted]. split; [intros p I; apply OK'; exact I|]. split; [exact FX'|]. now exists last, outer.
  - injection E as <-. cbn [r_pens r_fit r_fitted]. split; [intros p I; apply OKN; exact I|]. split; [exact FX|]. now exists last, outer.
  - destruct (IH _ _ _ _ _ _ _ OK' E) as (G1 & G2 & G3). split; [exact G1|]. split; [|exact G3].
    exact (Forall2_compose _ fixed_trans _ _ _ FX' G2).
Qed.

(** Smoothing parameters and fit *)
Lemma lam_loop_exact fuel outer last ps f fitted ps' : extend = false -> (control < 2)%nat ->
  lam_loop fuel outer last ps = Some (f, fitted, ps') -> map lam ps' = fitted.
Proof.
  intros Ee Hc E. destruct fuel as [|fuel]; cbn [GlamModel.lam_loop] in E; [discriminate|].
  replace (unchecked control extend outer) with true in E.
  - injection E as <- <- <-. reflexivity.
  - symmetry. unfold unchecked. rewrite Ee. replace (control <? 2)%nat with true by (symmetry; now apply Nat.ltb_lt).
    cbn [negb andb]. now rewrite orb_true_r.
Qed.

Lemma unextended_halved ps : extend = false -> (hc =? 2)%nat = true -> map delta (map orself ps) = map (fun x => x / 2) (map delta ps).
Proof.
  intros Ee Eh. rewrite !map_map. apply map_ext. intros p. unfold or_self, reduce_step. rewrite Ee. cbn [andb orb]. now rewrite Eh.
Qed.

Lemma lam_loop_close : extend = false -> forall fuel outer last ps f fitted ps',
  lam_loop fuel outer last ps = Some (f, fitted, ps') -> Forall2 (fun p z => Rabs (lam p - z) < lo) ps' fitted.
Proof.
  intros Ee. assert (R0 : forall ps, Forall2 (fun p z => Rabs (lam p - z) < lo) ps (map lam ps)).
  { pose proof lo_hi. induction ps; cbn; constructor; auto. rewrite Rminus_diag_eq, Rabs_R0 by reflexivity. lra. }
  induction fuel as [|fuel IH]; intros outer last ps f fitted ps' E; cbn [GlamModel.lam_loop] in E; [discriminate|].
  destruct (unchecked _ _ _); [injection E as <- <- <-; apply R0|].
  destruct (rltb _ _); [|injection E as <- <- <-; apply R0].
  match type of E with (if negb ?c || ?t then _ else _) = _ => destruct (negb c || t) eqn:EC end.
  - injection E as <- <- <-. destruct (hc =? 2)%nat eqn:Eh.
    + apply orb_prop in EC as [EC|EC].
      * destruct ps as [|p ps]; [constructor|]. exfalso. cbn [existsb] in EC. unfold reduce_step in EC at 1. rewrite Ee in EC. cbn [andb orb] in EC.
        rewrite Eh in EC. discriminate.
      * apply rltb_true in EC. rewrite unextended_halved in EC by assumption.
        assert (D : forall p, In p ps -> Rabs (lam (orself p) - lam p) < lo).
        { intros p Hp. unfold or_self, reduce_step. rewrite Ee. cbn [andb orb]. rewrite Eh. cbn [lam].
          replace (lam p - delta p / 2 - lam p) with (- (delta p / 2)) by ring. rewrite Rabs_Ropp.
          eapply Rle_lt_trans; [|exact EC]. apply norm_entry. apply in_map_iff. exists (delta p). split; [reflexivity|]. now apply in_map. }
        clear -D. induction ps as [|p ps IH]; cbn; constructor; [apply D; now left|]. apply IH. intros q I. apply D. now right.
    + replace (map orself ps) with ps; [apply R0|]. symmetry. rewrite <- (map_id ps) at 2. apply map_ext. intros p.
      unfold or_self, reduce_step. rewrite Ee. cbn [andb orb]. now rewrite Eh.
  - exact (IH _ _ _ _ _ _ E).
Qed.

Lemma Forall2_lams (a b : list pen) z : map lam b = map lam a ->
  Forall2 (fun p z => Rabs (lam p - z) < lo) a z -> closer lo (map lam b) z.
Proof. intros E H. rewrite E. clear E b. induction H; cbn; constructor; auto. Qed.

Lemma outer_close : extend = false -> forall remaining fuel outer last le hist ps r, (forall p, In p ps -> okc extend p) ->
  outer_loop remaining fuel outer last le hist ps = Some r -> r_conv F r = true ->
  closer lo (map lam (r_pens F r)) (r_fitted F r) /\ ((control < 2)%nat -> map lam (r_pens F r) = r_fitted F r).
Proof.
  intros Ee. induction remaining as [|remaining IH]; intros fuel outer last le hist ps r OK E C; cbn [GlamModel.outer_loop] in E.
  all: destruct (step fuel outer last le ps) as [[[f fitted] ps1]|] eqn:ES; [|discriminate].
  all: destruct (step_spec _ _ _ _ _ _ _ _ OK ES) as (E1 & OKN & ps0 & EL & EM & EF).
  all: assert (OK' : forall p, In p (map apply_step ps1) -> okc extend p) by
    (intros p I; apply in_map_iff in I as (q & <- & Iq); apply apply_ok; auto).
  all: destruct (_ && _); [injection E as <-; cbn [r_pens r_fitted]; split;
    [exact (Forall2_lams _ _ _ EM (lam_loop_close Ee _ _ _ _ _ _ _ EL))|intros Hc; rewrite EM; exact (lam_loop_exact _ _ _ _ _ _ _ Ee Hc EL)]|].
  - injection E as <-. discriminate.
  - exact (IH _ _ _ _ _ _ _ OK' E C).
Qed.

(** Step control ends *)
Lemma lam_loop_mono : forall fuel outer last ps r, lam_loop fuel outer last ps = Some r -> forall f', (fuel <= f')%nat -> lam_loop f' outer last ps = Some r.
Proof.
  induction fuel as [|fuel IH]; intros outer last ps r E f' L; cbn [GlamModel.lam_loop] in E; [discriminate|].
  destruct f' as [|f']; [lia|]. cbn [GlamModel.lam_loop].
  destruct (unchecked _ _ _); [exact E|]. destruct (rltb _ _); [|exact E]. destruct (_ || _); [exact E|].
  apply IH; [exact E|lia].
Qed.

Lemma ends_unextended outer last : forall n ps, (forall p, In p ps -> extend && was p = false) -> norm (map delta ps) / 2 ^ n < lo ->
  exists r, lam_loop (S n) outer last ps = Some r.
Proof.
  induction n as [|n IH]; intros ps U H.
  2: remember (S n) as k eqn:Ek.
  all: cbn [GlamModel.lam_loop].
  all: destruct (unchecked _ _ _); [eexists; reflexivity|]. all: destruct (rltb _ _); [|eexists; reflexivity].
  all: match goal with |- context [negb ?c || ?t] => destruct (negb c || t) eqn:EC end; [eexists; reflexivity|].
  all: apply orb_false_iff in EC as [EC1 EC2]; apply negb_false_iff in EC1; apply rltb_false in EC2.
  all: assert (Eh : (hc =? 2)%nat = true) by
    (apply existsb_exists in EC1 as (p & Ip & Q); unfold reduce_step in Q; rewrite (U p Ip) in Q; cbn [orb] in Q; destruct (hc =? 2)%nat; [reflexivity|discriminate]).
  all: assert (ED : map delta (map orself ps) = map (fun x => x / 2) (map delta ps)) by
    (rewrite !map_map; apply map_ext_in; intros p Ip; unfold or_self, reduce_step; rewrite (U p Ip); cbn [orb]; now rewrite Eh).
  all: rewrite ED, norm_half in EC2.
  - exfalso. cbn in H. pose proof lo_hi. assert (0 <= norm (map delta ps)) by (unfold norm; apply sqrt_pos). lra.
  - subst k. apply IH.
    + intros q I. apply in_map_iff in I as (p & <- & Ip). unfold or_self, reduce_step. rewrite (U p Ip). cbn [orb]. rewrite Eh. exact (U p Ip).
    + rewrite ED, norm_half. simpl pow in H. replace (norm (map delta ps) / 2 / 2 ^ n) with (norm (map delta ps) / (2 * 2 ^ n)); [exact H|].
      field. apply pow_nonzero. lra.
Qed.

Lemma lam_loop_ends outer last ps : exists fuel r, lam_loop fuel outer last ps = Some r.
Proof.
  assert (S0 : forall qs, (forall p, In p qs -> extend && was p = false) -> exists fuel r, lam_loop fuel outer last qs = Some r).
  { intros qs U. destruct (small_enough (norm (map delta qs))) as (n & Hn); [unfold norm; apply sqrt_pos|].
    destruct (ends_unextended outer last n qs U Hn) as (r & Er). now exists (S n), r. }
  destruct (S0 (map orself ps)) as (fuel & r & Er).
  { intros q I. apply in_map_iff in I as (p & <- & Ip). unfold or_self, reduce_step. destruct (extend && was p) eqn:E; [now rewrite andb_false_r|].
    destruct (false || (hc =? 2)%nat); exact E. }
  exists (S fuel). cbn [GlamModel.lam_loop]. destruct (unchecked _ _ _); [eexists; reflexivity|].
  destruct (rltb _ _); [|eexists; reflexivity]. destruct (_ || _); [eexists; reflexivity|]. now exists r.
Qed.

Lemma outer_S remaining fuel outer last le hist ps : outer_loop (S remaining) fuel outer last le hist ps =
  match step fuel outer last le ps with
  | None => None
  | Some (f, fitted, ps) =>
      if (0 <? outer)%nat && converged outer hist f ps then Some (Solved F f fitted ps true)
      else outer_loop remaining fuel (S outer) f (eps_of f) ((f, ps) :: hist) (map apply_step ps)
  end.
Proof. reflexivity. Qed.

Lemma step_mono fuel outer last le ps r f' : step fuel outer last le ps = Some r -> (fuel <= f')%nat -> step f' outer last le ps = Some r.
Proof.
  unfold correct_lambda_step_gamlss. destruct (lam_loop fuel outer last ps) as [x|] eqn:E; [|discriminate].
  intros H L. now rewrite (lam_loop_mono _ _ _ _ _ E f' L).
Qed.

Lemma outer_mono : forall remaining fuel outer last le hist ps r f',
  outer_loop remaining fuel outer last le hist ps = Some r -> (fuel <= f')%nat -> outer_loop remaining f' outer last le hist ps = Some r.
Proof.
  induction remaining as [|remaining IH]; intros fuel outer last le hist ps r f' E L; cbn [GlamModel.outer_loop] in *.
  all: destruct (step fuel outer last le ps) as [[[f fitted] ps1]|] eqn:ES; [|discriminate]; rewrite (step_mono _ _ _ _ _ _ f' ES L).
  - exact E.
  - destruct (_ && _); [exact E|]. exact (IH _ _ _ _ _ _ _ _ E L).
Qed.

Lemma outer_ends : forall remaining outer last le hist ps, exists fuel r, outer_loop remaining fuel outer last le hist ps = Some r.
Proof.
  induction remaining as [|remaining IH]; intros outer last le hist ps.
  all: destruct (lam_loop_ends outer last ps) as (k & [[f fitted] ps1] & E).
  all: assert (ES : exists ps2, step k outer last le ps = Some (f, fitted, ps2)) by (unfold correct_lambda_step_gamlss; rewrite E; eexists; reflexivity).
  all: destruct ES as (ps2 & ES).
  - exists k. cbn [GlamModel.outer_loop]. rewrite ES. destruct (_ && _); eexists; reflexivity.
  - destruct (IH (S outer) f (eps_of f) ((f, ps2) :: hist) (map apply_step ps2)) as (k2 & r & E2).
    exists (Nat.max k k2). cbn [GlamModel.outer_loop]. rewrite (step_mono _ _ _ _ _ _ (Nat.max k k2) ES) by lia.
    destruct (_ && _); [eexists; reflexivity|]. exists r. exact (outer_mono _ _ _ _ _ _ _ _ _ E2 (Nat.le_max_r _ _)).
Qed.
End Loop.

Lemma start_ok extend lams : List.Forall (fun x => in_range (fst x)) lams ->
  forall p, In p (map (fun x : R * bool => initialize_extension (fst x) (snd x) 0) lams) -> okc extend p.
Proof.
  intros H p I. apply in_map_iff in I as (x & <- & Ix). rewrite Forall_forall in H. specialize (H x Ix).
  unfold okc, initialize_extension. cbn. rewrite Rminus_0_r. repeat split; try (apply H); try discriminate.
Qed.

Lemma start_fixed lams ps : Forall2 holds_fixed (map (fun x : R * bool => initialize_extension (fst x) (snd x) 0) lams) ps ->
  fixed_kept lams (map lam ps).
Proof.
  revert ps. induction lams as [|x l IH]; intros ps H; cbn [map] in H; inversion H; subst; cbn [map]; constructor.
  - match goal with Q : holds_fixed _ _ |- _ => exact (proj2 Q) end.
  - apply IH. assumption.
Qed.
