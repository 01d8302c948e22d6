From Coq Require Import List Arith Bool Reals Lra Lia.
From Verif Require Import Ext LamModel LamSpec.
Import ListNotations.
Local Open Scope R_scope.

Lemma lo_hi : 0 < lo < hi.
Proof. unfold lo, hi. lra. Qed.

Lemma range_lo_hi x : in_range x <-> lo <= x <= hi.
Proof. reflexivity. Qed.

(** Case distinction on a clamped value. *)
Ltac clamp w := unfold Rmax; destruct (Rle_dec w lo); unfold Rmin;
  match goal with |- context [Rle_dec ?x hi] => destruct (Rle_dec x hi) end; lra.

Lemma fs_in_bounds a b c l s : lo <= l + step_fellner_schall a b c l s <= hi.
Proof.
  pose proof lo_hi. unfold step_fellner_schall.
  destruct (rleb (Rmax 0 c) 0); [lra|].
  generalize (s * (Rmax 0 (a - b) / Rmax 0 c) * l). intros w. clamp w.
Qed.

(** What the step is if it is not clipped. *)
Definition raw (a b c l s : R) : R := s * ((a - b) / c) * l.

Lemma fs_unclipped a b c l s : 0 < c -> 0 <= a - b -> lo <= raw a b c l s <= hi ->
  step_fellner_schall a b c l s = raw a b c l s - l.
Proof.
  intros Hc Hab Hr. unfold step_fellner_schall, raw in *.
  rewrite (Rmax_right 0 c) by lra. rewrite (proj2 (rleb_false _ _)) by lra.
  rewrite (Rmax_right 0 (a - b)) by lra.
  rewrite Rmax_left by lra. rewrite Rmin_left by lra. reflexivity.
Qed.

Lemma raw_grad a b c l s : 0 < c -> 0 < s -> 0 < l ->
  raw a b c l s - l = (2 * s * l / c) * grad_lambda a b c s.
Proof. intros. unfold raw, grad_lambda. field. lra. Qed.

Lemma pos_mul k x : 0 < k -> same_sign (k * x) x.
Proof.
  intros Hk. unfold same_sign. repeat split; intros H; nra.
Qed.

Lemma fs_direction a b c l s : 0 < c -> 0 < s -> in_range l -> 0 <= a - b ->
  in_range (s * ((a - b) / c) * l) ->
  same_sign (step_fellner_schall a b c l s) (grad_lambda a b c s).
Proof.
  intros Hc Hs Hl Hab Hr. rewrite fs_unclipped by assumption.
  assert (0 < l) by (unfold in_range in Hl; lra).
  rewrite raw_grad by assumption. apply pos_mul.
  apply Rdiv_lt_0_compat; [nra|assumption].
Qed.

(** Clipped or not, the step is never against the gradient. *)
Lemma fs_not_against a b c l s : 0 < c -> 0 < s -> in_range l ->
  0 <= step_fellner_schall a b c l s * grad_lambda a b c s.
Proof.
  intros Hc Hs Hl. assert (H0 : 0 < l) by (unfold in_range in Hl; lra).
  pose proof lo_hi as Hlh. pose proof (proj1 (range_lo_hi l) Hl) as Hl'.
  unfold step_fellner_schall. rewrite (Rmax_right 0 c) by lra. rewrite (proj2 (rleb_false _ _)) by lra.
  destruct (Rle_lt_dec 0 (a - b)) as [Hab|Hab].
  - rewrite (Rmax_right 0 (a - b)) by lra. fold (raw a b c l s).
    assert (Eg : grad_lambda a b c s = (raw a b c l s - l) / (2 * s * l / c)).
    { rewrite raw_grad by assumption. field. repeat split; lra. }
    assert (Hk : 0 < / (2 * s * l / c)).
    { apply Rinv_0_lt_compat. apply Rdiv_lt_0_compat; [nra|assumption]. }
    rewrite Eg. unfold Rdiv. set (k := / (2 * s * l * / c)) in *. fold (Rdiv (2 * s * l) c) in k.
    assert (Hk' : 0 < k) by exact Hk.
    set (w := raw a b c l s) in *.
    assert (0 <= (Rmin (Rmax w lo) hi - l) * (w - l)); [|nra].
    destruct (Rle_lt_dec w l) as [Hw|Hw].
    + assert (Rmin (Rmax w lo) hi - l <= 0); [|nra].
      clamp w.
    + assert (0 <= Rmin (Rmax w lo) hi - l); [|nra].
      clamp w.
  - rewrite (Rmax_left 0 (a - b)) by lra.
    replace (s * (0 / c) * l) with 0 by (field; lra).
    rewrite Rmax_right by lra. rewrite Rmin_left by lra.
    assert (grad_lambda a b c s < 0); [|nra].
    unfold grad_lambda. assert (0 < c / (2 * s)) by (apply Rdiv_lt_0_compat; lra). lra.
Qed.

(** ** Extension *)

Lemma sign_pos x : 0 < x -> sign x = 1.
Proof. intros. unfold sign. now rewrite (proj2 (rltb_true 0 x)). Qed.
Lemma sign_neg x : x < 0 -> sign x = -1.
Proof. intros. unfold sign. rewrite (proj2 (rltb_false 0 x)) by lra. now rewrite (proj2 (rltb_true x 0)). Qed.
Lemma sign_zero : sign 0 = 0.
Proof. unfold sign. now rewrite !(proj2 (rltb_false 0 0)) by lra. Qed.

Lemma eps_pos : 0 < eps.
Proof. unfold eps. apply Rinv_0_lt_compat. apply pow_lt. lra. Qed.

Lemma accel_cases m diff d it :
  let a := acceleration m diff d it in a = 0 \/ (0 < d /\ 0 < a) \/ (d < 0 /\ a < 0).
Proof.
  cbv zeta. unfold acceleration.
  destruct (Req_EM_T (sign d) (sign diff)) as [E|E]; [|now left].
  assert (Hnest : forall g, 0 <= g -> d * g = 0 \/ (0 < d /\ 0 < d * g) \/ (d < 0 /\ d * g < 0)).
  { intros g Hg. destruct (Rtotal_order d 0) as [H|[H|H]]; destruct Hg as [Hg|<-];
      try (left; nra); [right; right|right; left]; split; nra. }
  destruct m.
  - match goal with |- context [rltb ?x ?e] => destruct (rltb x e) eqn:Ec; [|now left]; set (ex := e) in * end.
    apply rltb_true in Ec. right.
    destruct (Rtotal_order d 0) as [H|[H|H]].
    + right. split; [assumption|]. rewrite (sign_neg d H). rewrite (Rabs_left d H) in *. lra.
    + exfalso. subst d. rewrite sign_zero in E. rewrite Rabs_R0 in Ec.
      assert (diff = 0).
      { destruct (Rtotal_order diff 0) as [H|[H|H]]; [rewrite sign_neg in E by assumption; lra|assumption|].
        rewrite sign_pos in E by assumption. lra. }
      subst diff. unfold ex in Ec. rewrite Rabs_R0, Rmult_0_r in Ec. lra.
    + left. split; [assumption|]. rewrite (sign_pos d H). rewrite (Rabs_right d) in * by lra. lra.
  - destruct (rltb 1 d && rltb diff 1); [now left|].
    assert (Hm : 0 < Rmax eps (Rabs diff)) by (pose proof eps_pos; pose proof (Rmax_l eps (Rabs diff)); lra).
    assert (Hq : 0 <= d * d / Rmax eps (Rabs diff)).
    { unfold Rdiv. apply Rmult_le_pos; [nra|]. left. now apply Rinv_0_lt_compat. }
    destruct (Rtotal_order d 0) as [H|[H|H]].
    + rewrite (sign_neg d H). right. right. split; [assumption|].
      assert (0 < d * d / Rmax eps (Rabs diff)) by (apply Rdiv_lt_0_compat; nra). lra.
    + left. subst. rewrite sign_zero. ring.
    + rewrite (sign_pos d H). right. left. split; [assumption|].
      assert (0 < d * d / Rmax eps (Rabs diff)) by (apply Rdiv_lt_0_compat; nra). lra.
  - destruct (rltb 1 d && rltb diff 1); [now left|]. apply Hnest.
    assert (Hm : 0 < Rmax eps (2 * Rabs diff)) by (pose proof eps_pos; pose proof (Rmax_l eps (2 * Rabs diff)); lra).
    apply Rmin_glb; [lra|]. unfold Rdiv. apply Rmult_le_pos; [apply Rabs_pos|]. left. now apply Rinv_0_lt_compat.
Qed.

Lemma extend_cases m it d p :
  let (d', q) := extend_lambda_step m it d p in
  lam q = lam p /\ frozen q = frozen p /\ delta q = delta p /\ prev q = lam p /\
  ((was q = true /\ d' = d + acc q /\ in_range (lam p + d') /\ ((0 < d /\ d < d') \/ (d < 0 /\ d' < d)))
   \/ (was q = false /\ d' = d /\ acc q = 0)).
Proof.
  unfold extend_lambda_step.
  pose proof (accel_cases m (lam p - prev p) d it) as Ha. cbv zeta in Ha.
  set (a := acceleration m (lam p - prev p) d it) in *.
  destruct (rltb (lam p + d + a) hi && rltb lo (lam p + d + a) && rltb 0 (Rabs a)) eqn:E; simpl; repeat split; auto.
  - left. apply andb_prop in E as [E E3]. apply andb_prop in E as [E1 E2].
    apply rltb_true in E1, E2, E3. split; [reflexivity|]. split; [reflexivity|].
    split; [unfold in_range; unfold lo, hi in *; lra|].
    destruct Ha as [Ha|[Ha|Ha]]; [rewrite Ha, Rabs_R0 in E3; lra|left; lra|right; lra].
Qed.

(** ** Reachable states *)

(** While the step control is running. *)
Definition okc (extend : bool) (p : pen) : Prop :=
  in_range (lam p) /\ in_range (lam p - delta p) /\
  (was p = true -> in_range (lam p - acc p)) /\
  (frozen p = true -> delta p = 0 /\ was p = false) /\
  (extend = false -> was p = false).
(** Before a step is applied. *)
Definition okn (extend : bool) (p : pen) : Prop :=
  in_range (lam p) /\ in_range (lam p + delta p) /\
  (was p = true -> in_range (lam p + delta p - acc p)) /\
  (frozen p = true -> delta p = 0 /\ was p = false) /\
  (extend = false -> was p = false).

Lemma apply_ok ex p : okn ex p -> okc ex (apply_step p).
Proof.
  intros (H1 & H2 & H3 & H4 & H5). unfold okc, apply_step. simpl. repeat split; auto; try (apply H2); try (apply H4; assumption).
  - replace (lam p + delta p - delta p) with (lam p) by ring. apply H1.
  - replace (lam p + delta p - delta p) with (lam p) by ring. apply H1.
  - apply H3; assumption.
  - apply H3; assumption.
Qed.

Lemma mid_range x z : in_range x -> in_range (x - z) -> in_range (x - z / 2).
Proof. unfold in_range. lra. Qed.

Section Pass.
Variables (gauss_id : bool) (control : nat) (extend exclude : bool) (meth : method) (o_iter : nat).
Notation reduce := (reduce_step gauss_id control extend).
Notation orself := (or_self gauss_id control extend).
Notation nexts := (next_step extend exclude meth o_iter).

Lemma reduce_ok p : okc extend p -> okc extend (orself p).
Proof.
  intros (H1 & H2 & H3 & H4 & H5). unfold or_self, reduce_step.
  destruct extend eqn:Eext; simpl.
  - destruct (was p) eqn:Ew; simpl.
    + unfold okc, undo_extension. simpl. repeat split; try discriminate; try (now apply H3).
      * replace (lam p - acc p - (delta p - acc p)) with (lam p - delta p) by ring. apply H2.
      * replace (lam p - acc p - (delta p - acc p)) with (lam p - delta p) by ring. apply H2.
      * intros. destruct (H4 H) as [_ Hf]. congruence.
    + destruct (gauss_id || (control =? 2)%nat); [|repeat split; auto; try (apply H1); try (apply H2); try (intros; congruence); now apply H4].
      unfold okc. simpl. repeat split; try (apply mid_range; assumption); try congruence;
       try (replace (lam p - delta p / 2 - delta p / 2) with (lam p - delta p) by field; apply H2).
      * rewrite (proj1 (H4 H)). field.
  - specialize (H5 eq_refl).
    destruct (gauss_id || (control =? 2)%nat); [|repeat split; auto; try (apply H1); try (apply H2); try (intros; congruence); now apply H4].
      unfold okc. simpl. repeat split; try (apply mid_range; assumption); try congruence;
       try (replace (lam p - delta p / 2 - delta p / 2) with (lam p - delta p) by field; apply H2).
      rewrite (proj1 (H4 H)). field.
Qed.

Lemma next_ok obs g s p : okc extend p -> okn extend (nexts obs g s p).
Proof.
  intros (H1 & H2 & H3 & H4 & H5). unfold next_step. destruct obs as [[a b] c].
  destruct ((negb (rltb 100000 (lam p) && rltb (g * g / lam p) (/ 100000000)) || negb exclude) && negb (frozen p)) eqn:E.
  - apply andb_prop in E as [_ Hf]. apply negb_true_iff in Hf.
    pose proof (fs_in_bounds a b c (lam p) s) as Hfs. apply range_lo_hi in Hfs.
    destruct extend eqn:Eext.
    + pose proof (extend_cases meth o_iter (step_fellner_schall a b c (lam p) s) p) as Hx.
      destruct (extend_lambda_step meth o_iter (step_fellner_schall a b c (lam p) s) p) as [d' q].
      destruct Hx as (E1 & E2 & E3 & E4 & Hx). unfold okn. simpl. rewrite E1, E2.
      destruct Hx as [(W & Ed & Hr & _)|(W & -> & _)]; rewrite W; repeat split; try (apply H1); try discriminate; try congruence.
      * apply Hr.
      * apply Hr.
      * rewrite Ed. replace (lam p + (step_fellner_schall a b c (lam p) s + acc q) - acc q)
          with (lam p + step_fellner_schall a b c (lam p) s) by ring. apply Hfs.
      * rewrite Ed. replace (lam p + (step_fellner_schall a b c (lam p) s + acc q) - acc q)
          with (lam p + step_fellner_schall a b c (lam p) s) by ring. apply Hfs.
      * apply Hfs.
      * apply Hfs.
    + specialize (H5 eq_refl). unfold okn. simpl. rewrite H5.
      repeat split; try (apply H1); try (apply Hfs); try discriminate; congruence.
  - unfold okn. simpl. rewrite Rplus_0_r. repeat split; try (apply H1); try discriminate.
Qed.
End Pass.

Lemma in_combine_nexts {A} (f : A -> pen -> pen) (l : list A) ps q :
  In q (map (fun x => f (fst x) (snd x)) (combine l ps)) -> exists a p, In p ps /\ q = f a p.
Proof.
  intros H. apply in_map_iff in H as ([a p] & <- & H). exists a, p. split; [|reflexivity].
  eapply in_combine_r. eassumption.
Qed.

Lemma pass_ok refit gauss_id control extend exclude meth o_iter pd k ps ps' last :
  (forall p, In p ps -> okc extend p) ->
  control_pass refit gauss_id control extend exclude meth o_iter pd k ps = (ps', last) ->
  forall p, In p ps' -> if last then okn extend p else okc extend p.
Proof.
  intros Hok E p Hp. unfold control_pass in E. destruct (refit k (map lam ps)) as [obs scale].
  set (grads := map _ obs) in *.
  set (crit := if negb gauss_id && (control <? 2)%nat && (0 <? o_iter)%nat then _ else _) in *.
  set (check := if _ && _ && (_ || _) then _ else _) in *.
  set (reject := rltb check crit && (0 <? control)%nat) in *.
  set (ps1 := if reject then _ else ps) in *.
  assert (H1 : forall q, In q ps1 -> okc extend q).
  { unfold ps1. destruct reject; [|assumption]. intros q Hq. apply in_map_iff in Hq as (p0 & <- & H0).
    apply reduce_ok. auto. }
  match type of E with (if ?c then _ else _) = _ => destruct c end; inversion E; subst ps' last; clear E.
  - apply (in_combine_nexts (fun og p => next_step extend exclude meth o_iter (fst og) (snd og) scale p)) in Hp.
    destruct Hp as (a & p0 & H0 & ->). apply next_ok. auto.
  - auto.
Qed.

Lemma fit_state_ok extend waiting ps : fit_state extend waiting ps ->
  forall p, In p ps -> if waiting then okn extend p else okc extend p.
Proof.
  induction 1 as [ps H|ps H IH|ps refit gauss_id control exclude meth o_iter pd k ps' last H1 H2 IH H3].
  - intros p Hp. destruct (H p Hp) as (Hr & Hpr & Ha & Hw & Hf).
    unfold okn. rewrite Hw. repeat split; try (apply Hr); try discriminate.
    + destruct (frozen p); [rewrite Hf, Rplus_0_r; apply Hr|]. destruct Hf as (a & b & c & s & ->).
      apply fs_in_bounds.
    + destruct (frozen p); [rewrite Hf, Rplus_0_r; apply Hr|]. destruct Hf as (a & b & c & s & ->).
      apply fs_in_bounds.
    + destruct (frozen p); [assumption|discriminate].
  - intros p Hp. apply in_map_iff in Hp as (q & <- & Hq). apply apply_ok. now apply IH.
  - eapply pass_ok; eassumption.
Qed.

(** ** The loop of the step control *)

Lemma combine_length_eq {A B} (l : list A) (m : list B) : length l = length m -> length (combine l m) = length m.
Proof. intros. rewrite combine_length. lia. Qed.

Lemma map_snd_combine {A B} (l : list A) (m : list B) : length (combine l m) = length m -> map snd (combine l m) = m.
Proof.
  revert m. induction l as [|x l IH]; intros [|q qs] H; try discriminate; try reflexivity.
  simpl. f_equal. apply IH. simpl in H. lia.
Qed.

Section Loop.
Variables (refit : nat -> list R -> list (R * R * R) * R) (gauss_id : bool) (control : nat)
  (extend exclude : bool) (meth : method) (o_iter : nat) (pd : R).
Hypothesis Hone : one_each refit.
Notation pass := (control_pass refit gauss_id control extend exclude meth o_iter pd).
Notation loop := (control_loop refit gauss_id control extend exclude meth o_iter pd).
Notation orself := (or_self gauss_id control extend).
Notation nexts := (next_step extend exclude meth o_iter).

(** A pass either leaves the parameters or reduces all steps; if it is the last one the steps
    are replaced and the parameters stay. *)
Lemma pass_cases k ps ps' last : pass k ps = (ps', last) ->
  exists ps1, (ps1 = ps \/ (ps1 = map orself ps /\ (0 < control)%nat /\
        (last = true -> existsb (fun p => is_some (reduce_step gauss_id control extend p)) ps = false \/
                        norm (map delta ps1) < lo))) /\
    (last = false -> ps1 = map orself ps /\ ps' = ps1 /\
         existsb (fun p => is_some (reduce_step gauss_id control extend p)) ps = true /\
         lo <= norm (map delta ps1) /\
         (negb gauss_id && (control <? 2)%nat = true -> extend = true /\ existsb was ps = true)) /\
    (last = true -> length ps' = length ps1 /\ map lam ps' = map lam ps1 /\
        map frozen ps' = map frozen ps1).
Proof.
  intros E. unfold control_pass in E.
  pose proof (Hone k (map lam ps)) as Hlen. destruct (refit k (map lam ps)) as [obs scale]. simpl in Hlen.
  rewrite map_length in Hlen.
  set (grads := map _ obs) in *.
  set (lenient := negb gauss_id && (control <? 2)%nat) in *.
  set (crit := if lenient && (0 <? o_iter)%nat then _ else _) in *.
  set (check0 := dotl grads (map delta ps)) in *.
  set (check := if lenient && _ && (_ || _) then _ else _) in *.
  set (reject := rltb check crit && (0 <? control)%nat) in *.
  set (ch := existsb (fun p => is_some (reduce_step gauss_id control extend p)) ps) in *.
  set (ps1 := if reject then map orself ps else ps) in *.
  exists ps1.
  assert (Hl1 : length ps1 = length ps) by (unfold ps1; destruct reject; now rewrite ?map_length).
  match type of E with (if ?c then _ else _) = _ => destruct c eqn:Ec end;
    apply pair_equal_spec in E as [<- <-].
  - split; [|split; [discriminate|intros _]].
    + unfold ps1 in *. destruct reject eqn:Er; [right|now left]. split; [reflexivity|].
      unfold reject in Er. apply andb_prop in Er as [Er1 Er2]. split; [now apply Nat.ltb_lt|]. intros _.
      rewrite Er1 in Ec. simpl in Ec.
      apply Nat.ltb_lt in Er2. assert (E0 : (control =? 0)%nat = false) by (apply Nat.eqb_neq; lia).
      rewrite E0 in Ec. simpl in Ec.
      apply orb_prop in Ec as [Ec|Ec]; [left; now apply negb_true_iff in Ec|right; now apply rltb_true].
    + assert (Hcl : length (combine (combine obs grads) ps1) = length ps1).
      { apply combine_length_eq. rewrite combine_length. unfold grads. rewrite map_length. lia. }
      split; [now rewrite map_length|].
      assert (Hsnd : map snd (combine (combine obs grads) ps1) = ps1).
      { now apply map_snd_combine. }
      rewrite <- Hsnd at 2 4. rewrite !map_map. split; apply map_ext; intros [[o g] q]; simpl;
        unfold next_step; destruct o as [[a b] c].
      * destruct ((negb (rltb 100000 (lam q) && rltb (g * g / lam q) (/ 100000000)) || negb exclude) && negb (frozen q)); [|reflexivity].
        destruct extend; [|reflexivity].
        pose proof (extend_cases meth o_iter (step_fellner_schall a b c (lam q) scale) q) as Hx.
        destruct (extend_lambda_step meth o_iter (step_fellner_schall a b c (lam q) scale) q) as [d' q'].
        simpl. apply Hx.
      * destruct ((negb (rltb 100000 (lam q) && rltb (g * g / lam q) (/ 100000000)) || negb exclude) && negb (frozen q)); [|reflexivity].
        destruct extend; [|reflexivity].
        pose proof (extend_cases meth o_iter (step_fellner_schall a b c (lam q) scale) q) as Hx.
        destruct (extend_lambda_step meth o_iter (step_fellner_schall a b c (lam q) scale) q) as [d' q'].
        simpl. apply Hx.
  - apply orb_false_iff in Ec as [Ec Ea]. apply orb_false_iff in Ec as [Ec Ecz].
    apply negb_false_iff in Ec. apply Nat.eqb_neq in Ecz.
    assert (Er : reject = true) by (unfold reject; rewrite Ec; simpl; apply Nat.ltb_lt; lia).
    unfold ps1 in *. rewrite Er in *. simpl in Ea. apply orb_false_iff in Ea as [Ea1 Ea2].
    apply negb_false_iff in Ea1. apply rltb_false in Ea2.
    split; [right; split; [reflexivity|]; split; [lia|discriminate]|]. split; [|discriminate].
    intros _. repeat split; auto.
    + unfold check in Ec. rewrite H in Ec. simpl in Ec.
      destruct (rltb check0 crit) eqn:E0; simpl in Ec.
      * destruct extend; [reflexivity|]. simpl in Ec. apply rltb_true in Ec. lra.
      * congruence.
    + unfold check in Ec. rewrite H in Ec. simpl in Ec.
      destruct (rltb check0 crit) eqn:E0; simpl in Ec.
      * destruct (existsb was ps); [reflexivity|]. simpl in Ec. rewrite orb_true_r in Ec.
        apply rltb_true in Ec. lra.
      * congruence.
Qed.

(** No penalty carries an extension that step control would undo. *)
Definition unextended (ps : list pen) : Prop := forall p, In p ps -> extend && was p = false.

Lemma orself_unextended ps : unextended (map orself ps).
Proof.
  intros p Hp. apply in_map_iff in Hp as (q & <- & _). unfold or_self, reduce_step.
  destruct (extend && was q) eqn:E; simpl; [apply andb_false_r|].
  destruct (gauss_id || (control =? 2)%nat); simpl; assumption.
Qed.

Lemma norm_half l : norm (map (fun x => x / 2) l) = norm l / 2.
Proof.
  unfold norm. rewrite map_map.
  assert (E : fold_right Rplus 0 (map (fun x => x / 2 * (x / 2)) l)
    = fold_right Rplus 0 (map (fun x => x * x) l) * (/ 2 * / 2)).
  { induction l as [|x l IH]; simpl; [ring|]. rewrite IH. field. }
  rewrite E. assert (0 <= fold_right Rplus 0 (map (fun x => x * x) l)).
  { clear. induction l as [|x l IH]; simpl; [lra|]. nra. }
  rewrite sqrt_mult by lra. rewrite sqrt_square by lra. reflexivity.
Qed.

Lemma unext_halved ps : unextended ps -> gauss_id || (control =? 2)%nat = true ->
  map delta (map orself ps) = map (fun x => x / 2) (map delta ps).
Proof.
  intros Hu Hg. rewrite !map_map. apply map_ext_in. intros p Hp. unfold or_self, reduce_step.
  now rewrite (Hu p Hp), Hg.
Qed.

Lemma loop_mono : forall fuel k ps r, loop fuel k ps = Some r -> forall f', (fuel <= f')%nat -> loop f' k ps = Some r.
Proof.
  induction fuel as [|fuel IH]; intros k ps r H f' Hf; [discriminate|].
  destruct f' as [|f']; [lia|]. cbn [control_loop] in *. destruct (pass k ps) as [ps' last].
  destruct last; [assumption|]. apply IH; [assumption|lia].
Qed.

Lemma loop_ends_unextended : forall n k ps, unextended ps -> norm (map delta ps) / 2 ^ n < lo ->
  exists r, loop (S n) k ps = Some r.
Proof.
  induction n as [|n IH]; intros k ps Hu Hn; cbn [control_loop].
  - destruct (pass k ps) as [ps' last] eqn:E. destruct last; [eexists; reflexivity|].
    exfalso. destruct (pass_cases k ps ps' false E) as (ps1 & _ & H & _).
    destruct (H eq_refl) as (-> & -> & Hch & Hnorm & Hlen). clear H.
    destruct (gauss_id || (control =? 2)%nat) eqn:Eg.
    + rewrite (unext_halved ps Hu Eg), norm_half in Hnorm. simpl in Hn.
      assert (0 <= norm (map delta ps)) by apply sqrt_pos. lra.
    + apply existsb_exists in Hch as (p & Hp & Hr). unfold reduce_step in Hr. rewrite (Hu p Hp), Eg in Hr. discriminate.
  - destruct (pass k ps) as [ps' last] eqn:E. destruct last; [eexists; reflexivity|].
    destruct (pass_cases k ps ps' false E) as (ps1 & _ & H & _).
    destruct (H eq_refl) as (-> & -> & Hch & Hnorm & Hlen). clear H.
    destruct (gauss_id || (control =? 2)%nat) eqn:Eg.
    + apply IH; [apply orself_unextended|]. rewrite (unext_halved ps Hu Eg), norm_half.
      simpl in Hn. replace (norm (map delta ps) / 2 / 2 ^ n) with (norm (map delta ps) / (2 * 2 ^ n)); [assumption|].
      field. apply pow_nonzero. lra.
    + exfalso. apply existsb_exists in Hch as (p & Hp & Hr). unfold reduce_step in Hr. rewrite (Hu p Hp), Eg in Hr. discriminate.
Qed.

Lemma small_enough x : 0 <= x -> exists n, x / 2 ^ n < lo.
Proof.
  intros Hx. pose proof lo_hi as [Hlo _].
  destruct (pow_lt_1_zero (/ 2) ltac:(rewrite Rabs_right; lra) (lo / (x + 1)) ltac:(apply Rdiv_lt_0_compat; lra)) as [n Hn].
  exists n. specialize (Hn n (Nat.le_refl n)).
  rewrite Rabs_right in Hn by (apply Rle_ge, pow_le; lra).
  rewrite pow_inv in Hn. unfold Rdiv in *.
  apply Rle_lt_trans with (x * (lo * / (x + 1))).
  - apply Rmult_le_compat_l; lra.
  - apply Rmult_lt_reg_r with (x + 1); [lra|]. field_simplify; [nra|lra].
Qed.

Lemma loop_ends k ps : exists fuel r, loop fuel k ps = Some r.
Proof.
  destruct (pass k ps) as [ps' last] eqn:E. destruct last.
  - exists 1%nat. eexists. cbn [control_loop]. rewrite E. reflexivity.
  - destruct (pass_cases k ps ps' false E) as (ps1 & _ & H & _).
    destruct (H eq_refl) as (-> & -> & _). clear H.
    destruct (small_enough (norm (map delta (map orself ps))) ltac:(apply sqrt_pos)) as [n Hn].
    destruct (loop_ends_unextended n (S k) _ (orself_unextended ps) Hn) as [r Hr].
    exists (S (S n)), r. cbn [control_loop]. rewrite E. exact Hr.
Qed.

Notation toward := (LamSpec.toward extend).

(** The state during the loop: still base plus step, and the step of the given form. *)
Definition along (p p' : pen) : Prop :=
  frozen p' = frozen p /\ lam p' - delta p' = lam p - delta p /\ extend && was p' = extend && was p /\ acc p' = acc p /\
     (exists j, delta p' = delta p / 2 ^ j) /\ (extend && was p = true -> delta p' = delta p) \/
  frozen p' = frozen p /\ lam p' - delta p' = lam p - delta p /\ extend && was p' = false /\ extend && was p = true /\
     (exists j, delta p' = (delta p - acc p) / 2 ^ j).

Lemma along_refl p : along p p.
Proof. left. repeat split; auto. exists 0%nat. simpl. field. Qed.

Lemma along_step p q : along p q -> along p (orself q).
Proof.
  assert (HS : forall x j, x / 2 ^ j / 2 = x / 2 ^ S j) by (intros; simpl; field; apply pow_nonzero; lra).
  intros [(Hf & Hb & Hw & Ha & (j & Hj) & Hx)|(Hf & Hb & Hw & Hw0 & (j & Hj))]; unfold or_self, reduce_step.
  - destruct (extend && was q) eqn:E.
    + right. simpl. rewrite andb_false_r. repeat split; auto; [lra|].
      exists 0%nat. rewrite (Hx (eq_sym Hw)), Ha. simpl. field.
    + destruct (gauss_id || (control =? 2)%nat); left; simpl; repeat split; auto; try congruence; try lra.
      * exists (S j). now rewrite Hj, HS.
      * exists j. assumption.
  - rewrite Hw. destruct (gauss_id || (control =? 2)%nat); right; simpl; repeat split; auto; try lra.
    + exists (S j). now rewrite Hj, HS.
    + exists j. assumption.
Qed.

Lemma along_toward p q : along p q -> toward p q.
Proof.
  intros [(Hf & Hb & Hw & Ha & (j & Hj) & Hx)|(Hf & Hb & Hw & Hw0 & (j & Hj))]; split; auto; exists j.
  - left. rewrite <- Hj. lra.
  - right. apply andb_prop in Hw0 as [-> ->]. repeat split. rewrite <- Hj. lra.
Qed.

Lemma Forall2_map_r {A B} (P : A -> B -> Prop) (f : B -> B) l m :
  Forall2 P l m -> (forall a b, P a b -> P a (f b)) -> Forall2 P l (map f m).
Proof. induction 1; simpl; constructor; auto. Qed.

Lemma Forall2_same {A} (P : A -> A -> Prop) l : (forall a, P a a) -> Forall2 P l l.
Proof. induction l; constructor; auto. Qed.

Lemma toward_ext p q q' : lam q' = lam q -> frozen q' = frozen q -> toward p q -> toward p q'.
Proof. intros E1 E2 (H1 & H2). unfold LamSpec.toward. now rewrite E1, E2. Qed.

Lemma loop_along : forall fuel k ps0 ps r fitted n,
  Forall2 along ps0 ps -> loop fuel k ps = Some (r, fitted, n) -> Forall2 toward ps0 r.
Proof.
  induction fuel as [|fuel IH]; intros k ps0 ps r fitted n Hal Hl; [discriminate|].
  cbn [control_loop] in Hl. destruct (pass k ps) as [ps' last] eqn:E.
  destruct (pass_cases k ps ps' last E) as (ps1 & H1 & H2 & H3).
  assert (Hal1 : Forall2 along ps0 ps1).
  { destruct H1 as [->|(-> & _)]; [assumption|]. apply Forall2_map_r; auto. intros; now apply along_step. }
  destruct last.
  - inversion Hl; subst. destruct (H3 eq_refl) as (HL & HE & HF).
    clear -Hal1 HL HE HF. revert r HL HE HF. induction Hal1 as [|p q l m Hpq Hlm IH]; intros [|x r] HL HE HF; try discriminate; constructor.
    + simpl in HE, HF. injection HE as HE0 HE'. injection HF as HF0 HF'.
      apply (toward_ext p q x); auto. now apply along_toward.
    + simpl in HE, HF, HL. injection HE as HE0 HE'. injection HF as HF0 HF'. apply IH; auto.
  - destruct (H2 eq_refl) as (_ & -> & _). eapply IH; eassumption.
Qed.

(** The parameters returned and the ones the model was last fitted with. *)
Lemma norm_entry l x : In x l -> Rabs x <= norm l.
Proof.
  intros H. unfold norm. rewrite <- sqrt_Rsqr_abs. apply sqrt_le_1_alt. unfold Rsqr.
  assert (Hnn : forall l, 0 <= fold_right Rplus 0 (map (fun x => x * x) l)).
  { clear. induction l as [|x l IH]; simpl; [lra|]. nra. }
  induction l as [|z l IH]; [destruct H|]. simpl. destruct H as [->|H]; [pose proof (Hnn l); lra|].
  specialize (IH H). nra.
Qed.

Lemma loop_fitted : forall fuel k ps r fitted n, unextended ps ->
  loop fuel k ps = Some (r, fitted, n) ->
  Forall2 (fun p f => Rabs (lam p - f) < lo) r fitted.
Proof.
  induction fuel as [|fuel IH]; intros k ps r fitted n Hu Hl; [discriminate|].
  cbn [control_loop] in Hl. destruct (pass k ps) as [ps' last] eqn:E.
  destruct (pass_cases k ps ps' last E) as (ps1 & H1 & H2 & H3).
  pose proof lo_hi as Hlh.
  destruct last.
  - inversion Hl; subst. destruct (H3 eq_refl) as (HL & HE & _).
    assert (Hd : Forall2 (fun p f => Rabs (lam p - f) < lo) ps1 (map lam ps)).
    { destruct H1 as [->|(-> & _ & Hc)].
      - clear -Hlh. induction ps; simpl; constructor; auto. rewrite Rminus_diag_eq, Rabs_R0 by reflexivity. lra.
      - assert (Hd : forall p, In p ps -> Rabs (lam (orself p) - lam p) < lo).
        { intros p Hp. unfold or_self, reduce_step. rewrite (Hu p Hp).
          destruct (gauss_id || (control =? 2)%nat) eqn:Eg; simpl.
          2:{ rewrite Rminus_diag_eq, Rabs_R0 by reflexivity. lra. }
          destruct (Hc eq_refl) as [Hn|Hn].
          - exfalso. assert (existsb (fun p => is_some (reduce_step gauss_id control extend p)) ps = true); [|congruence].
            apply existsb_exists. exists p. split; [assumption|]. unfold reduce_step. now rewrite (Hu p Hp), Eg.
          - replace (lam p - delta p / 2 - lam p) with (- (delta p / 2)) by ring. rewrite Rabs_Ropp.
            eapply Rle_lt_trans; [|exact Hn]. apply norm_entry.
            rewrite (unext_halved ps Hu Eg). apply in_map_iff. exists (delta p). split; [reflexivity|].
            now apply in_map. }
        clear -Hd. induction ps as [|p ps IH]; simpl; constructor; [apply Hd; now left|].
        apply IH. intros q Hq. apply Hd. now right. }
    clear -HE Hd. revert r HE. induction Hd as [|p f l m H Hd IH]; intros [|x r] HE; try discriminate; constructor.
    + simpl in HE. injection HE as HE0 HE'. now rewrite HE0.
    + simpl in HE. injection HE as HE0 HE'. auto.
  - destruct (H2 eq_refl) as (-> & -> & _). eapply IH; [|eassumption]. apply orself_unextended.
Qed.

Lemma fitted_exact_pass k ps r : pass k ps = (r, true) ->
  (forall p, In p ps -> delta p = 0 /\ was p = false) -> map lam r = map lam ps.
Proof.
  intros E Hz. destruct (pass_cases k ps r true E) as (ps1 & H1 & _ & H3).
  destruct (H3 eq_refl) as (_ & -> & _). destruct H1 as [->|(-> & _)]; [reflexivity|].
  rewrite map_map. apply map_ext_in. intros p Hp. destruct (Hz p Hp) as [E0 E1].
  unfold or_self, reduce_step. rewrite E1, andb_false_r.
  destruct (gauss_id || (control =? 2)%nat); simpl; [rewrite E0; field|reflexivity].
Qed.
End Loop.
