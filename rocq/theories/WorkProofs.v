(** Proofs for WorkProps. *)

From Coq Require Import List Arith Bool Reals Lra Lia.
From Verif Require Import FamModel WorkModel WorkSpec.
Import ListNotations.
Local Open Scope R_scope.

Lemma vsub_cons a b x z : vsub (a :: x) (b :: z) = (a - b) :: vsub x z.
Proof. reflexivity. Qed.
Lemma vadd_cons a b x z : vadd (a :: x) (b :: z) = (a + b) :: vadd x z.
Proof. reflexivity. Qed.

Lemma vsub_zero : forall l o, length l = length o -> Forall (eq 0) o -> vadd l o = l /\ vsub l o = l.
Proof.
  induction l as [|a l IH]; intros [|b o] E H; try discriminate; [split; reflexivity|].
  inversion H; subst. injection E as E. destruct (IH o E H3) as [H1 H2].
  rewrite vadd_cons, vsub_cons, H1, H2. split; f_equal; lra.
Qed.

Lemma vsub_assoc : forall y o l, vsub (vsub y o) l = vsub y (vadd l o).
Proof.
  induction y as [|a y IH]; intros [|b o] [|c l]; try reflexivity.
  rewrite vadd_cons, !vsub_cons, IH. f_equal. lra.
Qed.

Section Rows.
Variables dy1 V : R -> R.
Variable bad : R -> R -> bool.

Lemma somes_cons {A} (o : option A) l :
  somes (o :: l) = match o with Some v => v :: somes l | None => somes l end.
Proof. destruct o; reflexivity. Qed.

Lemma resid_square : forall y mu eta, length y = length mu -> length mu = length eta ->
  regular dy1 V bad y mu ->
  let (z, Wr) := update_PIRLS dy1 V bad y mu eta in
  let r := working_resid z Wr eta in
  dot r r = pearson V bad y mu /\ (length (filter (fun o => match o with None => true | Some _ => false end) z)
                                   + used bad y mu = length y)%nat.
Proof.
  induction y as [|a y IH]; intros [|m mu] [|e eta] E1 E2 H; try discriminate.
  - unfold dot. simpl. split; reflexivity.
  - injection E1 as E1. injection E2 as E2. inversion H as [|? ? Hr H']; subst. simpl in Hr.
    specialize (IH mu eta E1 E2 H').
    unfold update_PIRLS, pdat in *. cbn [combine map pdat_row]. cbn [pearson used].
    destruct (bad a m) eqn:Eb.
    + rewrite somes_cons. unfold working_resid in *. cbn [option_map map combine fst snd].
      rewrite somes_cons. destruct IH as [IH1 IH2]. split.
      * rewrite IH1. lra.
      * cbn [filter length]. simpl. rewrite <- IH2. lia.
    + destruct (Hr eq_refl) as [H1 H2].
      rewrite somes_cons. unfold working_resid in *. cbn [option_map map combine fst snd fisher_row].
      rewrite somes_cons. cbn [combine map]. destruct IH as [IH1 IH2]. split.
      * unfold dot in *. cbn [combine map fold_right fst snd]. rewrite IH1. f_equal.
        set (w := 1 / (dy1 m ^ 2 * V m)).
        assert (Hw : 0 <= w).
        { unfold w. apply Rlt_le, Rdiv_lt_0_compat; [lra|].
          apply Rmult_lt_0_compat; [|assumption].
          assert (0 < (dy1 m)²) by now apply Rlt_0_sqr. unfold Rsqr in *. simpl. lra. }
        replace (sqrt w * (dy1 m * (a - m) + e - e) * (sqrt w * (dy1 m * (a - m) + e - e)))
          with ((sqrt w * sqrt w) * (dy1 m * (a - m)) ^ 2) by ring.
        rewrite sqrt_sqrt by assumption. unfold w. field. split; [lra|assumption].
      * cbn [filter]. rewrite Nat.add_comm. cbn [length Nat.add]. rewrite <- IH2. lia.
Qed.

Lemma vadd_vsub : forall l o, length l = length o -> vsub (vadd l o) o = l.
Proof.
  induction l as [|a l IH]; intros [|b o] E; try discriminate; [reflexivity|].
  rewrite vadd_cons, vsub_cons, IH by (injection E; auto). f_equal. lra.
Qed.

Lemma scale_correct y mu lin offset colsX drop pen_edf :
  length y = length mu -> length mu = length lin -> length lin = length offset ->
  Forall (eq 0) offset -> (pen_edf = None -> drop = []) -> regular dy1 V bad y mu ->
  snd (settled_scale dy1 V bad y mu lin offset colsX drop pen_edf None)
  = pearson V bad y mu / (INR (used bad y mu) - degrees colsX drop pen_edf).
Proof.
  intros E1 E2 E3 Ho Hd H. unfold settled_scale.
  destruct (vsub_zero lin offset E3 Ho) as [H1 H2]. rewrite H1, H2.
  generalize (resid_square y mu lin E1 E2 H).
  destruct (update_PIRLS dy1 V bad y mu lin) as [z Wr]. cbv zeta. intros [R1 R2].
  unfold update_scale_edf. cbn [snd]. unfold est_scale. rewrite R1.
  replace (length y - _)%nat with (used bad y mu) by (cbn [negb]; lia).
  unfold degrees. destruct pen_edf as [e|]; [reflexivity|]. now rewrite (Hd eq_refl), Nat.sub_0_r.
Qed.

(** ** The Hessian *)
Lemma none_bad : forall y mu eta, length y = length mu -> length mu = length eta ->
  Forall (fun p => bad (fst p) (snd p) = false) (combine y mu) ->
  existsb (fun o : option R => match o with None => true | Some _ => false end)
    (fst (update_PIRLS dy1 V bad y mu eta)) = false.
Proof.
  induction y as [|a y IH]; intros [|m mu] [|e eta] E1 E2 H; try discriminate; [reflexivity|].
  injection E1 as E1. injection E2 as E2. inversion H as [|? ? Hb H']; subst. simpl in Hb.
  unfold update_PIRLS, pdat. cbn [combine map pdat_row fst]. rewrite Hb. cbn [option_map existsb].
  exact (IH mu eta E1 E2 H').
Qed.

Lemma hessian_cons x X w Wr scale i j :
  hessian (x :: X) (w :: Wr) scale i j = - (nth i x 0 * (w * w) * nth j x 0) / scale + hessian X Wr scale i j.
Proof. unfold hessian, dot. cbn [combine map fold_right fst snd]. unfold Rdiv. ring. Qed.

Lemma hessian_correct : forall X y mu eta scale i j,
  length X = length y -> length y = length mu -> length mu = length eta ->
  Forall (fun p => bad (fst p) (snd p) = false) (combine y mu) -> regular dy1 V bad y mu ->
  fit_hessian dy1 V bad X y mu eta scale i j = - information dy1 V bad X y mu i j / scale.
Proof.
  intros X y mu eta scale i j E0 E1 E2 Hb H. unfold fit_hessian.
  generalize (none_bad y mu eta E1 E2 Hb). intros Hn.
  destruct (update_PIRLS dy1 V bad y mu eta) as [z Wr] eqn:EP. cbn [fst] in Hn.
  unfold final_Wr. rewrite Hn. replace Wr with (snd (update_PIRLS dy1 V bad y mu eta)) by now rewrite EP.
  clear EP Hn z Wr. revert y mu eta E0 E1 E2 Hb H.
  induction X as [|x X IH]; intros [|a y] [|m mu] [|e eta] E0 E1 E2 Hb H; try discriminate.
  - unfold hessian, dot. simpl. unfold Rdiv. ring.
  - injection E0 as E0. injection E1 as E1. injection E2 as E2.
    inversion Hb as [|? ? Hb1 Hb2]; subst. inversion H as [|? ? Hr H']; subst. simpl in Hb1, Hr.
    specialize (IH y mu eta E0 E1 E2 Hb2 H').
    unfold update_PIRLS, pdat in *. cbn [combine map pdat_row snd information].
    rewrite Hb1, somes_cons. cbn [map snd fisher_row]. rewrite hessian_cons. cbn [snd] in IH. rewrite IH.
    destruct (Hr Hb1) as [H1 H2].
    set (w := 1 / (dy1 m ^ 2 * V m)).
    assert (Hw : 0 <= w).
    { unfold w. apply Rlt_le, Rdiv_lt_0_compat; [lra|].
      apply Rmult_lt_0_compat; [|assumption].
      assert (0 < (dy1 m)²) by now apply Rlt_0_sqr. unfold Rsqr in *. simpl. lra. }
    rewrite sqrt_sqrt by assumption. unfold w, Rdiv. ring.
Qed.
End Rows.

(** ** Offsets *)
Lemma vadd_nth : forall a b r, (r < length a)%nat -> length a = length b ->
  nth r (vadd a b) 0 = nth r a 0 + nth r b 0.
Proof.
  induction a as [|x a IH]; intros [|z b] r Hr E; simpl in Hr; try discriminate; [lia|].
  rewrite vadd_cons. destruct r as [|r]; [reflexivity|]. cbn [nth]. apply IH; [lia|injection E; auto].
Qed.
Lemma vsub_nth : forall a b r, (r < length a)%nat -> length a = length b ->
  nth r (vsub a b) 0 = nth r a 0 - nth r b 0.
Proof.
  induction a as [|x a IH]; intros [|z b] r Hr E; simpl in Hr; try discriminate; [lia|].
  rewrite vsub_cons. destruct r as [|r]; [reflexivity|]. cbn [nth]. apply IH; [lia|injection E; auto].
Qed.
Lemma vadd_length a b : length a = length b -> length (vadd a b) = length a.
Proof. intros E. unfold vadd. rewrite map_length, combine_length. lia. Qed.
Lemma vsub_length a b : length a = length b -> length (vsub a b) = length a.
Proof. intros E. unfold vsub. rewrite map_length, combine_length. lia. Qed.

Lemma gaussian_offset solve lin o y :
  length o = length y -> (forall c, length (lin c) = length y) ->
  (forall y' c, length y' = length y -> square_loss lin (solve y') y' <= square_loss lin c y') ->
  let '(coef, eta, wres) := fit_gaussian solve lin false (Some o) y in
  (forall c, offset_loss lin o coef y <= offset_loss lin o c y) /\
  (forall r, (r < length y)%nat -> nth r eta 0 = nth r (lin coef) 0 + nth r o 0) /\
  (forall r, (r < length y)%nat -> nth r wres 0 = nth r y 0 - nth r eta 0).
Proof.
  intros Eo El Hs. unfold fit_gaussian.
  set (y' := vsub y o). assert (Ey : length y' = length y) by (apply vsub_length; lia).
  assert (HL : forall c, offset_loss lin o c y = square_loss lin c y').
  { intros c. unfold offset_loss, square_loss, y'. generalize (El c). generalize (lin c). revert Eo. clear.
    revert o. induction y as [|a y IH]; intros [|b o] Eo [|e l] El; try discriminate; [reflexivity|].
    rewrite vsub_cons. cbn [offset_sum sq_sum]. rewrite IH by (simpl in *; lia). f_equal. ring. }
  repeat split.
  - intros c. rewrite !HL. apply Hs, Ey.
  - intros r Hr. rewrite vadd_nth; rewrite ?El; [reflexivity|assumption|lia].
  - intros r Hr. rewrite vsub_nth, vadd_nth; rewrite ?El, ?Ey; try lia. unfold y'. rewrite vsub_nth by lia. ring.
Qed.
