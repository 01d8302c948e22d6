(** A kernel that computes derivatives of cells gives the derivative of the log-likelihood. *)

From Coq Require Import List Bool Arith Reals Lia Lra.
From Coquelicot Require Import Coquelicot.
From Verif Require Import Ext HsmmModel HsmmSpec HsmmProofs2 HsmmProofs3 HgrModel HgrSpec HgrProofs.
Import ListNotations.
Local Open Scope R_scope.

Definition right_kernel (m g : tables R) (k : kernel) : Prop :=
  (forall d j, (d < D m - 1)%nat -> (j < n_S m)%nat -> skipped m d j = false -> first k d j = dfirst m g d j) /\
  (forall t la psi d j, (d < D m - 1)%nat -> (j < n_S m)%nat -> skipped m d j = false -> in_range m (S t) d = true ->
     cell k (S t) la psi d j = draw m g (S t) la psi d j).

Lemma range_prev (m : tables R) t d : in_range m (S t) d = true -> in_range m t (d + 1) = true /\ in_range m t 0 = true.
Proof.
  unfold in_range. destruct (ends_with_last m); cbn [negb orb]; rewrite ?orb_true_r, ?orb_false_r; [|auto].
  rewrite !Nat.ltb_lt. lia.
Qed.

Lemma draw_scal m g t a da a' da' c d j : (d < D m - 1)%nat -> (j < n_S m)%nat -> in_range m (S t) d = true ->
  (forall d j, (d < D m - 1)%nat -> (j < n_S m)%nat -> a d j = a' d j / c) ->
  (forall d j, (d < D m - 1)%nat -> (j < n_S m)%nat -> in_range m t d = true -> da d j = da' d j / c) ->
  draw m g (S t) a da d j = draw m g (S t) a' da' d j / c.
Proof.
  intros Hd Hj R Ha Hda. unfold draw. rewrite R. destruct (range_prev m t d R) as [R1 R0].
  replace (S t - 1)%nat with t by lia.
  assert (E1 : (if (d + 1 <=? D m - 2)%nat then da (d + 1)%nat j * bc m (S t) d j + a (d + 1)%nat j * bc g (S t) d j else 0) =
               (if (d + 1 <=? D m - 2)%nat then da' (d + 1)%nat j * bc m (S t) d j + a' (d + 1)%nat j * bc g (S t) d j else 0) / c).
  { destruct (Nat.leb_spec (d + 1) (D m - 2)); [|unfold Rdiv; ring]. rewrite Ha, Hda by (assumption || lia). unfold Rdiv. ring. }
  assert (E2 : inflow m (S t) a j = inflow m (S t) a' j / c).
  { unfold inflow, Rdiv. rewrite <- nsum_scal_r. apply nsum_ext. intros i Hi. destruct (i =? j)%nat; [ring|]. rewrite Ha by lia. unfold Rdiv. ring. }
  assert (E3 : nsum (n_S m) (fun i => if (i =? j)%nat then 0 else da 0%nat i * T m i j t + a 0%nat i * T g i j t) =
               nsum (n_S m) (fun i => if (i =? j)%nat then 0 else da' 0%nat i * T m i j t + a' 0%nat i * T g i j t) / c).
  { unfold Rdiv. rewrite <- nsum_scal_r. apply nsum_ext. intros i Hi. destruct (i =? j)%nat; [ring|]. rewrite Ha, Hda by (assumption || lia). unfold Rdiv. ring. }
  rewrite E1, E2, E3. unfold Rdiv. ring.
Qed.

(** The sum at the end of the code is the sum over the cells that count. *)
Lemma final_sum m f : (2 <= D m)%nat -> (0 < n_S m)%nat ->
  (if ends_with_last m
   then if ends_in_last m then f 0%nat (n_S m - 1)%nat else nsum (n_S m) (fun j => f 0%nat j)
   else nsum (D m - 1) (fun d => if ends_in_last m then f d (n_S m - 1)%nat else nsum (n_S m) (fun j => f d j)))
  = sum_counted m (n_T m - 1) f.
Proof.
  intros HD HS. unfold sum_counted, dj_sum, counts. rewrite Nat.ltb_irrefl. cbn [orb].
  assert (Q : forall (h : nat -> R), nsum (n_S m) (fun j => if (j =? n_S m - 1)%nat then h j else 0) = h (n_S m - 1)%nat).
  { intros h. rewrite (nsum_single _ _ (n_S m - 1)%nat); [now rewrite Nat.eqb_refl|lia|]. intros k _ N. destruct (Nat.eqb_spec k (n_S m - 1)); congruence. }
  destruct (ends_with_last m); cbn [negb].
  - rewrite (nsum_single (D m - 1) _ 0%nat); [|lia|].
    + cbn [Nat.eqb]. destruct (ends_in_last m); cbn [negb]; [symmetry; apply Q|reflexivity].
    + intros k _ N. destruct (Nat.eqb_spec k 0); [congruence|]. now apply nsum_zero.
  - apply nsum_ext. intros d Hd. destruct (ends_in_last m); cbn [negb]; [symmetry; apply Q|reflexivity].
Qed.

Section Code.
Variables m g : tables R.
Variable k : kernel.
Hypothesis Hb : fixed_bumps 0 m.
Hypothesis Hshape : exists B Du Tr Pi, g = put m B Du Tr Pi.
Hypothesis Hg : fixed_bumps 0 g.
Hypothesis Hk : right_kernel m g k.

Lemma psis_skipped t d j : skipped m d j = true -> fst (psis m k t) d j = 0 /\ snd (psis m k t) d j = 0.
Proof.
  intros E. induction t as [|t IH]; cbn [psis]; [cbn; now rewrite E|]. destruct (psis m k t) as [cur old]. cbn [fst snd] in *.
  rewrite E. cbn [orb]. tauto.
Qed.
Lemma dalpha_skipped t : forall d j, (d < D m - 1)%nat -> (j < n_S m)%nat -> skipped m d j = true -> dalpha m g t d j = 0.
Proof.
  destruct Hshape as (B & Du & Tr & Pi & Eg).
  assert (Z : forall d j u, (j < n_S m)%nat -> skipped m d j = true -> ds m d j u = 0 /\ ds m d (later m j) u = 0 /\ ds g d j u = 0 /\ ds g d (later m j) u = 0 /\
    skipped m (d + 1) j = true).
  { intros d j u Hj Hs. unfold skipped in *. apply andb_true_iff in Hs. destruct Hs as [Hs Hw]. apply andb_true_iff in Hs. destruct Hs as [Hh Ho].
    apply Nat.leb_le in Hw. destruct (Hb Hh) as [H1 H]. destruct (H d j u Hj Ho ltac:(lia)) as [A1 A2].
    assert (Hh' : hmp g = true) by now rewrite Eg. destruct (Hg Hh') as [_ H'].
    assert (Q : (j < n_S g)%nat /\ d <> (event_width g - 1)%nat) by (rewrite Eg; cbn; lia). destruct (H' d j u (proj1 Q) Ho (proj2 Q)) as [A3 A4].
    rewrite Hh, Ho. cbn [andb]. repeat split; try assumption; [rewrite Eg in *; exact A4|apply Nat.leb_le; lia]. }
  induction t as [|t IH]; intros d j Hd Hj Hs; cbn [dalpha].
  - destruct (Z d j 0%nat Hj Hs) as (Z1 & _ & Z3 & _). unfold dfirst. rewrite Z1, Z3. ring.
  - destruct (Z d j (S t) Hj Hs) as (_ & Z2 & _ & Z4 & Z5). unfold draw. destruct (in_range m (S t) d); [|reflexivity]. rewrite Z2, Z4.
    destruct (Nat.leb_spec (d + 1) (D m - 2)); [|ring]. rewrite IH, (alpha_skipped m Hb) by (assumption || lia). ring.
Qed.

Lemma psi_dalpha t : (forall u, (u < t)%nat -> Lam m u <> 0) -> forall d j, (d < D m - 1)%nat -> (j < n_S m)%nat -> in_range m t d = true ->
  fst (psis m k t) d j = dalpha m g t d j / scaling m t.
Proof.
  induction t as [|t IH]; intros HL d j Hd Hj R.
  - cbn. destruct (skipped m d j) eqn:Sk.
    + pose proof (dalpha_skipped 0 d j Hd Hj Sk) as Z. cbn in Z. rewrite Z. field.
    + destruct Hk as [H _]. rewrite H by assumption. field.
  - destruct (skipped m d j) eqn:Sk.
    + rewrite (proj1 (psis_skipped _ _ _ Sk)), dalpha_skipped by assumption. unfold Rdiv. ring.
    + assert (HL' : forall u, (u < t)%nat -> Lam m u <> 0) by (intros; apply HL; lia). specialize (IH HL').
      cbn [psis]. destruct (psis m k t) as [cur old]. cbn [fst] in *. rewrite Sk, R. cbn [orb negb].
      destruct Hk as [_ H]. rewrite H by assumption. rewrite (draw_scal m g t _ _ (alpha m t) (dalpha m g t) (scaling m t)); auto.
      * cbn [scaling dalpha]. unfold Rdiv. rewrite Rinv_mult. ring.
      * intros d' j' Hd' Hj'. now apply lam_alpha.
Qed.

Hypothesis Hpos : nonnegative m.
Hypothesis Hn : (0 < n_T m)%nat.
Hypothesis HD : (2 <= D m)%nat.
Hypothesis HS : (0 < n_S m)%nat.

Lemma grad_total : total_weight m <> 0 -> grad m k = dtotal m g / total_weight m.
Proof.
  intros Ht. pose proof (fun t => alive m Hb Hpos t Hn Ht) as A.
  assert (HL : forall u, (u < n_T m - 1)%nat -> Lam m u <> 0) by (intros u Hu; specialize (A u ltac:(lia)); lra).
  unfold grad. rewrite final_sum by assumption.
  assert (E : sum_counted m (n_T m - 1) (fst (psis m k (n_T m - 1))) = dtotal m g / scaling m (n_T m - 1)).
  { unfold dtotal. rewrite <- (sum_counted_scal m). unfold sum_counted, dj_sum. apply nsum_ext. intros d Hd. apply nsum_ext. intros j Hj.
    destruct (counts m (n_T m - 1) d j) eqn:C; [|reflexivity]. apply psi_dalpha; auto.
    unfold counts in C. rewrite Nat.ltb_irrefl in C. cbn [orb] in C. unfold in_range. destruct (ends_with_last m); cbn [negb] in *; [|apply orb_true_r].
    destruct (Nat.eqb_spec d 0); [|discriminate]. subst. rewrite orb_false_r. apply Nat.ltb_lt. lia. }
  rewrite E. rewrite <- (total_alpha m Hb) by exact Hn. rewrite <- (scaling_sum m Hb _ HL). cbn [scaling]. unfold Rdiv. rewrite Rinv_mult. ring.
Qed.
End Code.

(** ** Derivatives are additive in the derivatives of the entries *)
Definition gplus (m g h : tables R) : tables R :=
  put m (fun t k j => b g t k j + b h t k j) (fun d j t => dur g d j t + dur h d j t) (fun i j t => tr g i j t + tr h i j t) (fun j => pi g j + pi h j).
Definition gzero (m : tables R) : tables R := put m (fun _ _ _ => 0) (fun _ _ _ => 0) (fun _ _ _ => 0) (fun _ => 0).
Definition shaped (m g : tables R) : Prop := exists B Du Tr Pi, g = put m B Du Tr Pi.

Lemma bc_plus m g h t d j : shaped m g -> shaped m h -> bc (gplus m g h) t d j = bc g t d j + bc h t d j.
Proof.
  intros (? & ? & ? & ? & ->) (? & ? & ? & ? & ->). unfold bc, b_cont. cbn. destruct (hmp m); [|reflexivity]. destruct (Nat.odd j); [|reflexivity].
  destruct (_ <=? _)%nat; [reflexivity|ring].
Qed.
Lemma b_first_plus m g h t j : shaped m g -> shaped m h -> b_first (gplus m g h) t j = b_first g t j + b_first h t j.
Proof. intros (? & ? & ? & ? & ->) (? & ? & ? & ? & ->). unfold b_first. cbn. destruct (hmp m); [|reflexivity]. destruct (Nat.even j); reflexivity. Qed.
Lemma ds_plus m g h d j t : shaped m g -> shaped m h -> ds (gplus m g h) d j t = ds g d j t + ds h d j t.
Proof. intros (? & ? & ? & ? & ->) (? & ? & ? & ? & ->). reflexivity. Qed.
Lemma T_plus m g h i j t : shaped m g -> shaped m h -> T (gplus m g h) i j t = T g i j t + T h i j t.
Proof. intros (? & ? & ? & ? & ->) (? & ? & ? & ? & ->). reflexivity. Qed.

Lemma dalpha_plus m g h t : shaped m g -> shaped m h -> forall d j, dalpha m (gplus m g h) t d j = dalpha m g t d j + dalpha m h t d j.
Proof.
  intros Sg Sh. induction t as [|t IH]; intros d j; cbn [dalpha].
  - unfold dfirst. rewrite (ds_plus m g h) by assumption. cbn [pi b gplus put]. ring.
  - unfold draw. destruct (in_range m (S t) d); [|ring].
    rewrite (bc_plus m g h), (b_first_plus m g h), (ds_plus m g h), IH by assumption.
    rewrite (nsum_ext _ _ (fun i => (if (i =? j)%nat then 0 else dalpha m g t 0%nat i * T m i j (S t - 1) + alpha m t 0%nat i * T g i j (S t - 1)) +
      ((if (i =? j)%nat then 0 else dalpha m h t 0%nat i * T m i j (S t - 1) + alpha m t 0%nat i * T h i j (S t - 1))))).
    + rewrite HgrProofs.nsum_plus. destruct (_ <=? _)%nat; ring.
    + intros i Hi. destruct (i =? j)%nat; [ring|]. rewrite IH, (T_plus m g h) by assumption. ring.
Qed.
Lemma dtotal_plus m g h : shaped m g -> shaped m h -> dtotal m (gplus m g h) = dtotal m g + dtotal m h.
Proof.
  intros Sg Sh. unfold dtotal, sum_counted, dj_sum. rewrite <- HgrProofs.nsum_plus. apply nsum_ext. intros d Hd. rewrite <- HgrProofs.nsum_plus. apply nsum_ext. intros j Hj.
  destruct (counts _ _ _ _); [now apply dalpha_plus|ring].
Qed.

(** They only depend on entries that exist. *)
Definition same_entries (m g h : tables R) : Prop :=
  shaped m g /\ shaped m h /\ (forall t k j, (j < n_S m)%nat -> b g t k j = b h t k j) /\
  (forall d j t, (d < D m - 1)%nat -> (j < n_S m)%nat -> dur g d j t = dur h d j t /\ dur g d (later m j) t = dur h d (later m j) t) /\
  (forall i j t, (i < n_S m)%nat -> (j < n_S m)%nat -> i <> j -> tr g i j t = tr h i j t) /\ (forall j, (j < n_S m)%nat -> pi g j = pi h j).
Lemma dalpha_same m g h t : same_entries m g h -> forall d j, (d < D m - 1)%nat -> (j < n_S m)%nat -> dalpha m g t d j = dalpha m h t d j.
Proof.
  intros (Sg & Sh & HB & HD & HT & HP).
  assert (Ed : forall d j u, (d < D m - 1)%nat -> (j < n_S m)%nat -> ds g d j u = ds h d j u /\ ds g d (later m j) u = ds h d (later m j) u).
  { intros. unfold ds. destruct Sg as (? & ? & ? & ? & ->), Sh as (? & ? & ? & ? & ->). cbn in *. now apply HD. }
  assert (Et : forall i j u, (i < n_S m)%nat -> (j < n_S m)%nat -> i <> j -> T g i j u = T h i j u).
  { intros. unfold T. destruct Sg as (? & ? & ? & ? & ->), Sh as (? & ? & ? & ? & ->). cbn in *. now apply HT. }
  assert (Eb : forall t d j, (j < n_S m)%nat -> bc g t d j = bc h t d j /\ b_first g t j = b_first h t j).
  { intros u d j Hj. unfold bc, b_cont, b_first. destruct Sg as (? & ? & ? & ? & ->), Sh as (? & ? & ? & ? & ->). cbn in *. rewrite !HB by assumption. split; reflexivity. }
  induction t as [|t IH]; intros d j Hd Hj; cbn [dalpha].
  - unfold dfirst. rewrite HB, HP by assumption. now rewrite (proj1 (Ed d j 0%nat Hd Hj)).
  - unfold draw. destruct (in_range m (S t) d); [|reflexivity]. destruct (Eb (S t) d j Hj) as [-> ->]. rewrite (proj2 (Ed d j (S t) Hd Hj)).
    rewrite (nsum_ext _ _ (fun i => if (i =? j)%nat then 0 else dalpha m h t 0%nat i * T m i j (S t - 1) + alpha m t 0%nat i * T h i j (S t - 1))).
    + destruct (Nat.leb_spec (d + 1) (D m - 2)); [rewrite IH by lia|]; reflexivity.
    + intros i Hi. destruct (Nat.eqb_spec i j); [reflexivity|]. rewrite IH, Et by (assumption || lia). reflexivity.
Qed.
Lemma dtotal_same m g h : same_entries m g h -> dtotal m g = dtotal m h.
Proof.
  intros H. unfold dtotal, sum_counted, dj_sum. apply nsum_ext. intros d Hd. apply nsum_ext. intros j Hj.
  destruct (counts _ _ _ _); [now apply dalpha_same|reflexivity].
Qed.
Lemma gplus_shaped m g h : shaped m (gplus m g h). Proof. unfold gplus. repeat eexists. Qed.
Lemma gzero_shaped m : shaped m (gzero m). Proof. unfold gzero. repeat eexists. Qed.
Lemma dtotal_zero m : dtotal m (gzero m) = 0.
Proof.
  pose proof (dtotal_plus m (gzero m) (gzero m) (gzero_shaped m) (gzero_shaped m)) as H.
  rewrite (dtotal_same m (gplus m (gzero m) (gzero m)) (gzero m)) in H; [lra|].
  split; [apply gplus_shaped|]. split; [apply gzero_shaped|]. cbn. repeat split; intros; ring.
Qed.
(** Sums over a list. *)
Definition gsum {A} (m : tables R) (gs : A -> tables R) (l : list A) : tables R := fold_right (fun a acc => gplus m (gs a) acc) (gzero m) l.
Lemma gsum_shaped {A} m (gs : A -> tables R) l : shaped m (gsum m gs l).
Proof. destruct l; [apply gzero_shaped|apply gplus_shaped]. Qed.
Lemma dtotal_gsum {A} m (gs : A -> tables R) l : (forall a, In a l -> shaped m (gs a)) -> dtotal m (gsum m gs l) = lsum l (fun a => dtotal m (gs a)).
Proof.
  induction l as [|a l IH]; intros H; [apply dtotal_zero|]. cbn [gsum fold_right]. rewrite dtotal_plus; [|apply H; now left|apply gsum_shaped].
  rewrite lsum_cons, <- IH; [reflexivity|]. intros; apply H; now right.
Qed.
Lemma gsum_entries {A} m (gs : A -> tables R) l :
  (forall t k j, b (gsum m gs l) t k j = lsum l (fun a => b (gs a) t k j)) /\ (forall d j t, dur (gsum m gs l) d j t = lsum l (fun a => dur (gs a) d j t)) /\
  (forall i j t, tr (gsum m gs l) i j t = lsum l (fun a => tr (gs a) i j t)) /\ (forall j, pi (gsum m gs l) j = lsum l (fun a => pi (gs a) j)).
Proof.
  induction l as [|a l (I1 & I2 & I3 & I4)]; [repeat split; reflexivity|]. cbn [gsum fold_right gplus put b dur tr pi].
  repeat split; intros; rewrite lsum_cons; f_equal; auto.
Qed.
