(** The kernels of the code compute derivatives of cells. *)

From Coq Require Import List Bool Arith Reals Lia Lra.
From Coquelicot Require Import Coquelicot.
From Verif Require Import Ext HsmmModel HsmmSpec HsmmProofs2 HsmmProofs3 GlsModel HgrModel HgrSpec HgrProofs HgrProofs2.
Import ListNotations.
Local Open Scope R_scope.

(** ** From kernels to slopes *)
Section Slopes.
Variable m0 : tables R.
Variables (B Du Tr : R -> nat -> nat -> nat -> R) (Pi : R -> nat -> R).
Variables (Bg Dg Tg : nat -> nat -> nat -> R) (Pg : nat -> R).
Variable x0 : R.
Let mx x := put m0 (B x) (Du x) (Tr x) (Pi x).
Let gx := put m0 Bg Dg Tg Pg.
Hypothesis HB : forall t k j, is_derive (fun x => B x t k j) x0 (Bg t k j).
Hypothesis HD : forall d j t, is_derive (fun x => Du x d j t) x0 (Dg d j t).
Hypothesis HT : forall i j t, is_derive (fun x => Tr x i j t) x0 (Tg i j t).
Hypothesis HP : forall j, is_derive (fun x => Pi x j) x0 (Pg j).
Hypothesis Hn : (0 < n_T m0)%nat.
Hypothesis HD2 : (2 <= D m0)%nat.
Hypothesis HS : (0 < n_S m0)%nat.
Hypothesis Hb : forall x, fixed_bumps 0 (mx x).
Hypothesis Hpos : forall x, nonnegative (mx x).
Hypothesis Hfin : exists r, llk (mx x0) = Fin r.

Lemma kernel_slope k : fixed_bumps 0 gx -> right_kernel (mx x0) gx k -> slope (fun x => llk (mx x)) x0 (grad (mx x0) k).
Proof.
  intros Hg Hk. pose proof (total_positive m0 B Du Tr Pi x0 Hn Hb Hpos Hfin) as P.
  rewrite (grad_total (mx x0) gx k); auto; try lra.
  - exact (llk_slope m0 B Du Tr Pi Bg Dg Tg Pg x0 HB HD HT HP Hn Hb Hpos Hfin).
  - repeat eexists.
  - unfold HgrProofs.mx in P. unfold mx. lra.
Qed.
Lemma kernels_slope {A} (l : list A) (gs : A -> tables R) (ks : A -> kernel) :
  (forall a, In a l -> shaped (mx x0) (gs a) /\ fixed_bumps 0 (gs a) /\ right_kernel (mx x0) (gs a) (ks a)) ->
  same_entries (mx x0) gx (gsum (mx x0) gs l) -> slope (fun x => llk (mx x)) x0 (lsum l (fun a => grad (mx x0) (ks a))).
Proof.
  intros H E. pose proof (total_positive m0 B Du Tr Pi x0 Hn Hb Hpos Hfin) as P. change (0 < total_weight (mx x0)) in P.
  assert (Q : lsum l (fun a => grad (mx x0) (ks a)) = dtotal (mx x0) gx / total_weight (mx x0)).
  { rewrite (dtotal_same _ _ _ E), dtotal_gsum by (intros; now apply H). unfold Rdiv. rewrite <- lsum_scal_r. apply lsum_ext. intros a Ha.
    destruct (H a Ha) as (H1 & H2 & H3). apply (grad_total (mx x0) (gs a)); auto. lra. }
  rewrite Q. exact (llk_slope m0 B Du Tr Pi Bg Dg Tg Pg x0 HB HD HT HP Hn Hb Hpos Hfin).
Qed.
End Slopes.

(** ** Cells *)
Lemma draw_eq m g t a da d j : in_range m t d = true ->
  draw m g t a da d j = carry m t da d j + inflow m t da j * b_first m t j * ds m d (later m j) t
    + ((if (d + 1 <=? D m - 2)%nat then a (d + 1)%nat j * bc g t d j else 0)
       + nsum (n_S m) (fun i => if (i =? j)%nat then 0 else a 0%nat i * T g i j (t - 1)) * (b_first m t j * ds m d (later m j) t)
       + inflow m t a j * (b_first g t j * ds m d (later m j) t + b_first m t j * ds g d (later m j) t)).
Proof.
  intros R. unfold draw. rewrite R. unfold carry, b1. fold (bc m t d j).
  rewrite (nsum_ext _ _ (fun i => (if (i =? j)%nat then 0 else da 0%nat i * T m i j (t - 1)) + (if (i =? j)%nat then 0 else a 0%nat i * T g i j (t - 1)))).
  - rewrite HgrProofs.nsum_plus. fold (inflow m t da j). destruct (_ <=? _)%nat; ring.
  - intros i _. destruct (i =? j)%nat; ring.
Qed.
Lemma plain_bc m t d j : hmp m = false -> bc m t d j = b m t 0 j /\ b_first m t j = b m t 0 j.
Proof. intros H. unfold bc, b_cont, b_first. now rewrite H. Qed.
Lemma plain_carry m t psi d j : hmp m = false -> carry m t psi d j = if (d + 1 <=? D m - 2)%nat then psi (d + 1)%nat j * b m t 0 j else 0.
Proof. intros H. unfold carry, b1. fold (bc m t d j). now rewrite (proj1 (plain_bc m t d j H)). Qed.
Lemma zero_T (m g : tables R) t j (a : nat -> nat -> R) : (forall i j t, tr g i j t = 0) -> nsum (n_S m) (fun i => if (i =? j)%nat then 0 else a 0%nat i * T g i j (t - 1)) = 0.
Proof. intros H. apply nsum_zero. intros i _. destruct (i =? j)%nat; [reflexivity|]. unfold T. rewrite H. ring. Qed.
Lemma plain_bumps (m : tables R) : hmp m = false -> fixed_bumps 0 m.
Proof. intros H H'. congruence. Qed.

(** Observations. *)
Definition obs_tangent (m : tables R) (bg : nat -> R) (jx : nat) : tables R :=
  put m (fun t k j => if (j =? jx)%nat then b m t k j * bg t else 0) (fun _ _ _ => 0) (fun _ _ _ => 0) (fun _ => 0).
Lemma obs_right m bg jx : hmp m = false -> right_kernel m (obs_tangent m bg jx) (obs_kernel m bg jx).
Proof.
  intros Hh. split.
  - intros d j _ _ _. unfold dfirst. cbn. rewrite (Nat.eqb_sym j jx). unfold ds. cbn. destruct (jx =? j)%nat; ring.
  - intros t la psi d j Hd Hj _ R. rewrite draw_eq by exact R.
    assert (Hh' : hmp (obs_tangent m bg jx) = false) by exact Hh.
    rewrite zero_T by reflexivity. rewrite plain_carry by exact Hh.
    destruct (plain_bc m (S t) d j Hh) as [_ ->]. destruct (plain_bc (obs_tangent m bg jx) (S t) d j Hh') as [-> ->].
    change (b (obs_tangent m bg jx) (S t) 0 j) with (if (j =? jx)%nat then b m (S t) 0 j * bg (S t) else 0).
    change (ds (obs_tangent m bg jx) d (later m j) (S t)) with 0. cbn [cell obs_kernel]. rewrite (Nat.eqb_sym j jx).
    destruct (jx =? j)%nat, (d + 1 <=? D m - 2)%nat; ring.
Qed.

(** Durations. *)
Definition dur_tangent (m : tables R) (dg : nat -> nat -> R) (jx : nat) : tables R :=
  put m (fun _ _ _ => 0) (fun d j t => if (j =? jx)%nat then dg d t else 0) (fun _ _ _ => 0) (fun _ => 0).
Lemma dur_right m dg jx : right_kernel m (dur_tangent m dg jx) (dur_kernel m dg jx).
Proof.
  split.
  - intros d j _ _ _. unfold dfirst.
    change (ds (dur_tangent m dg jx) d j 0) with (if (j =? jx)%nat then dg d (if tvdtpi m then 0 else 0)%nat else 0). cbn [pi b dur_tangent put first dur_kernel].
    rewrite (Nat.eqb_sym j jx). replace (if tvdtpi m then 0%nat else 0%nat) with 0%nat by now destruct (tvdtpi m). destruct (jx =? j)%nat; ring.
  - intros t la psi d j Hd Hj _ R. rewrite draw_eq by exact R. rewrite zero_T by reflexivity.
    assert (E1 : bc (dur_tangent m dg jx) (S t) d j = 0).
    { unfold bc, b_cont. cbn. destruct (hmp m); [|reflexivity]. destruct (Nat.odd j); [|reflexivity]. now destruct (_ <=? _)%nat. }
    assert (E2 : b_first (dur_tangent m dg jx) (S t) j = 0).
    { unfold b_first. cbn. destruct (hmp m); [|reflexivity]. now destruct (Nat.even j). }
    rewrite E1, E2.
    change (ds (dur_tangent m dg jx) d (later m j) (S t)) with (if (later m j =? jx)%nat then dg d (if tvdtpi m then S t else 0)%nat else 0).
    cbn [cell dur_kernel]. rewrite (Nat.eqb_sym (later m j) jx).
    destruct (jx =? later m j)%nat, (d + 1 <=? D m - 2)%nat; ring.
Qed.

(** Transitions. *)
Lemma tidx_eq n jx j : (j < n)%nat -> j <> jx -> tidx n jx j = (if (j <? jx)%nat then j else j - 1)%nat.
Proof.
  intros Hj N. unfold tidx.
  assert (G : forall l s, (s <= j < s + l)%nat ->
    (fix loop (l : list nat) : nat := match l with [] => 0%nat | ti :: r => if (ti =? jx)%nat then loop r else if (ti =? j)%nat then 0%nat else S (loop r) end) (seq s l)
    = (if (s <=? jx) && (jx <? j) then j - s - 1 else j - s)%nat).
  { induction l as [|l IH]; intros s Hs; [lia|]. cbn [seq]. destruct (Nat.eqb_spec s jx) as [->|].
    - rewrite IH by lia. destruct (Nat.leb_spec (S jx) jx); [lia|]. rewrite Nat.leb_refl. cbn [andb]. destruct (Nat.ltb_spec jx j); lia.
    - destruct (Nat.eqb_spec s j) as [->|].
      + destruct (Nat.leb_spec j jx); cbn [andb]; [destruct (Nat.ltb_spec jx j)|]; lia.
      + rewrite IH by lia. destruct (Nat.leb_spec (S s) jx), (Nat.leb_spec s jx), (Nat.ltb_spec jx j); cbn [andb]; lia. }
  rewrite G by lia. cbn [Nat.leb andb]. destruct (Nat.ltb_spec jx j), (Nat.ltb_spec j jx); lia.
Qed.
Definition tr_tangent (m : tables R) (tg : nat -> nat -> R) (jx : nat) : tables R :=
  put m (fun _ _ _ => 0) (fun _ _ _ => 0)
    (fun i j t => if (i =? jx)%nat then if (j =? jx)%nat then 0 else tr m i j t * tg (if j <? jx then j else j - 1)%nat t else 0) (fun _ => 0).
Lemma tr_right m tg jx : hmp m = false -> right_kernel m (tr_tangent m tg jx) (tr_kernel m tg jx).
Proof.
  intros Hh. split.
  - intros d j _ _ _. unfold dfirst, ds. cbn. ring.
  - intros t la psi d j Hd Hj _ R. rewrite draw_eq by exact R.
    assert (Hh' : hmp (tr_tangent m tg jx) = false) by exact Hh.
    rewrite plain_carry by exact Hh. destruct (plain_bc m (S t) d j Hh) as [_ ->]. destruct (plain_bc (tr_tangent m tg jx) (S t) d j Hh') as [-> ->].
    change (b (tr_tangent m tg jx) (S t) 0 j) with 0. change (ds (tr_tangent m tg jx) d (later m j) (S t)) with 0. cbn [cell tr_kernel].
    destruct (Nat.eqb_spec jx j) as [->|N].
    + rewrite (nsum_zero _ (fun i => if (i =? j)%nat then 0 else la 0%nat i * T (tr_tangent m tg j) i j (S t - 1))).
      * destruct (d + 1 <=? D m - 2)%nat; ring.
      * intros i _. destruct (Nat.eqb_spec i j); [reflexivity|]. unfold T. cbn. destruct (Nat.eqb_spec i j); [contradiction|]. ring.
    + rewrite (nsum_ext _ _ (fun i => (if (i =? j)%nat then 0 else psi 0%nat i * T m i j (S t - 1)) +
        (if (i =? j)%nat then 0 else la 0%nat i * T (tr_tangent m tg jx) i j (S t - 1)))).
      * rewrite HgrProofs.nsum_plus. fold (inflow m (S t) psi j). destruct (d + 1 <=? D m - 2)%nat; ring.
      * intros i Hi. destruct (Nat.eqb_spec i j); [ring|]. f_equal. unfold T. cbn [tr tr_tangent put tvdtpi]. rewrite (Nat.eqb_sym jx i).
        destruct (Nat.eqb_spec i jx) as [->|]; [|ring]. destruct (Nat.eqb_spec j jx); [congruence|]. rewrite tidx_eq by (assumption || lia). ring.
Qed.

(** Initial probabilities. *)
Definition pi_tangent (m : tables R) (pg : nat -> R) : tables R :=
  put m (fun _ _ _ => 0) (fun _ _ _ => 0) (fun _ _ _ => 0) (fun j => pi m j * pg j).
Lemma pi_right m pg : hmp m = false -> tvdtpi m = false -> right_kernel m (pi_tangent m pg) (pi_kernel m pg).
Proof.
  intros Hh Ht. split.
  - intros d j _ _ _. unfold dfirst. change (ds (pi_tangent m pg) d j 0) with 0. cbn [pi b pi_tangent put first pi_kernel]. ring.
  - intros t la psi d j Hd Hj _ R. rewrite draw_eq by exact R. rewrite zero_T by reflexivity.
    assert (Hh' : hmp (pi_tangent m pg) = false) by exact Hh.
    rewrite plain_carry by exact Hh. destruct (plain_bc m (S t) d j Hh) as [_ ->]. destruct (plain_bc (pi_tangent m pg) (S t) d j Hh') as [-> ->].
    change (b (pi_tangent m pg) (S t) 0 j) with 0. change (ds (pi_tangent m pg) d (later m j) (S t)) with 0. cbn [cell pi_kernel].
    unfold ds. rewrite Ht. destruct (d + 1 <=? D m - 2)%nat; ring.
Qed.

(** hmp models. *)
Definition hmp_tangent (m : tables R) (h : hmp_pars) (s : nat) (mu bg : nat -> R) (jx : nat) : tables R :=
  put m (fun t k j =>
           if (j =? jx)%nat then b m t k j * score h (y h t s) (ebump h mu t k) (ebump h bg t k)
           else if (j =? S jx)%nat && (k =? 1)%nat then
             match rho h with
             | Some r => b m t k j * score h (y h t s) (d1 r * (w h (event_width m - 1) * lagged mu t)) (d1 r * (w h (event_width m - 1) * lagged bg t))
             | None => 0
             end
           else 0) (fun _ _ _ => 0) (fun _ _ _ => 0) (fun _ => 0).
Lemma bump0_eq h u t : bump0 h (u t) = ebump h u t 0.
Proof. unfold bump0, ebump. destruct (rho h); ring. Qed.
Lemma bumpk_eq h u t k : bumpk h u (S t) k = ebump h u (S t) k.
Proof. unfold bumpk, ebump, lagged. destruct (rho h); [|ring]. destruct k; cbn [Nat.ltb Nat.leb]; [ring|]. replace (S k - 1)%nat with k by lia. replace (S t - 1)%nat with t by lia. ring. Qed.
Lemma hmp_right m h s mu bg jx : hmp m = true -> Nat.odd jx = true -> right_kernel m (hmp_tangent m h s mu bg jx) (hmp_kernel m h s mu bg jx).
Proof.
  intros Hh Ho. assert (Hh' : hmp (hmp_tangent m h s mu bg jx) = true) by exact Hh. split.
  - intros d j _ _ _. unfold dfirst. cbn [pi b hmp_tangent put first hmp_kernel]. rewrite (Nat.eqb_sym j jx).
    change (ds (hmp_tangent m h s mu bg jx) d j 0) with 0. destruct (jx =? j)%nat; [rewrite !bump0_eq; ring|].
    change (0 =? 1)%nat with false. rewrite andb_false_r. ring.
  - intros t la psi d j Hd Hj Sk R. rewrite draw_eq by exact R. rewrite zero_T by reflexivity.
    change (ds (hmp_tangent m h s mu bg jx) d (later m j) (S t)) with 0. cbn [cell hmp_kernel].
    destruct (Nat.eqb_spec jx j) as [<-|N].
    + assert (Ev : Nat.even jx = false) by (rewrite <- Nat.negb_odd, Ho; reflexivity).
      unfold carry, b1, bc, b_cont, b_first. rewrite Hh, Hh', Ho, Ev. cbn [event_width hmp_tangent put b]. rewrite Nat.eqb_refl, !bump0_eq.
      destruct (Nat.leb_spec d (event_width m - 1)); [rewrite !bumpk_eq|]; destruct (d + 1 <=? D m - 2)%nat; ring.
    + unfold bc, b_cont, b_first. rewrite Hh, Hh'. cbn [event_width hmp_tangent put b]. destruct (Nat.eqb_spec j jx); [congruence|].
      destruct (Nat.odd j) eqn:Oj.
      * assert (Ej : Nat.even j = false) by (rewrite <- Nat.negb_odd, Oj; reflexivity). rewrite Ej. cbn [andb].
        destruct (Nat.eqb_spec j (S jx)) as [->|Ns].
        { rewrite Nat.odd_succ in Oj. rewrite <- Nat.negb_odd, Ho in Oj. discriminate. }
        cbn [andb]. destruct (rho h), (d <=? event_width m - 1)%nat, (d + 1 <=? D m - 2)%nat; ring.
      * assert (Ej : Nat.even j = true) by (rewrite <- Nat.negb_odd, Oj; reflexivity). rewrite Ej. change (0 =? 1)%nat with false. change (1 =? 1)%nat with true.
        rewrite andb_false_r, andb_true_r, andb_true_l, (Nat.eqb_sym j (S jx)). destruct (rho h) as [r|].
        -- destruct (S jx =? j)%nat; [|destruct (d + 1 <=? D m - 2)%nat; ring]. cbn [lagged]. replace (S t - 1)%nat with t by lia.
           replace (d1 r * (w h (event_width m - 1) * mu t)) with (d1 r * w h (event_width m - 1) * mu t) by ring.
           replace (d1 r * (w h (event_width m - 1) * bg t)) with (d1 r * w h (event_width m - 1) * bg t) by ring.
           destruct (d + 1 <=? D m - 2)%nat; ring.
        -- destruct (S jx =? j)%nat, (d + 1 <=? D m - 2)%nat; ring.
Qed.
