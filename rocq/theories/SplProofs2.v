(** B_spline_basis computes B-splines; convolution with a spike shifts. *)

From Coq Require Import List Bool Arith Reals Lia Lra.
From Verif Require Import SplModel SplSpec SplProofs.
Import ListNotations.
Local Open Scope R_scope.

Lemma fact_pos p : 0 < INR (fact p).
Proof. apply lt_0_INR. apply lt_O_fact. Qed.

Lemma b_spline_M t0 dx p : 0 < dx -> forall i x, b_spline (even_knots t0 dx) p i x = M p ((x - t0) / dx - INR i) / INR (fact p).
Proof.
  intros Hd. induction p as [|p IH]; intros i x.
  - cbn [b_spline]. rewrite M_0. unfold even_knots. rewrite S_INR. set (y := (x - t0) / dx).
    assert (E : x = t0 + y * dx) by (unfold y; field; lra). rewrite E.
    assert (L : forall a b, t0 + a * dx < t0 + b * dx <-> a < b).
    { intros a b. split; intros H; [|apply Rplus_lt_compat_l, Rmult_lt_compat_r; assumption].
      apply (Rmult_lt_reg_r dx); lra. }
    cbn [fact INR].
    destruct (Rlt_dec (t0 + INR i * dx) (t0 + y * dx)) as [H|H]; rewrite L in H; destruct (Rlt_dec 0 (y - INR i)) as [G|G]; try lra.
    destruct (Rle_dec (t0 + y * dx) (t0 + (INR i + 1) * dx)) as [H2|H2]; destruct (Rle_dec (y - INR i) 1) as [G2|G2]; try lra.
    + exfalso. apply G2. apply Rnot_lt_le. intros C. assert (INR i + 1 < y) as C' by lra. apply (proj2 (L _ _)) in C'. lra.
    + exfalso. apply H2. apply Rnot_lt_le. intros C. apply (proj1 (L _ _)) in C. lra.
  - cbn [b_spline]. rewrite !IH, M_step. unfold even_knots.
    pose proof (fact_pos p). pose proof (pos_INR p).
    rewrite fact_simpl, mult_INR. rewrite !plus_INR, !S_INR. cbn [INR]. set (y := (x - t0) / dx).
    assert (E : x = t0 + y * dx) by (unfold y; field; lra).
    replace (y - (INR i + 1)) with (y - INR i - 1) by ring. rewrite E.
    generalize (M p (y - INR i)) (M p (y - INR i - 1)). intros a b. field. repeat split; try lra.
    replace (INR i + (INR p + 1) + 1 - INR i - 1) with (INR p + 1) by ring. nra.
Qed.

Lemma combine_map_seq {A B} (f : nat -> A) (g : nat -> B) l : combine (map f l) (map g l) = map (fun k => (f k, g k)) l.
Proof. induction l; cbn; congruence. Qed.

Lemma difference_nab p (G : R -> R) y : forall i, difference p (fun k => G (y - INR k)) i = (-1) ^ p * nab p G (y - INR i).
Proof.
  induction p as [|p IH]; intros i; cbn [difference nab pow]; [ring|]. rewrite !IH, S_INR.
  replace (y - (INR i + 1)) with (y - INR i - 1) by ring. ring.
Qed.
Lemma tpower_ramp t0 dx x k p : 0 < dx -> tpower x (t0 + INR k * dx) p = dx ^ p * ramp p ((x - t0) / dx - INR k).
Proof.
  intros Hd. unfold tpower, ramp. set (y := (x - t0) / dx).
  assert (E : x - (t0 + INR k * dx) = dx * (y - INR k)) by (unfold y; field; lra).
  destruct (Rlt_dec (t0 + INR k * dx) x) as [H|H]; destruct (Rlt_dec 0 (y - INR k)) as [G|G].
  - rewrite E, Rpow_mult_distr. ring.
  - exfalso. apply G. apply (Rmult_lt_reg_l dx); lra.
  - exfalso. apply H. assert (0 < dx * (y - INR k)) by (apply Rmult_lt_0_compat; assumption). lra.
  - ring.
Qed.

Lemma bbase_length x knots dx deg : length (bbase x knots dx deg) = (length knots - (deg + 1))%nat.
Proof. unfold bbase, vec_mat. now rewrite map_length, seq_length, map_length. Qed.

Lemma bbase_entry t0 dx n deg x i : 0 < dx -> (i + (deg + 1) < n)%nat ->
  nth i (bbase x (map (even_knots t0 dx) (seq 0 n)) dx deg) 0 = b_spline (even_knots t0 dx) deg i x.
Proof.
  intros Hd Hi. rewrite b_spline_M by assumption. unfold bbase, vec_mat. rewrite !map_length, seq_length.
  rewrite nth_map_seq by lia. rewrite !map_map, combine_map_seq, map_map, sum_list_map. cbn [fst snd].
  set (F := INR (fact deg) * dx ^ deg).
  assert (HF : F <> 0). { unfold F. pose proof (fact_pos deg). apply Rmult_integral_contrapositive_currified; [lra|]. apply pow_nonzero. lra. }
  rewrite (sumn_ext n _ (fun k => (-1) ^ (deg + 1) / F * (tpower x (t0 + INR k * dx) deg * difference (deg + 1) (fun i => if (i =? k)%nat then 1 else 0) i))).
  - rewrite sumn_scal. rewrite difference_sum by lia.
    rewrite (difference_ext _ _ (fun k => dx ^ deg * ramp deg ((x - t0) / dx - INR k))) by (intros; apply tpower_ramp; assumption).
    rewrite (difference_scal (deg + 1) (dx ^ deg) (fun k => ramp deg ((x - t0) / dx - INR k))).
    rewrite (difference_nab (deg + 1) (ramp deg)). unfold M. replace (deg + 1)%nat with (S deg) by lia.
    set (s := (-1) ^ S deg). assert (Es : s * s = 1). { unfold s. rewrite <- Rpow_mult_distr. replace (-1 * -1) with 1 by ring. apply pow1. }
    assert (HD : dx ^ deg <> 0) by (apply pow_nonzero; lra). pose proof (fact_pos deg).
    transitivity (s * s * nab (S deg) (ramp deg) ((x - t0) / dx - INR i) / INR (fact deg)); [|rewrite Es; field; lra].
    unfold F. field. split; [lra|exact HD].
  - intros k Hk. rewrite (nth_map_in _ _ _ _ 0) by (rewrite np_diff_length; unfold identity_row; rewrite map_length, seq_length; lia).
    rewrite np_diff_nth by (unfold identity_row; rewrite map_length, seq_length; lia).
    rewrite (difference_ext _ (fun k0 => nth k0 (identity_row n k) 0) (fun i => if (i =? k)%nat then 1 else 0)).
    + unfold even_knots. field. exact HF.
    + intros j Hj. unfold identity_row. now rewrite nth_map_seq by lia.
Qed.

Lemma linspace_knots a b num : (2 <= num)%nat -> linspace a b num = map (even_knots a ((b - a) / (INR num - 1))) (seq 0 num).
Proof. reflexivity. Qed.

(** ** Limits *)

Lemma fold_Rmin_le l d : Forall (fun x => fold_right Rmin d l <= x) l.
Proof.
  induction l as [|a l IH]; [constructor|]. cbn [fold_right]. constructor; [apply Rmin_l|].
  eapply Forall_impl; [|exact IH]. cbn beta. intros x H. eapply Rle_trans; [apply Rmin_r|exact H].
Qed.
Lemma fold_Rmin_in l d : fold_right Rmin d l = d \/ In (fold_right Rmin d l) l.
Proof.
  induction l as [|a l IH]; [now left|]. cbn [fold_right In].
  assert (E : Rmin a (fold_right Rmin d l) = a \/ Rmin a (fold_right Rmin d l) = fold_right Rmin d l) by (unfold Rmin at 1 3; destruct Rle_dec; auto).
  destruct E as [E|E]; rewrite E; [right; now left|]. destruct IH as [IH|IH]; [left; exact IH|right; right; exact IH].
Qed.
Lemma fold_Rmax_ge l d : Forall (fun x => x <= fold_right Rmax d l) l.
Proof.
  induction l as [|a l IH]; [constructor|]. cbn [fold_right]. constructor; [apply Rmax_l|].
  eapply Forall_impl; [|exact IH]. cbn beta. intros x H. eapply Rle_trans; [exact H|apply Rmax_r].
Qed.
Lemma fold_Rmax_in l d : fold_right Rmax d l = d \/ In (fold_right Rmax d l) l.
Proof.
  induction l as [|a l IH]; [now left|]. cbn [fold_right In].
  assert (E : Rmax a (fold_right Rmax d l) = a \/ Rmax a (fold_right Rmax d l) = fold_right Rmax d l) by (unfold Rmax at 1 3; destruct Rle_dec; auto).
  destruct E as [E|E]; rewrite E; [right; now left|]. destruct IH as [IH|IH]; [left; exact IH|right; right; exact IH].
Qed.
Lemma list_min_spec l : l <> [] -> In (list_min l) l /\ Forall (fun x => list_min l <= x) l.
Proof.
  intros H. split; [|apply fold_Rmin_le]. unfold list_min. destruct (fold_Rmin_in l (hd 0 l)) as [E|E]; [|exact E].
  rewrite E. destruct l; [contradiction|now left].
Qed.
Lemma list_max_spec l : l <> [] -> In (list_max l) l /\ Forall (fun x => x <= list_max l) l.
Proof.
  intros H. split; [|apply fold_Rmax_ge]. unfold list_max. destruct (fold_Rmax_in l (hd 0 l)) as [E|E]; [|exact E].
  rewrite E. destruct l; [contradiction|now left].
Qed.
Lemma lower_limit_eq cov kw xl : cov <> [] -> lower_limit cov kw xl -> match min_c kw with Some v => v | None => list_min cov end = xl.
Proof.
  unfold lower_limit. intros N H. destruct (min_c kw) as [v|]; [now symmetry|]. destruct H as [H1 H2]. destruct (list_min_spec cov N) as [G1 G2].
  rewrite Forall_forall in H2, G2. apply Rle_antisym; auto.
Qed.
Lemma upper_limit_eq cov kw xr : cov <> [] -> upper_limit cov kw xr -> match max_c kw with Some v => v | None => list_max cov end = xr.
Proof.
  unfold upper_limit. intros N H. destruct (max_c kw) as [v|]; [now symmetry|]. destruct H as [H1 H2]. destruct (list_max_spec cov N) as [G1 G2].
  rewrite Forall_forall in H2, G2. apply Rle_antisym; auto.
Qed.

(** ** The basis without convolution *)

Lemma basis_entry cov onset nk kw B xl xr : b_spline_basis cov onset nk kw = Some B -> convolve kw = false ->
  lower_limit cov kw xl -> upper_limit cov kw xr -> xl < xr ->
  (degree kw < nk)%nat /\ length B = length cov /\
  (forall r, (r < length cov)%nat -> length (nth r B []) = nk /\
    forall i, (i < nk)%nat ->
      nth i (nth r B []) 0 = b_spline (even_knots (xl - INR (degree kw) * ((xr - xl) / INR (nk - degree kw))) ((xr - xl) / INR (nk - degree kw)))
                                      (degree kw) i (nth r cov 0)).
Proof.
  intros E Hc Hl Hr Hlt. unfold b_spline_basis in E.
  destruct (Nat.eqb_spec (length cov) 0) as [|Nc]; [discriminate|]. cbn [orb] in E.
  destruct (Nat.leb_spec nk (degree kw)) as [|Hk]; [discriminate|].
  assert (N : cov <> []) by (intros ->; apply Nc; reflexivity).
  rewrite (lower_limit_eq _ _ _ N Hl), (upper_limit_eq _ _ _ N Hr), Hc in E. injection E as <-.
  split; [exact Hk|]. split; [apply map_length|]. intros r Hr'.
  rewrite (nth_map_in _ _ _ _ 0) by assumption.
  cbv beta zeta. set (deg := degree kw) in *. set (ndx := (nk - deg)%nat). set (dx := (xr - xl) / INR ndx).
  assert (Hn : 0 < INR ndx) by (apply lt_0_INR; unfold ndx; lia).
  assert (Hd : 0 < dx) by (unfold dx; apply Rdiv_lt_0_compat; lra).
  assert (Ek : linspace (xl - dx * INR deg) (xr + dx * INR deg) (ndx + 1 + 2 * deg)
             = map (even_knots (xl - INR deg * dx) dx) (seq 0 (ndx + 1 + 2 * deg))).
  { unfold linspace, even_knots. apply map_ext. intros k. replace (xl - dx * INR deg) with (xl - INR deg * dx) by ring. f_equal. f_equal.
    replace (INR (ndx + 1 + 2 * deg) - 1) with (INR ndx + 2 * INR deg) by (rewrite !plus_INR, mult_INR; cbn [INR]; ring).
    replace (xr + dx * INR deg - (xl - INR deg * dx)) with (dx * (INR ndx + 2 * INR deg)) by (unfold dx; field; lra).
    field. pose proof (pos_INR deg). lra. }
  change (deg + (deg + 0))%nat with (2 * deg)%nat. rewrite Ek. split.
  - rewrite bbase_length, map_length, seq_length. unfold ndx. lia.
  - intros i Hi. apply bbase_entry; [exact Hd|unfold ndx; lia].
Qed.

(** ** Convolution with a spike *)

Lemma spike_nth loc i : nth i (spike loc) 0 = if (i =? loc)%nat then 1 else 0.
Proof.
  unfold spike. destruct (Nat.ltb_spec i (loc + 1)).
  - now rewrite nth_map_seq by lia.
  - rewrite nth_overflow by (rewrite map_length, seq_length; lia). destruct (Nat.eqb_spec i loc); [lia|reflexivity].
Qed.
Lemma convolve_event_nth f loc r : (r < length f)%nat ->
  nth r (firstn (length f) (convolve_event f loc)) 0 = if (r <? loc)%nat then 0 else nth (r - loc) f 0.
Proof.
  intros H.
  assert (F : forall (l : list R) n k, (k < n)%nat -> nth k (firstn n l) 0 = nth k l 0).
  { clear. induction l as [|a l IH]; intros [|n] [|k] H; cbn; try lia; try reflexivity. apply IH. lia. }
  rewrite F by assumption. unfold convolve_event, fftconvolve.
  assert (Ls : length (spike loc) = S loc) by (unfold spike; rewrite map_length, seq_length; lia).
  rewrite nth_map_seq by lia. rewrite sum_list_map.
  destruct (Nat.ltb_spec r loc) as [L|L].
  - apply sumn_zero. intros s Hs. rewrite spike_nth. destruct (Nat.leb_spec s r); [|reflexivity].
    destruct (Nat.eqb_spec (r - s) loc); [lia|ring].
  - rewrite (sumn_single _ _ (r - loc)%nat).
    + rewrite spike_nth. destruct (Nat.leb_spec (r - loc) r); [|lia]. replace (r - (r - loc))%nat with loc by lia. rewrite Nat.eqb_refl. ring.
    + lia.
    + intros s Hs N. rewrite spike_nth. destruct (Nat.leb_spec s r); [|reflexivity]. destruct (Nat.eqb_spec (r - s) loc); [lia|ring].
Qed.

Lemma basis_convolved cov onset nk kw B lo hi : b_spline_basis cov onset nk kw = Some B -> convolve kw = true ->
  min_c kw = Some lo -> max_c kw = Some hi -> lo < hi ->
  (degree kw < nk)%nat /\ length B = length cov /\
  (forall r, (r < length cov)%nat ->
    nth r B [] = if (r <? onset)%nat then repeat 0 nk else delay_basis nk kw lo hi (nth (r - onset) cov 0)).
Proof.
  intros E Hc Hl Hh Hlt. unfold b_spline_basis in E.
  destruct (Nat.eqb_spec (length cov) 0) as [|Nc]; [discriminate|]. cbn [orb] in E.
  destruct (Nat.leb_spec nk (degree kw)) as [|Hk]; [discriminate|]. rewrite Hc, Hl, Hh in E.
  injection E as <-. split; [exact Hk|]. split; [now rewrite map_length, seq_length|].
  intros r Hr. rewrite nth_map_seq by assumption. rewrite map_map.
  cbv beta zeta. set (deg := degree kw) in *. change (deg + (deg + 0))%nat with (2 * deg)%nat. set (dx := (hi - lo) / INR (nk - deg + 2 * deg)).
  assert (Hn : 0 < INR (nk + deg)) by (apply lt_0_INR; lia).
  assert (Ed : dx = (hi - lo) / INR (nk + deg)) by (unfold dx; replace (nk - deg + 2 * deg)%nat with (nk + deg)%nat by lia; reflexivity).
  assert (Hd : 0 < dx) by (rewrite Ed; apply Rdiv_lt_0_compat; lra).
  assert (Ek : linspace lo hi (nk - deg + 1 + 2 * deg) = map (even_knots lo dx) (seq 0 (nk - deg + 1 + 2 * deg))).
  { unfold linspace, even_knots. apply map_ext. intros k. rewrite Ed. do 3 f_equal. replace (nk - deg + 1 + 2 * deg)%nat with (S (nk + deg)) by lia.
    rewrite S_INR. ring. }
  change (deg + (deg + 0))%nat with (2 * deg)%nat. rewrite Ek.
  assert (Ec : forall nki, (nki < nk)%nat -> column nki (map (fun x => bbase x (map (even_knots lo dx) (seq 0 (nk - deg + 1 + 2 * deg))) dx deg) cov)
    = map (fun x => b_spline (even_knots lo dx) deg nki x) cov).
  { intros nki Hn'. unfold column. rewrite map_map. apply map_ext. intros x. apply bbase_entry; [exact Hd|lia]. }
  transitivity (map (fun i => if (r <? onset)%nat then 0 else b_spline (even_knots lo dx) deg i (nth (r - onset) cov 0)) (seq 0 nk)).
  - apply map_ext_in. intros i Hi. apply in_seq in Hi. rewrite Ec by lia.
    set (f := map (fun x => b_spline (even_knots lo dx) deg i x) cov).
    replace (length cov) with (length f) by apply map_length. rewrite convolve_event_nth by (unfold f; now rewrite map_length).
    destruct (Nat.ltb_spec r onset); [reflexivity|]. unfold f. now rewrite (nth_map_in _ _ _ _ 0) by lia.
  - destruct (r <? onset)%nat.
    + clear. generalize 0%nat. induction nk as [|n IH]; intros k; cbn; [reflexivity|]. now rewrite IH.
    + unfold delay_basis. fold deg. rewrite Ed. reflexivity.
Qed.
