(** Claims about B-spline bases and impulse response smooths (C59, C60, C84, C85). *)

From Coq Require Import List Bool Arith Reals Lia Lra.
From Verif Require Import SplModel SplSpec SplProofs SplProofs2 SplProofs3.
Import ListNotations.
Local Open Scope R_scope.

(** ** C59 *)

(** The columns are the B-splines of the recursion of Cox and de Boor on nk + degree + 1 evenly spaced knots, the
    limits being the knots number degree and nk. *)
Theorem C59_cox_de_boor : forall cov onset nk kw B xl xr,
  b_spline_basis cov onset nk kw = Some B -> convolve kw = false ->
  lower_limit cov kw xl -> upper_limit cov kw xr -> xl < xr ->
  let dx := (xr - xl) / INR (nk - degree kw) in
  length B = length cov /\ forall r, (r < length cov)%nat -> length (nth r B []) = nk /\
    forall i, (i < nk)%nat -> nth i (nth r B []) 0 = b_spline (even_knots (xl - INR (degree kw) * dx) dx) (degree kw) i (nth r cov 0).
Proof.
  intros cov onset nk kw B xl xr E Hc Hl Hr Hlt dx. destruct (basis_entry cov onset nk kw B xl xr E Hc Hl Hr Hlt) as (_ & L & P). split; [exact L|exact P].
Qed.

Lemma row_facts cov onset nk kw B xl xr r : b_spline_basis cov onset nk kw = Some B -> convolve kw = false ->
  lower_limit cov kw xl -> upper_limit cov kw xr -> xl < xr -> (r < length cov)%nat -> xl <= nth r cov 0 <= xr ->
  (1 <= degree kw)%nat \/ xl < nth r cov 0 ->
  let dx := (xr - xl) / INR (nk - degree kw) in let row := nth r B [] in
  length row = nk /\ (forall i, 0 <= nth i row 0) /\ sum_list row = 1 /\
  (forall i, nth i row 0 <> 0 -> xl + (INR i - INR (degree kw)) * dx < nth r cov 0 <= xl + (INR i + 1) * dx) /\
  exists j, forall i, nth i row 0 <> 0 -> (i <= j <= i + degree kw)%nat.
Proof.
  intros E Hc Hl Hr Hlt Hr' Hx Hd dx row. destruct (basis_entry cov onset nk kw B xl xr E Hc Hl Hr Hlt) as (Hk & L & P).
  destruct (P r Hr') as [Lr Pr]. clear P. fold dx in Pr. fold row in Lr, Pr. set (x := nth r cov 0) in *. set (p := degree kw) in *.
  assert (Hn : 0 < INR (nk - p)) by (apply lt_0_INR; lia). assert (Hdx : 0 < dx) by (apply Rdiv_lt_0_compat; lra).
  set (y := (x - (xl - INR p * dx)) / dx) in *.
  assert (Ex : x = xl + (y - INR p) * dx) by (unfold y; field; lra).
  assert (En : INR nk = INR p + INR (nk - p)) by (rewrite <- plus_INR; f_equal; lia).
  assert (Exr : xr = xl + INR (nk - p) * dx) by (unfold dx; field; lra).
  assert (Hy : INR p <= y <= INR nk).
  { rewrite En. split; apply (Rmult_le_reg_r dx); lra. }
  assert (Hy0 : 0 < y).
  { pose proof (pos_INR p). destruct Hd as [Hd|Hd].
    - assert (1 <= INR p) by (apply (le_INR 1); exact Hd). lra.
    - assert (0 < (y - INR p)) by (apply (Rmult_lt_reg_r dx); lra). lra. }
  assert (Pm : forall i, (i < nk)%nat -> nth i row 0 = M p (y - INR i) / INR (fact p)).
  { intros i Hi. rewrite (Pr i Hi). now rewrite b_spline_M by exact Hdx. }
  pose proof (fact_pos p) as Hf.
  assert (Nz : forall i, nth i row 0 <> 0 -> (i < nk)%nat /\ 0 < y - INR i <= INR p + 1).
  { intros i Hi. destruct (Nat.lt_ge_cases i nk) as [H|H]; [|rewrite nth_overflow in Hi by lia; congruence]. split; [exact H|].
    rewrite (Pm i H) in Hi. split; apply Rnot_le_lt || apply Rnot_lt_le; intros C; apply Hi.
    - rewrite M_left by lra. unfold Rdiv. ring.
    - rewrite M_right by lra. unfold Rdiv. ring. }
  split; [exact Lr|]. split; [|split; [|split]].
  - intros i. destruct (Nat.lt_ge_cases i nk) as [H|H]; [|rewrite nth_overflow by lia; lra]. rewrite (Pm i H).
    apply Rmult_le_pos; [apply M_nonneg|]. left. now apply Rinv_0_lt_compat.
  - rewrite sum_list_nth, Lr. rewrite (sumn_ext nk _ (fun i => / INR (fact p) * M p (y - INR i))) by (intros i Hi; rewrite (Pm i Hi); unfold Rdiv; ring).
    rewrite sumn_scal, M_unity by (lra || exact Hy). field. lra.
  - intros i Hi. destruct (Nz i Hi) as [H [H1 H2]]. rewrite Ex. split.
    + apply Rplus_lt_compat_l, Rmult_lt_compat_r; lra.
    + apply Rplus_le_compat_l, Rmult_le_compat_r; lra.
  - destruct (unit_cell nk y) as (j & Hj & Hyj); [lra|]. exists j. intros i Hi. destruct (Nz i Hi) as [H [H1 H2]]. split.
    + assert (i < S j)%nat by (apply INR_lt; rewrite S_INR; lra). lia.
    + assert (j < i + p + 1)%nat by (apply INR_lt; rewrite !plus_INR; cbn [INR]; lra). lia.
Qed.

(** Rows are non-negative, sum to one and are zero except for at most degree + 1 neighbouring columns, those whose
    knots enclose the value. *)
Theorem C59_partition : forall cov onset nk kw B xl xr r,
  b_spline_basis cov onset nk kw = Some B -> convolve kw = false ->
  lower_limit cov kw xl -> upper_limit cov kw xr -> xl < xr -> (r < length cov)%nat -> xl <= nth r cov 0 <= xr ->
  (1 <= degree kw)%nat ->
  let dx := (xr - xl) / INR (nk - degree kw) in let row := nth r B [] in
  length row = nk /\ (forall i, 0 <= nth i row 0) /\ sum_list row = 1 /\
  (forall i, nth i row 0 <> 0 -> xl + (INR i - INR (degree kw)) * dx < nth r cov 0 <= xl + (INR i + 1) * dx) /\
  exists j, forall i, nth i row 0 <> 0 -> (i <= j <= i + degree kw)%nat.
Proof. intros. apply (row_facts cov onset nk kw B xl xr r); auto. Qed.

(** Degree zero: the same except at the lower limit. *)
Theorem C59_degree_zero : forall cov onset nk kw B xl xr r,
  b_spline_basis cov onset nk kw = Some B -> convolve kw = false ->
  lower_limit cov kw xl -> upper_limit cov kw xr -> xl < xr -> (r < length cov)%nat -> xl < nth r cov 0 <= xr ->
  degree kw = 0%nat ->
  let row := nth r B [] in
  length row = nk /\ (forall i, 0 <= nth i row 0) /\ sum_list row = 1 /\ exists j, forall i, nth i row 0 <> 0 -> i = j.
Proof.
  intros cov onset nk kw B xl xr r E Hc Hl Hr Hlt Hr' Hx Hd row.
  destruct (row_facts cov onset nk kw B xl xr r E Hc Hl Hr Hlt Hr') as (A & B' & C & _ & j & D); [lra|right; lra|].
  repeat split; auto. exists j. intros i Hi. specialize (D i Hi). lia.
Qed.

Definition kw_ex (d : nat) : kwargs := Kw None None false d.
Lemma kw_ex_limits d : lower_limit [0; 1; 3] (kw_ex d) 0 /\ upper_limit [0; 1; 3] (kw_ex d) 3.
Proof. unfold lower_limit, upper_limit. cbn [kw_ex min_c max_c In]. repeat split; try tauto; repeat constructor; lra. Qed.

(** The full claim fails for degree zero: at the smallest value of the data all basis functions are zero. *)
Theorem C59_degree_zero_refuted : exists cov onset nk kw B xl xr,
  b_spline_basis cov onset nk kw = Some B /\ convolve kw = false /\ lower_limit cov kw xl /\ upper_limit cov kw xr /\ xl < xr /\
  degree kw = 0%nat /\ xl <= nth 0 cov 0 <= xr /\ sum_list (nth 0 B []) = 0.
Proof.
  exists [0; 1; 3], 0%nat, 3%nat, (kw_ex 0). eexists. exists 0, 3. split; [reflexivity|]. destruct (kw_ex_limits 0) as [A B].
  split; [reflexivity|]. split; [exact A|]. split; [exact B|]. split; [lra|]. split; [reflexivity|]. split; [cbn; lra|].
  match goal with |- sum_list (nth 0 ?X []) = 0 => set (BB := X) end.
  destruct (C59_cox_de_boor [0; 1; 3] 0 3 (kw_ex 0) BB 0 3 eq_refl eq_refl A B ltac:(lra)) as (_ & P).
  destruct (P 0%nat ltac:(cbn; lia)) as [L Q]. rewrite sum_list_nth, L. apply sumn_zero. intros k Hk. rewrite (Q k Hk).
  change (degree (kw_ex 0)) with 0%nat. cbn [b_spline nth]. unfold even_knots. cbn [INR Nat.sub].
  match goal with |- (if Rlt_dec ?a ?b then _ else _) = 0 => destruct (Rlt_dec a b) as [H|H] end; [|reflexivity].
  exfalso. assert (0 <= INR k) by apply pos_INR. lra.
Qed.

(** Cubic and quadratic bases on three points satisfy the hypotheses. *)
Example C59_partition_ex : exists B, b_spline_basis [0; 1; 3] 0 5 (kw_ex 2) = Some B /\ sum_list (nth 1 B []) = 1 /\ exists i, 0 < nth i (nth 1 B []) 0.
Proof.
  eexists. split; [reflexivity|]. destruct (kw_ex_limits 2) as [A B].
  match goal with |- sum_list (nth 1 ?X []) = 1 /\ _ => set (BB := X) end.
  destruct (C59_partition [0; 1; 3] 0 5 (kw_ex 2) BB 0 3 1 eq_refl eq_refl A B ltac:(lra) ltac:(cbn; lia) ltac:(cbn; lra) ltac:(cbn; lia)) as (L & N & S1 & _ & _).
  split; [exact S1|].
  destruct (Rlt_dec 0 (nth 0 (nth 1 BB []) 0)) as [|N0]; [eauto|]. destruct (Rlt_dec 0 (nth 1 (nth 1 BB []) 0)) as [|N1]; [eauto|].
  destruct (Rlt_dec 0 (nth 2 (nth 1 BB []) 0)) as [|N2]; [eauto|]. destruct (Rlt_dec 0 (nth 3 (nth 1 BB []) 0)) as [|N3]; [eauto|].
  destruct (Rlt_dec 0 (nth 4 (nth 1 BB []) 0)) as [|N4]; [eauto|].
  exfalso. rewrite sum_list_nth, L in S1. cbn [sumn] in S1. lra.
Qed.
Example C59_degree_zero_ex : exists B, b_spline_basis [0; 1; 3] 0 3 (kw_ex 0) = Some B /\ sum_list (nth 1 B []) = 1.
Proof.
  eexists. split; [reflexivity|]. destruct (kw_ex_limits 0) as [A B].
  match goal with |- sum_list (nth 1 ?X []) = 1 => set (BB := X) end.
  apply (C59_degree_zero [0; 1; 3] 0 3 (kw_ex 0) BB 0 3 1 eq_refl eq_refl A B); cbn; try lia; lra.
Qed.

(** ** C84 *)

(** Coefficients whose differences of order m vanish describe one polynomial of degree below m over the whole range
    of the basis. *)
Theorem C84_polynomials : forall nk kw xl xr m c, convolve kw = false -> xl < xr -> (1 <= degree kw < nk)%nat -> (m <= degree kw + 1)%nat ->
  no_differences m nk c ->
  exists a : nat -> R, forall cov onset B r, b_spline_basis cov onset nk kw = Some B ->
    lower_limit cov kw xl -> upper_limit cov kw xr -> (r < length cov)%nat -> xl <= nth r cov 0 <= xr ->
    sumn nk (fun i => c i * nth i (nth r B []) 0) = sumn m (fun k => a k * nth r cov 0 ^ k).
Proof.
  intros nk kw xl xr m c Hc Hlt Hdeg Hm Hc0. set (p := degree kw) in *. set (dx := (xr - xl) / INR (nk - p)).
  assert (Hn : 0 < INR (nk - p)) by (apply lt_0_INR; lia). assert (Hdx : 0 < dx) by (apply Rdiv_lt_0_compat; lra).
  pose proof (fact_pos p) as Hf.
  pose proof (spline_polynomial p m nk (newton m c) ltac:(lia) (fun y => nab_newton m m c y (le_n m))) as Hpol.
  apply (pol_affine m _ (/ dx) (INR p - xl / dx)) in Hpol. destruct Hpol as [a Ha].
  exists (fun k => / INR (fact p) * a k). intros cov onset B r E Hl Hr Hr' Hx.
  destruct (basis_entry cov onset nk kw B xl xr E Hc Hl Hr Hlt) as (Hk & L & P). destruct (P r Hr') as [Lr Pr]. clear P. fold p in Pr. fold dx in Pr.
  set (x := nth r cov 0) in *. set (y := / dx * x + (INR p - xl / dx)).
  assert (Ey : y = (x - (xl - INR p * dx)) / dx) by (unfold y; field; lra).
  assert (Ex : x = xl + (y - INR p) * dx) by (rewrite Ey; field; lra).
  assert (En : INR nk = INR p + INR (nk - p)) by (rewrite <- plus_INR; f_equal; lia).
  assert (Exr : xr = xl + INR (nk - p) * dx) by (unfold dx; field; lra).
  assert (Hp1 : 1 <= INR p) by (apply (le_INR 1); lia).
  assert (Hy : INR p <= y <= INR nk). { rewrite En. split; apply (Rmult_le_reg_r dx); lra. }
  specialize (Ha x). cbn beta in Ha. fold y in Ha.
  rewrite (sumn_ext m _ (fun k => / INR (fact p) * (a k * x ^ k))) by (intros; ring). rewrite sumn_scal, <- Ha by lra.
  rewrite <- sumn_scal. apply sumn_ext. intros i Hi. rewrite (Pr i Hi), b_spline_M by exact Hdx. rewrite <- Ey.
  rewrite (newton_value m c nk Hc0 i Hi). field. lra.
Qed.

Example C84_polynomials_ex : no_differences 2 5 (fun i => 3 - 2 * INR i) /\
  exists B, b_spline_basis [0; 1; 3] 0 5 (kw_ex 2) = Some B.
Proof.
  split; [|eexists; reflexivity]. intros i Hi. cbn [difference]. rewrite !S_INR. ring.
Qed.

(** ** C60 *)

(** Several impulse response terms: every sample of every series gets the sum of their responses; a term's response is
    zero before the event of the series, then runs through the values of the basis from the start of the series,
    and is cut off at the end of the series.  The same matrix comes from serial and from parallel construction. *)
Theorem C60_superposition : forall pool levels var_mins var_maxs cov beta ts lims ci tri ci' s r,
  Forall (fun sc => sc <> []) cov ->
  (forall k t, nth_error ts k = Some t -> limits (fst t) var_mins var_maxs (lims k) /\ (length cov <= length (event_onset (fst t)))%nat) ->
  build_irfs pool levels var_mins var_maxs cov (seq 0 (length (concat cov))) 0 ci ts = Some (tri, ci') ->
  (s < length cov)%nat -> (r < length (nth s cov []))%nat ->
  predictor tri beta (offset cov s + r) = superposition levels lims beta cov s r 0 ci ts.
Proof.
  intros pool levels var_mins var_maxs cov beta ts lims ci tri ci' s r Hne Hl E Hs Hr.
  exact (irfs_predictor pool levels var_mins var_maxs cov _ beta s r eq_refl Hne Hs Hr ts lims 0 ci tri ci' Hl E).
Qed.

(** Moving an event by k samples moves the response by k samples. *)
Theorem C60_shift : forall pool pool' levels var_mins var_maxs cov beta t onsets' lims ci tri tri' n n' s r k,
  Forall (fun sc => sc <> []) cov -> limits t var_mins var_maxs lims ->
  (length cov <= length (event_onset t))%nat -> (length cov <= length onsets')%nat ->
  nth s onsets' 0%nat = (nth s (event_onset t) 0 + k)%nat ->
  let t' := Irf (variables t) (nks t) (basis_kwargs t) (by_col t) onsets' in
  build_irfs pool levels var_mins var_maxs cov (seq 0 (length (concat cov))) 0 ci [(t, true)] = Some (tri, n) ->
  build_irfs pool' levels var_mins var_maxs cov (seq 0 (length (concat cov))) 0 ci [(t', true)] = Some (tri', n') ->
  (s < length cov)%nat -> (r < length (nth s cov []))%nat ->
  predictor tri' beta (offset cov s + r) = if (r <? k)%nat then 0 else predictor tri beta (offset cov s + (r - k)).
Proof.
  intros pool pool' levels var_mins var_maxs cov beta t onsets' lims ci tri tri' n n' s r k Hne Hl H1 H2 Hk t' E E' Hs Hr.
  assert (A : forall r, (r < length (nth s cov []))%nat -> predictor tri beta (offset cov s + r) = superposition levels (fun _ => lims) beta cov s r 0 ci [(t, true)]).
  { intros q Hq. apply (C60_superposition pool levels var_mins var_maxs cov beta [(t, true)] (fun _ => lims) ci tri n); auto.
    intros [|[|i]] u Hu; cbn in Hu; try discriminate. injection Hu as <-. auto. }
  assert (B : predictor tri' beta (offset cov s + r) = superposition levels (fun _ => lims) beta cov s r 0 ci [(t', true)]).
  { apply (C60_superposition pool' levels var_mins var_maxs cov beta [(t', true)] (fun _ => lims) ci tri' n'); auto.
    intros [|[|i]] u Hu; cbn in Hu; try discriminate. injection Hu as <-. cbn [fst]. split; [exact Hl|exact H2]. }
  rewrite B. cbn [superposition]. rewrite Rplus_0_r. unfold event_response. cbn [event_onset t']. rewrite Hk.
  destruct (Nat.ltb_spec r k) as [C|C].
  - destruct (Nat.ltb_spec r (nth s (event_onset t) 0%nat + k)%nat); [reflexivity|lia].
  - rewrite A by lia. cbn [superposition]. rewrite Rplus_0_r. unfold event_response.
    destruct (Nat.ltb_spec r (nth s (event_onset t) 0%nat + k)), (Nat.ltb_spec (r - k) (nth s (event_onset t) 0%nat)); try lia; [reflexivity|].
    replace (r - (nth s (event_onset t) 0%nat + k))%nat with (r - k - nth s (event_onset t) 0%nat)%nat by lia. reflexivity.
Qed.

(** ** C85 *)

(** In a series sampled regularly from time zero the response at a sample is a function of the time since the
    event (one variable, no by factor). *)
Theorem C85_regular : forall pool levels var_mins var_maxs cov beta v nk kw onsets lims ci tri n s r step,
  Forall (fun sc => sc <> []) cov -> (length cov <= length onsets)%nat ->
  let t := Irf [v] [nk] [kw] None onsets in limits t var_mins var_maxs lims ->
  build_irfs pool levels var_mins var_maxs cov (seq 0 (length (concat cov))) 0 ci [(t, true)] = Some (tri, n) ->
  (s < length cov)%nat -> (r < length (nth s cov []))%nat ->
  (forall q, (q < length (nth s cov []))%nat -> nth v (nth q (nth s cov []) []) 0 = INR q * step) ->
  let time := fun q => nth v (nth q (nth s cov []) []) 0 in let onset := nth s onsets 0%nat in
  predictor tri beta (offset cov s + r) =
    if (r <? onset)%nat then 0
    else sumn nk (fun c => beta (ci + c)%nat * nth c (delay_basis nk kw (fst (lims 0%nat)) (snd (lims 0%nat)) (time r - time onset)) 0).
Proof.
  intros pool levels var_mins var_maxs cov beta v nk kw onsets lims ci tri n s r step Hne Ho t Hl E Hs Hr Hreg time onset.
  rewrite (C60_superposition pool levels var_mins var_maxs cov beta [(t, true)] (fun _ => lims) ci tri n s r); auto.
  2:{ intros [|[|i]] u Hu; cbn in Hu; try discriminate. injection Hu as <-. auto. }
  cbn [superposition]. rewrite Rplus_0_r. unfold event_response. cbn [event_onset t]. fold onset.
  destruct (Nat.ltb_spec r onset) as [H|H]; [reflexivity|]. unfold width. cbn [t nks by_col fold_right]. rewrite !Nat.mul_1_r.
  apply sumn_ext. intros c Hc. f_equal. unfold irf_value. cbn [t by_col]. unfold response. cbn [t variables nks basis_kwargs length seq map nth].
  change (products [?a]) with (tp_row a [1]). rewrite tp_row_1. do 2 f_equal.
  unfold time. rewrite !Hreg by lia. rewrite minus_INR by lia. ring.
Qed.

Definition delay_kw : kwargs := Kw (Some 0) (Some 6) true 1.
Definition delay_term : irf_term := Irf [0%nat] [2%nat] [delay_kw] None [1%nat].
Lemma delay_limits mins maxs : limits delay_term mins maxs (fun _ => (0, 6)).
Proof.
  split; [discriminate|]. split; [reflexivity|]. split; [reflexivity|]. intros [|[|vi]] kw H; cbn in H; try discriminate.
  injection H as <-. cbn. repeat split. lra.
Qed.
Definition no_limits (_ : nat) : option R := None.
Definition no_levels (_ : nat) : nat := 0%nat.

Lemma delay_value x : nth 0 (delay_basis 2 delay_kw 0 6 x) 0 + nth 1 (delay_basis 2 delay_kw 0 6 x) 0 = M 1 (x / 2) + M 1 (x / 2 - 1).
Proof.
  assert (Ed : (6 - 0) / INR (2 + degree delay_kw) = 2) by (cbn; field). unfold delay_basis. rewrite Ed. cbn [seq map nth].
  rewrite !b_spline_M by lra. cbn [delay_kw degree fact Nat.mul Nat.add INR]. rewrite !Rminus_0_r. unfold Rdiv. rewrite Rinv_1. ring.
Qed.

Lemma delay_response x l : response delay_term (fun _ => (0, 6)) (x :: l) = delay_basis 2 delay_kw 0 6 x.
Proof. change (tp_row (delay_basis 2 delay_kw 0 6 x) [1] = delay_basis 2 delay_kw 0 6 x). apply tp_row_1. Qed.

(** A series that starts at time zero. *)
Example C85_regular_ex : exists tri n, build_irfs true no_levels no_limits no_limits [[[0]; [2]; [4]; [6]]] (seq 0 4) 0 0 [(delay_term, true)] = Some (tri, n) /\
  predictor tri (fun _ => 1) 2 = 1 /\ predictor tri (fun _ => 1) 0 = 0.
Proof.
  eexists. eexists. split; [reflexivity|].
  match goal with |- predictor ?T _ _ = 1 /\ _ => set (tri := T) end.
  assert (P : forall r, (r < 4)%nat -> predictor tri (fun _ => 1) r = if (r <? 1)%nat then 0 else
     sumn 2 (fun c => 1 * nth c (delay_basis 2 delay_kw 0 6 (nth 0 (nth r [[0]; [2]; [4]; [6]] []) 0 - 2)) 0)).
  { intros r Hr. refine (C85_regular true no_levels no_limits no_limits [[[0]; [2]; [4]; [6]]] (fun _ => 1) 0 2 delay_kw [1%nat] (fun _ => (0, 6)) 0 tri 2 0 r 2 _ _ (delay_limits _ _) eq_refl _ _ _).
    - repeat constructor. discriminate.
    - cbn; lia.
    - cbn; lia.
    - cbn. exact Hr.
    - intros [|[|[|[|q]]]] Hq; cbn in Hq |- *; try lra; lia. }
  split.
  - rewrite (P 2%nat) by lia. cbn [Nat.ltb Nat.leb sumn nth].
    rewrite Rplus_0_l, !Rmult_1_l. rewrite delay_value. replace ((4 - 2) / 2) with 1 by field.
    rewrite (M_left 1 (1 - 1)) by lra. rewrite M_step, !M_0. cbn [INR].
    destruct (Rlt_dec 0 1), (Rle_dec 1 1), (Rlt_dec 0 (1 - 1)); lra.
  - rewrite (P 0%nat) by lia. reflexivity.
Qed.

(** If a series starts at another time, the basis is evaluated at the absolute times: here the series starts at time
    20 and the response to the event at time 22 is missing. *)
Theorem C85_late_start_refuted : exists cov tri n v nk kw lims onsets r step start beta,
  let t := Irf [v] [nk] [kw] None onsets in
  limits t no_limits no_limits lims /\
  build_irfs false no_levels no_limits no_limits cov (seq 0 (length (concat cov))) 0 0 [(t, true)] = Some (tri, n) /\
  (r < length (nth 0 cov []))%nat /\ (nth 0 onsets 0 <= r)%nat /\
  (forall q, (q < length (nth 0%nat cov []))%nat -> nth v (nth q (nth 0%nat cov []) []) 0 = start + INR q * step) /\
  let time := fun q => nth v (nth q (nth 0%nat cov []) []) 0 in
  predictor tri beta r <> sumn nk (fun c => beta c * nth c (delay_basis nk kw (fst (lims 0%nat)) (snd (lims 0%nat)) (time r - time (nth 0 onsets 0%nat))) 0).
Proof.
  exists [[[20]; [22]; [24]]]. eexists. exists 2%nat, 0%nat, 2%nat, delay_kw, (fun _ => (0, 6)), [1%nat], 2%nat, 2, 20, (fun _ => 1).
  cbv zeta. split; [apply delay_limits|]. split; [reflexivity|]. split; [cbn; lia|]. split; [cbn; lia|].
  split; [intros [|[|[|q]]] Hq; cbn in Hq |- *; try lra; lia|].
  match goal with |- predictor ?T _ _ <> _ => set (tri := T) end.
  assert (P : predictor tri (fun _ => 1) 2 = superposition no_levels (fun _ _ => (0, 6)) (fun _ => 1) [[[20]; [22]; [24]]] 0 2 0 0 [(delay_term, true)]).
  { refine (C60_superposition false no_levels no_limits no_limits [[[20]; [22]; [24]]] (fun _ => 1) [(delay_term, true)] (fun _ _ => (0, 6)) 0 tri 2 0 2 _ _ eq_refl _ _).
    - repeat constructor. discriminate.
    - intros [|[|k]] t H; cbn in H; try discriminate. injection H as <-. split; [apply delay_limits|cbn; lia].
    - cbn; lia.
    - cbn; lia. }
  rewrite P. clear P. cbn [superposition]. unfold event_response. cbn [event_onset delay_term nth Nat.ltb Nat.leb Nat.sub]. unfold width. cbn [delay_term nks by_col fold_right Nat.mul Nat.add sumn].
  unfold irf_value. cbn [delay_term by_col]. fold delay_term. rewrite !delay_response. cbn [fst snd]. rewrite !Rplus_0_l, !Rmult_1_l, Rplus_0_r, !delay_value.
  replace ((24 - 22) / 2) with 1 by field. replace (22 / 2) with 11 by field.
  rewrite (M_right 1 11) by (cbn; lra). rewrite (M_right 1 (11 - 1)) by (cbn; lra). rewrite (M_left 1 (1 - 1)) by lra. rewrite M_step, !M_0. cbn [INR].
  destruct (Rlt_dec 0 1), (Rle_dec 1 1), (Rlt_dec 0 (1 - 1)); lra.
Qed.

(** Two terms, one with a by factor, in two series. *)
Definition by_term : irf_term := Irf [0%nat; 0%nat] [2%nat; 2%nat] [delay_kw; delay_kw] (Some 1%nat) [1%nat; 0%nat].
Definition two_term : irf_term := Irf [0%nat] [2%nat] [delay_kw] None [0%nat; 1%nat].
Definition two_series : list (list (list R)) := [[[0; 1]; [2; 1]; [4; 1]]; [[0; 0]; [2; 0]]].
Lemma by_limits mins maxs : limits by_term mins maxs (fun _ => (0, 6)).
Proof.
  split; [discriminate|]. split; [reflexivity|]. split; [reflexivity|]. intros [|[|[|vi]]] kw H; cbn in H; try discriminate;
  injection H as <-; cbn; repeat split; lra.
Qed.
Lemma two_limits mins maxs : limits two_term mins maxs (fun _ => (0, 6)).
Proof.
  split; [discriminate|]. split; [reflexivity|]. split; [reflexivity|]. intros [|[|vi]] kw H; cbn in H; try discriminate;
  injection H as <-; cbn; repeat split; lra.
Qed.

(** Terms that fulfil the documented requirements are built, with their number of columns. *)
Theorem C60_builds : forall pool levels var_mins var_maxs cov ts lims ci,
  cov <> [] -> Forall (fun sc => sc <> []) cov ->
  (forall k t, nth_error ts k = Some t -> limits (fst t) var_mins var_maxs (lims k) /\ buildable (fst t) cov) ->
  exists tri, build_irfs pool levels var_mins var_maxs cov (seq 0 (length (concat cov))) 0 ci ts =
    Some (tri, (ci + fold_right Nat.add 0 (map (fun t => width levels (fst t)) ts))%nat).
Proof.
  intros pool levels var_mins var_maxs cov ts lims ci N Hne H. exact (irfs_total pool levels var_mins var_maxs cov N Hne ts lims 0 ci H).
Qed.

Lemma two_ok : forall k t, nth_error [(two_term, true); (by_term, true)] k = Some t ->
  limits (fst t) no_limits no_limits ((fun _ _ => (0, 6)) k) /\ buildable (fst t) two_series.
Proof.
  intros [|[|[|k]]] t H; cbn in H; try discriminate; injection H as <-; (split; [apply two_limits || apply by_limits|]); (split; [cbn; lia|]); split.
  - intros [|[|vi]] kw E; cbn in E; try discriminate. injection E as <-. cbn. split; [lia|]. split; discriminate.
  - discriminate.
  - intros [|[|[|vi]]] kw E; cbn in E; try discriminate; injection E as <-; cbn; (split; [lia|]); split; discriminate.
  - intros b s row row' E Hs H1 H2. injection E as <-. destruct Hs as [<-|[<-|[]]]; cbn in H1, H2;
      repeat match goal with H : _ \/ _ |- _ => destruct H as [<-|H] | H : False |- _ => destruct H end; reflexivity.
Qed.
Lemma two_nonempty : Forall (fun sc : list (list R) => sc <> []) two_series.
Proof. repeat constructor; discriminate. Qed.
Example C60_superposition_ex : exists tri, build_irfs false (fun _ => 2%nat) no_limits no_limits two_series (seq 0 5) 0 3 [(two_term, true); (by_term, true)] = Some (tri, 13%nat)
  /\ predictor tri (fun _ => 1) (offset two_series 0 + 2) = 2 /\ predictor tri (fun _ => 1) (offset two_series 1 + 0) = 0.
Proof.
  destruct (C60_builds false (fun _ => 2%nat) no_limits no_limits two_series [(two_term, true); (by_term, true)] (fun _ _ => (0, 6)) 3 ltac:(discriminate) two_nonempty two_ok) as [tri E].
  exists tri. split; [exact E|].
  assert (P : forall s r, (s < 2)%nat -> (r < length (nth s two_series []))%nat -> predictor tri (fun _ => 1) (offset two_series s + r) =
    superposition (fun _ => 2%nat) (fun _ _ => (0, 6)) (fun _ => 1) two_series s r 0 3 [(two_term, true); (by_term, true)]).
  { intros s r Hs Hr. apply (C60_superposition false (fun _ => 2%nat) no_limits no_limits two_series (fun _ => 1) [(two_term, true); (by_term, true)] (fun _ _ => (0, 6)) 3 tri 13 s r); auto.
    - exact two_nonempty.
    - intros k t H. destruct (two_ok k t H) as [A B]. split; [exact A|apply B]. }
  assert (Ed : forall x, delay_basis 2 delay_kw 0 6 x = [M 1 (x / 2); M 1 (x / 2 - 1)]).
  { intros x. assert (Ed : (6 - 0) / INR (2 + degree delay_kw) = 2) by (cbn; field). unfold delay_basis. rewrite Ed. cbn [seq map].
    rewrite !b_spline_M by lra. cbn [delay_kw degree fact Nat.mul Nat.add INR]. rewrite !Rminus_0_r. unfold Rdiv. rewrite Rinv_1, !Rmult_1_r. reflexivity. }
  assert (M0 : M 1 0 = 0) by (apply M_left; lra). assert (M1 : M 1 1 = 1).
  { rewrite M_step, !M_0. cbn [INR]. destruct (Rlt_dec 0 1), (Rle_dec 1 1), (Rlt_dec 0 (1 - 1)); lra. }
  assert (M2 : M 1 2 = 0) by (rewrite M_step, !M_0; cbn [INR]; destruct (Rlt_dec 0 2), (Rle_dec 2 1), (Rlt_dec 0 (2 - 1)), (Rle_dec (2 - 1) 1); lra).
  assert (B2 : delay_basis 2 delay_kw 0 6 2 = [1; 0]). { rewrite Ed. replace (2 / 2) with 1 by field. replace (1 - 1) with 0 by ring. now rewrite M0, M1. }
  assert (B4 : delay_basis 2 delay_kw 0 6 4 = [0; 1]). { rewrite Ed. replace (4 / 2) with 2 by field. replace (2 - 1) with 1 by ring. now rewrite M1, M2. }
  assert (B0 : delay_basis 2 delay_kw 0 6 0 = [0; 0]). { rewrite Ed. replace (0 / 2) with 0 by field. rewrite M0, M_left by lra. reflexivity. }
  assert (R1 : forall x l, response two_term (fun _ => (0, 6)) (x :: l) = tp_row (delay_basis 2 delay_kw 0 6 x) [1]) by reflexivity.
  assert (R2 : forall x l, response by_term (fun _ => (0, 6)) (x :: l) = tp_row (delay_basis 2 delay_kw 0 6 x) (tp_row (delay_basis 2 delay_kw 0 6 x) [1])) by reflexivity.
  split.
  - rewrite P by (cbn; lia). cbn [superposition]. unfold event_response. cbn [event_onset two_term by_term nth Nat.ltb Nat.leb Nat.sub]. fold two_term by_term.
    unfold irf_value. cbn [two_series nth]. fold two_series. rewrite R1, R2, tp_row_1, B2, B4.
    cbn -[Rplus Rmult INR IZR Req_EM_T Rminus]. change (INR 0) with 0; change (INR 1) with 1; repeat match goal with |- context [Req_EM_T ?a ?b] => destruct (Req_EM_T a b) end; lra.
  - rewrite P by (cbn; lia). cbn [superposition]. unfold event_response. cbn [event_onset two_term by_term nth Nat.ltb Nat.leb Nat.sub]. fold two_term by_term.
    unfold irf_value. cbn [two_series nth]. fold two_series. rewrite R2, tp_row_1, B0.
    cbn -[Rplus Rmult INR IZR Req_EM_T Rminus]. change (INR 0) with 0; change (INR 1) with 1; repeat match goal with |- context [Req_EM_T ?a ?b] => destruct (Req_EM_T a b) end; lra.
Qed.
Definition late_term : irf_term := Irf [0%nat] [2%nat] [delay_kw] None [2%nat].
Lemma late_ok (t : irf_term) : t = delay_term \/ t = late_term -> limits t no_limits no_limits (fun _ => (0, 6)) /\ buildable t [[[0]; [2]; [4]; [6]]].
Proof.
  intros H. split.
  - destruct H as [-> | ->]; exact (delay_limits no_limits no_limits).
  - destruct H as [-> | ->]; (split; [cbn; lia|]); split; try discriminate;
      intros [|[|vi]] kw E; cbn in E; try discriminate; injection E as <-; cbn; (split; [lia|]); split; discriminate.
Qed.
Example C60_shift_ex : exists tri tri',
  build_irfs false no_levels no_limits no_limits [[[0]; [2]; [4]; [6]]] (seq 0 4) 0 0 [(delay_term, true)] = Some (tri, 2%nat) /\
  build_irfs true no_levels no_limits no_limits [[[0]; [2]; [4]; [6]]] (seq 0 4) 0 0 [(late_term, true)] = Some (tri', 2%nat) /\
  predictor tri' (fun _ => 1) 3 = predictor tri (fun _ => 1) 2 /\ predictor tri' (fun _ => 1) 0 = 0.
Proof.
  assert (Hne : Forall (fun sc : list (list R) => sc <> []) [[[0]; [2]; [4]; [6]]]) by (repeat constructor; discriminate).
  assert (G : forall t, t = delay_term \/ t = late_term -> forall k u, nth_error [(t, true)] k = Some u ->
    limits (fst u) no_limits no_limits ((fun _ _ => (0, 6)) k) /\ buildable (fst u) [[[0]; [2]; [4]; [6]]]).
  { intros t Ht [|[|k]] u Hu; cbn in Hu; try discriminate. injection Hu as <-. exact (late_ok t Ht). }
  destruct (C60_builds false no_levels no_limits no_limits [[[0]; [2]; [4]; [6]]] [(delay_term, true)] (fun _ _ => (0, 6)) 0 ltac:(discriminate) Hne (G delay_term (or_introl eq_refl))) as [tri E].
  destruct (C60_builds true no_levels no_limits no_limits [[[0]; [2]; [4]; [6]]] [(late_term, true)] (fun _ _ => (0, 6)) 0 ltac:(discriminate) Hne (G late_term (or_intror eq_refl))) as [tri' E'].
  exists tri, tri'. split; [exact E|]. split; [exact E'|].
  assert (P : forall r, (r < 4)%nat -> predictor tri' (fun _ => 1) r = if (r <? 1)%nat then 0 else predictor tri (fun _ => 1) (r - 1)).
  { intros r Hr. refine (C60_shift false true no_levels no_limits no_limits [[[0]; [2]; [4]; [6]]] (fun _ => 1) delay_term [2%nat] (fun _ => (0, 6)) 0 tri tri' _ _ 0 r 1
      Hne (delay_limits _ _) _ _ eq_refl E E' _ Hr); cbn; lia. }
  split; [rewrite P by lia; reflexivity|rewrite P by lia; reflexivity].
Qed.

(** ** C86 *)

(** Predictions (models.py:1421-1458: the matrix is built from the new data with the terms of the fitted formula)
    for the first series of the data, in their order, are those of the whole data. *)
Theorem C86_first_series : forall pool pool' levels var_mins var_maxs cov more beta ts lims ci tri n tri' n' s r,
  Forall (fun sc => sc <> []) (cov ++ more) ->
  (forall k t, nth_error ts k = Some t -> limits (fst t) var_mins var_maxs (lims k) /\ (length (cov ++ more) <= length (event_onset (fst t)))%nat) ->
  build_irfs pool levels var_mins var_maxs (cov ++ more) (seq 0 (length (concat (cov ++ more)))) 0 ci ts = Some (tri, n) ->
  build_irfs pool' levels var_mins var_maxs cov (seq 0 (length (concat cov))) 0 ci ts = Some (tri', n') ->
  (s < length cov)%nat -> (r < length (nth s cov []))%nat ->
  predictor tri' beta (offset cov s + r) = predictor tri beta (offset (cov ++ more) s + r).
Proof.
  intros pool pool' levels var_mins var_maxs cov more beta ts lims ci tri n tri' n' s r Hne Hl E E' Hs Hr.
  assert (Hr2 : (r < length (nth s (cov ++ more) []))%nat) by (rewrite app_nth1; assumption).
  assert (Hs2 : (s < length (cov ++ more))%nat) by (rewrite app_length; lia).
  rewrite (C60_superposition pool levels var_mins var_maxs (cov ++ more) beta ts lims ci tri n s r Hne Hl E Hs2 Hr2).
  rewrite (C60_superposition pool' levels var_mins var_maxs cov beta ts lims ci tri' n' s r); auto.
  - assert (G : forall ts k c, superposition levels lims beta cov s r k c ts = superposition levels lims beta (cov ++ more) s r k c ts); [|apply G].
    clear - Hs. induction ts as [|[t use] ts IH]; intros k c; [reflexivity|]. cbn [superposition].
    rewrite IH. f_equal. unfold event_response. rewrite app_nth1 by exact Hs. reflexivity.
  - apply Forall_app in Hne. apply Hne.
  - intros k t Ht. destruct (Hl k t Ht) as [A B]. rewrite app_length in B. split; [exact A|lia].
Qed.

(** Predictions for another selection of the series use the events of the first series of the fitted data: here the
    prediction for the second series alone uses the event of the first. *)
Definition pair_term : irf_term := Irf [0%nat] [2%nat] [delay_kw] None [0%nat; 1%nat].
Definition one_series : list (list R) := [[0]; [2]].
Theorem C86_selection_refuted : exists t cov s sc tri n tri' n' beta r,
  nth_error cov s = Some sc /\ limits t no_limits no_limits (fun _ => (0, 6)) /\ buildable t cov /\
  build_irfs false no_levels no_limits no_limits cov (seq 0 (length (concat cov))) 0 0 [(t, true)] = Some (tri, n) /\
  build_irfs false no_levels no_limits no_limits [sc] (seq 0 (length (concat [sc]))) 0 0 [(t, true)] = Some (tri', n') /\
  (r < length sc)%nat /\ predictor tri' beta r <> predictor tri beta (offset cov s + r).
Proof.
  exists pair_term, [one_series; one_series], 1%nat, one_series.
  assert (Hl : limits pair_term no_limits no_limits (fun _ => (0, 6))) by exact (two_limits no_limits no_limits).
  assert (Hb : forall cov, (length cov <= 2)%nat -> buildable pair_term cov).
  { intros cov H. split; [exact H|]. split; [|discriminate]. intros [|[|vi]] kw E; cbn in E; try discriminate. injection E as <-. cbn. split; [lia|]. split; discriminate. }
  assert (G : forall cov, (length cov <= 2)%nat -> forall k u, nth_error [(pair_term, true)] k = Some u -> limits (fst u) no_limits no_limits ((fun _ _ => (0, 6)) k) /\ buildable (fst u) cov).
  { intros cov H [|[|k]] u Hu; cbn in Hu; try discriminate. injection Hu as <-. split; [exact Hl|now apply Hb]. }
  assert (N2 : Forall (fun sc : list (list R) => sc <> []) [one_series; one_series]) by (repeat constructor; discriminate).
  assert (N1 : Forall (fun sc : list (list R) => sc <> []) [one_series]) by (repeat constructor; discriminate).
  destruct (C60_builds false no_levels no_limits no_limits [one_series; one_series] [(pair_term, true)] (fun _ _ => (0, 6)) 0 ltac:(discriminate) N2 (G [one_series; one_series] ltac:(cbn; lia))) as [tri E].
  destruct (C60_builds false no_levels no_limits no_limits [one_series] [(pair_term, true)] (fun _ _ => (0, 6)) 0 ltac:(discriminate) N1 (G [one_series] ltac:(cbn; lia))) as [tri' E'].
  exists tri, 2%nat, tri', 2%nat, (fun _ => 1), 1%nat.
  split; [reflexivity|]. split; [exact Hl|]. split; [apply Hb; cbn; lia|]. split; [exact E|]. split; [exact E'|]. split; [cbn; lia|].
  rewrite (C60_superposition false no_levels no_limits no_limits [one_series; one_series] (fun _ => 1) [(pair_term, true)] (fun _ _ => (0, 6)) 0 tri 2 1 1 N2
    (fun k t H => conj (proj1 (G [one_series; one_series] ltac:(cbn; lia) k t H)) (proj1 (proj2 (G [one_series; one_series] ltac:(cbn; lia) k t H)))) E ltac:(cbn; lia) ltac:(cbn; lia)).
  change 1%nat with (offset [one_series] 0 + 1)%nat at 1.
  rewrite (C60_superposition false no_levels no_limits no_limits [one_series] (fun _ => 1) [(pair_term, true)] (fun _ _ => (0, 6)) 0 tri' 2 0 1 N1
    (fun k t H => conj (proj1 (G [one_series] ltac:(cbn; lia) k t H)) (proj1 (proj2 (G [one_series] ltac:(cbn; lia) k t H)))) E' ltac:(cbn; lia) ltac:(cbn; lia)).
  cbn [superposition]. unfold event_response. cbn [event_onset pair_term nth Nat.ltb Nat.leb Nat.sub one_series]. fold pair_term.
  unfold width. cbn [pair_term nks by_col fold_right Nat.mul Nat.add sumn]. fold pair_term.
  assert (R1 : forall x l, response pair_term (fun _ => (0, 6)) (x :: l) = tp_row (delay_basis 2 delay_kw 0 6 x) [1]) by reflexivity.
  unfold irf_value. cbn [pair_term by_col]. fold pair_term. rewrite !R1, !tp_row_1. rewrite !Rplus_0_l, !Rmult_1_l, !Rplus_0_r, !delay_value.
  replace (2 / 2) with 1 by field. replace (0 / 2) with 0 by field.
  rewrite (M_left 1 0), (M_left 1 (0 - 1)), (M_left 1 (1 - 1)) by lra. rewrite M_step, !M_0. cbn [INR].
  destruct (Rlt_dec 0 1), (Rle_dec 1 1), (Rlt_dec 0 (1 - 1)); lra.
Qed.

Example C86_first_series_ex : exists tri n tri' n',
  build_irfs false no_levels no_limits no_limits ([one_series] ++ [one_series]) (seq 0 4) 0 0 [(pair_term, true)] = Some (tri, n) /\
  build_irfs true no_levels no_limits no_limits [one_series] (seq 0 2) 0 0 [(pair_term, true)] = Some (tri', n') /\
  limits pair_term no_limits no_limits (fun _ => (0, 6)) /\ (length ([one_series] ++ [one_series]) <= length (event_onset pair_term))%nat.
Proof. do 4 eexists. split; [reflexivity|]. split; [reflexivity|]. split; [exact (two_limits no_limits no_limits)|cbn; lia]. Qed.

Print Assumptions C59_cox_de_boor.
Print Assumptions C59_partition.
Print Assumptions C59_degree_zero.
Print Assumptions C59_degree_zero_refuted.
Print Assumptions C84_polynomials.
Print Assumptions C60_superposition.
Print Assumptions C60_shift.
Print Assumptions C60_builds.
Print Assumptions C85_regular.
Print Assumptions C85_late_start_refuted.
Print Assumptions C86_first_series.
Print Assumptions C86_selection_refuted.
