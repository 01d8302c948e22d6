(** Lemmas for predictions: coefficients of one parameter, standard errors, differences. *)

From Coq Require Import List Bool Arith Reals Lia Lra.
From Verif Require Import Ext AsmModel AsmSpec AsmProofs3 FormModel PredModel PredSpec PredProofs.
Import ListNotations.
Local Open Scope R_scope.

Section P.
Variable big : R -> bool.
Variable ppf : R -> R.
Notation predict := (predict big ppf).
Notation predi_mat := (predi_mat big).
Notation half_width := (half_width ppf).

Lemma matvec_some X v l : matvec X v = Some l ->
  a_cols X = length v /\ l = map (fun r => sum_to (a_cols X) (fun c => at_ X r c * nth c v 0)) (seq 0 (a_rows X)).
Proof. unfold matvec. destruct (Nat.eqb_spec (a_cols X) (length v)); [|easy]. intros H. now injection H as <-. Qed.

Lemma predict_some m par use dat alpha p X b : predict m par use dat alpha = Some (p, X, b) ->
  predi_mat m par use dat = Some X /\ matvec X (par_coef m par) = Some p /\ half_width m par X alpha = Some b.
Proof.
  unfold PredModel.predict. destruct predi_mat as [X'|]; [|easy]. destruct matvec as [p'|] eqn:E1; [|easy].
  destruct half_width as [b'|] eqn:E2; [|easy]. intros H. injection H as -> -> ->. easy.
Qed.
Lemma predi_mat_rows m par use dat X : predi_mat m par use dat = Some X -> a_rows X = n_y (fst dat).
Proof.
  unfold PredModel.predi_mat. destruct nth_error as [[e terms]|]; [|easy]. destruct build_sparse as [[ts ci]|]; [|easy]. intros H. now injection H as <-.
Qed.

(** *** Sums over terms *)
Lemma half_width_dims m par X alpha b Y : half_width m par X alpha = Some b -> a_rows Y = a_rows X -> a_cols Y = a_cols X ->
  exists b', half_width m par Y alpha = Some b'.
Proof.
  unfold PredModel.half_width, matmul, scaled, transpose. cbn. intros H HR HC. rewrite HC.
  destruct (a_cols X =? a_cols (par_lvi m par))%nat eqn:E1; [|easy]. cbn in *.
  destruct (a_rows (par_lvi m par) =? a_rows (par_lvi m par))%nat eqn:E2; [|easy]. cbn in *.
  rewrite Nat.eqb_sym, E1. eexists. reflexivity.
Qed.

Lemma predict_sum m par use dat alpha (p : nat -> list R) : NoDup use -> use <> [] ->
  (forall t, In t use -> exists X b, predict m par (Some [t]) dat alpha = Some (p t, X, b)) ->
  exists q X b, predict m par (Some use) dat alpha = Some (q, X, b) /\ length q = n_y (fst dat) /\
    forall r, nth r q 0 = sum_over use (fun t => nth r (p t) 0).
Proof.
  intros N NE H.
  assert (HE : exists e terms, nth_error (formulas m) par = Some (e, terms)).
  { destruct use as [|t use]; [easy|]. destruct (H t (or_introl eq_refl)) as (X & b & E). apply predict_some in E. destruct E as (E & _).
    unfold PredModel.predi_mat in E. destruct nth_error as [[e terms]|]; [now exists e, terms|easy]. }
  destruct HE as (e & terms & Enth).
  set (out := fun t => match build_sparse R 0 1 Rplus Rmult Rminus big e (fst dat) (snd dat) false terms (Some [t]) with Some o => o | None => ([], 0%nat) end).
  assert (Hout : forall t, In t use -> build_sparse R 0 1 Rplus Rmult Rminus big e (fst dat) (snd dat) false terms (Some [t]) = Some (out t)).
  { intros t Ht. destruct (H t Ht) as (X & b & E). apply predict_some in E. destruct E as (E & _). unfold PredModel.predi_mat in E. rewrite Enth in E.
    unfold out. destruct build_sparse as [[ts ci]|]; [easy|easy]. }
  destruct (loop_sum big e (fst dat) (snd dat) false terms use N NE (visit terms) (has_intercept terms) [] 0%nat (fun _ => []) out) as (ts & n & EB & En & Ee).
  { intros t Ht. apply (Hout t Ht). }
  { intros r c. cbn. clear. induction use as [|a l IH]; cbn; [easy|]. rewrite <- IH. lra. }
  assert (EX : predi_mat m par (Some use) dat = Some (Array (n_y (fst dat)) n (FormModel.entry R 0 Rplus ts))).
  { unfold PredModel.predi_mat. rewrite Enth.
    assert (EB' : build_sparse R 0 1 Rplus Rmult Rminus big e (fst dat) (snd dat) false terms (Some use) = Some (ts, n)) by exact EB. now rewrite EB'. }
  assert (Hp : forall t, In t use -> exists b, predict m par (Some [t]) dat alpha = Some (p t, Array (n_y (fst dat)) n (FormModel.entry R 0 Rplus (fst (out t))), b)).
  { intros t Ht. destruct (H t Ht) as (X & b & E). exists b. rewrite E. apply predict_some in E. destruct E as (E & _). unfold PredModel.predi_mat in E.
    rewrite Enth, (Hout t Ht) in E. rewrite <- (En t Ht). destruct (out t) as [ts' n']. now injection E as <-. }
  assert (Hlen : length (par_coef m par) = n).
  { destruct use as [|t use']; [easy|]. destruct (Hp t (or_introl eq_refl)) as (b & E). apply predict_some in E. destruct E as (_ & E & _). apply matvec_some in E. now destruct E as [E _]. }
  assert (HB : exists b, half_width m par (Array (n_y (fst dat)) n (FormModel.entry R 0 Rplus ts)) alpha = Some b).
  { destruct use as [|t use']; [easy|]. destruct (Hp t (or_introl eq_refl)) as (b & E). apply predict_some in E. destruct E as (_ & _ & E).
    eapply half_width_dims; [exact E|easy|easy]. }
  destruct HB as (b & HB). unfold PredModel.predict. rewrite EX.
  assert (EM : matvec (Array (n_y (fst dat)) n (FormModel.entry R 0 Rplus ts)) (par_coef m par) =
    Some (map (fun r => sum_to n (fun c => FormModel.entry R 0 Rplus ts r c * nth c (par_coef m par) 0)) (seq 0 (n_y (fst dat))))).
  { unfold matvec. cbn. now rewrite Hlen, Nat.eqb_refl. }
  rewrite EM, HB. do 3 eexists. split; [reflexivity|]. split; [now rewrite map_length, seq_length|].
  intros r. destruct (Nat.lt_ge_cases r (n_y (fst dat))) as [Hr|Hr].
  - rewrite nth_map_seq by easy.
    rewrite (sum_over_ext use (fun t => nth r (p t) 0) (fun t => sum_to n (fun c => FormModel.entry R 0 Rplus (fst (out t)) r c * nth c (par_coef m par) 0))).
    2:{ intros t Ht. destruct (Hp t Ht) as (b' & E). apply predict_some in E. destruct E as (_ & E & _). apply matvec_some in E. destruct E as [_ E]. cbn in E.
        rewrite E. now rewrite nth_map_seq. }
    rewrite <- sum_over_to. apply sum_to_ext. intros c _. rewrite Ee. symmetry. apply sum_over_scal.
  - rewrite nth_overflow by (rewrite map_length, seq_length; lia).
    rewrite (sum_over_ext use _ (fun _ => 0 * 0)); [rewrite (sum_over_scal use 0 (fun _ => 0)); lra|].
    intros t Ht. destruct (Hp t Ht) as (b' & E). apply predict_some in E. destruct E as (_ & E & _). apply matvec_some in E. destruct E as [_ E]. cbn in E.
    rewrite E. rewrite nth_overflow by (rewrite map_length, seq_length; lia). lra.
Qed.

Lemma predict_all m par dat alpha e terms : nth_error (formulas m) par = Some (e, terms) ->
  predict m par None dat alpha = predict m par (Some (seq 0 (length terms))) dat alpha.
Proof. intros E. unfold PredModel.predict, PredModel.predi_mat. rewrite E. unfold build_sparse. now rewrite loop_all. Qed.

(** *** Coefficients of one parameter *)
Lemma sizes_cut m sz extra par : laid_out m sz extra -> (par < length (formulas m))%nat ->
  let all := sizes sz extra in
  all <> [] /\ (par < length all)%nat /\ nth par all 0%nat = nth par sz 0%nat /\ firstn par all = firstn par sz /\ length (coefs m) = list_sum all.
Proof.
  intros [Ln Lne Lx Lc Ls Lv] Hp all. unfold all, sizes. split; [now destruct sz|]. rewrite app_length. split; [lia|].
  rewrite app_nth1 by lia. split; [easy|]. rewrite firstn_app. replace (par - length sz)%nat with 0%nat by lia. rewrite firstn_O, app_nil_r. split; [easy|].
  rewrite Lc. unfold list_sum. rewrite lsum_app. destruct extra; cbn; lia.
Qed.

Lemma par_coef_spec m sz extra par : laid_out m sz extra -> (par < length (formulas m))%nat ->
  length (par_coef m par) = nth par sz 0%nat /\
  forall c, (c < nth par sz 0)%nat -> nth c (par_coef m par) 0 = nth (first_coef sz par + c) (coefs m) 0.
Proof.
  intros L Hp. destruct (sizes_cut m sz extra par L Hp) as (Na & Hpa & En & Ef & El). destruct L as [Ln Lne Lx Lc Ls Lv].
  unfold par_coef. destruct ((1 <? length (formulas m))%nat || has_extra_coef m) eqn:E.
  - rewrite Ls, split_idx_eq by easy.
    destruct (np_split_spec (sizes sz extra) (coefs m) Na El) as (_ & _ & Hn). rewrite Hn by easy. split.
    + rewrite piece_length by easy. easy.
    + intros c Hc. rewrite piece_nth by lia. unfold first_coef, list_sum. now rewrite Ef.
  - apply orb_false_elim in E. destruct E as [E1 E2]. apply Nat.ltb_ge in E1. rewrite E2 in Lx. destruct extra; [easy|].
    destruct sz as [|s [|s' sz]]; cbn in Ln; try lia; try easy. assert (par = 0%nat) by lia. subst par. cbn in Lc |- *. split; [lia|easy].
Qed.

Lemma par_lvi_spec m sz extra par : laid_out m sz extra -> (par < length (formulas m))%nat ->
  a_rows (par_lvi m par) = a_rows (lvi m) /\ a_cols (par_lvi m par) = nth par sz 0%nat /\
  forall k c, (c < nth par sz 0)%nat -> at_ (par_lvi m par) k c = at_ (lvi m) k (first_coef sz par + c).
Proof.
  intros L Hp. destruct (sizes_cut m sz extra par L Hp) as (Na & Hpa & En & Ef & El). destruct L as [Ln Lne Lx Lc Ls Lv].
  unfold par_lvi. destruct ((1 <? length (formulas m))%nat || has_extra_coef m) eqn:E.
  - rewrite Ls, split_idx_eq by easy. assert (El' : length (seq 0 (length (coefs m))) = list_sum (sizes sz extra)) by now rewrite seq_length.
    destruct (np_split_spec (sizes sz extra) (seq 0 (length (coefs m))) Na El') as (_ & _ & Hn). rewrite Hn by easy. cbn [columns a_rows a_cols at_].
    split; [easy|]. split.
    + rewrite piece_length by easy. easy.
    + intros k c Hc. rewrite piece_nth by lia. rewrite Ef. f_equal. unfold first_coef, list_sum. rewrite seq_nth; [lia|].
      pose proof (lsum_firstn_le par (sizes sz extra) Hpa) as Hle. rewrite Ef in Hle. rewrite El. unfold list_sum. lia.
  - apply orb_false_elim in E. destruct E as [E1 E2]. apply Nat.ltb_ge in E1. rewrite E2 in Lx. destruct extra; [easy|].
    destruct sz as [|s [|s' sz]]; cbn in Ln; try lia; try easy. assert (par = 0%nat) by lia. subst par. cbn in Lc |- *. split; [easy|]. split; [lia|easy].
Qed.

Lemma first_coef_le m sz extra par : laid_out m sz extra -> (par < length (formulas m))%nat ->
  (first_coef sz par + nth par sz 0 <= length (coefs m))%nat.
Proof.
  intros L Hp. destruct (sizes_cut m sz extra par L Hp) as (Na & Hpa & En & Ef & El). rewrite El.
  pose proof (lsum_firstn_le par (sizes sz extra) Hpa) as Hle. rewrite Ef, En in Hle. unfold first_coef, list_sum. lia.
Qed.

(** Sums against a row that is embedded among all coefficients. *)
Lemma sum_among m sz extra par (x f : nat -> R) : laid_out m sz extra -> (par < length (formulas m))%nat ->
  sum_to (length (coefs m)) (fun i => among_all sz par x i * f i) = sum_to (nth par sz 0%nat) (fun c => x c * f (first_coef sz par + c)%nat).
Proof.
  intros L Hp. pose proof (first_coef_le m sz extra par L Hp) as H. set (a := first_coef sz par) in *. set (n := nth par sz 0%nat) in *.
  replace (length (coefs m)) with (a + (n + (length (coefs m) - a - n)))%nat by lia. rewrite !sum_to_split. unfold among_all. fold a n.
  rewrite (sum_to_ext a _ (fun _ => 0)). 2:{ intros i Hi. destruct (Nat.leb_spec a i); [lia|]. cbn. lra. }
  rewrite (sum_to_ext n _ (fun c => x c * f (a + c)%nat)).
  2:{ intros i Hi. destruct (Nat.leb_spec a (a + i)); [|lia]. destruct (Nat.ltb_spec (a + i) (a + n)); [|lia]. cbn. f_equal. f_equal. lia. }
  rewrite (sum_to_ext (length (coefs m) - a - n) _ (fun _ => 0)).
  2:{ intros i Hi. destruct (Nat.leb_spec a (a + (n + i))); [|lia]. destruct (Nat.ltb_spec (a + (n + i)) (a + n)); [lia|]. cbn. lra. }
  rewrite !sum_to_zero. lra.
Qed.

(** Covariances from the factor. *)
Definition image (m : fitted) (x : nat -> R) (k : nat) : R := sum_to (length (coefs m)) (fun i => x i * at_ (lvi m) k i).
Lemma covariance_image m x y : covariance m x y = scale m * sum_to (a_rows (lvi m)) (fun k => image m x k * image m y k).
Proof.
  unfold covariance, image. rewrite <- sum_to_scal.
  rewrite (sum_to_ext (a_rows (lvi m)) _ (fun k => sum_to (length (coefs m)) (fun i => sum_to (length (coefs m)) (fun j => scale m * (x i * at_ (lvi m) k i * (y j * at_ (lvi m) k j)))))).
  2:{ intros k _. rewrite <- sum_to_scal_r, <- sum_to_scal. apply sum_to_ext. intros i _. rewrite sum_to_scal. f_equal. now rewrite sum_to_scal. }
  symmetry. rewrite sum_to_swap. apply sum_to_ext. intros i _. rewrite sum_to_swap. apply sum_to_ext. intros j _.
  symmetry. rewrite <- sum_to_scal, <- sum_to_scal. apply sum_to_ext. intros k _. ring.
Qed.
Lemma image_minus m x y k : image m (fun i => x i - y i) k = image m x k - image m y k.
Proof.
  unfold image. replace (sum_to (length (coefs m)) (fun i => x i * at_ (lvi m) k i) - sum_to (length (coefs m)) (fun i => y i * at_ (lvi m) k i))
    with (sum_to (length (coefs m)) (fun i => x i * at_ (lvi m) k i) + -1 * sum_to (length (coefs m)) (fun i => y i * at_ (lvi m) k i)) by ring.
  rewrite <- sum_to_scal, <- sum_to_plus. apply sum_to_ext. intros; ring.
Qed.
Lemma covariance_minus m x y : covariance m (fun i => x i - y i) (fun i => x i - y i) = covariance m x x + covariance m y y - 2 * covariance m x y.
Proof.
  rewrite !covariance_image.
  rewrite (sum_to_ext _ (fun k => image m (fun i => x i - y i) k * image m (fun i => x i - y i) k)
    (fun k => image m x k * image m x k + (image m y k * image m y k + -2 * (image m x k * image m y k)))).
  2:{ intros k _. rewrite image_minus. ring. }
  rewrite sum_to_plus, sum_to_plus, sum_to_scal. ring.
Qed.

Lemma half_width_spec m sz extra par X alpha b : laid_out m sz extra -> (par < length (formulas m))%nat ->
  half_width m par X alpha = Some b ->
  length b = a_rows X /\
  forall r, (r < a_rows X)%nat ->
    nth r b 0 = ppf alpha * sqrt (covariance m (among_all sz par (at_ X r)) (among_all sz par (at_ X r))).
Proof.
  intros L Hp H. destruct (par_lvi_spec m sz extra par L Hp) as (Hr & Hc & Hv). unfold PredModel.half_width, matmul, scaled, transpose in H. cbn [a_rows a_cols at_] in H.
  destruct (Nat.eqb_spec (a_cols X) (a_cols (par_lvi m par))) as [E1|]; [|easy]. cbn [a_rows a_cols at_] in H. rewrite Nat.eqb_refl in H.
  cbn [a_rows a_cols at_] in H. rewrite E1, Nat.eqb_refl in H. injection H as <-. cbn [a_rows a_cols at_].
  split; [now rewrite map_length, seq_length|]. intros r Hrr. rewrite nth_map_seq by easy. do 2 f_equal. rewrite covariance_image, Hr, Hc.
  transitivity (sum_to (nth par sz 0%nat) (fun j => scale m * sum_to (a_rows (lvi m)) (fun k => image m (among_all sz par (at_ X r)) k * (at_ X r j * at_ (lvi m) k (first_coef sz par + j))))).
  - apply sum_to_ext. intros j Hj. rewrite <- sum_to_scal_r, <- sum_to_scal_r, <- sum_to_scal. apply sum_to_ext. intros k _. rewrite (Hv k j Hj).
    unfold image. rewrite (sum_among m sz extra par) by easy.
    rewrite (sum_to_ext (nth par sz 0%nat) (fun i => at_ X r i * at_ (par_lvi m par) k i) (fun c => at_ X r c * at_ (lvi m) k (first_coef sz par + c))); [ring|].
    intros i Hi. now rewrite (Hv k i Hi).
  - rewrite sum_to_scal. f_equal. rewrite sum_to_swap. apply sum_to_ext. intros k _. rewrite sum_to_scal. f_equal.
    unfold image. now rewrite (sum_among m sz extra par).
Qed.

(** *** Differences *)
Lemma diff_some m par dat1 dat2 use alpha p1 X1 b1 p2 X2 b2 :
  predict m par use dat1 alpha = Some (p1, X1, b1) -> predict m par use dat2 alpha = Some (p2, X2, b2) ->
  n_y (fst dat1) = n_y (fst dat2) ->
  exists X d b, minus X1 X2 = Some X /\ half_width m par X alpha = Some b /\ predict_diff big ppf m par dat1 dat2 use alpha = Some (d, b) /\
    length d = n_y (fst dat1) /\ (forall r, nth r d 0 = nth r p1 0 - nth r p2 0) /\
    a_rows X = n_y (fst dat1) /\ a_cols X = a_cols X1 /\ forall r c, at_ X r c = at_ X1 r c - at_ X2 r c.
Proof.
  intros H1 H2 HN. pose proof H1 as G1. pose proof H2 as G2. apply predict_some in H1. apply predict_some in H2.
  destruct H1 as (E1 & M1 & W1). destruct H2 as (E2 & M2 & W2). apply predi_mat_rows in E1. apply predi_mat_rows in E2.
  apply matvec_some in M1. apply matvec_some in M2. destruct M1 as (C1 & ->). destruct M2 as (C2 & ->).
  set (X := Array (a_rows X1) (a_cols X1) (fun r c => at_ X1 r c - at_ X2 r c)).
  assert (EX : minus X1 X2 = Some X).
  { unfold minus. assert (Hb : ((a_rows X1 =? a_rows X2)%nat && (a_cols X1 =? a_cols X2)%nat)%bool = true).
    { apply andb_true_intro. split; apply Nat.eqb_eq; congruence. } now rewrite Hb. }
  destruct (half_width_dims m par X1 alpha b1 X W1 eq_refl eq_refl) as (b & Wb).
  exists X. eexists. exists b. split; [easy|]. split; [easy|]. unfold predict_diff. rewrite G1, G2, EX, Wb.
  assert (EM : matvec X (par_coef m par) = Some (map (fun r => sum_to (a_cols X) (fun c => at_ X r c * nth c (par_coef m par) 0)) (seq 0 (a_rows X)))).
  { unfold matvec. cbn [a_cols X]. now rewrite C1, Nat.eqb_refl. }
  rewrite EM. split; [reflexivity|]. split; [rewrite map_length, seq_length; easy|]. split.
  - intros r. destruct (Nat.lt_ge_cases r (a_rows X1)) as [Hr|Hr].
    + rewrite !nth_map_seq by (cbn; lia). cbn [a_cols X at_]. rewrite C2, <- C1.
      replace (sum_to (a_cols X1) (fun c => at_ X1 r c * nth c (par_coef m par) 0) - sum_to (a_cols X1) (fun c => at_ X2 r c * nth c (par_coef m par) 0))
        with (sum_to (a_cols X1) (fun c => at_ X1 r c * nth c (par_coef m par) 0) + -1 * sum_to (a_cols X1) (fun c => at_ X2 r c * nth c (par_coef m par) 0)) by ring.
      rewrite <- sum_to_scal, <- sum_to_plus. apply sum_to_ext. intros; ring.
    + rewrite !nth_overflow by (rewrite map_length, seq_length; cbn; lia). lra.
  - split; [easy|]. split; easy.
Qed.
End P.
