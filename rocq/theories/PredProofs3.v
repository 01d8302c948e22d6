(** Lemmas for predictions: single terms, simultaneous intervals. *)

From Coq Require Import List Bool Arith Reals Lia Lra Permutation.
From Verif Require Import Ext AsmModel AsmSpec AsmProofs3 FormModel FormSpec FormProofs FormProofs4 FormProps PredModel PredSpec PredProofs PredProofs2.
Import ListNotations.
Local Open Scope R_scope.

(** ** Single terms *)
Section Terms.
Variable big : R -> bool.
Notation design := (design R 0 1 Rplus Rmult Rminus big).
Notation colR := (FormSpec.col R 0).

Definition dotc (cols : list (nat -> R)) (start r : nat) (coef : nat -> R) : R :=
  sum_to (length cols) (fun c => colR cols c r * coef (start + c)%nat).
Lemma dotc_app a b start r coef : dotc (a ++ b) start r coef = dotc a start r coef + dotc b (start + length a) r coef.
Proof.
  unfold dotc. rewrite app_length, sum_to_split. f_equal.
  - apply sum_to_ext. intros c Hc. unfold FormSpec.col. now rewrite app_nth1.
  - apply sum_to_ext. intros c Hc. unfold FormSpec.col. rewrite app_nth2 by lia. replace (length a + c - length a)%nat with c by lia. now replace (start + (length a + c))%nat with (start + length a + c)%nat by lia.
Qed.
Lemma dotc_zero {A} (l : list A) start r coef : dotc (map (fun _ => FormSpec.zero R 0) l) start r coef = 0.
Proof.
  unfold dotc. rewrite (sum_to_ext _ _ (fun _ => 0)); [apply sum_to_zero|]. intros c Hc. unfold FormSpec.col.
  assert (E : nth c (map (fun _ : A => FormSpec.zero R 0) l) (FormSpec.zero R 0) = FormSpec.zero R 0).
  { clear Hc. revert c. induction l as [|a l IH]; intros [|c]; cbn; auto. }
  rewrite E. unfold FormSpec.zero. lra.
Qed.

Lemma design_lengths e (d : frame R) lens w w' : forall order h, map (@length _) (design e d lens w h order) = map (@length _) (design e d lens w' h order).
Proof.
  induction order as [|[ti t] order IH]; intros h; [easy|]. cbn. f_equal; [|apply IH]. destruct (w ti), (w' ti); now rewrite ?map_length.
Qed.

Lemma design_none e (d : frame R) lens w : forall order h start r coef, (forall p, In p order -> w (fst p) = false) ->
  dotc (concat (design e d lens w h order)) start r coef = 0.
Proof.
  induction order as [|[ti t] order IH]; intros h start r coef H; [easy|]; cbn [FormSpec.design concat].
  rewrite dotc_app. pose proof (H (ti, t) (or_introl eq_refl)) as Hw. cbn in Hw. rewrite Hw, dotc_zero, IH; [lra|]. intros p Hp. apply H. now right.
Qed.

Lemma design_one e (d : frame R) lens ti w : (forall t, w t = true <-> t = ti) -> forall order h start r coef bs i t s n,
  NoDup (map fst order) -> tiles start bs (map (@length _) (design e d lens (fun _ => true) h order)) ->
  nth_error order i = Some (ti, t) -> nth_error bs i = Some (s, n) ->
  n = length (nth i (design e d lens (fun _ => true) h order) []) /\
  dotc (concat (design e d lens w h order)) start r coef = dotc (nth i (design e d lens (fun _ => true) h order) []) s r coef.
Proof.
  intros W. induction order as [|[tj u] order IH]; intros h start r coef bs i t s n N T Ho Hb; [now destruct i|].
  cbn in N. inversion N as [|? ? Nj N1]; subst. destruct bs as [|[s0 n0] bs]; [easy|]. cbn [FormSpec.design map tiles] in T.
  destruct T as (-> & -> & T). cbn [FormSpec.design concat]. rewrite dotc_app. destruct i as [|i].
  - cbn in Ho, Hb. injection Ho as -> ->. injection Hb as <- <-. cbn [nth]. assert (Ew : w ti = true) by now apply W. rewrite Ew.
    split; [easy|]. rewrite design_none; [lra|]. intros p Hp. destruct (w (fst p)) eqn:E; [|easy]. apply W in E. exfalso. apply Nj. rewrite <- E. now apply in_map.
  - cbn in Ho, Hb. cbn [nth]. destruct (w tj) eqn:E.
    + apply W in E. subst tj. exfalso. apply Nj. apply nth_error_In in Ho. now apply (in_map fst) in Ho.
    + rewrite dotc_zero, map_length. destruct (IH (h || spans_constant R e u)%bool _ r coef bs i t s n N1 T Ho Hb) as [H1 H2].
      split; [easy|]. rewrite H2. lra.
Qed.

Lemma nth_error_map_fst {A B C} (f : A -> C) (g : B -> C) : forall (l : list A) (k : list B) i a, map f l = map g k -> nth_error l i = Some a ->
  exists b, nth_error k i = Some b /\ g b = f a.
Proof.
  induction l as [|x l IH]; intros [|y k] i a E H; try discriminate; destruct i; try discriminate; cbn in *.
  - injection H as ->. injection E as E _. now exists y.
  - injection E as _ E. now apply (IH k i a E).
Qed.

Lemma term_prediction e terms (d : frame R) lens coef i ti start n :
  all_ok R 0 Rplus Rmult Rminus big e d lens (intercept R terms) (ordered R terms) ->
  nth_error (in_terms (get_coef_info e terms)) i = Some (ti, (start, n)) ->
  exists ts, build_sparse R 0 1 Rplus Rmult Rminus big e d lens false terms (Some [ti]) = Some (ts, in_n (get_coef_info e terms)) /\
    forall r, (r < n_y d)%nat ->
    sum_to (in_n (get_coef_info e terms)) (fun c => FormModel.entry R 0 Rplus ts r c * coef c) =
    sum_to n (fun c => colR (nth i (design e d lens (fun _ => true) (intercept R terms) (ordered R terms)) []) c r * coef (start + c)%nat).
Proof.
  intros Hok Hi.
  destruct (C44_model_matrix R 0 1 Rplus Rmult Rminus Ropp RTheory big e d lens false terms (Some [ti]) Hok) as (ts & EB & EM & EN & EP & EF & ET).
  exists ts. split; [exact EB|]. intros r Hr. rewrite EN.
  set (w := fun t => match Some [ti] with Some l => existsb (Nat.eqb t) l | None => true end) in *.
  assert (W : forall t, w t = true <-> t = ti).
  { intros t. unfold w. cbn. rewrite orb_false_r. apply Nat.eqb_eq. }
  destruct (nth_error_map_fst fst fst _ _ _ _ EF Hi) as ([tj t] & Ho & Etj). cbn in Etj. subst tj.
  rewrite (design_lengths e d lens w (fun _ => true)) in ET.
  assert (ND : NoDup (map fst (ordered R terms))).
  { rewrite <- EF. eapply Permutation_NoDup; [apply Permutation_sym; exact EP|]. apply seq_NoDup. }
  assert (Hb : nth_error (map snd (in_terms (get_coef_info e terms))) i = Some (start, n)) by (rewrite nth_error_map, Hi; easy).
  destruct (design_one e d lens ti w W (ordered R terms) (intercept R terms) 0 r coef _ i t start n ND ET Ho Hb) as [H1 H2].
  subst n. etransitivity; [|exact H2]. unfold dotc. apply sum_to_ext. intros c Hc. rewrite (EM r c). unfold column in *.
  apply Nat.ltb_lt in Hr, Hc. unfold column in *. rewrite Hr. cbn [andb]. etransitivity; [apply f_equal2; [|reflexivity]|reflexivity].
  match goal with |- (if ?b then _ else _) = _ => replace b with true by (symmetry; exact Hc) end. reflexivity.
Qed.
End Terms.

(** ** Simultaneous intervals *)

Lemma emax_fin a b : emax (Fin a) (Fin b) = Fin (Rmax a b). Proof. easy. Qed.
Lemma np_max_fin : forall l x, exists m, np_max (map Fin (x :: l)) = Fin m /\ is_max (x :: l) m.
Proof.
  unfold np_max, is_max. intros l. cbn [map]. induction l as [|y l IH]; intros x; cbn [map fold_left].
  - exists x. split; [easy|]. split; [now left|]. constructor; [lra|constructor].
  - rewrite emax_fin. destruct (IH (Rmax x y)) as (m & E & I & F). exists m. split; [exact E|]. inversion F as [|? ? F1 F2]; subst. split.
    + destruct I as [I|I]; [|right; now right]. subst m. unfold Rmax. destruct (Rle_dec x y); [right; now left|now left].
    + pose proof (Rmax_l x y). pose proof (Rmax_r x y). constructor; [lra|]. constructor; [lra|easy].
Qed.
Lemma np_max_nan : forall l, In NaN l -> np_max l = NaN.
Proof.
  intros [|x l] H; [easy|]. unfold np_max.
  assert (K : forall k, fold_left emax k NaN = NaN) by (induction k as [|y k IH]; cbn; [easy|]; destruct y; apply IH).
  assert (G : forall k a, In NaN k -> fold_left emax k a = NaN).
  { induction k as [|y k IH]; intros a Hk; [easy|]. cbn. destruct Hk as [->|Hk]; [|now apply IH]. replace (emax a NaN) with NaN by now destruct a. apply K. }
  destruct H as [->|H]; [apply K|now apply G].
Qed.

(** The cells of the matrix of deviations. *)
Lemma sum_to_single n c f : (c < n)%nat -> (forall i, (i < n)%nat -> i <> c -> f i = 0) -> sum_to n f = f c.
Proof.
  intros Hc H. replace n with (c + (1 + (n - c - 1)))%nat by lia. rewrite !sum_to_split.
  rewrite (sum_to_ext c f (fun _ => 0)) by (intros; apply H; lia).
  rewrite (sum_to_ext (n - c - 1) _ (fun _ => 0)) by (intros; apply H; lia). rewrite !sum_to_zero. unfold sum_to. cbn. rewrite Nat.add_0_r. lra.
Qed.
Lemma sum_filter n (p : nat -> bool) f : (forall c, (c < n)%nat -> p c = false -> f c = 0) ->
  sum_to (length (filter p (seq 0 n))) (fun k => f (nth k (filter p (seq 0 n)) 0%nat)) = sum_to n f.
Proof.
  intros H. unfold sum_to.
  assert (E : forall l, map (fun k => f (nth k l 0%nat)) (seq 0 (length l)) = map f l).
  { intros l. induction l as [|a l IH]; [easy|]. cbn. f_equal. rewrite <- IH, <- seq_shift, map_map. apply map_ext. easy. }
  rewrite E. assert (Hin : forall c, In c (seq 0 n) -> p c = false -> f c = 0). { intros c Hc. apply in_seq in Hc. apply H. lia. }
  clear H E. induction (seq 0 n) as [|a l IH]; [easy|]. cbn. destruct (p a) eqn:Ea; cbn; rewrite IH.
  - easy.
  - intros c Hc. apply Hin. now right.
  - rewrite (Hin a (or_introl eq_refl) Ea). lra.
  - intros c Hc. apply Hin. now right.
Qed.

Lemma fpost_all lvi scale z X : a_cols X = a_cols lvi -> a_rows lvi = a_rows z ->
  exists post F, sample_post lvi scale None z = Some post /\ matmul X post = Some F /\ a_rows F = a_rows X /\ a_cols F = a_cols z /\
    forall r s, at_ F r s = deviation lvi scale z X r s.
Proof.
  intros HC HR. unfold sample_post, matmul, scaled, transpose. cbn [a_rows a_cols at_]. rewrite HR, Nat.eqb_refl. cbn [a_rows a_cols at_].
  eexists. eexists. split; [reflexivity|]. cbn [a_rows a_cols at_]. rewrite HC, Nat.eqb_refl. split; [reflexivity|]. split; [easy|]. split; [easy|].
  intros r s. cbn [at_]. unfold deviation. rewrite HC, HR. apply sum_to_ext. intros c _. f_equal. rewrite <- sum_to_scal. apply sum_to_ext. intros; ring.
Qed.
Lemma fpost_use lvi scale z X use : a_cols X = a_cols lvi -> a_rows lvi = a_rows z ->
  (forall c, In c use -> (c < a_cols X)%nat) ->
  exists post F, sample_post lvi scale (Some use) z = Some post /\ matmul (columns X use) post = Some F /\ a_rows F = a_rows X /\ a_cols F = a_cols z /\
    forall r s, at_ F r s = sum_to (length use) (fun k => let c := nth k use 0%nat in at_ X r c * (sqrt scale * sum_to (a_rows lvi) (fun k => at_ lvi k c * at_ z k s))).
Proof.
  intros HC HR Hu. unfold sample_post, matmul, scaled, transpose, columns. cbn [a_rows a_cols at_]. rewrite HR, Nat.eqb_refl. cbn [a_rows a_cols at_].
  eexists. eexists. split; [reflexivity|]. cbn [a_rows a_cols at_]. rewrite Nat.eqb_refl. split; [reflexivity|]. split; [easy|]. split; [easy|].
  intros r s. cbn [at_]. apply sum_to_ext. intros k _. cbn. f_equal. rewrite <- sum_to_scal. apply sum_to_ext. intros; ring.
Qed.

Lemma fpost_any lvi scale z X (use_terms : option (list nat)) : a_cols X = a_cols lvi -> a_rows lvi = a_rows z ->
  (use_terms <> None -> no_cancelling X) ->
  let use_post := match use_terms with
                  | None => None
                  | Some _ => Some (filter (fun c => if Req_EM_T (sum_to (a_rows X) (fun r => at_ X r c)) 0 then false else true) (seq 0 (a_cols X)))
                  end in
  exists post F, sample_post lvi scale use_post z = Some post /\
    matmul (match use_post with None => X | Some use => columns X use end) post = Some F /\ a_rows F = a_rows X /\ a_cols F = a_cols z /\
    forall r s, at_ F r s = deviation lvi scale z X r s.
Proof.
  intros HC HR Hn use_post. destruct use_terms as [l|]; cbn [use_post].
  - destruct (fpost_use lvi scale z X (filter (fun c => if Req_EM_T (sum_to (a_rows X) (fun r => at_ X r c)) 0 then false else true) (seq 0 (a_cols X))) HC HR) as (post & F & E1 & E2 & E3 & E4 & E5).
    { intros c Hc. apply filter_In in Hc. destruct Hc as [Hc _]. apply in_seq in Hc. lia. }
    exists post, F. split; [exact E1|]. split; [exact E2|]. split; [easy|]. split; [easy|]. intros r s. rewrite E5. unfold deviation.
    apply (sum_filter (a_cols X) (fun c => if Req_EM_T (sum_to (a_rows X) (fun r => at_ X r c)) 0 then false else true)
             (fun c => at_ X r c * (sqrt scale * sum_to (a_rows lvi) (fun k => at_ lvi k c * at_ z k s)))).
    intros c Hc Hp. destruct Req_EM_T as [E|]; [|easy]. rewrite (Hn ltac:(easy) c Hc E r). lra.
  - now apply fpost_all.
Qed.

Lemma existsb_nan_fin l : existsb isnan (map Fin l) = false.
Proof. induction l; cbn; auto. Qed.
Lemma choose_list {P : nat -> R -> Prop} n : (forall s, (s < n)%nat -> exists q, P s q) ->
  exists l, length l = n /\ forall s, (s < n)%nat -> P s (nth s l 0).
Proof.
  induction n as [|n IH]; intros H; [exists []; split; [easy|lia]|]. destruct IH as (l & E & F); [intros; apply H; lia|].
  destruct (H n) as (q & Q); [lia|]. exists (l ++ [q]). rewrite app_length. split; [cbn; lia|]. intros s Hs.
  destruct (Nat.eq_dec s n) as [->|]; [|rewrite app_nth1 by lia; apply F; lia]. rewrite app_nth2 by lia. now replace (n - length l)%nat with 0%nat by lia.
Qed.
Lemma list_from_nth n (f : nat -> ext) (l : list R) : length l = n -> (forall s, (s < n)%nat -> f s = Fin (nth s l 0)) -> map f (seq 0 n) = map Fin l.
Proof.
  intros <- H. rewrite <- (map_nth_seq R ext Fin 0 l). apply map_ext_in. intros s Hs. apply in_seq in Hs. apply H. lia.
Qed.

Lemma adjust_spec quantile lvi scale z b X use_terms alpha :
  a_cols X = a_cols lvi -> a_rows lvi = a_rows z -> (0 < a_rows X)%nat ->
  (use_terms <> None -> no_cancelling X) -> (forall r, (r < a_rows X)%nat -> 0 < nth r b 0) ->
  exists q, length q = a_cols z /\ (forall s, (s < a_cols z)%nat -> largest_ratio lvi scale z X b s (nth s q 0)) /\
    adjust_CI quantile lvi scale z b X use_terms alpha =
    Some (map (fun x => emul x (quantile alpha (map Fin q))) b, map (fun x => emul x (quantile alpha (map Fin q))) b).
Proof.
  intros HC HR Hx Hn Hp.
  assert (Hb : forall r, (r < a_rows X)%nat -> nth r b 0 <> 0) by (intros r Hr E; specialize (Hp r Hr); lra).
  destruct (fpost_any lvi scale z X use_terms HC HR Hn) as (post & F & E1 & E2 & E3 & E4 & E5).
  set (up := match use_terms with None => None | Some _ => _ end) in *.
  assert (M : forall s, (s < a_cols z)%nat -> exists q, largest_ratio lvi scale z X b s q /\
     np_max (map (fun r => ediv (Rabs (at_ F r s)) (nth r b 0)) (seq 0 (a_rows F))) = Fin q).
  { intros s _. rewrite E3. unfold largest_ratio.
    assert (Em : map (fun r => ediv (Rabs (at_ F r s)) (nth r b 0)) (seq 0 (a_rows X)) =
                 map Fin (map (fun r => Rabs (deviation lvi scale z X r s) / nth r b 0) (seq 0 (a_rows X)))).
    { rewrite map_map. apply map_ext_in. intros r Hr. apply in_seq in Hr. rewrite E5. unfold ediv. destruct Req_EM_T as [Eb|]; [|easy]. exfalso. apply (Hb r); [lia|easy]. }
    rewrite Em. destruct (map (fun r => Rabs (deviation lvi scale z X r s) / nth r b 0) (seq 0 (a_rows X))) as [|x l] eqn:El.
    - exfalso. apply (f_equal (@length R)) in El. rewrite map_length, seq_length in El. cbn in El. lia.
    - destruct (np_max_fin l x) as (m & Q1 & Q2). now exists m. }
  apply choose_list in M. destruct M as (q & Lq & Hq). exists q. split; [easy|]. split; [intros s Hs; now apply Hq|].
  unfold adjust_CI. fold up. cbv zeta. rewrite E1, E2. rewrite E4.
  rewrite (list_from_nth (a_cols z) _ q Lq) by (intros s Hs; now apply Hq).
  unfold np_quantile. now rewrite existsb_nan_fin.
Qed.
