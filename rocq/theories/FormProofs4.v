(** Lemmas for FormProps: whole formulas. *)

From Coq Require Import List Bool Arith Lia Ring Permutation.
From Verif Require Import FormModel FormSpec FormProofs FormProofs2 FormProofs3.
Import ListNotations.

Section Proofs.
Variable K : Type.
Variables (k0 k1 : K) (kadd kmul ksub : K -> K -> K) (kopp : K -> K).
Hypothesis Kring : ring_theory k0 k1 kadd kmul ksub kopp eq.
Variable big : K -> bool.

Notation column := (column K).
Notation zero := (zero K k0).
Notation rep := (rep K k0 kadd).
Notation term_cols := (term_cols K k0 k1 kadd kmul ksub big).
Notation term_ok := (term_ok K k0 kadd kmul ksub big).
Notation term_build := (term_build K k0 k1 kadd kmul ksub big).
Notation build_loop := (build_loop K k0 k1 kadd kmul ksub big).
Notation build_sparse := (build_sparse K k0 k1 kadd kmul ksub big).
Notation design := (design K k0 k1 kadd kmul ksub big).
Notation all_ok := (all_ok K k0 kadd kmul ksub big).
Notation ordered := (ordered K).

Lemma i_matrix (d : frame K) ci : rep (n_y d) (fst (i_build K k1 d ci true)) ci [one K k1].
Proof. apply (rep_full_column K k0 k1 kadd kmul ksub kopp Kring). Qed.

Lemma term_matrix e (d : frame K) lens pool h t ci : term_ok e d lens h t ->
  exists ts, term_build e d lens pool h t ci true = Some (ts, length (term_cols e d lens h t)) /\
             term_build e d lens pool h t ci false = Some ([], length (term_cols e d lens h t)) /\
             rep (n_y d) ts ci (term_cols e d lens h t).
Proof.
  destruct t as [|vars|s|s|v|vars b]; simpl; intros Hok.
  - eexists; repeat split. apply (i_matrix d ci).
  - destruct Hok as [Hne Hok].
    destruct (linear_matrix K k0 k1 kadd kmul ksub kopp Kring e d h vars ci Hne Hok) as (ts & E & R).
    exists ts. rewrite E. rewrite linear_unused, E. auto.
  - destruct Hok as [W D].
    destruct (smooth_matrix K k0 k1 kadd kmul ksub kopp Kring big s e d ci W D) as (ts & E & R).
    exists ts. rewrite E. rewrite (smooth_unused K k0 kadd kmul ksub big s e d ci ts _ E). auto.
  - destruct Hok as [W F]. apply (irf_matrix K k0 k1 kadd kmul ksub kopp Kring big s e d lens pool ci W F).
  - destruct (ri_matrix K k0 k1 kadd kmul ksub kopp Kring e d v ci) as (ts & E & R).
    exists ts. rewrite E. split; [reflexivity|]. split; [|exact R].
    unfold ri_build in *. rewrite emit_unused. injection E as _ E. rewrite E. reflexivity.
  - destruct Hok as [Hne Hok].
    destruct (rs_matrix K k0 k1 kadd kmul ksub kopp Kring big e d vars b ci Hne Hok) as (ts & E & R).
    exists ts. simpl in E, R. rewrite E. rewrite rs_unused, E. auto.
Qed.

(** *** Numbers of coefficients *)
Lemma names_fold e (d : frame K) h vars : forall names inter, length names = length inter ->
  length (fold_left (name_step e h) vars names) = length (fold_left (inter_step K k1 kmul e d h) vars inter).
Proof.
  induction vars as [|v vars IH]; intros names inter H; simpl; [exact H|].
  apply IH. unfold name_step, inter_step.
  destruct (vt e v).
  - destruct names as [|n0 names], inter as [|p0 inter]; simpl in H; try lia; [reflexivity|].
    rewrite !map_length. exact H.
  - destruct names as [|n0 names], inter as [|p0 inter]; try (simpl in H; lia).
    + rewrite !map_length. reflexivity.
    + revert H. generalize (p0 :: inter) as I. generalize (n0 :: names) as N. clear.
      induction N as [|n N IHN]; intros [|p I] H; simpl in *; try lia.
      rewrite !app_length, !map_length. rewrite (IHN I) by lia. reflexivity.
Qed.

Lemma linear_count e (d : frame K) h vars ci :
  let '(n, _, names) := linear_info e vars h in
  n = snd (build_linear_term K k1 kmul e d vars h ci true) /\ length names = n.
Proof.
  unfold linear_info. rewrite map_length. split; [|reflexivity].
  unfold build_linear_term. destruct vars as [|v [|w vars]]; [reflexivity| |].
  - destruct (vt e v); simpl; rewrite ?map_length; reflexivity.
  - apply names_fold. reflexivity.
Qed.

Lemma keep_without s i names : keep_names (K := K) s i names = without _ (drops K s) i names.
Proof.
  revert i; induction names as [|a l IH]; intros i; simpl; [reflexivity|].
  rewrite IH, dropped_drops. reflexivity.
Qed.

Lemma term_count e (d : frame K) lens icpt h t : term_ok e d lens h t ->
  fst (fst (term_info e icpt h t)) = length (term_cols e d lens h t).
Proof.
  intros Hok. destruct t as [|vars|s|s|v|vars b]; simpl in *.
  - reflexivity.
  - destruct Hok as [Hne Hok].
    destruct (linear_matrix K k0 k1 kadd kmul ksub kopp Kring e d h vars 0 Hne Hok) as (ts & E & R).
    pose proof (linear_count e d h vars 0) as L. rewrite E in L. unfold linear_info in *. apply L.
  - destruct Hok as [W D].
    destruct (smooth_matrix K k0 k1 kadd kmul ksub kopp Kring big s e d 0 W D) as (ts & E & R).
    unfold f_build in E. destruct (f_matrix _ _ _ _ _ s d) as [T|]; [|discriminate].
    destruct (Nat.eqb_spec (f_all_coef s e) (length (f_term_ridx s e d (mcols T)) + n_dropped s)); [|discriminate].
    injection E as _ E. lia.
  - destruct Hok as [W F].
    destruct (irf_matrix K k0 k1 kadd kmul ksub kopp Kring big s e d lens false 0 W F) as (ts & E & _ & _).
    unfold irf_build in E.
    destruct (i_all_series K k0 kmul s e d lens 0 0) as [[|[len T] rest]|]; try discriminate.
    destruct (forallb (fun p : nat * mat K => mcols (snd p) =? mcols T) rest); [|discriminate].
    simpl orb in E. simpl andb in E. destruct (Nat.eqb_spec (i_n_coef s e) (mcols T)) as [E'|]; [|discriminate].
    simpl andb in E. destruct ((mcols T =? 0) || (_ =? n_y d)); [|discriminate].
    injection E as _ E. rewrite <- E. exact E'.
  - unfold random_cols. rewrite map_length, seq_length.
    generalize 0 at 1. induction (length (levels e v)) as [|L IH]; intros a; simpl; [reflexivity|]. rewrite <- IH. reflexivity.
  - destruct Hok as [Hne Hok].
    destruct (linear_matrix K k0 k1 kadd kmul ksub kopp Kring e d false vars 0 Hne Hok) as (ts & E & R).
    pose proof (linear_count e d false vars 0) as L. rewrite E in L. unfold rs_info.
    destruct (linear_info e vars false) as [[n u] names]. destruct L as [L _]. simpl in L.
    destruct b as [v|]; simpl; [|exact L].
    rewrite L. unfold random_cols. rewrite Nat.mul_comm.
    generalize 0 at 1. induction (length (levels e v)) as [|N IH]; intros a; simpl; [reflexivity|].
    rewrite app_length, map_length, <- IH. reflexivity.
Qed.

(** Number of names; impulse responses with a by-factor are left out. *)
Definition names_counted (e : env) (t : term K) : Prop :=
  match t with
  | TIrf s => match i_by s with None => True | Some v => length (levels e v) = 1 end
  | _ => True
  end.

Lemma flat_map_const (A : Type) (f : nat -> list A) n a L : (forall k, length (f k) = n) -> length (flat_map f (seq a L)) = L * n.
Proof.
  intros H. revert a; induction L as [|L IH]; intros a; simpl; [reflexivity|]. rewrite app_length, H, IH. reflexivity.
Qed.

Lemma term_names e (d : frame K) lens icpt h t : term_ok e d lens h t -> names_counted e t ->
  length (snd (term_info e icpt h t)) = length (term_cols e d lens h t).
Proof.
  intros Hok Hn. rewrite <- (term_count e d lens icpt h t Hok).
  destruct t as [|vars|s|s|v|vars b]; simpl in *.
  - reflexivity.
  - rewrite map_length. reflexivity.
  - assert (LN : length (f_all_names s e) = f_all_coef s e).
    { unfold f_all_names, f_all_coef. destruct (f_by s) as [v|]; [|rewrite map_length, seq_length; reflexivity].
      rewrite Nat.mul_comm. induction (levels e v) as [|a l IH]; simpl; [reflexivity|].
      rewrite app_length, map_length, seq_length, IH. reflexivity. }
    rewrite keep_without. destruct Hok as [W D].
    destruct (matrix_ok K k0 kadd kmul ksub s e d W) as (T & ET & HT & EC).
    assert (LA : length (smooth_all K k0 kadd kmul ksub big s e d) = f_all_coef s e).
    { rewrite <- (eqcols_length _ _ _ (all_cols_ok K k0 kadd kmul ksub big s e d T EC)).
      rewrite map_length, combine_length, seq_length, Nat.min_id, masks_length, HT. reflexivity. }
    unfold drops_last in D. unfold n_dropped, drops. destruct (f_drop s) as [l|].
    + destruct D as (ND & k & Hk & HI). rewrite LA in *.
      rewrite (without_tail _ l (f_all_names s e) k) by (rewrite LN; exact HI).
      rewrite firstn_length, LN. lia.
    + rewrite without_none, LN. lia.
  - unfold i_n_coef in *. destruct (i_by s) as [v|]; [|rewrite map_length, seq_length; reflexivity].
    destruct (levels e v) as [|a [|b l]]; simpl in Hn; try lia.
    cbn [flat_map length]. rewrite app_nil_r, map_length, seq_length. reflexivity.
  - reflexivity.
  - unfold rs_info, linear_info. destruct b as [v|]; cbn [fst snd].
    + rewrite (flat_map_const _ _ (length (map NLin match vars with
        | [v0] => match vt e v0 with
                  | Numeric => [[(v0, None)]]
                  | Factor => map (fun fl => [(v0, Some (decode e v0 fl))]) (level_range e false v0)
                  end
        | _ => fold_left (name_step e false) vars []
        end))).
      * rewrite map_length. apply Nat.mul_comm.
      * intros k. rewrite map_length. reflexivity.
    + rewrite !map_length. reflexivity.
Qed.

(** *** Order of the terms *)
Lemma ordered_visit terms : visit (K := K) terms = map fst (ordered terms).
Proof.
  unfold visit, FormSpec.ordered. cbn [flat_map]. rewrite !map_app. simpl map at 5. rewrite app_nil_r.
  assert (C : forall p, In p (combine (seq 0 (length terms)) terms) -> nth_error terms (fst p) = Some (snd p)).
  { intros [i t]. intros H.
    assert (G : forall (l : list (term K)) o, In (i, t) (combine (seq o (length l)) l) -> o <= i /\ nth_error l (i - o) = Some t).
    { induction l as [|x l IH]; intros o Hin; simpl in Hin; [contradiction|].
      destruct Hin as [E|Hin].
      - injection E as <- <-. rewrite Nat.sub_diag. split; [lia|reflexivity].
      - apply IH in Hin. destruct Hin as [H1 H2]. split; [lia|].
        replace (i - o) with (S (i - S o)) by lia. exact H2. }
    apply G in H. rewrite Nat.sub_0_r in H. apply H. }
  assert (G : forall (p : term K -> bool) (k : nat), (forall t, p t = (kind K t =? k)) ->
     term_idx p terms = map fst (filter (fun q : nat * term K => kind K (snd q) =? k) (combine (seq 0 (length terms)) terms))).
  { intros p k Hp. unfold term_idx.
    set (g := fun ti => match nth_error terms ti with Some t => p t | None => false end).
    rewrite (filter_ext_in _ (fun q : nat * term K => g (fst q))).
    2:{ intros q Hq. unfold g. rewrite (C q Hq), Hp. reflexivity. }
    assert (FM : forall l : list (nat * term K), map fst (filter (fun q => g (fst q)) l) = filter g (map fst l)).
    { induction l as [|q l IH]; simpl; [reflexivity|]. destruct (g (fst q)); simpl; rewrite IH; reflexivity. }
    rewrite FM. f_equal.
    clear. generalize 0. induction terms as [|t l IH]; intros o; simpl; [reflexivity|]. rewrite <- IH. reflexivity. }
  rewrite <- (G is_linear 0), <- (G is_irf 1), <- (G is_smooth 2), <- (G is_random 3); try reflexivity;
    intros [| | | | |]; reflexivity.
Qed.

Lemma ordered_nth terms : Forall (fun p => nth_error terms (fst p) = Some (snd p)) (ordered terms).
Proof.
  apply Forall_forall. intros [i t] H. unfold FormSpec.ordered in H. apply in_flat_map in H.
  destruct H as (k & _ & H). apply filter_In in H. destruct H as [H _].
  assert (G : forall (l : list (term K)) o, In (i, t) (combine (seq o (length l)) l) -> o <= i /\ nth_error l (i - o) = Some t).
  { induction l as [|x l IH]; intros o Hin; simpl in Hin; [contradiction|].
    destruct Hin as [E|Hin].
    - injection E as <- <-. rewrite Nat.sub_diag. split; [lia|reflexivity].
    - apply IH in Hin. destruct Hin as [H1 H2]. split; [lia|].
      replace (i - o) with (S (i - S o)) by lia. exact H2. }
  apply G in H. rewrite Nat.sub_0_r in H. apply H.
Qed.

Lemma ordered_perm terms : Permutation (ordered terms) (combine (seq 0 (length terms)) terms).
Proof.
  unfold FormSpec.ordered. generalize (combine (seq 0 (length terms)) terms). intros l. cbn [flat_map]. rewrite app_nil_r.
  induction l as [|[i t] l IH]; [constructor|].
  assert (HK : kind K t < 4) by (destruct t; simpl; lia).
  cbn [filter snd]. destruct (kind K t) as [|[|[|[|]]]]; simpl; try lia.
  - constructor. exact IH.
  - apply Permutation_sym. apply Permutation_cons_app. apply Permutation_sym. exact IH.
  - apply Permutation_sym. rewrite app_assoc. apply Permutation_cons_app. apply Permutation_sym. rewrite <- app_assoc. exact IH.
  - apply Permutation_sym. rewrite !app_assoc. apply Permutation_cons_app. apply Permutation_sym. rewrite <- !app_assoc. exact IH.
Qed.

(** *** The loops *)
Definition wanted (use_only : option (list nat)) (ti : nat) : bool :=
  match use_only with None => true | Some l => existsb (Nat.eqb ti) l end.

Lemma constant_after_spans e h (t : term K) : constant_after e h t = h || spans_constant K e t.
Proof. destruct t; simpl; rewrite ?orb_false_r; reflexivity. Qed.

Lemma loop_ok e (d : frame K) lens pool terms use_only : forall order h ts ci cols,
  Forall (fun p => nth_error terms (fst p) = Some (snd p)) order ->
  all_ok e d lens h order -> rep (n_y d) ts 0 cols -> ci = length cols ->
  exists us, build_loop e d lens pool terms use_only (map fst order) h (ts, ci)
             = Some (us, length (cols ++ concat (design e d lens (wanted use_only) h order))) /\
             rep (n_y d) us 0 (cols ++ concat (design e d lens (wanted use_only) h order)).
Proof.
  induction order as [|[ti t] order IH]; intros h ts ci cols Hn Hok R Hci; simpl.
  - exists ts. rewrite app_nil_r. subst. auto.
  - inversion Hn as [|? ? Hnt Hn']; subst. simpl in Hnt, Hok. destruct Hok as [Ht Hok].
    rewrite Hnt. set (used := match use_only with None => true | Some l => mem ti l end).
    assert (EU : wanted use_only ti = used) by reflexivity. rewrite EU.
    destruct (term_matrix e d lens pool h t (length cols) Ht) as (us & E1 & E2 & R2).
    set (X := if used then term_cols e d lens h t else map (fun _ => zero) (term_cols e d lens h t)).
    assert (G : exists vs, term_build e d lens pool h t (length cols) used = Some (vs, length X) /\
                           rep (n_y d) vs (0 + length cols) X).
    { unfold X. destruct used.
      - exists us. split; [exact E1|exact R2].
      - exists []. rewrite map_length. split; [exact E2|apply rep_zeros]. }
    destruct G as (vs & E & RX). rewrite E, constant_after_spans, app_assoc.
    apply IH; [exact Hn'|exact Hok| |rewrite app_length; reflexivity].
    eapply rep_app; [exact Kring|exact R|exact RX].
Qed.

Lemma info_ok e (d : frame K) lens terms use : forall order h acc,
  Forall (fun p => nth_error terms (fst p) = Some (snd p)) order -> all_ok e d lens h order ->
  let out := info_loop e terms (map fst order) h acc in
  in_n out = in_n acc + length (concat (design e d lens use h order)) /\
  (Forall (fun p => names_counted e (snd p)) order ->
   length (in_names out) = length (in_names acc) + length (concat (design e d lens use h order))) /\
  exists new, in_terms out = in_terms acc ++ new /\ map fst new = map fst order /\
    tiles (in_n acc) (map snd new) (map (@length _) (design e d lens use h order)).
Proof.
  induction order as [|[ti t] order IH]; intros h acc Hn Hok; simpl.
  - split; [lia|]. split; [lia|]. exists []. rewrite app_nil_r. repeat split.
  - inversion Hn as [|? ? Hnt Hn']; subst. simpl in Hnt, Hok. destruct Hok as [Ht Hok].
    rewrite Hnt.
    pose proof (term_count e d lens (has_intercept terms) h t Ht) as TC.
    pose proof (term_names e d lens (has_intercept terms) h t Ht) as TN.
    destruct (term_info e (has_intercept terms) h t) as [[n u] names]. simpl in TC, TN.
    rewrite constant_after_spans.
    set (X := if use ti then term_cols e d lens h t else map (fun _ => zero) (term_cols e d lens h t)).
    assert (LX : length X = n) by (unfold X; destruct (use ti); rewrite ?map_length; congruence).
    destruct (IH (h || spans_constant K e t) (Info (in_n acc + n) (in_unpen acc + u) (in_names acc ++ names)
                 (in_terms acc ++ [(ti, (in_n acc, n))])) Hn' Hok) as (H1 & H2 & new & H3 & H4 & H5).
    simpl in H1, H2, H3, H5. rewrite app_length, LX. split; [rewrite H1; lia|]. split.
    + intros HF. inversion HF as [|? ? HF1 HF2]; subst. rewrite H2 by exact HF2.
      rewrite app_length. simpl in HF1. rewrite (TN HF1). lia.
    + exists ((ti, (in_n acc, n)) :: new). rewrite H3, <- app_assoc. simpl.
      split; [reflexivity|]. split; [rewrite H4; reflexivity|]. split; [reflexivity|]. split; [lia|].
      exact H5.
Qed.
End Proofs.
