(** Lemmas for FormProps: triplets, linear and random terms. *)

From Coq Require Import List Bool Arith Lia Ring.
From Verif Require Import FormModel FormSpec.
Import ListNotations.

Lemma Forall2_length (A B : Type) (R : A -> B -> Prop) l m : Forall2 R l m -> length l = length m.
Proof. induction 1; simpl; congruence. Qed.

Section Proofs.
Variable K : Type.
Variables (k0 k1 : K) (kadd kmul ksub : K -> K -> K) (kopp : K -> K).
Hypothesis Kring : ring_theory k0 k1 kadd kmul ksub kopp eq.
Add Ring Kring : Kring.
Variable big : K -> bool.

Notation column := (column K).
Notation entry := (entry K k0 kadd).
Notation zero := (zero K k0).
Notation triplets := (triplets K).
Notation kron := (kron K kmul).
Notation on_level := (on_level K k0).
Notation one := (one K k1).
Notation times := (times K kmul).
Notation emit_masked := (emit_masked K).
Notation inter_step := (inter_step K k1 kmul).
Notation var_cols := (var_cols K k0 k1).
Notation linear_cols := (linear_cols K k0 k1 kmul).
Notation build_linear_term := (build_linear_term K k1 kmul).

(** *** Triplets *)
Lemma entry_app ts us r c : entry (ts ++ us) r c = kadd (entry ts r c) (entry us r c).
Proof.
  induction ts as [|[[x i] j] ts IH]; simpl.
  - ring.
  - destruct ((i =? r) && (j =? c)); rewrite IH; ring.
Qed.

Definition rep (n : nat) (ts : triplets) (ci : nat) (cols : list column) : Prop :=
  forall r c, entry ts r c =
    if (r <? n) && (ci <=? c) && (c <? ci + length cols) then nth (c - ci) cols zero r else k0.

Lemma rep_nil n ci : rep n [] ci [].
Proof.
  intros r c; simpl. destruct (r <? n); simpl; [|reflexivity].
  destruct (Nat.leb_spec ci c), (Nat.ltb_spec c (ci + 0)); simpl; try reflexivity; lia.
Qed.

Lemma rep_app n ts us ci A B :
  rep n ts ci A -> rep n us (ci + length A) B -> rep n (ts ++ us) ci (A ++ B).
Proof.
  intros HA HB r c. rewrite entry_app, HA, HB, app_length.
  destruct (r <? n); simpl; [|ring].
  destruct (Nat.leb_spec ci c); simpl.
  - destruct (Nat.ltb_spec c (ci + length A)).
    + rewrite app_nth1 by lia.
      destruct (Nat.leb_spec (ci + length A) c); [lia|]; simpl.
      destruct (Nat.ltb_spec c (ci + (length A + length B))); [|lia]. ring.
    + rewrite app_nth2 by lia.
      destruct (Nat.leb_spec (ci + length A) c); [|lia]; simpl.
      destruct (Nat.ltb_spec c (ci + length A + length B)), (Nat.ltb_spec c (ci + (length A + length B))); try lia.
      * replace (c - (ci + length A)) with (c - ci - length A) by lia. ring.
      * ring.
  - destruct (Nat.leb_spec (ci + length A) c); [lia|]; simpl. ring.
Qed.

Lemma rep_cons n ts us ci a B :
  rep n ts ci [a] -> rep n us (S ci) B -> rep n (ts ++ us) ci (a :: B).
Proof.
  intros H1 H2. apply (rep_app n ts us ci [a] B); [exact H1|].
  simpl. replace (ci + 1) with (S ci) by lia. exact H2.
Qed.

Lemma rep_ext n ts ci (A B : list column) :
  Forall2 (fun a b : column => forall r, r < n -> a r = b r) A B -> rep n ts ci A -> rep n ts ci B.
Proof.
  intros E H r c. rewrite H. pose proof (Forall2_length _ _ _ _ _ E) as EL. rewrite <- EL.
  destruct (Nat.ltb_spec r n) as [Hr|]; simpl; [|reflexivity].
  destruct (Nat.leb_spec ci c); simpl; [|reflexivity].
  destruct (Nat.ltb_spec c (ci + length A)); [|reflexivity].
  assert (Hc : c - ci < length A) by lia.
  revert Hc. generalize (c - ci). clear - E Hr.
  induction E as [|a b A B Eab E IH]; intros [|k] Hk; simpl in *; try lia.
  - apply Eab; assumption.
  - apply IH; lia.
Qed.

Lemma rep_zeros n ci (A : list column) : rep n [] ci (map (fun _ => zero) A).
Proof.
  intros r c. simpl. destruct (_ && _ && _); [|reflexivity].
  destruct (nth_in_or_default (c - ci) (map (fun _ => zero) A) zero) as [Hin|E].
  - apply in_map_iff in Hin. destruct Hin as (x & E & _). rewrite <- E. reflexivity.
  - rewrite E. reflexivity.
Qed.

Lemma entry_column f rows ci r c : NoDup rows ->
  entry (column_triplets f rows ci) r c = if existsb (Nat.eqb r) rows && (c =? ci) then f r else k0.
Proof.
  unfold column_triplets.
  induction rows as [|i rows IH]; intros ND; simpl; [reflexivity|].
  inversion ND as [|? ? Hni ND']; subst.
  rewrite IH by assumption. rewrite (Nat.eqb_sym r i), (Nat.eqb_sym c ci).
  destruct (Nat.eqb_spec i r); simpl.
  - subst i. assert (E : existsb (Nat.eqb r) rows = false).
    { apply not_true_is_false. intros H. apply existsb_exists in H. destruct H as (x & Hx & E).
      apply Nat.eqb_eq in E. subst. contradiction. }
    rewrite E. simpl. destruct (ci =? c); simpl; ring.
  - reflexivity.
Qed.

Lemma existsb_filter_seq m n r : existsb (Nat.eqb r) (filter m (seq 0 n)) = (r <? n) && m r.
Proof.
  apply eq_iff_eq_true. rewrite existsb_exists, andb_true_iff, Nat.ltb_lt. split.
  - intros (x & Hx & E). apply Nat.eqb_eq in E. subst x. apply filter_In in Hx.
    destruct Hx as [Hx Hm]. apply in_seq in Hx. split; [lia|assumption].
  - intros [H Hm]. exists r. rewrite Nat.eqb_refl, filter_In, in_seq. repeat split; auto; lia.
Qed.

Lemma NoDup_filter_seq m a n : NoDup (filter m (seq a n)).
Proof. apply NoDup_filter, seq_NoDup. Qed.

Lemma rep_column n f m ci :
  rep n (column_triplets f (filter m (seq 0 n)) ci) ci [fun r => if m r then f r else k0].
Proof.
  intros r c. rewrite entry_column by apply NoDup_filter_seq. rewrite existsb_filter_seq. simpl.
  destruct (r <? n); simpl; [|reflexivity].
  destruct (Nat.eqb_spec c ci).
  - subst c. rewrite Nat.leb_refl. destruct (Nat.ltb_spec ci (ci + 1)); [|lia].
    rewrite Nat.sub_diag. simpl. destruct (m r); reflexivity.
  - rewrite andb_false_r.
    destruct (Nat.leb_spec ci c), (Nat.ltb_spec c (ci + 1)); simpl; try reflexivity; lia.
Qed.

Lemma filter_all (A : Type) (l : list A) : filter (fun _ => true) l = l.
Proof. induction l as [|a l IH]; simpl; [reflexivity|rewrite IH; reflexivity]. Qed.

Lemma rep_full_column n f ci : rep n (column_triplets f (seq 0 n) ci) ci [f].
Proof. rewrite <- (filter_all _ (seq 0 n)). apply (rep_column n f (fun _ => true) ci). Qed.

Definition interp (p : (nat -> K) * (nat -> bool)) : column := fun r => if snd p r then fst p r else k0.

Lemma rep_emit d cols ci : rep (n_y d) (emit_masked d true cols ci) ci (map interp cols).
Proof.
  revert ci; induction cols as [|[f m] cols IH]; intros ci; simpl.
  - apply rep_nil.
  - apply rep_cons; [apply rep_column|apply IH].
Qed.
Lemma emit_unused d cols ci : emit_masked d false cols ci = [].
Proof. revert ci; induction cols as [|[f m] cols IH]; intros ci; simpl; auto. Qed.

(** *** Lists of columns *)
Definition eqcols : list column -> list column -> Prop := Forall2 (fun a b => forall r, a r = b r).
Lemma eqcols_refl A : eqcols A A.
Proof. induction A; constructor; auto. Qed.
Lemma eqcols_sym A B : eqcols A B -> eqcols B A.
Proof. induction 1; constructor; auto. Qed.
Lemma eqcols_trans A B C : eqcols A B -> eqcols B C -> eqcols A C.
Proof.
  intros H; revert C; induction H as [|a b A B E H IH]; intros C H2; inversion H2; subst; constructor.
  - intros r. rewrite E. auto.
  - apply IH; assumption.
Qed.
Lemma eqcols_app A A' B B' : eqcols A A' -> eqcols B B' -> eqcols (A ++ B) (A' ++ B').
Proof. apply Forall2_app. Qed.
Lemma eqcols_map (T : Type) (f g : T -> column) l : (forall x, In x l -> forall r, f x r = g x r) -> eqcols (map f l) (map g l).
Proof.
  induction l as [|x l IH]; intros H; constructor.
  - apply H; left; reflexivity.
  - apply IH. intros y Hy. apply H; right; assumption.
Qed.
Lemma eqcols_map2 (f g : column -> column) A B :
  (forall a b, (forall r, a r = b r) -> forall r, f a r = g b r) -> eqcols A B -> eqcols (map f A) (map g B).
Proof. intros H; induction 1; constructor; auto. Qed.
Lemma eqcols_flat_map (T : Type) (f g : T -> list column) l : (forall x, In x l -> eqcols (f x) (g x)) -> eqcols (flat_map f l) (flat_map g l).
Proof.
  induction l as [|x l IH]; intros H; simpl; [constructor|].
  apply eqcols_app; [apply H; left; reflexivity|]. apply IH. intros y Hy. apply H; right; assumption.
Qed.
Lemma kron_eqcols A A' B B' : eqcols A A' -> eqcols B B' -> eqcols (kron A B) (kron A' B').
Proof.
  intros HA HB. induction HA as [|a a' A A' Ea HA IH]; simpl; [constructor|].
  apply eqcols_app; [|exact IH].
  apply eqcols_map2; [|exact HB]. intros b b' E r. unfold FormSpec.times. rewrite Ea, E. reflexivity.
Qed.
Lemma rep_eqcols n ts ci A B : eqcols A B -> rep n ts ci A -> rep n ts ci B.
Proof.
  intros E. apply rep_ext. induction E; constructor; auto.
Qed.
Lemma eqcols_length A B : eqcols A B -> length A = length B.
Proof. intros H. exact (Forall2_length _ _ _ _ _ H). Qed.

Lemma eqcols_nonempty A B : eqcols A B -> B <> [] -> A <> [].
Proof. intros H; destruct H; congruence. Qed.

(** *** Linear terms *)
Lemma level_range_filter e h v :
  level_range e h v = filter (fun k => negb (h && (k =? 0))) (seq 0 (length (levels e v))).
Proof.
  unfold level_range. destruct h; simpl.
  - destruct (length (levels e v)) as [|n]; [reflexivity|].
    simpl. rewrite Nat.sub_0_r.
    assert (E : forall a m, 0 < a -> filter (fun k => negb (k =? 0)) (seq a m) = seq a m).
    { intros a m; revert a; induction m as [|m IH]; intros a Ha; simpl; [reflexivity|].
      destruct (Nat.eqb_spec a 0); [lia|]. simpl. rewrite IH by lia. reflexivity. }
    rewrite E by lia. reflexivity.
  - rewrite Nat.sub_0_r. symmetry. apply filter_all.
Qed.

Lemma interp_indicator (d : frame K) v k r :
  interp (fun _ => k1, is_level d v k) r = on_level d v k one r.
Proof.
  unfold interp, is_level, FormSpec.on_level, FormSpec.one; simpl.
  destruct (code d r v) as [j|]; reflexivity.
Qed.

Lemma interp_level (d : frame K) v k f m r :
  interp (f, fun r => m r && is_level d v k r) r = kmul (interp (f, m) r) (on_level d v k one r).
Proof.
  unfold interp, is_level, FormSpec.on_level, FormSpec.one; simpl.
  destruct (m r), (code d r v) as [j|]; simpl; try destruct (j =? k); ring.
Qed.

Lemma first_step e (d : frame K) h v :
  eqcols (map interp (inter_step e d h [] v)) (var_cols e d h v).
Proof.
  unfold FormModel.inter_step, FormSpec.var_cols. destruct (vt e v).
  - constructor; [intros r; reflexivity|constructor].
  - rewrite level_range_filter, map_map. apply eqcols_map. intros k _ r. apply interp_indicator.
Qed.

Lemma next_step e (d : frame K) h (inter : list ((nat -> K) * (nat -> bool))) v : inter <> [] ->
  eqcols (map interp (inter_step e d h inter v)) (kron (map interp inter) (var_cols e d h v)).
Proof.
  intros Hne. unfold FormModel.inter_step, FormSpec.var_cols. destruct (vt e v).
  - destruct inter as [|p0 inter0] eqn:EI; [congruence|]. cbv iota beta. rewrite <- EI. clear EI Hne.
    induction inter as [|p inter IH]; simpl; [constructor|].
    constructor; [|exact IH].
    intros r. unfold interp, FormSpec.times; simpl. destruct (snd p r); ring.
  - rewrite level_range_filter.
    destruct inter as [|p0 inter0] eqn:EI; [congruence|]. cbv iota beta. rewrite <- EI. clear EI Hne.
    induction inter as [|p inter IH]; simpl; [constructor|].
    rewrite map_app. apply eqcols_app; [|exact IH].
    rewrite !map_map. apply eqcols_map. intros k _ r.
    rewrite interp_level. unfold FormSpec.times. destruct p; reflexivity.
Qed.

Lemma var_cols_nonempty e (d : frame K) (h : bool) v :
  (vt e v = Factor -> (if h then 2 else 1) <= length (levels e v)) -> var_cols e d h v <> [].
Proof.
  intros H. unfold FormSpec.var_cols. destruct (vt e v) eqn:E; [discriminate|].
  specialize (H eq_refl). destruct h; simpl in *.
  - destruct (length (levels e v)) as [|[|n]]; try lia. simpl. discriminate.
  - destruct (length (levels e v)) as [|n]; try lia. simpl. discriminate.
Qed.
Lemma kron_nonempty (A B : list column) : A <> [] -> B <> [] -> kron A B <> [].
Proof. destruct A, B; try congruence. intros _ _. simpl. discriminate. Qed.

Lemma inter_fold e (d : frame K) h vars (inter : list ((nat -> K) * (nat -> bool))) : codable e h vars -> inter <> [] ->
  eqcols (map interp (fold_left (inter_step e d h) vars inter))
         (fold_left kron (map (var_cols e d h) vars) (map interp inter)).
Proof.
  revert inter; induction vars as [|v vars IH]; intros inter Hc Hne; simpl; [apply eqcols_refl|].
  inversion Hc as [|? ? Hv Hc']; subst.
  pose proof (next_step e d h inter v Hne) as E.
  assert (Hne' : inter_step e d h inter v <> []).
  { intros H0. rewrite H0 in E. apply (eqcols_nonempty _ _ E); [|reflexivity].
    apply kron_nonempty; [destruct inter; [congruence|discriminate]|apply var_cols_nonempty; exact Hv]. }
  eapply eqcols_trans; [apply IH; assumption|].
  assert (F : forall L A B, eqcols A B -> eqcols (fold_left kron L A) (fold_left kron L B)).
  { induction L as [|X L IHL]; intros A B HAB; simpl; [exact HAB|].
    apply IHL. apply kron_eqcols; [exact HAB|apply eqcols_refl]. }
  apply F. exact E.
Qed.

Lemma linear_matrix e (d : frame K) h vars ci : vars <> [] -> length vars = 1 \/ codable e h vars ->
  exists ts, build_linear_term e d vars h ci true = (ts, length (linear_cols e d h vars)) /\
             rep (n_y d) ts ci (linear_cols e d h vars).
Proof.
  intros Hne Hok. destruct vars as [|v [|w vars]]; [congruence| |].
  - unfold FormModel.build_linear_term, FormSpec.linear_cols, FormSpec.var_cols; simpl.
    destruct (vt e v).
    + eexists; split; [reflexivity|]. apply rep_full_column.
    + eexists; split.
      * f_equal. rewrite level_range_filter, !map_length. reflexivity.
      * eapply rep_eqcols; [|apply rep_emit].
        rewrite level_range_filter, map_map. apply eqcols_map. intros k _ r. apply interp_indicator.
  - destruct Hok as [Hl|Hc]; [simpl in Hl; lia|].
    unfold FormModel.build_linear_term, FormSpec.linear_cols.
    inversion Hc as [|? ? Hv Hc']; subst.
    pose proof (first_step e d h v) as E1.
    assert (Hne' : inter_step e d h [] v <> []).
    { intros H0. rewrite H0 in E1. apply (eqcols_nonempty _ _ E1); [|reflexivity].
      apply var_cols_nonempty; exact Hv. }
    pose proof (inter_fold e d h (w :: vars) _ Hc' Hne') as E2.
    assert (F : forall L A B, eqcols A B -> eqcols (fold_left kron L A) (fold_left kron L B)).
    { induction L as [|X L IHL]; intros A B HAB; simpl; [exact HAB|].
      apply IHL. apply kron_eqcols; [exact HAB|apply eqcols_refl]. }
    pose proof (eqcols_trans _ _ _ E2 (F (map (var_cols e d h) (w :: vars)) _ _ E1)) as E3.
    eexists; split.
    + rewrite <- (eqcols_length _ _ E3), map_length. reflexivity.
    + eapply rep_eqcols; [exact E3|]. apply rep_emit.
Qed.

Lemma linear_unused e (d : frame K) h vars ci :
  build_linear_term e d vars h ci false = ([], snd (build_linear_term e d vars h ci true)).
Proof.
  unfold FormModel.build_linear_term. destruct vars as [|v [|w vars]]; simpl.
  - reflexivity.
  - destruct (vt e v); simpl; [reflexivity|]. rewrite emit_unused. reflexivity.
  - rewrite emit_unused. reflexivity.
Qed.

(** *** Random terms *)
Lemma ri_matrix e (d : frame K) v ci :
  exists ts, ri_build K k1 e d v ci true = (ts, length (random_cols K k0 e d v [one])) /\
             rep (n_y d) ts ci (random_cols K k0 e d v [one]).
Proof.
  assert (E : random_cols K k0 e d v [one] = map (fun k => on_level d v k one) (seq 0 (length (levels e v)))).
  { unfold random_cols. induction (seq 0 _) as [|k l IH]; simpl; [reflexivity|]. f_equal. }
  rewrite E. eexists; split.
  - unfold ri_build. rewrite !map_length. reflexivity.
  - eapply rep_eqcols; [|apply rep_emit]. rewrite map_map. apply eqcols_map. intros k _ r. apply interp_indicator.
Qed.

Lemma entry_select (d : frame K) lin by_var fl old ci r c :
  entry (rs_select K d lin by_var fl old ci) r c =
  if is_level d by_var fl r && (c =? ci) then entry lin r old else k0.
Proof.
  unfold rs_select. induction lin as [|[[x i] j] lin IH]; simpl.
  - destruct (_ && _); reflexivity.
  - destruct (Nat.eqb_spec j old); simpl.
    + subst j. destruct (is_level d by_var fl i) eqn:Ei; simpl.
      * rewrite IH. rewrite (Nat.eqb_sym c ci).
        destruct (Nat.eqb_spec i r); simpl.
        -- subst i. rewrite Ei. simpl. destruct (ci =? c); reflexivity.
        -- reflexivity.
      * rewrite IH. destruct (Nat.eqb_spec i r); simpl; [|reflexivity].
        subst i. rewrite Ei. reflexivity.
    + rewrite andb_false_r. exact IH.
Qed.

Lemma rs_matrix_aux (d : frame K) lin v ci0 (X : list column) pairs ci :
  rep (n_y d) lin ci0 X -> Forall (fun p => snd p < length X) pairs ->
  rep (n_y d) (rs_emit K d true lin v ci0 pairs ci) ci
      (map (fun p => on_level d v (fst p) (nth (snd p) X zero)) pairs).
Proof.
  intros HX. revert ci. induction pairs as [|[fl q] pairs IH]; intros ci Hp; simpl; [apply rep_nil|].
  inversion Hp as [|? ? Hq Hp']; subst. simpl in Hq.
  apply rep_cons; [|apply IH; assumption].
  intros r c. rewrite entry_select, HX.
  destruct (Nat.leb_spec ci0 (ci0 + q)); [|lia].
  destruct (Nat.ltb_spec (ci0 + q) (ci0 + length X)); [|lia].
  replace (ci0 + q - ci0) with q by lia. rewrite !andb_true_r. simpl.
  destruct (Nat.eqb_spec c ci).
  - subst c. rewrite andb_true_r, Nat.leb_refl. destruct (Nat.ltb_spec ci (ci + 1)); [|lia].
    rewrite !andb_true_r, Nat.sub_diag. simpl. unfold is_level, FormSpec.on_level.
    destruct (r <? n_y d), (code d r v) as [j|]; try reflexivity; destruct (j =? fl); reflexivity.
  - rewrite andb_false_r.
    destruct (r <? n_y d), (Nat.leb_spec ci c), (Nat.ltb_spec c (ci + 1)); simpl; try reflexivity; lia.
Qed.

Lemma map_nth_seq (A B : Type) (f : A -> B) (d : A) (l : list A) :
  map (fun i => f (nth i l d)) (seq 0 (length l)) = map f l.
Proof.
  induction l as [|a l IH]; simpl; [reflexivity|]. f_equal.
  rewrite <- seq_shift, map_map. exact IH.
Qed.

Lemma rs_matrix e (d : frame K) vars b ci : vars <> [] -> length vars = 1 \/ codable e false vars ->
  exists ts, rs_build K k1 kmul e d vars b ci true =
             (ts, length (term_cols K k0 k1 kadd kmul ksub big e d [] false (TRs vars b))) /\
             rep (n_y d) ts ci (term_cols K k0 k1 kadd kmul ksub big e d [] false (TRs vars b)).
Proof.
  intros Hne Hok. destruct (linear_matrix e d false vars ci Hne Hok) as (lin & E & HX).
  unfold rs_build. rewrite E. simpl. destruct b as [v|].
  - set (X := linear_cols e d false vars) in *.
    set (pairs := flat_map _ _).
    assert (EP : map (fun p : nat * nat => on_level d v (fst p) (nth (snd p) X zero)) pairs = random_cols K k0 e d v X).
    { unfold pairs, random_cols. induction (seq 0 (length (levels e v))) as [|k l IH]; simpl; [reflexivity|].
      rewrite map_app, IH, map_map. simpl. f_equal. apply map_nth_seq. }
    exists (rs_emit K d true lin v ci pairs ci). split.
    + f_equal. rewrite <- EP, map_length. reflexivity.
    + rewrite <- EP. apply rs_matrix_aux; [exact HX|].
      apply Forall_forall. intros [k q] Hp. unfold pairs in Hp. apply in_flat_map in Hp.
      destruct Hp as (x & _ & Hp). apply in_map_iff in Hp. destruct Hp as (y & Ey & Hy).
      injection Ey as <- <-. apply in_seq in Hy. simpl. lia.
  - exists lin. split; [reflexivity|exact HX].
Qed.

Lemma rs_unused e (d : frame K) vars b ci :
  rs_build K k1 kmul e d vars b ci false = ([], snd (rs_build K k1 kmul e d vars b ci true)).
Proof.
  unfold rs_build. destruct (build_linear_term e d vars false ci true) as [lin n].
  destruct b as [v|]; [|reflexivity]. simpl. f_equal.
  generalize (flat_map (fun fl => map (fun coef_i => (fl, coef_i)) (seq 0 n)) (seq 0 (length (levels e v)))).
  intros l. generalize ci at 2. induction l as [|[fl q] l IH]; intros ci'; simpl; auto.
Qed.
End Proofs.
