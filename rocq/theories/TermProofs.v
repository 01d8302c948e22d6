(** Proofs about terms (C168-C170). *)
From Coq Require Import List Arith Bool String Lia.
From Verif Require Import TermModel TermSpec.
Import ListNotations.
Local Open Scope nat_scope.

Section Objects.
Variables D S C T : Type.
Variable has_column : D -> string -> bool.
Variable constraint : D -> S -> C.
Variable transform : D -> S -> T.
Variable nested : D -> list S -> nat -> option (list nat).
Notation term := (term S C T).
Notation heap := (heap S C T).
Notation visit := (visit D S C T has_column).
Notation visit_all := (visit_all D S C T has_column).
Notation absorb := (absorb D S C T constraint transform).
Notation fix_one := (fix_one S C T).
Notation fix_nested := (fix_nested D S C T nested).
Notation formula := (formula D S C T has_column constraint transform nested).

Lemma put_same (h : heap) a t : put h a t a = t.
Proof. unfold put. rewrite Nat.eqb_refl. reflexivity. Qed.
Lemma put_other (h : heap) a t b : a <> b -> put h a t b = h b.
Proof. intros N. unfold put. apply Nat.eqb_neq in N. rewrite N. reflexivity. Qed.

Definition agree (l : list nat) (h k : heap) := forall a, In a l -> h a = k a.

(** visit_all *)
Lemma visit_all_other d l : forall h h', visit_all d h l = Ok h' -> forall b, ~ In b l -> h' b = h b.
Proof.
  induction l as [|a l IH]; intros h h' E b N; cbn in E; [congruence|].
  destruct (visit d (h a)) as [t| | | |]; try discriminate.
  rewrite (IH _ _ E b) by (intros I; apply N; right; exact I). apply put_other. intros ->. apply N. left. reflexivity.
Qed.
Lemma visit_all_agree d m l : forall h k h', agree m h k -> incl l m -> visit_all d h l = Ok h' ->
  exists k', visit_all d k l = Ok k' /\ agree m h' k'.
Proof.
  induction l as [|a l IH]; intros h k h' A I E; cbn in E |- *.
  - exists k. split; [reflexivity|]. replace h' with h by congruence. exact A.
  - rewrite <- (A a) by (apply I; left; reflexivity).
    destruct (visit d (h a)) as [t| | | |]; try discriminate.
    apply (IH (put h a t)); [|intros x X; apply I; right; exact X|exact E].
    intros b B. unfold put. destruct (a =? b); [reflexivity|apply A; exact B].
Qed.

Lemma absorb_fold_other d l : forall h b, ~ In b l -> fold_left (fun k a => put k a (absorb d (k a))) l h b = h b.
Proof.
  induction l as [|a l IH]; intros h b N; cbn; [reflexivity|].
  rewrite IH by (intros X; apply N; right; exact X). apply put_other. intros ->. apply N. left. reflexivity.
Qed.
Lemma absorb_fold_agree d m l : forall h k, agree m h k -> incl l m ->
  agree m (fold_left (fun k a => put k a (absorb d (k a))) l h) (fold_left (fun k a => put k a (absorb d (k a))) l k).
Proof.
  induction l as [|a l IH]; intros h k A I; cbn; [exact A|]. apply IH; [|intros x X; apply I; right; exact X].
  intros b B. unfold put. destruct (a =? b); [|apply A; exact B].
  rewrite (A a) by (apply I; left; reflexivity). reflexivity.
Qed.

Lemma fix_other d ss l : forall i h b, ~ In b l -> fix_nested d ss i h l b = h b.
Proof.
  induction l as [|a l IH]; intros i h b N; cbn; [reflexivity|].
  rewrite IH by (intros X; apply N; right; exact X). apply put_other. intros ->. apply N. left. reflexivity.
Qed.
Lemma fix_agree d ss m l : forall i h k, agree m h k -> incl l m -> agree m (fix_nested d ss i h l) (fix_nested d ss i k l).
Proof.
  induction l as [|a l IH]; intros i h k A I; cbn; [exact A|]. apply IH; [|intros x X; apply I; right; exact X].
  intros b B. unfold put. destruct (a =? b); [|apply A; exact B].
  rewrite (A a) by (apply I; left; reflexivity). reflexivity.
Qed.

Lemma formula_other d h l h' : formula d h l = Ok h' -> forall b, ~ In b l -> h' b = h b.
Proof.
  unfold formula, TermModel.formula. destruct (visit_all d h l) as [h1| | | |] eqn:V; try discriminate.
  intros E b N. injection E as <-. rewrite fix_other, absorb_fold_other by exact N. apply (visit_all_other d l h h1 V b N).
Qed.
Lemma formula_agree d h k l h' : agree l h k -> formula d h l = Ok h' ->
  exists k', formula d k l = Ok k' /\ agree l h' k'.
Proof.
  unfold formula, TermModel.formula. intros A.
  destruct (visit_all d h l) as [h1| | | |] eqn:V; try discriminate.
  destruct (visit_all_agree d l l h k h1 A (incl_refl l) V) as (k1 & -> & A1).
  intros E. injection E as <-.
  pose proof (absorb_fold_agree d l l h1 k1 A1 (incl_refl l)) as A2.
  eexists. split; [reflexivity|].
  rewrite (map_ext_in _ (fun a => s_of (fold_left (fun k a => put k a (absorb d (k a))) l k1 a)))
    by (intros a I; rewrite (A2 a I); reflexivity).
  apply fix_agree; [exact A2|apply incl_refl].
Qed.

(** Building again *)
Lemma visit_all_id d l : forall h, (forall a, In a l -> visit d (h a) = Ok (h a)) ->
  exists h', visit_all d h l = Ok h' /\ forall b, h' b = h b.
Proof.
  induction l as [|a l IH]; intros h H; cbn; [exists h; auto|].
  rewrite (H a) by (left; reflexivity).
  assert (Q : forall b, put h a (h a) b = h b) by (intros b; unfold put; destruct (a =? b) eqn:E; [apply Nat.eqb_eq in E; congruence|reflexivity]).
  destruct (IH (put h a (h a))) as (h' & E & X).
  { intros b B. rewrite Q. apply H. right. exact B. }
  exists h'. split; [exact E|]. intros b. rewrite X. apply Q.
Qed.
Lemma visit_none d t t' : s_sub t = None -> visit d t = Ok t' -> t' = t.
Proof.
  unfold visit, TermModel.visit. intros N. rewrite N. destruct (s_by t); [destruct (has_column d s)|]; cbn; congruence.
Qed.
Lemma visit_all_none d l : forall h h', (forall a, In a l -> s_sub (h a) = None) -> visit_all d h l = Ok h' ->
  (forall b, h' b = h b) /\ forall a, In a l -> visit d (h a) = Ok (h a).
Proof.
  induction l as [|a l IH]; intros h h' N E; cbn in E.
  - split; [congruence|contradiction].
  - destruct (visit d (h a)) as [t| | | |] eqn:V; try discriminate.
    pose proof (visit_none d _ _ (N a (or_introl eq_refl)) V) as ->.
    assert (Q : forall b, put h a (h a) b = h b) by (intros b; unfold put; destruct (a =? b) eqn:X; [apply Nat.eqb_eq in X; congruence|reflexivity]).
    destruct (IH _ _ (fun b B => eq_trans (f_equal s_sub (Q b)) (N b (or_intror B))) E) as (X & Y).
    split; [intros b; rewrite X; apply Q|].
    intros b [<-|B]; [exact V|]. rewrite <- (Q b). apply Y. exact B.
Qed.
Lemma absorb_fold_nodup d l : NoDup l -> forall h a, In a l ->
  fold_left (fun k a => put k a (absorb d (k a))) l h a = absorb d (h a).
Proof.
  induction l as [|b l IH]; intros N h a I; [contradiction|]. apply NoDup_cons_iff in N. destruct N as (N1 & N2). cbn.
  destruct I as [->|I].
  - rewrite absorb_fold_other by exact N1. apply put_same.
  - rewrite (IH N2 _ _ I). rewrite put_other; [reflexivity|]. intros ->. contradiction.
Qed.
Lemma fix_nodup d ss l : NoDup l -> forall i h j a, nth_error l j = Some a ->
  fix_nested d ss i h l a = fix_one (nested d ss (i + j)) (h a).
Proof.
  induction l as [|b l IH]; intros N i h j a I; [destruct j; discriminate|]. apply NoDup_cons_iff in N. destruct N as (N1 & N2). cbn.
  destruct j as [|j]; cbn in I.
  - injection I as ->. rewrite fix_other by exact N1. rewrite put_same, Nat.add_0_r. reflexivity.
  - rewrite (IH N2 (i + 1) _ j a I). rewrite put_other by (intros ->; apply N1; apply nth_error_In in I; exact I).
    replace (i + 1 + j) with (i + Datatypes.S j) by lia. reflexivity.
Qed.
Lemma formula_value d h l h' : NoDup l -> (forall a, In a l -> s_sub (h a) = None) -> formula d h l = Ok h' ->
  forall j a, nth_error l j = Some a -> h' a = fix_one (nested d (map (fun b => s_of (h b)) l) j) (absorb d (h a)).
Proof.
  unfold formula, TermModel.formula. intros N U E j a J.
  destruct (visit_all d h l) as [h1| | | |] eqn:V; try discriminate. injection E as <-.
  destruct (visit_all_none d l h h1 U V) as (X & _).
  rewrite (fix_nodup d _ l N 0 _ j a J). cbn [Nat.add].
  rewrite (absorb_fold_nodup d l N) by (apply nth_error_In in J; exact J). rewrite X.
  rewrite (map_ext_in _ (fun b => s_of (h b))); [reflexivity|].
  intros b B. rewrite (absorb_fold_nodup d l N _ _ B), X. reflexivity.
Qed.
Lemma fix_absorb_twice d o (t : term) : fix_one o (absorb d (fix_one o (absorb d t))) = fix_one o (absorb d t).
Proof. destruct o, t as [s b u i r z p q]; cbn; destruct i, r; reflexivity. Qed.
Lemma fix_absorb_static d o (t : term) : s_of (fix_one o (absorb d t)) = s_of t /\ s_sub (fix_one o (absorb d t)) = s_sub t /\
  s_by (fix_one o (absorb d t)) = s_by t.
Proof. destruct o; repeat split. Qed.

Lemma formula_again d h l h' : NoDup l -> (forall a, In a l -> s_sub (h a) = None) -> formula d h l = Ok h' ->
  exists h'', formula d h' l = Ok h'' /\ forall a, h'' a = h' a.
Proof.
  intros N U E. pose proof (formula_value d h l h' N U E) as F.
  assert (W : forall a, In a l -> s_of (h' a) = s_of (h a) /\ s_sub (h' a) = s_sub (h a) /\ s_by (h' a) = s_by (h a)).
  { intros a I. destruct (In_nth_error _ _ I) as (j & J). rewrite (F j a J). apply fix_absorb_static. }
  assert (V2 : forall a, In a l -> visit d (h' a) = Ok (h' a)).
  { intros a I. unfold formula, TermModel.formula in E. destruct (visit_all d h l) as [h1| | | |] eqn:V; try discriminate.
    destruct (visit_all_none d l h h1 U V) as (_ & X). specialize (X a I). destruct (W a I) as (_ & W2 & W3).
    unfold visit, TermModel.visit in X |- *. rewrite W3, W2, (U a I) in *.
    destruct (s_by (h a)); [destruct (has_column d s); [reflexivity|discriminate]|reflexivity]. }
  destruct (visit_all_id d l h' V2) as (h1 & V1 & Q).
  assert (E2 : exists h'', formula d h' l = Ok h'').
  { unfold formula, TermModel.formula. rewrite V1. eexists. reflexivity. }
  destruct E2 as (h'' & E2). exists h''. split; [exact E2|]. intros a.
  destruct (in_dec Nat.eq_dec a l) as [I|I]; [|exact (formula_other d h' l h'' E2 a I)].
  destruct (In_nth_error _ _ I) as (j & J).
  rewrite (formula_value d h' l h'' N (fun b B => eq_trans (proj1 (proj2 (W b B))) (U b B)) E2 j a J).
  rewrite (map_ext_in _ (fun b => s_of (h b))) by (intros b B; apply W; exact B).
  rewrite (F j a J). apply fix_absorb_twice.
Qed.
End Objects.

(** ** Ids *)

Lemma id_eqb_true a b : id_eqb a b = true <-> exists i, a = Some i /\ b = Some i.
Proof.
  destruct a as [x|], b as [y|]; cbn; split; try discriminate; try (intros (i & A & B); discriminate).
  - intros E. apply Nat.eqb_eq in E. subst. eauto.
  - intros (i & A & B). apply Nat.eqb_eq. congruence.
Qed.
Lemma used_in ps i p : In p (used ps i) <-> In p ps /\ l_id p = Some i.
Proof.
  unfold used. rewrite filter_In, id_eqb_true. split.
  - intros (I & j & A & B). split; [exact I|congruence].
  - intros (I & A). eauto.
Qed.
Lemma first_uses_in ps : forall seen i, In i (first_uses seen ps) <-> (exists p, In p ps /\ l_id p = Some i) /\ ~ In i seen.
Proof.
  induction ps as [|p ps IH]; intros seen i; cbn; [split; [contradiction|intros ((q & F & _) & _); exact F]|].
  destruct (l_id p) as [j|] eqn:E.
  - destruct (existsb (Nat.eqb j) seen) eqn:X.
    + rewrite IH. split.
      * intros ((q & I & A) & N). split; [exists q; auto|exact N].
      * intros ((q & [<-|I] & A) & N); [|split; [exists q; auto|exact N]].
        exfalso. apply N. apply existsb_exists in X. destruct X as (k & K & Q). apply Nat.eqb_eq in Q. congruence.
    + assert (NJ : ~ In j seen).
      { intros I. assert (existsb (Nat.eqb j) seen = true) by (apply existsb_exists; exists j; split; [exact I|apply Nat.eqb_refl]). congruence. }
      cbn. rewrite IH. split.
      * intros [<-|((q & I & A) & N)]; [split; [exists p; auto|exact NJ]|].
        split; [exists q; auto|]. intros I'. apply N. right. exact I'.
      * intros ((q & [<-|I] & A) & N); [left; congruence|].
        destruct (Nat.eq_dec j i) as [->|NE]; [left; reflexivity|right].
        split; [exists q; auto|]. intros [F|F]; [exact (NE F)|exact (N F)].
  - rewrite IH. split.
    + intros ((q & I & A) & N). split; [exists q; auto|exact N].
    + intros ((q & [<-|I] & A) & N); [congruence|]. split; [exists q; auto|exact N].
Qed.
Lemma two_members {A} (l : list A) p q : In p l -> In q l -> p <> q -> 1 < List.length l.
Proof.
  destruct l as [|a [|b l]]; cbn; [contradiction| |intros; lia]. intros [<-|[]] [<-|[]] N. congruence.
Qed.

Lemma together_ids ps p q : In p ps -> In q ps -> p <> q ->
  (together (combine ps) p q <-> exists i, l_id p = Some i /\ l_id q = Some i).
Proof.
  intros IP IQ N. unfold together, combine. split.
  - intros (g & G & GP & GQ).
    destruct (existsb _ (first_uses [] ps)).
    + apply in_app_or in G. destruct G as [G|G]; apply in_map_iff in G.
      * destruct G as (x & <- & _). destruct GP as [<-|[]], GQ as [<-|[]]. congruence.
      * destruct G as (i & <- & _). apply used_in in GP. apply used_in in GQ. exists i. tauto.
    + apply in_map_iff in G. destruct G as (x & <- & _). destruct GP as [<-|[]], GQ as [<-|[]]. congruence.
  - intros (i & A & B).
    assert (F : In i (first_uses [] ps)) by (apply first_uses_in; split; [exists p; auto|intros []]).
    assert (U : In p (used ps i) /\ In q (used ps i)) by (rewrite !used_in; auto).
    assert (X : existsb (fun i => 1 <? List.length (used ps i)) (first_uses [] ps) = true).
    { apply existsb_exists. exists i. split; [exact F|]. apply Nat.ltb_lt. apply (two_members _ p q); tauto. }
    rewrite X. exists (used ps i). split; [|exact U]. apply in_or_app. right. apply in_map. exact F.
Qed.

Lemma build_ids_in ti t k p : proper t -> k < i_pens t -> In p (build_ids ti t k) ->
  l_term p = ti /\
  (takes_part t -> l_id p = option_map (fun i => i + number p) (i_id t) /\ number p < count t) /\
  (~ takes_part t -> l_id p = None).
Proof.
  unfold build_ids, proper, takes_part, count, number. intros R K I.
  destruct (i_kind t).
  1,2: destruct (i_by t) as [n|] eqn:B;
    [destruct (i_id t) as [i|]; [destruct I as [<-|[]]|apply in_map_iff in I; destruct I as (v & <- & _)];
      (split; [reflexivity|split; [intros X; discriminate|reflexivity]])
    |destruct I as [<-|[]]; cbn; split; [reflexivity|split; [|intros X; congruence]];
      intros _; split; [destruct (i_id t); cbn; [f_equal; lia|reflexivity]|lia]].
  - destruct R as (B & R). assert (k = 0) as -> by lia. destruct I as [<-|[]]. cbn. split; [reflexivity|split; [|tauto]].
    intros _. split; [destruct (i_id t); cbn; [f_equal; lia|reflexivity]|lia].
  - assert (k = 0) as -> by lia. destruct (i_by t) as [n|].
    + apply in_map_iff in I. destruct I as (v & <- & V). apply in_seq in V. cbn. split; [reflexivity|split; [|tauto]].
      intros _. split; [reflexivity|lia].
    + destruct I as [<-|[]]. cbn. split; [reflexivity|split; [|tauto]].
      intros _. split; [destruct (i_id t); cbn; [f_equal; lia|reflexivity]|lia].
Qed.
Lemma all_ids_in l : forall ti p, (forall t, In t l -> proper t) -> In p (all_ids ti l) ->
  ti <= l_term p /\ exists t, nth_error l (l_term p - ti) = Some t /\
    (takes_part t -> l_id p = option_map (fun i => i + number p) (i_id t) /\ number p < count t) /\
    (~ takes_part t -> l_id p = None).
Proof.
  induction l as [|t l IH]; intros ti p R I; [contradiction|]. cbn in I. apply in_app_or in I. destruct I as [I|I].
  - apply in_flat_map in I. destruct I as (k & K & I). apply in_seq in K.
    destruct (build_ids_in ti t k p (R t (or_introl eq_refl)) ltac:(lia) I) as (A & X). rewrite A.
    split; [lia|]. exists t. rewrite Nat.sub_diag. split; [reflexivity|exact X].
  - destruct (IH (S ti) p (fun u U => R u (or_intror U)) I) as (G & u & U & X). split; [lia|].
    exists u. replace (l_term p - ti) with (S (l_term p - S ti)) by lia. split; [exact U|exact X].
Qed.
Lemma takes_part_dec t : takes_part t \/ ~ takes_part t.
Proof. unfold takes_part. destruct (i_kind t); try (left; exact I); destruct (i_by t); [right; discriminate|left; reflexivity|right; discriminate|left; reflexivity]. Qed.

Lemma ids_spaced l p q : (forall t, In t l -> proper t) -> spaced l -> In p (all_ids 0 l) -> In q (all_ids 0 l) ->
  ((exists i, l_id p = Some i /\ l_id q = Some i) <-> documented l p q).
Proof.
  intros R SP IP IQ.
  destruct (all_ids_in l 0 p R IP) as (_ & t & T1 & T2 & T3). destruct (all_ids_in l 0 q R IQ) as (_ & u & U1 & U2 & U3).
  rewrite Nat.sub_0_r in T1, U1. split.
  - intros (i & A & B).
    destruct (takes_part_dec t) as [PT|PT]; [|rewrite (T3 PT) in A; discriminate].
    destruct (takes_part_dec u) as [PU|PU]; [|rewrite (U3 PU) in B; discriminate].
    destruct (T2 PT) as (TA & TC), (U2 PU) as (UA & UC). rewrite TA in A. rewrite UA in B.
    destruct (i_id t) as [a|] eqn:IA; [|discriminate]. destruct (i_id u) as [b|] eqn:IB; [|discriminate].
    cbn in A, B. injection A as A. injection B as B.
    pose proof (SP t u a b (nth_error_In _ _ T1) (nth_error_In _ _ U1) PT PU IA IB) as S1.
    pose proof (SP u t b a (nth_error_In _ _ U1) (nth_error_In _ _ T1) PU PT IB IA) as S2.
    assert (a = b) as -> by (destruct (lt_eq_lt_dec a b) as [[L|E]|L]; [specialize (S1 L); lia|exact E|specialize (S2 L); lia]).
    exists t, u, b. repeat split; auto. lia.
  - intros (t' & u' & i & T1' & U1' & PT & PU & IA & IB & NN).
    assert (t' = t) as -> by congruence. assert (u' = u) as -> by congruence.
    destruct (T2 PT) as (TA & _), (U2 PU) as (UA & _). rewrite IA in TA. rewrite IB in UA. cbn in TA, UA.
    exists (i + number p). split; [exact TA|]. rewrite UA. f_equal. lia.
Qed.

(** ** Penalties *)
Section Smooth.
Variable P : Type.

Lemma nth_flat_repeat (n : nat) : forall (ps : list P) i v p, v < n -> nth_error ps i = Some p ->
  nth_error (flat_map (fun p => repeat p n) ps) (i * n + v) = Some p.
Proof.
  induction ps as [|x ps IH]; intros i v p V E; [destruct i; discriminate|]. destruct i as [|i]; cbn in E |- *.
  - injection E as ->. rewrite nth_error_app1 by (rewrite repeat_length; exact V).
    clear IH. revert v V. induction n as [|n IH]; intros v V; [lia|]. destruct v; cbn; [reflexivity|apply IH; lia].
  - rewrite nth_error_app2 by (rewrite repeat_length; lia). rewrite repeat_length.
    replace (n + i * n + v - n) with (i * n + v) by lia. apply IH; assumption.
Qed.
Lemma length_flat_repeat (n : nat) (ps : list P) : List.length (flat_map (fun p => repeat p n) ps) = List.length ps * n.
Proof. induction ps as [|x ps IH]; cbn; [reflexivity|]. rewrite app_length, repeat_length, IH. reflexivity. Qed.

Lemma build_from_app t (RP : list P) a b la lb : build_from t RP a = Ok la -> build_from t RP b = Ok lb ->
  build_from t RP (a ++ b) = Ok (la ++ lb).
Proof.
  revert la. induction a as [|i a IH]; intros la A B; cbn in A |- *; [injection A as <-; exact B|].
  destruct (build_one t RP i) as [x| | | |]; try discriminate.
  destruct (build_from t RP a) as [y| | | |]; try discriminate. injection A as <-. rewrite (IH y eq_refl B). reflexivity.
Qed.
Lemma build_from_map t (RP : list P) (f : nat -> built P) l : (forall i, In i l -> build_one t RP i = Ok (f i)) ->
  build_from t RP l = Ok (map f l).
Proof.
  induction l as [|i l IH]; intros H; cbn; [reflexivity|]. rewrite (H i) by (left; reflexivity).
  rewrite IH by (intros j J; apply H; right; exact J). reflexivity.
Qed.

(** All penalties of a list of [ps] for [n] variables. *)
Lemma build_product t (RP : list P) n (size : nat -> nat) (tr : P -> option P) : 1 <= n -> f_n t = n ->
  (forall v, v < n -> nk_at t v = Ok (size v)) ->
  forall ps, f_pens t = (if 1 <? n then flat_map (fun p => repeat p n) ps else ps) ->
  (forall i v p, nth_error ps i = Some p -> v < n -> build_one t RP (i * n + v) = Ok (mkB p v (size v) (tr p))) ->
  build_from t RP (seq 0 (List.length (f_pens t)))
    = Ok (flat_map (fun p => map (fun v => mkB p v (size v) (tr p)) (seq 0 n)) ps).
Proof.
  intros N FN SZ ps FP H.
  assert (L : List.length (f_pens t) = List.length ps * n).
  { rewrite FP. destruct (1 <? n) eqn:B; [apply length_flat_repeat|]. apply Nat.ltb_ge in B. assert (n = 1) as -> by lia. lia. }
  rewrite L. clear FP L.
  assert (G : forall k qs, (forall i p, nth_error qs i = Some p -> nth_error ps (k + i) = Some p) ->
     build_from t RP (seq (k * n) (List.length qs * n))
       = Ok (flat_map (fun p => map (fun v => mkB p v (size v) (tr p)) (seq 0 n)) qs)).
  { intros k qs. revert k. induction qs as [|p qs IH]; intros k Q; cbn [List.length Nat.mul flat_map].
    - reflexivity.
    - rewrite seq_app. apply build_from_app.
      + replace (map (fun v => mkB p v (size v) (tr p)) (seq 0 n))
          with (map (fun j => mkB p (j - k * n) (size (j - k * n)) (tr p)) (seq (k * n) n)).
        * apply build_from_map. intros j J. apply in_seq in J.
          replace (build_one t RP j) with (build_one t RP (k * n + (j - k * n))) by (f_equal; lia).
          apply H; [|lia]. specialize (Q 0 p eq_refl). rewrite Nat.add_0_r in Q. exact Q.
        * generalize (k * n). intros s. clear. 
          assert (X : forall a, map (fun v => s + v) (seq a n) = seq (s + a) n).
          { induction n as [|n IH]; intros a; cbn; [reflexivity|]. rewrite IH. replace (s + S a) with (S (s + a)) by lia. reflexivity. }
          specialize (X 0). rewrite Nat.add_0_r in X. rewrite <- X, map_map. apply map_ext.
          intros v. replace (s + v - s) with v by lia. reflexivity.
      + replace (k * n + n) with (S k * n) by lia. apply IH. intros i q E. replace (S k + i) with (k + S i) by lia.
        apply Q. exact E. }
  apply (G 0 ps). intros i p E. exact E.
Qed.
End Smooth.

Lemma nth_error_repeat' {A} (x : A) n v : v < n -> nth_error (repeat x n) v = Some x.
Proof. revert v. induction n as [|n IH]; intros v V; [lia|]. destruct v; cbn; [reflexivity|apply IH; lia]. Qed.

Lemma product_pairs {P} (size : nat -> nat) (tr : P -> option P) n (ps : list P) :
  map (fun b => (b_pen P b, b_var P b)) (flat_map (fun p => map (fun v => mkB p v (size v) (tr p)) (seq 0 n)) ps)
  = list_prod ps (seq 0 n).
Proof. induction ps as [|p ps IH]; cbn; [reflexivity|]. rewrite map_app, IH, map_map. reflexivity. Qed.

Lemma build_all_each {P} (dflt : P) n binary by_ nk te rp ident ps t : 1 <= n ->
  nk_fits n (binary && ident && negb te) nk -> rp_fits n rp -> no_transform n rp \/ List.length ps = 1 ->
  f_init dflt n binary by_ nk te rp ident KwDict (Some ps) = Ok t ->
  exists tr : P -> option P,
    build_all t = Ok (flat_map (fun p => map (fun v => mkB p v (asked n nk te (binary && ident && negb te) v) (tr p)) (seq 0 n)) ps)
    /\ (forall p, tr p = None <-> no_transform n rp) /\ (forall p, tr p = None \/ tr p = Some p).
Proof.
  intros N K R G. unfold f_init. destruct (binary && by_); [discriminate|].
  destruct (te && (n =? 1)) eqn:TE; [discriminate|].
  set (r := match rp with Some r => r | None => if n =? 1 then 0 else 2 end).
  destruct (negb (r =? 0) && (n <? List.length ps)) eqn:LE; [discriminate|].
  set (x := binary && ident && negb te) in *.
  set (nk1 := match nk with Some k => k | None => NkInt (if n =? 1 then 9 else if te then 5 else 4) end).
  assert (NK : exists nk2, (if x then match nk1 with NkInt k => Ok (NkInt (k + 1)) | NkList _ => TypeError end else Ok nk1) = Ok nk2 /\
     forall v, v < n -> match (match nk2 with NkInt k => if n =? 1 then NkInt k else NkList (repeat k n) | NkList l => NkList l end) with
       | NkInt k => Ok k
       | NkList l => if 1 <? n then match nth_error l v with Some k => Ok k | None => IndexError end else TypeError
       end = Ok (asked n nk te x v)).
  { assert (INT : forall k v, v < n -> match (if n =? 1 then NkInt k else NkList (repeat k n)) with
       | NkInt k => Ok k
       | NkList l => if 1 <? n then match nth_error l v with Some k => Ok k | None => IndexError end else TypeError
       end = Ok k).
    { intros k v V. destruct (n =? 1) eqn:E; [reflexivity|]. apply Nat.eqb_neq in E.
      replace (1 <? n) with true by (symmetry; apply Nat.ltb_lt; lia). rewrite nth_error_repeat' by exact V. reflexivity. }
    unfold nk1, asked in *. destruct nk as [[k|l]|].
    - destruct x; eexists; (split; [reflexivity|]); intros v V; (etransitivity; [exact (INT _ v V)|f_equal; lia]).
    - cbn in K. destruct K as (K1 & K2 & ->). eexists. split; [reflexivity|]. intros v V. cbv beta iota zeta.
      replace (1 <? n) with true by (symmetry; apply Nat.ltb_lt; lia).
      rewrite (nth_error_nth' l 0) by lia. reflexivity.
    - destruct x; eexists; (split; [reflexivity|]); intros v V; (etransitivity; [exact (INT _ v V)|f_equal; lia]). }
  destruct NK as (nk2 & -> & NK).
  intros E. injection E as E. subst t.
  set (t := mkF n _ _ _ _ _ _ _).
  assert (FP : f_pens t = if 1 <? n then flat_map (fun p => repeat p n) ps else ps) by reflexivity.
  assert (NA : forall v, v < n -> nk_at t v = Ok (asked n nk te x v)) by (intros v V; exact (NK v V)).
  assert (PEN : forall i v p, nth_error ps i = Some p -> v < n -> nth_error (f_pens t) (i * n + v) = Some p /\
     (if 1 <? n then (i * n + v) mod n else 0) = v).
  { intros i v p I V. rewrite FP. destruct (1 <? n) eqn:B.
    - split; [apply nth_flat_repeat; assumption|].
      rewrite Nat.add_comm, Nat.mod_add by lia. apply Nat.mod_small. exact V.
    - apply Nat.ltb_ge in B. assert (n = 1) as -> by lia. split; [|lia].
      replace (i * 1 + v) with i by lia. exact I. }
  destruct (Nat.eq_dec r 0) as [R0|R0].
  - exists (fun _ => None). split; [|split; [|auto]].
    + unfold build_all, absorb_all. change (f_kw t) with KwDict. change (f_should_rp t) with r. rewrite R0.
      assert (Q : (if negb (f_ident t) && (0 =? 0) then Ok [] else Ok []) = @Ok (list P) []) by (destruct (negb (f_ident t) && (0 =? 0)); reflexivity).
      rewrite Q. apply build_product; auto.
      intros i v p I V. destruct (PEN i v p I V) as (P1 & P2). unfold build_one. rewrite P1.
      change (f_n t) with n. rewrite P2, NA by exact V. change (f_should_rp t) with r. rewrite R0. reflexivity.
    + intros p. split; [|reflexivity]. intros _. unfold r in R0. destruct rp as [q|]; [left; congruence|].
      right. split; [reflexivity|]. destruct (n =? 1) eqn:B; [apply Nat.eqb_eq in B; exact B|discriminate].
  - assert (NT : ~ no_transform n rp).
    { unfold no_transform, r in *. intros [->|(-> & ->)]; cbn in R0; congruence. }
    destruct G as [G|G]; [contradiction|].
    exists Some. split; [|split; [intros p; split; [discriminate|contradiction]|auto]].
    destruct ps as [|p [|? ?]]; try discriminate. clear G.
    assert (RC : (r = 1 /\ n = 1) \/ (r = 2 /\ 2 <= n)).
    { unfold r, rp_fits in *. destruct rp as [[|[|[|q]]]|]; try lia.
      destruct (n =? 1) eqn:B; [lia|apply Nat.eqb_neq in B; lia]. }
    unfold build_all, absorb_all. change (f_kw t) with KwDict. change (f_should_rp t) with r.
    replace (negb (f_ident t) && (r =? 0)) with false by (replace (r =? 0) with false by (symmetry; apply Nat.eqb_neq; exact R0); rewrite andb_false_r; reflexivity).
    destruct RC as [(-> & N1)|(-> & N2)].
    + change (f_n t) with n. replace (1 <? n) with false by (rewrite N1; reflexivity).
      replace (firstn n (f_pens t)) with [p] by (rewrite FP, N1; reflexivity).
      apply build_product; auto.
      intros i v q I V. destruct (PEN i v q I V) as (P1 & P2). unfold build_one. rewrite P1.
      change (f_n t) with n. rewrite P2, NA by exact V. change (f_should_rp t) with 1. cbn.
      destruct i as [|[|i]]; cbn in I; [|discriminate|discriminate]. injection I as ->. reflexivity.
    + change (f_n t) with n. replace (n <? 2) with false by (symmetry; apply Nat.ltb_ge; exact N2).
      replace (firstn n (f_pens t)) with (repeat p n).
      2:{ rewrite FP. replace (1 <? n) with true by (symmetry; apply Nat.ltb_lt; lia). cbn. rewrite app_nil_r.
          symmetry. rewrite <- (repeat_length p n) at 1. apply firstn_all. }
      apply build_product; auto.
      intros i v q I V. destruct (PEN i v q I V) as (P1 & P2). unfold build_one. rewrite P1.
      change (f_n t) with n. rewrite P2, NA by exact V. change (f_should_rp t) with 2. cbn.
      destruct i as [|[|i]]; cbn in I; [|discriminate|discriminate]. injection I as ->.
      rewrite nth_error_repeat' by lia. reflexivity.
Qed.

(** With transformations and several penalties the second one has none. *)
Lemma build_from_index {P} t (RP : list P) a i b : (forall j, In j a -> exists x, build_one t RP j = Ok x) ->
  build_one t RP i = IndexError -> build_from t RP (a ++ i :: b) = IndexError.
Proof.
  induction a as [|j a IH]; intros H E; cbn; [rewrite E; reflexivity|].
  destruct (H j (or_introl eq_refl)) as (x & ->). rewrite IH; [reflexivity| |exact E]. intros k K. apply H. right. exact K.
Qed.

Lemma build_index {P} (dflt : P) n binary by_ te ident ps t : 2 <= n -> 2 <= List.length ps ->
  f_init dflt n binary by_ None te None ident KwDict (Some ps) = Ok t -> build_all t = IndexError.
Proof.
  intros N L. unfold f_init. destruct (binary && by_); [discriminate|].
  destruct (te && (n =? 1)); [discriminate|].
  replace (n =? 1) with false by (symmetry; apply Nat.eqb_neq; lia).
  destruct (negb (2 =? 0) && (n <? List.length ps)); [discriminate|].
  assert (K : exists k, (if binary && ident && negb te then Ok (NkInt ((if te then 5 else 4) + 1)) else Ok (NkInt (if te then 5 else 4)))
    = Ok (NkInt k)) by (destruct (binary && ident && negb te); eexists; reflexivity).
  destruct K as (k & ->). intros E. injection E as E. subst t.
  set (t := mkF n _ _ _ _ _ _ _).
  destruct ps as [|p [|q ps]]; cbn in L; try lia.
  assert (FP : f_pens t = repeat p n ++ repeat q n ++ flat_map (fun p => repeat p n) ps).
  { change (f_pens t) with (if 1 <? n then flat_map (fun p => repeat p n) (p :: q :: ps) else p :: q :: ps).
    replace (1 <? n) with true by (symmetry; apply Nat.ltb_lt; lia). reflexivity. }
  unfold build_all, absorb_all. change (f_kw t) with KwDict. change (f_should_rp t) with 2. change (f_n t) with n.
  rewrite andb_false_r. replace (n <? 2) with false by (symmetry; apply Nat.ltb_ge; exact N).
  replace (firstn n (f_pens t)) with (repeat p n).
  2:{ rewrite FP. rewrite firstn_app, repeat_length, Nat.sub_diag, app_nil_r.
      symmetry. rewrite <- (repeat_length p n) at 1. apply firstn_all. }
  assert (LEN : exists m, List.length (f_pens t) = n + S m).
  { exists (n - 1 + List.length (flat_map (fun p => repeat p n) ps)). rewrite FP, !app_length, !repeat_length. lia. }
  destruct LEN as (m & ->). rewrite seq_app. cbn [seq Nat.add].
  assert (NKT : forall v, v < n -> nk_at t v = Ok k).
  { intros v V. unfold nk_at. change (f_nk t) with (NkList (repeat k n)). change (f_n t) with n.
    replace (1 <? n) with true by (symmetry; apply Nat.ltb_lt; lia). rewrite nth_error_repeat' by exact V. reflexivity. }
  apply build_from_index.
  - intros j J. apply in_seq in J. unfold build_one. change (f_n t) with n. change (f_should_rp t) with 2.
    rewrite FP, nth_error_app1 by (rewrite repeat_length; lia). rewrite nth_error_repeat' by lia.
    replace (1 <? n) with true by (symmetry; apply Nat.ltb_lt; lia).
    rewrite NKT by (apply Nat.mod_upper_bound; lia). eexists. reflexivity.
  - unfold build_one. change (f_n t) with n. change (f_should_rp t) with 2.
    rewrite FP, nth_error_app2 by (rewrite repeat_length; lia). rewrite repeat_length, Nat.sub_diag.
    rewrite nth_error_app1 by (rewrite repeat_length; lia). rewrite nth_error_repeat' by lia.
    replace (1 <? n) with true by (symmetry; apply Nat.ltb_lt; lia).
    rewrite NKT by (apply Nat.mod_upper_bound; lia).
    replace (nth_error (repeat p n) n) with (@None P); [reflexivity|].
    symmetry. apply nth_error_None. rewrite repeat_length. lia.
Qed.
