(** Lemmas for predictions. *)

From Coq Require Import List Bool Arith Reals Lia Lra Permutation.
From Verif Require Import Ext AsmModel AsmSpec AsmProofs3 FormModel FormSpec FormProofs FormProofs4 FormProps PredModel PredSpec.
Import ListNotations.
Local Open Scope R_scope.

(** ** Sums *)

Lemma sum_to_ext n f g : (forall i, (i < n)%nat -> f i = g i) -> sum_to n f = sum_to n g.
Proof.
  unfold sum_to. intros H. f_equal. apply map_ext_in. intros i Hi. apply in_seq in Hi. apply H. lia.
Qed.
Lemma fr_plus {A} (f g : A -> R) l : fold_right Rplus 0 (map (fun i => f i + g i) l) = fold_right Rplus 0 (map f l) + fold_right Rplus 0 (map g l).
Proof. induction l as [|a l IH]; cbn; [lra|]. rewrite IH. lra. Qed.
Lemma fr_scal {A} (c : R) (f : A -> R) l : fold_right Rplus 0 (map (fun i => c * f i) l) = c * fold_right Rplus 0 (map f l).
Proof. induction l as [|a l IH]; cbn; [lra|]. rewrite IH. lra. Qed.
Lemma fr_zero {A} (l : list A) : fold_right Rplus 0 (map (fun _ => 0) l) = 0.
Proof. induction l as [|a l IH]; cbn; [lra|]. rewrite IH. lra. Qed.
Lemma sum_to_plus n f g : sum_to n (fun i => f i + g i) = sum_to n f + sum_to n g.
Proof. apply fr_plus. Qed.
Lemma sum_to_scal n c f : sum_to n (fun i => c * f i) = c * sum_to n f.
Proof. apply fr_scal. Qed.
Lemma sum_to_scal_r n c f : sum_to n (fun i => f i * c) = sum_to n f * c.
Proof. rewrite (Rmult_comm (sum_to n f)), <- sum_to_scal. apply sum_to_ext. intros; lra. Qed.
Lemma sum_to_zero n : sum_to n (fun _ => 0) = 0.
Proof. apply fr_zero. Qed.
Lemma sum_to_swap n m f : sum_to n (fun i => sum_to m (fun j => f i j)) = sum_to m (fun j => sum_to n (fun i => f i j)).
Proof.
  unfold sum_to. induction (seq 0 n) as [|a l IH]; cbn.
  - now rewrite fr_zero.
  - rewrite IH. symmetry. apply (fr_plus (fun j => f a j)).
Qed.
Lemma sum_to_split n k f : sum_to (n + k) f = sum_to n f + sum_to k (fun i => f (n + i)%nat).
Proof.
  unfold sum_to. rewrite seq_app, map_app, fold_right_app. cbn.
  assert (E : map f (seq n k) = map (fun i => f (n + i)%nat) (seq 0 k)).
  { rewrite <- (Nat.add_0_r n) at 1. generalize 0%nat as s. induction k as [|k IH]; intros s; [easy|]. cbn. f_equal. rewrite <- IH. now rewrite <- Nat.add_succ_r. }
  rewrite E. generalize (fold_right Rplus 0 (map (fun i => f (n + i)%nat) (seq 0 k))) as t. intros t.
  induction (map f (seq 0 n)) as [|a l IH]; cbn; [lra|]. rewrite IH. lra.
Qed.
Lemma nth_map_seq {A} (d : A) (f : nat -> A) n r : (r < n)%nat -> nth r (map f (seq 0 n)) d = f r.
Proof.
  intros H. rewrite (nth_indep _ d (f 0%nat)) by now rewrite map_length, seq_length. rewrite map_nth, seq_nth; [easy|easy].
Qed.
Lemma sum_over_ext {A} l (f g : A -> R) : (forall a, In a l -> f a = g a) -> sum_over l f = sum_over l g.
Proof. induction l as [|a l IH]; intros H; [easy|]. cbn. rewrite H by now left. rewrite IH; [easy|]. intros; apply H; now right. Qed.
Lemma sum_over_plus {A} l (f g : A -> R) : sum_over l (fun a => f a + g a) = sum_over l f + sum_over l g.
Proof. induction l as [|a l IH]; cbn; [lra|]. rewrite IH. lra. Qed.
Lemma sum_over_scal {A} l c (f : A -> R) : sum_over l (fun a => f a * c) = sum_over l f * c.
Proof. induction l as [|a l IH]; cbn; [lra|]. rewrite IH. lra. Qed.
Lemma sum_over_to {A} n l (f : nat -> A -> R) : sum_to n (fun i => sum_over l (f i)) = sum_over l (fun a => sum_to n (fun i => f i a)).
Proof. induction l as [|a l IH]; cbn; [apply sum_to_zero|]. rewrite <- IH, <- sum_to_plus. easy. Qed.
Lemma sum_over_one (l : list nat) t v : NoDup l -> In t l -> sum_over l (fun a => if (a =? t)%nat then v else 0) = v.
Proof.
  induction l as [|a l IH]; intros N H; [easy|]. inversion N as [|? ? Na Nl]; subst. cbn. destruct H as [->|H].
  - rewrite Nat.eqb_refl. assert (E : sum_over l (fun a => if (a =? t)%nat then v else 0) = 0); [|rewrite E; lra].
    clear IH N Nl. induction l as [|b l IH]; [easy|]. cbn. destruct (Nat.eqb_spec b t) as [->|]; [exfalso; apply Na; now left|].
    rewrite IH; [lra|]. intros C. apply Na. now right.
  - destruct (Nat.eqb_spec a t) as [->|]; [easy|]. rewrite IH by easy. lra.
Qed.

(** ** Subsets of terms *)
Section Terms.
Variable big : R -> bool.
Notation entry := (FormModel.entry R 0 Rplus).
Notation term_build := (term_build R 0 1 Rplus Rmult Rminus big).
Notation build_loop := (build_loop R 0 1 Rplus Rmult Rminus big).
Notation build_sparse := (build_sparse R 0 1 Rplus Rmult Rminus big).

Lemma entry_app_R ts us r c : entry (ts ++ us) r c = entry ts r c + entry us r c.
Proof. apply (entry_app R 0 1 Rplus Rmult Rminus Ropp RTheory). Qed.

Lemma emit_unused (d : frame R) cols : forall ci, emit_masked R d false cols ci = [].
Proof. induction cols as [|[f m] cols IH]; intros ci; [easy|]. cbn. apply IH. Qed.
Lemma f_emit_unused T ridx : forall mc ci, f_emit R big T false ridx mc ci = [].
Proof. induction ridx as [|x l IH]; intros mc ci; [easy|]. cbn. apply IH. Qed.
Lemma i_emit_unused (d : frame R) series cols : forall ci, i_emit R big d false series cols ci = [].
Proof. induction cols as [|x l IH]; intros ci; [easy|]. cbn. apply IH. Qed.
Lemma rs_emit_unused (d : frame R) lin v old pairs : forall ci, rs_emit R d false lin v old pairs ci = [].
Proof. induction pairs as [|[x y] l IH]; intros ci; [easy|]. cbn. apply IH. Qed.

(** A term that can be built can also be left out, with the same number of columns. *)
Lemma build_unused e d lens pool h t ci ts n :
  term_build e d lens pool h t ci true = Some (ts, n) -> term_build e d lens pool h t ci false = Some ([], n).
Proof.
  destruct t; cbn [FormModel.term_build].
  - unfold i_build. intros H. now injection H as <- <-.
  - unfold build_linear_term. intros H. destruct vars as [|v [|w vars]]; cbn in H |- *.
    + now injection H as <- <-.
    + destruct (vt e v); injection H as <- <-; [easy|now rewrite emit_unused].
    + injection H as <- <-. now rewrite emit_unused.
  - unfold f_build. destruct f_matrix; [|easy]. destruct (_ =? _)%nat; [|easy]. intros H. injection H as <- <-. now rewrite f_emit_unused.
  - unfold irf_build. destruct i_all_series as [[|[len T] rest]|]; try easy.
    match goal with |- (if ?b then _ else _) = _ -> (if ?b' then _ else _) = _ => assert (Hb : b = true -> b' = true) end.
    { intros H. apply andb_prop in H. destruct H as [H _]. now rewrite H. }
    match goal with |- (if ?b then _ else _) = _ -> _ => destruct b end; [|easy]. rewrite Hb by easy. intros H. injection H as <- <-. now rewrite i_emit_unused.
  - unfold ri_build. intros H. injection H as <- <-. now rewrite emit_unused.
  - unfold rs_build. destruct build_linear_term as [lin n']. destruct by_var; intros H; injection H as <- <-; [now rewrite rs_emit_unused|easy].
Qed.
(** Whether wanted or not, the number of columns is the same. *)
Lemma build_count e d lens pool h t ci u v ts n us k :
  term_build e d lens pool h t ci u = Some (ts, n) -> term_build e d lens pool h t ci v = Some (us, k) -> n = k.
Proof.
  intros H1 H2. destruct u, v; try (rewrite H1 in H2; now injection H2).
  - apply build_unused in H1. rewrite H1 in H2. now injection H2.
  - apply build_unused in H2. rewrite H1 in H2. now injection H2.
Qed.
Lemma build_false_nil e d lens pool h t ci ts n : term_build e d lens pool h t ci false = Some (ts, n) -> ts = [].
Proof.
  destruct t; cbn [FormModel.term_build].
  - unfold i_build. intros H. now injection H as <- <-.
  - unfold build_linear_term. intros H. destruct vars as [|v [|w vars]]; cbn in H.
    + now injection H as <- <-.
    + destruct (vt e v); injection H as <- <-; [easy|now rewrite emit_unused].
    + injection H as <- <-. now rewrite emit_unused.
  - unfold f_build. destruct f_matrix; [|easy]. destruct (_ =? _)%nat; [|easy]. intros H. injection H as <- <-. now rewrite f_emit_unused.
  - unfold irf_build. destruct i_all_series as [[|[len T] rest]|]; try easy.
    match goal with |- (if ?b then _ else _) = _ -> _ => destruct b end; [|easy]. intros H. injection H as <- <-. now rewrite i_emit_unused.
  - unfold ri_build. intros H. injection H as <- <-. now rewrite emit_unused.
  - unfold rs_build. destruct build_linear_term as [lin n']. destruct by_var; intros H; injection H as <- <-; [now rewrite rs_emit_unused|easy].
Qed.

Lemma mem_in x l : mem x l = true <-> In x l.
Proof. unfold mem. rewrite existsb_exists. split; [intros (y & H & E); apply Nat.eqb_eq in E; now subst|intros H; exists x; now rewrite Nat.eqb_refl]. Qed.

(** Building several terms at once: every cell is the sum of the cells of the single terms. *)
Lemma loop_sum e d lens pool terms use : NoDup use -> use <> [] -> forall order h acc ci accs out,
  (forall t, In t use -> build_loop e d lens pool terms (Some [t]) order h (accs t, ci) = Some (out t)) ->
  (forall r c, entry acc r c = sum_over use (fun t => entry (accs t) r c)) ->
  exists ts n, build_loop e d lens pool terms (Some use) order h (acc, ci) = Some (ts, n) /\
    (forall t, In t use -> snd (out t) = n) /\
    (forall r c, entry ts r c = sum_over use (fun t => entry (fst (out t)) r c)).
Proof.
  intros N NE. induction order as [|ti order IH]; intros h acc ci accs out H E.
  - cbn in H. exists acc, ci. split; [easy|]. split.
    + intros t Ht. specialize (H t Ht). injection H as <-. easy.
    + intros r c. rewrite E. apply sum_over_ext. intros t Ht. specialize (H t Ht). injection H as <-. easy.
  - cbn [FormModel.build_loop] in H |- *. destruct (nth_error terms ti) as [t0|] eqn:Et.
    2:{ exfalso. destruct use as [|t use]; [easy|]. now specialize (H t (or_introl eq_refl)). }
    cbn [fst snd] in H |- *.
    assert (Hn : exists n, forall t, In t use -> exists ts, term_build e d lens pool h t0 ci (mem ti [t]) = Some (ts, n)).
    { destruct use as [|u use']; [easy|]. pose proof (H u (or_introl eq_refl)) as Hu.
      destruct (term_build e d lens pool h t0 ci (mem ti [u])) as [[ts0 n0]|] eqn:E0; [|easy]. exists n0. intros t Ht.
      pose proof (H t Ht) as Hv. destruct (term_build e d lens pool h t0 ci (mem ti [t])) as [[ts1 n1]|] eqn:E1; [|easy].
      exists ts1. now rewrite (build_count _ _ _ _ _ _ _ _ _ _ _ _ _ E0 E1). }
    destruct Hn as (n & Hn).
    assert (Hb : exists ts, term_build e d lens pool h t0 ci (mem ti use) = Some (ts, n) /\
                 forall t, In t use -> term_build e d lens pool h t0 ci (mem ti [t]) = Some (if (t =? ti)%nat then ts else [], n)).
    { destruct (mem ti use) eqn:Em.
      - apply mem_in in Em. destruct (Hn ti Em) as (ts & Ets). assert (Emm : mem ti [ti] = true) by (apply mem_in; now left).
        rewrite Emm in Ets. exists ts. split; [easy|]. intros t Ht. destruct (Nat.eqb_spec t ti) as [->|D].
        + now rewrite Emm.
        + assert (Ef : mem ti [t] = false). { destruct (mem ti [t]) eqn:F; [|easy]. apply mem_in in F. destruct F as [F|[]]. easy. }
          rewrite Ef. now apply build_unused in Ets.
      - destruct use as [|u use'] eqn:Eu; [easy|]. destruct (Hn u (or_introl eq_refl)) as (ts & Ets).
        assert (Nin : forall t, In t (u :: use') -> mem ti [t] = false).
        { intros t Ht. destruct (mem ti [t]) eqn:F; [|easy]. apply mem_in in F. destruct F as [->|[]]. apply mem_in in Ht. congruence. }
        rewrite Nin in Ets by now left. pose proof (build_false_nil _ _ _ _ _ _ _ _ _ Ets) as ->. exists []. split; [easy|].
        intros t Ht. rewrite Nin by easy. rewrite Ets. now destruct (t =? ti)%nat. }
    destruct Hb as (ts & Eb & Hts). rewrite Eb.
    apply (IH (constant_after e h t0) (acc ++ ts) (ci + n)%nat (fun t => accs t ++ (if (t =? ti)%nat then ts else []))%list out).
    + intros t Ht. specialize (H t Ht). rewrite (Hts t Ht) in H. exact H.
    + intros r c. rewrite entry_app_R, E. rewrite (sum_over_ext use (fun t => entry (accs t ++ (if (t =? ti)%nat then ts else [])) r c)
        (fun t => entry (accs t) r c + (if (t =? ti)%nat then entry ts r c else 0))).
      2:{ intros t _. rewrite entry_app_R. f_equal. now destruct (t =? ti)%nat. }
      rewrite sum_over_plus. f_equal. destruct (mem ti use) eqn:Em.
      * apply mem_in in Em. now rewrite sum_over_one.
      * pose proof (build_false_nil _ _ _ _ _ _ _ _ _ Eb) as ->. cbn. symmetry.
        rewrite (sum_over_ext use _ (fun _ => 0 * 0)); [rewrite (sum_over_scal use 0 (fun _ => 0)); lra|]. intros t _. destruct (t =? ti)%nat; lra.
Qed.

Lemma loop_all e d lens pool terms : forall order h acc,
  build_loop e d lens pool terms None order h acc = build_loop e d lens pool terms (Some (seq 0 (length terms))) order h acc.
Proof.
  induction order as [|ti order IH]; intros h acc; [easy|]. cbn [FormModel.build_loop].
  destruct (nth_error terms ti) as [t|] eqn:E; [|easy].
  assert (M : mem ti (seq 0 (length terms)) = true).
  { apply mem_in, in_seq. assert (ti < length terms)%nat by (apply nth_error_Some; congruence). lia. }
  rewrite M. destruct term_build as [[ts n]|]; [|easy]. apply IH.
Qed.
End Terms.
