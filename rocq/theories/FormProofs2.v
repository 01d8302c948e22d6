(** Lemmas for FormProps: smooth terms. *)

From Coq Require Import List Bool Arith Lia Ring.
From Verif Require Import FormModel FormSpec FormProofs.
Import ListNotations.

Lemma flat_map_seq (A : Type) (f : nat -> A) a b :
  map f (seq 0 (a * b)) = flat_map (fun i => map (fun j => f (i * b + j)) (seq 0 b)) (seq 0 a).
Proof.
  induction a as [|a IH]; [reflexivity|].
  rewrite seq_S, flat_map_app, <- IH. simpl flat_map. rewrite app_nil_r.
  replace (S a * b) with (a * b + b) by lia. rewrite seq_app, map_app. f_equal.
  assert (E : forall k o, map f (seq (o + k) b) = map (fun j => f (o + j)) (seq k b)).
  { clear. induction b as [|b IH]; intros k o; simpl; [reflexivity|]. f_equal.
    rewrite <- IH. do 2 f_equal. lia. }
  specialize (E 0 (a * b)). rewrite Nat.add_0_r in E. exact E.
Qed.

Lemma flat_map_map (A B C : Type) (g : B -> list C) (h : A -> B) l : flat_map g (map h l) = flat_map (fun x => g (h x)) l.
Proof. induction l as [|a l IH]; simpl; [reflexivity|rewrite IH; reflexivity]. Qed.

Lemma nth_map_seq (A : Type) (f : nat -> A) n c d : c < n -> nth c (map f (seq 0 n)) d = f c.
Proof.
  intros H. rewrite (nth_indep _ d (f 0)) by (rewrite map_length, seq_length; exact H).
  rewrite map_nth, seq_nth by exact H. reflexivity.
Qed.

(** *** Leaving out numbered elements *)
Lemma without_app (A : Type) drop i (l m : list A) :
  without A drop i (l ++ m) = without A drop i l ++ without A drop (i + length l) m.
Proof.
  revert i; induction l as [|a l IH]; intros i; simpl.
  - rewrite Nat.add_0_r. reflexivity.
  - rewrite IH. replace (S i + length l) with (i + S (length l)) by lia.
    destruct (existsb _ drop); reflexivity.
Qed.
Lemma without_map (A B : Type) (f : A -> B) drop i l : without B drop i (map f l) = map f (without A drop i l).
Proof.
  revert i; induction l as [|a l IH]; intros i; simpl; [reflexivity|].
  rewrite IH. destruct (existsb _ drop); reflexivity.
Qed.
Lemma without_none (A : Type) i (l : list A) : without A [] i l = l.
Proof. revert i; induction l as [|a l IH]; intros i; simpl; [reflexivity|rewrite IH; reflexivity]. Qed.

Lemma without_tail (A : Type) drop (l : list A) k :
  (forall i, In i drop <-> k <= i < length l) -> without A drop 0 l = firstn k l.
Proof.
  assert (G : forall i (l : list A) k, (forall j, i <= j -> j < i + length l -> (In j drop <-> i + k <= j)) ->
              without A drop i l = firstn k l).
  { clear. intros i l; revert i; induction l as [|a l IH]; intros i k H; simpl.
    - rewrite firstn_nil. reflexivity.
    - simpl in H. destruct k as [|k].
      + assert (E : existsb (Nat.eqb i) drop = true).
        { apply existsb_exists. exists i. rewrite Nat.eqb_refl. split; [|reflexivity]. apply H; lia. }
        rewrite E. simpl. rewrite (IH (S i) 0); [reflexivity|].
        intros j H1 H2. rewrite H by lia. lia.
      + assert (E : existsb (Nat.eqb i) drop = false).
        { apply not_true_is_false. intros E. apply existsb_exists in E. destruct E as (x & Hx & E).
          apply Nat.eqb_eq in E. subst x. apply H in Hx; lia. }
        rewrite E. simpl. f_equal. apply IH. intros j H1 H2. rewrite H by lia. lia. }
  intros H. apply G. intros j H1 H2. rewrite H. lia.
Qed.

Section Proofs.
Variable K : Type.
Variables (k0 k1 : K) (kadd kmul ksub : K -> K -> K) (kopp : K -> K).
Hypothesis Kring : ring_theory k0 k1 kadd kmul ksub kopp eq.
Add Ring Kring2 : Kring.
Variable big : K -> bool.

Notation column := (column K).
Notation cols_of := (cols_of K).
Notation zero := (zero K k0).
Notation kron := (kron K kmul).
Notation on_level := (on_level K k0).
Notation times := (times K kmul).
Notation eqcols := (eqcols K).
Notation rep := (rep K k0 kadd).
Notation mat_mul := (mat_mul K k0 kadd kmul).
Notation combine_cols := (combine_cols K k0 kadd kmul).
Notation constrained := (constrained K k0 kadd kmul ksub).
Notation absorb := (absorb K k0 kadd kmul ksub).
Notation tp_basis := (tp_basis K kmul).
Notation marginal := (marginal K k0 kadd kmul ksub).
Notation f_marginal := (f_marginal K k0 kadd kmul ksub).
Notation f_tensor := (f_tensor K k0 kadd kmul ksub).
Notation f_matrix := (f_matrix K k0 kadd kmul ksub).
Notation smooth_base := (smooth_base K k0 kadd kmul ksub).
Notation smooth_all := (smooth_all K k0 kadd kmul ksub big).
Notation smooth_cols := (smooth_cols K k0 kadd kmul ksub big).
Notation f_emit := (f_emit K big).
Notation f_build := (f_build K k0 kadd kmul ksub big).
Notation pruned := (pruned K k0 big).

Lemma cols_of_length X : length (cols_of X) = mcols X.
Proof. unfold FormSpec.cols_of. rewrite map_length, seq_length. reflexivity. Qed.

Lemma cols_of_nth X c : c < mcols X -> col K k0 (cols_of X) c = fun r => mval X r c.
Proof. intros H. unfold col, FormSpec.cols_of. apply (nth_map_seq _ (fun c r => mval X r c)). exact H. Qed.

(** *** Products with a matrix *)
Lemma fold_ksum (g : nat -> K) n : fold_left kadd (map g (seq 0 n)) k0 = ksum K k0 kadd n g.
Proof.
  induction n as [|n IH]; [reflexivity|].
  rewrite seq_S, map_app, fold_left_app, IH. reflexivity.
Qed.

Lemma combine_seq_map (A : Type) (h : nat -> A) a n :
  combine (seq a n) (map h (seq a n)) = map (fun k => (k, h k)) (seq a n).
Proof. revert a; induction n as [|n IH]; intros a; simpl; [reflexivity|rewrite IH; reflexivity]. Qed.

Lemma mat_mul_cols X Z : eqcols (cols_of (mat_mul X Z)) (combine_cols (cols_of X) Z).
Proof.
  unfold FormSpec.combine_cols. rewrite cols_of_length. unfold FormSpec.cols_of at 1.
  simpl mcols. apply eqcols_map. intros c _ r. simpl.
  unfold FormSpec.cols_of. rewrite combine_seq_map, map_map. simpl. rewrite fold_ksum. reflexivity.
Qed.

Lemma combine_cols_eqcols A B Z : eqcols A B -> eqcols (combine_cols A Z) (combine_cols B Z).
Proof.
  intros H. unfold FormSpec.combine_cols. rewrite <- (eqcols_length _ _ _ H).
  apply eqcols_map. intros c _ r. f_equal.
  generalize (seq 0 (length A)). induction H as [|a b A B E H IH]; intros [|k l]; simpl; try reflexivity.
  rewrite E, IH. reflexivity.
Qed.

(** *** Constraints *)
Lemma firstn_map_seq (A : Type) (f : nat -> A) z n : z <= n -> firstn z (map f (seq 0 n)) = map f (seq 0 z).
Proof.
  intros H. replace n with (z + (n - z)) by lia. rewrite seq_app, map_app.
  rewrite firstn_app, map_length, seq_length, Nat.sub_diag. simpl. rewrite app_nil_r.
  apply firstn_all2. rewrite map_length, seq_length. lia.
Qed.
Lemma skipn_map_seq (A : Type) (f : nat -> A) z n : z <= n -> skipn z (map f (seq 0 n)) = map f (seq z (n - z)).
Proof.
  intros H. replace n with (z + (n - z)) at 1 by lia. rewrite seq_app, map_app.
  rewrite skipn_app, map_length, seq_length, Nat.sub_diag. simpl.
  rewrite skipn_all2 by (rewrite map_length, seq_length; lia). reflexivity.
Qed.
Lemma map_seq_shift (A : Type) (f : nat -> A) a n o : map f (seq (o + a) n) = map (fun j => f (o + j)) (seq a n).
Proof.
  revert a; induction n as [|n IH]; intros a; simpl; [reflexivity|]. f_equal. rewrite <- IH. do 2 f_equal. lia.
Qed.

Lemma absorb_cols X Z : fits K Z (mcols X) -> eqcols (cols_of (absorb X Z)) (constrained (cols_of X) Z).
Proof.
  destruct Z as [Z|z|z]; unfold FormSpec.constrained, FormModel.absorb; simpl fits; intros Hf.
  - apply mat_mul_cols.
  - unfold FormSpec.cols_of. rewrite firstn_map_seq by lia.
    rewrite skipn_map_seq by lia. simpl mcols.
    replace (mcols X - 1) with (z + (mcols X - S z)) by lia.
    rewrite seq_app, map_app. apply eqcols_app.
    + apply eqcols_map. intros c Hc r. apply in_seq in Hc. simpl.
      destruct (Nat.ltb_spec c z); [reflexivity|lia].
    + change (S z) with (1 + z). rewrite (map_seq_shift _ (fun c r => mval X r c) z _ 1).
      apply eqcols_map. intros c Hc r. apply in_seq in Hc. simpl.
      destruct (Nat.ltb_spec c z); [lia|reflexivity].
  - rewrite cols_of_length. unfold FormSpec.cols_of at 1. simpl mcols. apply eqcols_map.
    intros c Hc r. apply in_seq in Hc. cbn [rotate diff_cols mval mcols].
    set (n := mcols X) in *.
    replace (n - 1 - (n - 1 - z)) with z by lia.
    destruct (Nat.ltb_spec c z).
    + rewrite !cols_of_nth; [| |lia].
      2:{ fold n. apply Nat.mod_upper_bound. lia. }
      destruct (Nat.eq_dec c 0) as [->|Hc0].
      * replace ((0 + n - 1) mod n) with (n - 1) by (rewrite Nat.mod_small; lia).
        destruct (Nat.ltb_spec (S (n - 1 - z + 0)) (n - z)); [lia|].
        destruct (Nat.ltb_spec (n - 1 - z + 0) (n - z)); [|lia].
        f_equal; f_equal; lia.
      * replace ((c + n - 1) mod n) with (c - 1).
        2:{ replace (c + n - 1) with (c - 1 + 1 * n) by lia. rewrite Nat.mod_add by lia. rewrite Nat.mod_small; lia. }
        destruct (Nat.ltb_spec (S (n - 1 - z + c)) (n - z)); [lia|].
        destruct (Nat.ltb_spec (n - 1 - z + c) (n - z)); [lia|].
        f_equal; f_equal; lia.
    + rewrite !cols_of_nth by lia.
      destruct (Nat.ltb_spec (S (c - z)) (n - z)); [|lia].
      destruct (Nat.ltb_spec (c - z) (n - z)); [|lia].
      f_equal; f_equal; lia.
Qed.

Lemma absorb_width X Z : fits K Z (mcols X) -> mcols (absorb X Z) = mcols X - 1.
Proof. destruct Z; simpl; lia. Qed.

Lemma col_eqcols A B c : eqcols A B -> forall r, col K k0 A c r = col K k0 B c r.
Proof. intros H r. revert c. induction H as [|a b A B E H IH]; intros [|c]; simpl; auto. apply (IH c). Qed.

Lemma constrained_eqcols A B Z : eqcols A B -> eqcols (constrained A Z) (constrained B Z).
Proof.
  intros H. destruct Z as [Z|z|z]; unfold FormSpec.constrained.
  - apply combine_cols_eqcols; exact H.
  - apply eqcols_app.
    + revert z. induction H as [|a b A B E H IH]; intros [|z]; simpl; constructor; [exact E|apply IH].
    + generalize (S z). induction H as [|a b A B E H IH]; intros [|y]; simpl; try (constructor; assumption); try constructor.
      apply IH.
  - rewrite <- (eqcols_length _ _ _ H). apply eqcols_map. intros c _ r.
    rewrite !(col_eqcols A B) by exact H. reflexivity.
Qed.

(** *** Tensor products *)
Lemma tp_cols A B : eqcols (cols_of (tp_basis A B)) (kron (cols_of A) (cols_of B)).
Proof.
  unfold FormSpec.cols_of at 1. simpl mcols.
  rewrite (flat_map_seq _ (fun c r => mval (tp_basis A B) r c)).
  unfold FormSpec.kron, FormSpec.cols_of. rewrite flat_map_map.
  apply eqcols_flat_map. intros i _. rewrite map_map. apply eqcols_map. intros j Hj r.
  apply in_seq in Hj. simpl. unfold FormSpec.times.
  rewrite Nat.div_add_l by lia. rewrite (Nat.div_small j) by lia. rewrite Nat.add_0_r.
  rewrite Nat.add_comm, Nat.mod_add by lia. rewrite Nat.mod_small by lia. reflexivity.
Qed.

Lemma marginal_ok s e vi : well_formed K s e -> vi < length (f_vars s) ->
  exists X, f_marginal s vi = Some X /\ mcols X = nth vi (f_nk s) 0 /\ eqcols (cols_of X) (marginal s vi).
Proof.
  intros W Hvi. unfold FormModel.f_marginal, FormSpec.marginal.
  assert (G : exists X, (if f_ident s && negb (f_te s)
            then match nth_error (f_Z s) vi with
                 | Some Z => Some (absorb (f_basis s vi (S (nth vi (f_nk s) 0))) Z) | None => None end
            else Some (f_basis s vi (nth vi (f_nk s) 0))) = Some X /\ mcols X = nth vi (f_nk s) 0 /\
            eqcols (cols_of X) (if f_ident s && negb (f_te s)
               then constrained (cols_of (f_basis s vi (S (nth vi (f_nk s) 0)))) (nth vi (f_Z s) (CDrop 0))
               else cols_of (f_basis s vi (nth vi (f_nk s) 0)))).
  { destruct (f_ident s) eqn:Ei, (f_te s) eqn:Et; simpl;
      try (eexists; repeat split; [apply (wf_basis _ _ _ W)|apply eqcols_refl]).
    destruct (wf_Z _ _ _ W Ei Et vi Hvi) as (Z & EZ & HZ). rewrite EZ.
    rewrite (nth_error_nth _ _ _ EZ).
    eexists; repeat split.
    - rewrite absorb_width; rewrite (wf_basis _ _ _ W); [lia|exact HZ].
    - apply absorb_cols. rewrite (wf_basis _ _ _ W). exact HZ. }
  destruct G as (X & EX & HX & EC).
  destruct (f_ident s && negb (f_te s)); [rewrite EX|injection EX as <-];
    (destruct (f_rp s) as [|C0 rp] eqn:Erp;
     [eexists; repeat split; [exact HX|exact EC]|
      destruct (wf_rp _ _ _ W ltac:(congruence) vi Hvi) as (C & EC' & HC); rewrite Erp in EC'; rewrite EC';
      rewrite (nth_error_nth _ _ _ EC');
      eexists; repeat split;
      [exact HC|eapply eqcols_trans; [apply mat_mul_cols|apply combine_cols_eqcols; exact EC]]]).
Qed.

Definition widths (s : smooth K) (a n : nat) : nat := fold_left Nat.mul (map (fun vi => nth vi (f_nk s) 0) (seq a n)) 1.

Lemma tensor_ok s e : well_formed K s e ->
  exists T, f_tensor s = Some T /\ mcols T = np_prod (f_nk s) /\
    eqcols (cols_of T) (match map (marginal s) (seq 0 (length (f_vars s))) with [] => [] | X :: rest => fold_left kron rest X end).
Proof.
  intros W. unfold FormModel.f_tensor.
  set (step := fun (acc : option (option (mat K))) (vi : nat) => _).
  assert (G : forall n a T A w, a + n <= length (f_vars s) -> eqcols (cols_of T) A -> mcols T = w ->
     exists T', fold_left step (seq a n) (Some (Some T)) = Some (Some T') /\
       mcols T' = fold_left Nat.mul (map (fun vi => nth vi (f_nk s) 0) (seq a n)) w /\
       eqcols (cols_of T') (fold_left kron (map (marginal s) (seq a n)) A)).
  { induction n as [|n IH]; intros a T A w Hn HT Hw; cbn [seq fold_left map].
    - exists T. auto.
    - destruct (marginal_ok s e a W) as (X & EX & HX & EC); [lia|].
      replace (step (Some (Some T)) a) with (Some (Some (tp_basis T X))) by (unfold step; rewrite EX; reflexivity).
      apply IH; [lia| |simpl; congruence].
      eapply eqcols_trans; [apply tp_cols|]. apply kron_eqcols; assumption. }
  assert (Hv := wf_vars _ _ _ W). assert (Hl := wf_nk _ _ _ W).
  destruct (f_vars s) as [|v vs] eqn:Ev; [congruence|].
  simpl length in *.
  destruct (marginal_ok s e 0 W) as (X & EX & HX & EC); [rewrite Ev; simpl; lia|].
  cbn [seq fold_left map].
  replace (step (Some None) 0) with (Some (Some X)) by (unfold step; rewrite EX; reflexivity).
  destruct (G (length vs) 1 X _ (nth 0 (f_nk s) 0) ltac:(lia) EC HX) as (T & ET & HT & ECT).
  rewrite ET. exists T. split; [reflexivity|]. split; [|exact ECT].
  rewrite HT. unfold np_prod. destruct (f_nk s) as [|k nk]; simpl in Hl; [lia|]. injection Hl as Hl.
  simpl. rewrite Nat.add_0_r. rewrite <- Hl. f_equal.
  rewrite <- seq_shift, map_map. simpl.
  rewrite (map_nth_seq nat nat (fun x => x) 0 nk), map_id. reflexivity.
Qed.

Lemma prod_right l a : fold_left Nat.mul l a = a * fold_right Nat.mul 1 l.
Proof. revert a; induction l as [|x l IH]; intros a; simpl; [lia|]. rewrite IH. lia. Qed.

Lemma matrix_ok s e (d : frame K) : well_formed K s e ->
  exists T, f_matrix s d = Some T /\ mcols T = f_term_coef s /\ eqcols (cols_of T) (smooth_base s d).
Proof.
  intros W. destruct (tensor_ok s e W) as (T & ET & HT & EC).
  unfold FormModel.f_matrix, FormSpec.smooth_base. rewrite ET.
  assert (G : exists T', (if f_ident s && f_te s
               then match nth_error (f_Z s) 0 with Some Z => Some (absorb T Z) | None => None end
               else Some T) = Some T' /\ mcols T' = f_term_coef s /\
     eqcols (cols_of T') (let T0 := match map (marginal s) (seq 0 (length (f_vars s))) with
                                  | [] => [] | X :: rest => fold_left kron rest X end in
              if f_ident s && f_te s then constrained T0 (nth 0 (f_Z s) (CDrop 0)) else T0)).
  { unfold f_term_coef. assert (Hv := wf_vars _ _ _ W). assert (Hl := wf_nk _ _ _ W).
    destruct (f_ident s) eqn:Ei, (f_te s) eqn:Et; simpl andb.
    2,3,4: exists T; split; [reflexivity|]; split; [|exact EC]; rewrite HT;
      destruct (f_vars s) as [|v [|w vs]]; [congruence| |try reflexivity];
      simpl in Hl; destruct (f_nk s) as [|k [|? ?]]; simpl in Hl; try lia; unfold np_prod; simpl; lia.
    destruct (wf_Z_te _ _ _ W Ei Et) as (Z & EZ & HZ). rewrite EZ, (nth_error_nth _ _ _ EZ).
    assert (HZ' : fits K Z (mcols T)) by (rewrite HT; unfold np_prod; rewrite prod_right, Nat.mul_1_l; exact HZ).
    exists (absorb T Z). split; [reflexivity|]. split.
    - rewrite absorb_width, HT by exact HZ'.
      pose proof (wf_te _ _ _ W Ei Et) as H1. destruct (f_vars s) as [|v [|w vs]]; simpl in H1; lia.
    - eapply eqcols_trans; [apply absorb_cols; exact HZ'|]. apply constrained_eqcols. exact EC. }
  destruct G as (T' & E' & HT' & EC'). rewrite E'. simpl in EC'.
  destruct (f_by_cont s) as [v|].
  - eexists; split; [reflexivity|]. split; [exact HT'|].
    unfold FormSpec.cols_of in *. simpl mcols. simpl mval.
    rewrite <- (map_map (fun c r => mval T' r c) (fun a => times a (fun r => num d r v))).
    apply eqcols_map2; [|exact EC'].
    intros a b E r. unfold FormSpec.times. rewrite E. reflexivity.
  - exists T'. split; [reflexivity|]. split; assumption.
Qed.

(** *** Spreading over levels *)
Definition all_masks (s : smooth K) (e : env) (d : frame K) (m : nat) : list (nat -> bool) :=
  match f_by s, f_binary s with
  | Some v, _ => flat_map (fun lvl => map (fun _ => is_level d v lvl) (seq 0 m)) (seq 0 (length (levels e v)))
  | None, Some (v, k) => map (fun _ => is_level d v k) (seq 0 m)
  | None, None => map (fun _ _ => true) (seq 0 m)
  end.
Definition drops (s : smooth K) : list nat := match f_drop s with None => [] | Some l => l end.

Lemma dropped_drops s c : dropped s c = existsb (Nat.eqb c) (drops s).
Proof. unfold dropped, drops. destruct (f_drop s); reflexivity. Qed.

Lemma without_block (A : Type) (x : A) drop a m :
  flat_map (fun c => if existsb (Nat.eqb (a + c)) drop then [] else [x]) (seq 0 m)
  = without A drop a (map (fun _ => x) (seq 0 m)).
Proof.
  assert (G : forall o, flat_map (fun c => if existsb (Nat.eqb (a + c)) drop then [] else [x]) (seq o m)
                        = without A drop (a + o) (map (fun _ => x) (seq o m))).
  { induction m as [|m IH]; intros o; simpl; [reflexivity|]. rewrite IH.
    replace (a + S o) with (S (a + o)) by lia. destruct (existsb _ drop); reflexivity. }
  specialize (G 0). rewrite Nat.add_0_r in G. exact G.
Qed.

Lemma ridx_masks s e d m :
  f_term_ridx s e d m = map (fun mask => filter mask (seq 0 (n_y d))) (without _ (drops s) 0 (all_masks s e d m)).
Proof.
  unfold f_term_ridx, all_masks. rewrite <- without_map.
  assert (D : forall c, dropped s c = existsb (Nat.eqb c) (drops s)) by apply dropped_drops.
  destruct (f_by s) as [v|].
  - assert (G : forall L a, flat_map (fun lvl =>
          flat_map (fun c => if dropped s (lvl * m + c) then [] else [filter (is_level d v lvl) (seq 0 (n_y d))])
                   (seq 0 m)) (seq a L)
       = without _ (drops s) (a * m) (map (fun mask => filter mask (seq 0 (n_y d)))
           (flat_map (fun lvl => map (fun _ => is_level d v lvl) (seq 0 m)) (seq a L)))).
    { induction L as [|L IH]; intros a; simpl; [reflexivity|].
      rewrite IH, map_app, without_app, map_map, map_length, seq_length.
      replace (a * m + m) with (S a * m) by lia. f_equal.
      rewrite <- without_block. apply flat_map_ext. intros c. rewrite D. reflexivity. }
    apply (G _ 0).
  - destruct (f_binary s) as [[v k]|]; rewrite map_map.
    + rewrite <- without_block. apply flat_map_ext. intros c. rewrite D. reflexivity.
    + rewrite filter_all. rewrite <- without_block. apply flat_map_ext. intros c. rewrite D. reflexivity.
Qed.

(** What f_emit writes for a list of row selections. *)
Definition emitted (T : mat K) (p : nat * (nat -> bool)) : column :=
  fun r => if snd p r then pruned (fun r => mval T r (fst p mod mcols T)) r else k0.

Lemma filter_filter (A : Type) (f g : A -> bool) l : filter f (filter g l) = filter (fun x => g x && f x) l.
Proof.
  induction l as [|a l IH]; simpl; [reflexivity|].
  destruct (g a); simpl; rewrite IH; reflexivity.
Qed.

Lemma emit_ok T n masks a ci :
  rep n (f_emit T true (map (fun mask => filter mask (seq 0 n)) masks) a ci) ci
      (map (emitted T) (combine (seq a (length masks)) masks)).
Proof.
  revert a ci; induction masks as [|m masks IH]; intros a ci; simpl; [apply rep_nil|].
  eapply rep_cons; [exact Kring| |apply IH].
  rewrite filter_filter. eapply rep_eqcols; [|eapply rep_column; exact Kring].
  constructor; [|constructor]. intros r. unfold emitted, FormSpec.pruned. simpl.
  destruct (m r); reflexivity.
Qed.
Lemma emit_none T rows a ci : f_emit T false rows a ci = [].
Proof. revert a ci; induction rows as [|x rows IH]; intros a ci; simpl; auto. Qed.

Lemma combine_app (A B : Type) (l l' : list A) (m m' : list B) : length l = length m ->
  combine (l ++ l') (m ++ m') = combine l m ++ combine l' m'.
Proof. revert m; induction l as [|a l IH]; intros [|b m] H; simpl in *; try lia; [reflexivity|]. rewrite IH by lia. reflexivity. Qed.

Lemma block_cols T (g : nat -> column -> column) (mask : nat -> bool) a m (f : column -> column) :
  m = mcols T ->
  (forall b r, f b r = if mask r then b r else k0) ->
  eqcols (map (emitted T) (combine (seq (a * m) m) (map (fun _ => mask) (seq 0 m)))) (map f (map pruned (cols_of T))).
Proof.
  intros -> Hf. unfold FormSpec.cols_of. rewrite !map_map.
  assert (G : forall n o, o + n <= mcols T ->
     eqcols (map (emitted T) (combine (seq (a * mcols T + o) n) (map (fun _ => mask) (seq o n))))
            (map (fun x => f (pruned (fun r => mval T r x))) (seq o n))).
  { induction n as [|n IH]; intros o Ho; simpl; [constructor|].
    replace (S (a * mcols T + o)) with (a * mcols T + S o) by lia. constructor; [|apply IH; lia].
    intros r. rewrite Hf. unfold emitted. simpl.
    rewrite Nat.add_comm, Nat.mod_add by lia. rewrite Nat.mod_small by lia. reflexivity. }
  specialize (G (mcols T) 0). rewrite Nat.add_0_r in G. apply G. lia.
Qed.

Lemma on_level_mask (d : frame K) v k (b : column) r : on_level d v k b r = if is_level d v k r then b r else k0.
Proof. unfold FormSpec.on_level, is_level. destruct (code d r v) as [j|]; reflexivity. Qed.

Lemma masks_length s e d m : length (all_masks s e d m) = match f_by s with Some v => m * length (levels e v) | None => m end.
Proof.
  unfold all_masks. destruct (f_by s) as [v|].
  - generalize 0 at 2. induction (length (levels e v)) as [|L IH]; intros a; simpl; [lia|].
    rewrite app_length, map_length, seq_length, IH. lia.
  - destruct (f_binary s) as [[v k]|]; rewrite map_length, seq_length; reflexivity.
Qed.

Lemma pruned_eqcols A B : eqcols A B -> eqcols (map pruned A) (map pruned B).
Proof.
  apply eqcols_map2. intros a b E r. unfold FormSpec.pruned. rewrite E. reflexivity.
Qed.
Lemma level_eqcols (d : frame K) v k A B : eqcols A B -> eqcols (map (on_level d v k) A) (map (on_level d v k) B).
Proof.
  apply eqcols_map2. intros a b E r. rewrite !on_level_mask, E. reflexivity.
Qed.

Lemma all_cols_ok s e (d : frame K) T : eqcols (cols_of T) (smooth_base s d) ->
  eqcols (map (emitted T) (combine (seq 0 (length (all_masks s e d (mcols T)))) (all_masks s e d (mcols T))))
         (smooth_all s e d).
Proof.
  intros E. pose proof (pruned_eqcols _ _ E) as EP. rewrite masks_length.
  unfold all_masks, FormSpec.smooth_all.
  destruct (f_by s) as [v|].
  - rewrite Nat.mul_comm.
    assert (G : forall L a, eqcols (map (emitted T) (combine (seq (a * mcols T) (L * mcols T))
        (flat_map (fun lvl => map (fun _ => is_level d v lvl) (seq 0 (mcols T))) (seq a L))))
        (flat_map (fun k => map (on_level d v k) (map pruned (smooth_base s d))) (seq a L))).
    { induction L as [|L IH]; intros a; simpl; [constructor|].
      rewrite seq_app, combine_app by (rewrite map_length, !seq_length; reflexivity).
      rewrite map_app. apply eqcols_app.
      - eapply eqcols_trans; [|apply level_eqcols; exact EP].
        apply (block_cols T (fun _ b => b)); [reflexivity|]. intros b r. apply on_level_mask.
      - replace (a * mcols T + mcols T) with (S a * mcols T) by lia. apply IH. }
    apply (G _ 0).
  - destruct (f_binary s) as [[v k]|].
    + eapply eqcols_trans; [|apply level_eqcols; exact EP].
      apply (block_cols T (fun _ b => b) (is_level d v k) 0); [reflexivity|]. intros b r. apply on_level_mask.
    + eapply eqcols_trans; [|exact EP].
      rewrite <- (map_id (map pruned (cols_of T))).
      apply (block_cols T (fun _ b => b) (fun _ => true) 0 (mcols T) (fun x => x)); [reflexivity|]. intros b r. reflexivity.
Qed.

Lemma combine_firstn (A B : Type) (l : list A) (m : list B) k : combine (firstn k l) (firstn k m) = firstn k (combine l m).
Proof. revert m k; induction l as [|a l IH]; intros [|b m] [|k]; simpl; try reflexivity. rewrite IH; reflexivity. Qed.
Lemma firstn_seq a n k : k <= n -> firstn k (seq a n) = seq a k.
Proof. revert a n; induction k as [|k IH]; intros a [|n] H; simpl; try reflexivity; try lia. rewrite IH by lia. reflexivity. Qed.
Lemma eqcols_firstn A B k : eqcols A B -> eqcols (firstn k A) (firstn k B).
Proof. intros H; revert k; induction H as [|a b A B E H IH]; intros [|k]; simpl; constructor; [exact E|apply IH]. Qed.

Lemma smooth_matrix s e (d : frame K) ci : well_formed K s e -> drops_last K k0 kadd kmul ksub big s e d ->
  exists ts, f_build s e d ci true = Some (ts, length (smooth_cols s e d)) /\ rep (n_y d) ts ci (smooth_cols s e d).
Proof.
  intros W D. destruct (matrix_ok s e d W) as (T & ET & HT & EC).
  unfold FormModel.f_build. rewrite ET, ridx_masks.
  set (masks := all_masks s e d (mcols T)).
  pose proof (all_cols_ok s e d T EC) as EA. fold masks in EA.
  assert (LA : length masks = length (smooth_all s e d)).
  { rewrite <- (eqcols_length _ _ _ EA), map_length, combine_length, seq_length. lia. }
  assert (LC : f_all_coef s e = length masks).
  { unfold masks. rewrite masks_length, HT. unfold f_all_coef. reflexivity. }
  assert (G : exists k, k + n_dropped s = length masks /\ without _ (drops s) 0 masks = firstn k masks /\
                        smooth_cols s e d = firstn k (smooth_all s e d)).
  { unfold drops_last in D. unfold n_dropped, drops, FormSpec.smooth_cols. destruct (f_drop s) as [l|].
    - destruct D as (ND & k & Hk & HI). exists k. rewrite LA. split; [exact Hk|]. split.
      + apply without_tail. rewrite LA. exact HI.
      + apply without_tail. exact HI.
    - exists (length masks). split; [lia|]. split.
      + rewrite without_none, firstn_all. reflexivity.
      + rewrite LA, firstn_all. reflexivity. }
  destruct G as (k & Hk & EW & ES). rewrite EW, map_length, firstn_length, ES, firstn_length.
  rewrite LC. assert (Hk' : k <= length masks) by lia.
  rewrite <- LA, Nat.min_l by lia. rewrite Hk, Nat.eqb_refl.
  eexists; split; [reflexivity|].
  eapply rep_eqcols; [|apply emit_ok].
  rewrite firstn_length, Nat.min_l by lia.
  rewrite <- (firstn_seq 0 (length masks) k) by lia. rewrite combine_firstn, <- firstn_map.
  apply eqcols_firstn. exact EA.
Qed.

Lemma smooth_unused s e (d : frame K) ci ts n :
  f_build s e d ci true = Some (ts, n) -> f_build s e d ci false = Some ([], n).
Proof.
  unfold FormModel.f_build. destruct (f_matrix s d) as [T|]; [|discriminate].
  destruct (_ =? _); [|discriminate]. intros E. injection E as _ <-. rewrite emit_none. reflexivity.
Qed.
End Proofs.
