(** Lemmas for FormProps: constraints as matrices. *)

From Coq Require Import List Bool Arith Lia Ring.
From Verif Require Import FormModel FormSpec FormProofs FormProofs2.
Import ListNotations.

Section Sums.
Variable K : Type.
Variables (k0 k1 : K) (kadd kmul ksub : K -> K -> K) (kopp : K -> K).
Hypothesis Kring : ring_theory k0 k1 kadd kmul ksub kopp eq.
Add Ring Kring6 : Kring.

Notation ksum := (ksum K k0 kadd).
Notation absorb := (absorb K k0 kadd kmul ksub).
Infix "+!" := kadd (at level 50, left associativity).
Infix "*!" := kmul (at level 40, left associativity).
Infix "-!" := ksub (at level 50, left associativity).

Lemma ksum_ext n f g : (forall k, k < n -> f k = g k) -> ksum n f = ksum n g.
Proof. induction n as [|n IH]; intros H; simpl; [reflexivity|]. rewrite IH by (intros; apply H; lia). rewrite H by lia. reflexivity. Qed.
Lemma ksum_add n f g : ksum n (fun k => f k +! g k) = ksum n f +! ksum n g.
Proof. induction n as [|n IH]; simpl; [ring|]. rewrite IH. ring. Qed.
Lemma ksum_sub n f g : ksum n (fun k => f k -! g k) = ksum n f -! ksum n g.
Proof. induction n as [|n IH]; simpl; [ring|]. rewrite IH. ring. Qed.
Lemma ksum_scal_l n a f : ksum n (fun k => a *! f k) = a *! ksum n f.
Proof. induction n as [|n IH]; simpl; [ring|]. rewrite IH. ring. Qed.
Lemma ksum_scal_r n a f : ksum n (fun k => f k *! a) = ksum n f *! a.
Proof. induction n as [|n IH]; simpl; [ring|]. rewrite IH. ring. Qed.
Lemma ksum_zero n f : (forall k, k < n -> f k = k0) -> ksum n f = k0.
Proof. induction n as [|n IH]; intros H; simpl; [reflexivity|]. rewrite IH by (intros; apply H; lia). rewrite H by lia. ring. Qed.
Lemma ksum_swap n m f : ksum n (fun i => ksum m (fun j => f i j)) = ksum m (fun j => ksum n (fun i => f i j)).
Proof.
  induction n as [|n IH]; simpl.
  - symmetry. apply ksum_zero. reflexivity.
  - rewrite IH, <- ksum_add. reflexivity.
Qed.
Lemma ksum_split a b f : ksum (a + b) f = ksum a f +! ksum b (fun k => f (a + k)).
Proof.
  induction b as [|b IH]; simpl.
  - rewrite Nat.add_0_r. ring.
  - rewrite Nat.add_succ_r. simpl. rewrite IH. ring.
Qed.
Lemma ksum_unit n p f : p < n -> ksum n (fun k => if k =? p then f k else k0) = f p.
Proof.
  intros Hp. replace n with (p + (1 + (n - p - 1))) by lia. rewrite !ksum_split. simpl.
  rewrite Nat.add_0_r, Nat.eqb_refl.
  rewrite (ksum_zero p), (ksum_zero (n - p - 1)); [ring| |].
  - intros k _. destruct (Nat.eqb_spec (p + S k) p); [lia|reflexivity].
  - intros k Hk. destruct (Nat.eqb_spec k p); [lia|reflexivity].
Qed.
Lemma ksum_rotate m s f : s <= m -> ksum m (fun c => f (if c <? m - s then s + c else c - (m - s))) = ksum m f.
Proof.
  intros H.
  transitivity (ksum (m - s + s) (fun c => f (if c <? m - s then s + c else c - (m - s)))); [f_equal; lia|].
  transitivity (ksum (s + (m - s)) f); [|f_equal; lia].
  rewrite !ksum_split.
  rewrite (ksum_ext (m - s) _ (fun k => f (s + k))).
  2:{ intros k Hk. destruct (Nat.ltb_spec k (m - s)); [reflexivity|lia]. }
  rewrite (ksum_ext s _ f).
  2:{ intros k Hk. destruct (Nat.ltb_spec (m - s + k) (m - s)); [lia|]. f_equal. lia. }
  ring.
Qed.

(** The identity matrix, and the matrix that a constraint stands for. *)
Definition identity (n : nat) : mat K := Mat n (fun i j => if i =? j then k1 else k0).

Lemma pick n p (x : nat -> K) : p < n -> x p = ksum n (fun k => x k *! (if k =? p then k1 else k0)).
Proof.
  intros Hp. rewrite <- (ksum_unit n p x Hp). apply ksum_ext. intros k _. destruct (k =? p); ring.
Qed.

Lemma absorb_matrix n (X : mat K) Z r c : mcols X = n -> fits K Z n -> c < n - 1 ->
  mval (absorb X Z) r c = ksum n (fun k => mval X r k *! mval (absorb (identity n) Z) k c).
Proof.
  intros Hn Hf Hc. destruct Z as [Z|z|z]; cbn [FormModel.absorb fits] in *.
  - cbn [mat_mul mval mcols identity]. rewrite Hn. apply ksum_ext. intros k Hk. f_equal.
    rewrite (ksum_ext n _ (fun l => if l =? k then mval Z l c else k0)).
    + symmetry. apply (ksum_unit n k (fun l => mval Z l c)). exact Hk.
    + intros l _. rewrite (Nat.eqb_sym k l). destruct (l =? k); ring.
  - cbn [delete_col mval identity]. apply (pick n (if c <? z then c else S c) (fun k => mval X r k)). destruct (Nat.ltb_spec c z); lia.
  - cbn [rotate diff_cols mval mcols identity]. rewrite Hn.
    set (c' := if c <? n - 1 - (n - 1 - z) then n - 1 - z + c else c - (n - 1 - (n - 1 - z))).
    assert (Hc' : c' < n - 1) by (unfold c'; destruct (Nat.ltb_spec c (n - 1 - (n - 1 - z))); lia).
    set (p := if S c' <? n - z then z + S c' else S c' - (n - z)).
    set (q := if c' <? n - z then z + c' else c' - (n - z)).
    assert (Hp : p < n) by (unfold p; destruct (Nat.ltb_spec (S c') (n - z)); lia).
    assert (Hq : q < n) by (unfold q; destruct (Nat.ltb_spec c' (n - z)); lia).
    rewrite (pick n p (fun k => mval X r k) Hp), (pick n q (fun k => mval X r k) Hq), <- ksum_sub.
    apply ksum_ext. intros k _. destruct (k =? p), (k =? q); ring.
Qed.

(** The root and the penalty are transformed with the same matrix. *)
Lemma root_matrix n (D : mat K) Z i j : fits K Z n -> i < n - 1 ->
  mval (absorb_root K k0 kadd kmul ksub n D Z) i j
  = ksum n (fun k => mval (absorb (identity n) Z) k i *! mval D k j).
Proof.
  intros Hf Hi. destruct Z as [Z|z|z]; cbn [fits] in Hf.
  - cbn [absorb_root mval FormModel.absorb mat_mul mcols identity]. apply ksum_ext. intros k Hk. f_equal.
    rewrite (ksum_ext n _ (fun l => if l =? k then mval Z l i else k0)).
    + symmetry. apply (ksum_unit n k (fun l => mval Z l i)). exact Hk.
    + intros l _. rewrite (Nat.eqb_sym k l). destruct (l =? k); ring.
  - pose proof (absorb_matrix n (Mat n (fun _ k => mval D k j)) (CDrop z) 0 i eq_refl Hf Hi) as E.
    cbn [FormModel.absorb delete_col mval] in E. cbn [absorb_root mval FormModel.absorb delete_col].
    rewrite E. apply ksum_ext. intros k _. ring.
  - pose proof (absorb_matrix n (Mat n (fun _ k => mval D k j)) (CDiff z) 0 i eq_refl Hf Hi) as E.
    cbn [FormModel.absorb rotate diff_cols mval mcols] in E.
    replace (n - 1 - (n - 1 - z)) with z in E by lia.
    cbn [absorb_root mval]. rewrite E. apply ksum_ext. intros k _.
    cbn [FormModel.absorb rotate diff_cols mval mcols identity].
    replace (n - 1 - (n - 1 - z)) with z by lia. ring.
Qed.

Lemma penalty_matrix n (S_J D : mat K) Z i j : fits K Z n -> i < n - 1 -> j < n - 1 ->
  (forall k l, k < n -> l < n -> mval S_J k l = ksum (mcols D) (fun m => mval D k m *! mval D l m)) ->
  mval (absorb_penalty K k0 kadd kmul ksub n S_J D Z) i j
  = ksum n (fun k => ksum n (fun l => mval (absorb (identity n) Z) k i *! mval S_J k l *! mval (absorb (identity n) Z) l j)).
Proof.
  intros Hf Hi Hj HS.
  assert (G : forall (W : nat -> nat -> K), 
     ksum (mcols D) (fun m => ksum n (fun k => W k i *! mval D k m) *! ksum n (fun l => W l j *! mval D l m))
     = ksum n (fun k => ksum n (fun l => W k i *! mval S_J k l *! W l j))).
  { intros W.
    rewrite (ksum_ext (mcols D) _ (fun m => ksum n (fun k => ksum n (fun l => W k i *! mval D k m *! (W l j *! mval D l m))))).
    2:{ intros m _. rewrite <- ksum_scal_r. apply ksum_ext. intros k _. rewrite <- ksum_scal_l. reflexivity. }
    rewrite ksum_swap. apply ksum_ext. intros k Hk. rewrite ksum_swap. apply ksum_ext. intros l Hl.
    rewrite (HS k l Hk Hl).
    transitivity (W k i *! W l j *! ksum (mcols D) (fun m => mval D k m *! mval D l m)); [|ring].
    rewrite <- ksum_scal_l. apply ksum_ext. intros m _. ring. }
  destruct Z as [Z|z|z].
  - cbn [absorb_penalty mval].
    assert (W : forall k m, k < n -> mval (absorb (identity n) (CQR Z)) k m = mval Z k m).
    { intros k m Hk. cbn [FormModel.absorb mat_mul mval mcols identity].
      rewrite (ksum_ext n _ (fun l => if l =? k then mval Z l m else k0)).
      - apply (ksum_unit n k (fun l => mval Z l m)). exact Hk.
      - intros l _. rewrite (Nat.eqb_sym k l). destruct (l =? k); ring. }
    rewrite (ksum_ext n _ (fun l => ksum n (fun k => mval Z k i *! mval S_J k l *! mval Z l j))).
    2:{ intros l _. rewrite <- ksum_scal_r. reflexivity. }
    rewrite ksum_swap. apply ksum_ext. intros k Hk. apply ksum_ext. intros l Hl.
    rewrite !W by assumption. reflexivity.
  - cbn [fits] in Hf. cbn [absorb_penalty mval FormModel.absorb delete_col identity].
    set (p := if i <? z then i else S i). set (q := if j <? z then j else S j).
    assert (Hp : p < n) by (unfold p; destruct (Nat.ltb_spec i z); lia).
    assert (Hq : q < n) by (unfold q; destruct (Nat.ltb_spec j z); lia).
    rewrite (pick n p (fun k => mval S_J k q) Hp). apply ksum_ext. intros k Hk.
    rewrite (pick n q (fun l => mval S_J k l) Hq). rewrite <- ksum_scal_r. apply ksum_ext. intros l _. ring.
  - cbn [absorb_penalty mval]. 
    rewrite (ksum_ext _ _ (fun m => ksum n (fun k => mval (absorb (identity n) (CDiff z)) k i *! mval D k m)
                              *! ksum n (fun l => mval (absorb (identity n) (CDiff z)) l j *! mval D l m))).
    + apply (G (mval (absorb (identity n) (CDiff z)))).
    + intros m _. rewrite !root_matrix by assumption. reflexivity.
Qed.

(** Coefficients that a constraint leaves: z is zero, or they sum to zero. *)
Lemma drop_range n z (b : nat -> K) : z < n ->
  ((exists g, forall k, k < n -> b k = ksum (n - 1) (fun c => mval (absorb (identity n) (CDrop z)) k c *! g c))
   <-> b z = k0).
Proof.
  intros Hz. cbn [FormModel.absorb delete_col mval identity]. split.
  - intros (g & Hg). rewrite (Hg z Hz). apply ksum_zero. intros c Hc.
    destruct (Nat.ltb_spec c z).
    + destruct (Nat.eqb_spec z c); [lia|ring].
    + destruct (Nat.eqb_spec z (S c)); [lia|ring].
  - intros Hb. exists (fun c => b (if c <? z then c else S c)). intros k Hk.
    destruct (Nat.eq_dec k z) as [->|Hkz].
    + rewrite Hb. symmetry. apply ksum_zero. intros c Hc.
      destruct (Nat.ltb_spec c z).
      * destruct (Nat.eqb_spec z c); [lia|ring].
      * destruct (Nat.eqb_spec z (S c)); [lia|ring].
    + set (c0 := if k <? z then k else k - 1).
      assert (Hc0 : c0 < n - 1) by (unfold c0; destruct (Nat.ltb_spec k z); lia).
      rewrite (ksum_ext _ _ (fun c => if c =? c0 then b (if c <? z then c else S c) else k0)).
      * rewrite (ksum_unit _ c0 (fun c => b (if c <? z then c else S c)) Hc0).
        f_equal. unfold c0. destruct (Nat.ltb_spec k z).
        -- destruct (Nat.ltb_spec k z); [reflexivity|lia].
        -- destruct (Nat.ltb_spec (k - 1) z); lia.
      * intros c Hc. unfold c0.
        destruct (Nat.ltb_spec c z), (Nat.ltb_spec k z).
        -- rewrite (Nat.eqb_sym k c). destruct (c =? k); ring.
        -- destruct (Nat.eqb_spec k c); [lia|]. destruct (Nat.eqb_spec c (k - 1)); [lia|]. ring.
        -- destruct (Nat.eqb_spec k (S c)); [lia|]. destruct (Nat.eqb_spec c k); [lia|]. ring.
        -- destruct (Nat.eqb_spec k (S c)), (Nat.eqb_spec c (k - 1)); try lia; ring.
Qed.

Lemma abel m (y beta : nat -> K) :
  ksum m (fun k => (y (S k) -! y k) *! (k0 -! ksum (S k) beta))
  = ksum m (fun k => beta k *! y k) -! ksum m beta *! y m.
Proof.
  induction m as [|m IH]; cbn [FormModel.ksum].
  - ring.
  - cbn [FormModel.ksum] in IH. rewrite IH. ring.
Qed.

Lemma diff_range n z (b : nat -> K) : z < n ->
  ((exists g, forall k, k < n -> b k = ksum (n - 1) (fun c => mval (absorb (identity n) (CDiff z)) k c *! g c))
   <-> ksum n b = k0).
Proof.
  intros Hz.
  assert (COLS : forall c, c < n - 1 -> ksum n (fun k => mval (absorb (identity n) (CDiff z)) k c) = k0).
  { intros c Hc. pose proof (absorb_matrix n (Mat n (fun _ _ => k1)) (CDiff z) 0 c eq_refl Hz Hc) as E.
    transitivity (ksum n (fun k => mval (Mat n (fun _ _ : nat => k1)) 0 k *! mval (absorb (identity n) (CDiff z)) k c)).
    - apply ksum_ext. intros k _. change (mval (Mat n (fun _ _ : nat => k1)) 0 k) with k1.
      generalize (mval (absorb (identity n) (CDiff z)) k c). intros x. ring.
    - rewrite <- E. cbn [FormModel.absorb rotate diff_cols mval mcols]. ring. }
  split.
  - intros (g & Hg). rewrite (ksum_ext n b _ Hg), ksum_swap. apply ksum_zero. intros c Hc.
    rewrite ksum_scal_r, COLS by exact Hc. ring.
  - intros Hb.
    set (rot := fun k => if k <? n - z then z + k else k - (n - z)).
    set (beta := fun k => b (rot k)).
    set (gamma := fun k => k0 -! ksum (S k) beta).
    set (rot' := fun c => if c <? n - 1 - (n - 1 - z) then n - 1 - z + c else c - (n - 1 - (n - 1 - z))).
    exists (fun c => gamma (rot' c)). intros k Hk.
    set (y := fun i => if rot i =? k then k1 else k0).
    rewrite (ksum_ext (n - 1) _ (fun c => (fun m => (y (S m) -! y m) *! gamma m) (rot' c))).
    2:{ intros c Hc. cbn [FormModel.absorb rotate diff_cols mval mcols identity].
        fold (rot' c). fold (rot (rot' c)). fold (rot (S (rot' c))). unfold y.
        rewrite (Nat.eqb_sym k (rot (S (rot' c)))), (Nat.eqb_sym k (rot (rot' c))). reflexivity. }
    unfold rot'. rewrite (ksum_rotate (n - 1) (n - 1 - z) (fun m => (y (S m) -! y m) *! gamma m)) by lia.
    unfold gamma. rewrite abel.
    assert (HB : ksum n beta = k0) by (unfold beta, rot; rewrite (ksum_rotate n z b) by lia; exact Hb).
    assert (HY : ksum n (fun i => beta i *! y i) = b k).
    { unfold beta, y, rot. rewrite (ksum_rotate n z (fun j => b j *! (if j =? k then k1 else k0))) by lia.
      symmetry. apply (pick n k b). exact Hk. }
    rewrite <- HY. destruct n as [|n']; [lia|]. cbn [FormModel.ksum] in HB |- *.
    replace (S n' - 1) with n' by lia.
    assert (HL : beta n' = k0 -! ksum n' beta) by (transitivity (ksum n' beta +! beta n' -! ksum n' beta); [ring|rewrite HB; reflexivity]).
    rewrite HL. ring.
Qed.
End Sums.
