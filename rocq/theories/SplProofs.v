(** Truncated powers and their differences are B-splines. *)

From Coq Require Import List Bool Arith Reals Lia Lra.
From Verif Require Import SplModel SplSpec.
Import ListNotations.
Local Open Scope R_scope.

(** ** Sums *)

Lemma sumn_ext n f g : (forall k, (k < n)%nat -> f k = g k) -> sumn n f = sumn n g.
Proof. induction n as [|n IH]; intros H; cbn [sumn]; [reflexivity|]. rewrite IH, H; auto. Qed.
Lemma sumn_scal n c f : sumn n (fun k => c * f k) = c * sumn n f.
Proof. induction n as [|n IH]; cbn [sumn]; [ring|]. rewrite IH. ring. Qed.
Lemma sumn_plus n f g : sumn n (fun k => f k + g k) = sumn n f + sumn n g.
Proof. induction n as [|n IH]; cbn [sumn]; [ring|]. rewrite IH. ring. Qed.
Lemma sumn_minus n f g : sumn n (fun k => f k - g k) = sumn n f - sumn n g.
Proof. induction n as [|n IH]; cbn [sumn]; [ring|]. rewrite IH. ring. Qed.
Lemma sumn_zero n f : (forall k, (k < n)%nat -> f k = 0) -> sumn n f = 0.
Proof. induction n as [|n IH]; intros H; cbn [sumn]; [reflexivity|]. rewrite IH, H; auto. ring. Qed.
Lemma sumn_first n f : sumn (S n) f = f 0%nat + sumn n (fun k => f (S k)).
Proof. induction n as [|n IH]; [cbn; ring|]. cbn [sumn] in *. rewrite IH. ring. Qed.
Lemma sumn_single n f j : (j < n)%nat -> (forall k, (k < n)%nat -> k <> j -> f k = 0) -> sumn n f = f j.
Proof.
  induction n as [|n IH]; intros Hj H; [lia|]. cbn [sumn]. destruct (Nat.eq_dec j n) as [->|N].
  - rewrite sumn_zero; [ring|]. intros k Hk. apply H; lia.
  - rewrite IH, (H n); [ring|lia|lia|lia|]. intros k Hk. apply H. lia.
Qed.
Lemma sum_list_map n f : sum_list (map f (seq 0 n)) = sumn n f.
Proof.
  assert (G : forall k n f, sum_list (map f (seq k n)) = sumn n (fun i => f (k + i)%nat)).
  { clear. intros k n. revert k. induction n as [|n IH]; intros k f; [reflexivity|]. cbn [seq map].
    change (sum_list (?a :: ?l)) with (a + sum_list l). rewrite IH, sumn_first. f_equal; [f_equal; lia|].
    apply sumn_ext. intros. f_equal. lia. }
  rewrite G. apply sumn_ext. reflexivity.
Qed.
Lemma sum_list_nth l : sum_list l = sumn (length l) (fun i => nth i l 0).
Proof.
  induction l as [|a l IH]; [reflexivity|]. cbn [length]. rewrite sumn_first. cbn [nth].
  change (sum_list (a :: l)) with (a + sum_list l). now rewrite IH.
Qed.
Lemma nth_map_seq {A} (f : nat -> A) n i d : (i < n)%nat -> nth i (map f (seq 0 n)) d = f i.
Proof.
  intros H. rewrite (nth_indep _ d (f 0%nat)) by now rewrite map_length, seq_length.
  now rewrite map_nth, seq_nth.
Qed.
Lemma nth_map_in {A B} (f : A -> B) l i d d' : (i < length l)%nat -> nth i (map f l) d = f (nth i l d').
Proof. intros H. rewrite (nth_indep _ d (f d')) by now rewrite map_length. apply map_nth. Qed.
Lemma map_as_seq {A B} (f : A -> B) l d : map f l = map (fun i => f (nth i l d)) (seq 0 (length l)).
Proof.
  induction l as [|a l IH]; [reflexivity|]. cbn [length seq map nth]. f_equal. rewrite IH, <- seq_shift, map_map. reflexivity.
Qed.

(** ** np.diff and its linearity *)

Lemma diff1_length l : length (diff1 l) = (length l - 1)%nat.
Proof. unfold diff1. rewrite map_length, combine_length. destruct l; cbn [tl length]; lia. Qed.
Lemma diff1_nth l i : (S i < length l)%nat -> nth i (diff1 l) 0 = nth (S i) l 0 - nth i l 0.
Proof.
  intros H. unfold diff1. rewrite (nth_map_in _ _ _ _ (0, 0)).
  - rewrite (surjective_pairing (nth i (combine l (tl l)) (0, 0))).
    assert (E : forall (l1 l2 : list R) k, (k < length l1)%nat -> (k < length l2)%nat -> nth k (combine l1 l2) (0, 0) = (nth k l1 0, nth k l2 0)).
    { clear. induction l1 as [|a l1 IH]; intros [|b l2] [|k] H1 H2; cbn in *; try lia; [reflexivity|]. apply IH; lia. }
    rewrite E; [|lia|destruct l; cbn [tl length] in *; lia]. cbn [fst snd]. f_equal. now destruct l, i.
  - rewrite combine_length. destruct l; cbn [tl length] in *; lia.
Qed.
Lemma np_diff_length q : forall l, length (np_diff q l) = (length l - q)%nat.
Proof. induction q as [|q IH]; intros l; cbn [np_diff]; [lia|]. rewrite IH, diff1_length. lia. Qed.
Lemma difference_shift m c i : difference m (fun i => c (S i) - c i) i = difference (S m) c i.
Proof. revert i. induction m as [|m IH]; intros i; [reflexivity|]. change (difference m (fun i => c (S i) - c i) (S i) - difference m (fun i => c (S i) - c i) i = difference (S m) c (S i) - difference (S m) c i).
  rewrite !IH. reflexivity. Qed.
Lemma difference_ext m c c' : forall i, (forall k, (i <= k <= i + m)%nat -> c k = c' k) -> difference m c i = difference m c' i.
Proof. induction m as [|m IH]; intros i H; cbn [difference]; [apply H; lia|]. rewrite (IH (S i)), (IH i); [reflexivity| |]; intros; apply H; lia. Qed.
Lemma np_diff_nth q : forall l i, (i + q < length l)%nat -> nth i (np_diff q l) 0 = difference q (fun k => nth k l 0) i.
Proof.
  induction q as [|q IH]; intros l i H; [reflexivity|]. cbn [np_diff]. rewrite IH by (rewrite diff1_length; lia).
  rewrite (difference_ext q _ (fun i => nth (S i) l 0 - nth i l 0)); [apply (difference_shift q (fun i => nth i l 0))|].
  intros k Hk. apply diff1_nth. lia.
Qed.
Lemma difference_sum q n (P : nat -> R) : forall i, (i + q < n)%nat ->
  sumn n (fun k => P k * difference q (fun i => if (i =? k)%nat then 1 else 0) i) = difference q P i.
Proof.
  induction q as [|q IH]; intros i H; cbn [difference].
  - rewrite (sumn_single n _ i); [now rewrite Nat.eqb_refl; ring|lia|]. intros k _ N.
    destruct (Nat.eqb_spec i k); [lia|ring].
  - rewrite <- (IH (S i)), <- (IH i) by lia. rewrite <- sumn_minus. apply sumn_ext. intros. ring.
Qed.
Lemma difference_scal q a c i : difference q (fun k => a * c k) i = a * difference q c i.
Proof. revert i. induction q as [|q IH]; intros i; cbn [difference]; [ring|]. rewrite !IH. ring. Qed.

(** ** Backward differences on the line and the recursion *)

Definition ramp (p : nat) (y : R) : R := if Rlt_dec 0 y then y ^ p else 0.
Fixpoint nab (q : nat) (G : R -> R) (y : R) : R := match q with O => G y | S q => nab q G y - nab q G (y - 1) end.
Definition M (p : nat) (y : R) : R := nab (S p) (ramp p) y.

Lemma nab_ext q G H : (forall y, G y = H y) -> forall y, nab q G y = nab q H y.
Proof. intros E. induction q as [|q IH]; intros y; cbn [nab]; [apply E|]. now rewrite !IH. Qed.
Lemma nab_plus q G H y : nab q (fun z => G z + H z) y = nab q G y + nab q H y.
Proof. revert y. induction q as [|q IH]; intros y; cbn [nab]; [reflexivity|]. rewrite !IH. ring. Qed.
Lemma nab_minus q G H y : nab q (fun z => G z - H z) y = nab q G y - nab q H y.
Proof. revert y. induction q as [|q IH]; intros y; cbn [nab]; [reflexivity|]. rewrite !IH. ring. Qed.
Lemma nab_scal q a G y : nab q (fun z => a * G z) y = a * nab q G y.
Proof. revert y. induction q as [|q IH]; intros y; cbn [nab]; [reflexivity|]. rewrite !IH. ring. Qed.
Lemma nab_S q G y : nab q (fun z => G z - G (z - 1)) y = nab (S q) G y.
Proof. revert y. induction q as [|q IH]; intros y; [reflexivity|].
  change (nab q (fun z => G z - G (z - 1)) y - nab q (fun z => G z - G (z - 1)) (y - 1) = nab (S q) G y - nab (S q) G (y - 1)). now rewrite !IH. Qed.
Lemma nab_times q G y : nab (S q) (fun z => z * G z) y = y * nab (S q) G y + INR (S q) * nab q G (y - 1).
Proof.
  revert y. induction q as [|q IH]; intros y; [cbn [nab INR]; ring|].
  change (nab (S q) (fun z => z * G z) y - nab (S q) (fun z => z * G z) (y - 1) =
    y * (nab (S q) G y - nab (S q) G (y - 1)) + INR (S (S q)) * (nab q G (y - 1) - nab q G (y - 1 - 1))).
  rewrite !IH. rewrite (S_INR (S q)). cbn [nab]. ring.
Qed.
Lemma M_step p y : M (S p) y = y * M p y + (INR p + 2 - y) * M p (y - 1).
Proof.
  unfold M. rewrite (nab_ext _ (ramp (S p)) (fun z => z * ramp p z)).
  - rewrite nab_times. change (nab (S (S p)) (ramp p) y) with (nab (S p) (ramp p) y - nab (S p) (ramp p) (y - 1)).
    rewrite !S_INR. ring.
  - intros z. unfold ramp. destruct (Rlt_dec 0 z); cbn [pow]; ring.
Qed.
Lemma M_0 y : M 0 y = if Rlt_dec 0 y then (if Rle_dec y 1 then 1 else 0) else 0.
Proof.
  unfold M. cbn [nab]. unfold ramp. cbn [pow].
  destruct (Rlt_dec 0 y), (Rlt_dec 0 (y - 1)), (Rle_dec y 1); lra.
Qed.
Lemma M_left p y : y <= 0 -> M p y = 0.
Proof.
  revert y. induction p as [|p IH]; intros y H; [rewrite M_0; destruct (Rlt_dec 0 y); [lra|reflexivity]|].
  rewrite M_step, !IH by lra. ring.
Qed.
Lemma M_right p y : INR p + 1 < y -> M p y = 0.
Proof.
  revert y. induction p as [|p IH]; intros y H.
  - rewrite M_0. cbn [INR] in H. destruct (Rlt_dec 0 y), (Rle_dec y 1); lra.
  - rewrite S_INR in H. rewrite M_step, !IH by lra. ring.
Qed.
Lemma M_end p : M (S p) (INR p + 2) = 0.
Proof. rewrite M_step, (M_right p) by lra. ring. Qed.
Lemma M_nonneg p y : 0 <= M p y.
Proof.
  revert y. induction p as [|p IH]; intros y.
  - rewrite M_0. destruct (Rlt_dec 0 y), (Rle_dec y 1); lra.
  - destruct (Rle_dec y 0) as [H|H]; [rewrite M_left; lra|].
    destruct (Rlt_dec (INR (S p) + 1) y) as [H2|H2]; [rewrite M_right; lra|].
    rewrite M_step. rewrite S_INR in H2. apply Rplus_le_le_0_compat; apply Rmult_le_pos; auto; lra.
Qed.

(** Coefficients move one degree down. *)
Lemma M_sum_step p n (q : R -> R) y : INR p + 1 <= y <= INR n ->
  sumn n (fun i => q (INR i) * M (S p) (y - INR i)) =
  sumn n (fun i => (q (INR i) * (y - INR i) + q (INR i - 1) * (INR p + 1 - y + INR i)) * M p (y - INR i)).
Proof.
  intros [H1 H2].
  rewrite (sumn_ext n _ (fun i => q (INR i) * (y - INR i) * M p (y - INR i)
    + q (INR (S i) - 1) * (INR p + 1 - y + INR (S i)) * M p (y - INR (S i)))).
  2:{ intros i _. rewrite M_step. rewrite !S_INR. replace (INR i + 1 - 1) with (INR i) by ring.
      replace (y - (INR i + 1)) with (y - INR i - 1) by ring. ring. }
  rewrite sumn_plus.
  set (g := fun i => q (INR i - 1) * (INR p + 1 - y + INR i) * M p (y - INR i)).
  assert (E : sumn n (fun i => g (S i)) = sumn n g).
  { pose proof (sumn_first n g) as F. cbn [sumn] in F.
    assert (G0 : g 0%nat = 0).
    { unfold g. cbn [INR]. destruct (Req_dec y (INR p + 1)) as [->|N]; [ring|]. rewrite M_right by lra. ring. }
    assert (Gn : g n = 0). { unfold g. rewrite M_left by lra. ring. }
    lra. }
  change (fun i => q (INR (S i) - 1) * (INR p + 1 - y + INR (S i)) * M p (y - INR (S i))) with (fun i => g (S i)).
  rewrite E. unfold g. rewrite <- sumn_plus. apply sumn_ext. intros. ring.
Qed.

Lemma unit_cell n y : 0 < y <= INR n -> exists j, (j < n)%nat /\ INR j < y <= INR j + 1.
Proof.
  intros [H1 H2]. induction n as [|n IH]; [cbn in H2; lra|]. destruct (Rle_dec y (INR n)) as [H|H].
  - destruct (IH H) as (j & Hj & Hy). exists j. split; [lia|exact Hy].
  - exists n. rewrite S_INR in H2. split; [lia|lra].
Qed.
Lemma M_0_cell j i y : INR j < y <= INR j + 1 -> M 0 (y - INR i) = if (i =? j)%nat then 1 else 0.
Proof.
  intros H. rewrite M_0. destruct (Nat.eqb_spec i j) as [->|N].
  - destruct (Rlt_dec 0 (y - INR j)); [|lra]. destruct (Rle_dec (y - INR j) 1); lra.
  - destruct (Rlt_dec 0 (y - INR i)) as [L|L]; [|reflexivity]. destruct (Rle_dec (y - INR i) 1) as [L2|L2]; [|reflexivity].
    exfalso. assert (i < S j)%nat by (apply INR_lt; rewrite S_INR; lra). assert (j < S i)%nat by (apply INR_lt; rewrite S_INR; lra). lia.
Qed.
Lemma M_sum_0 n (q : R -> R) y j : (j < n)%nat -> INR j < y <= INR j + 1 -> sumn n (fun i => q (INR i) * M 0 (y - INR i)) = q (INR j).
Proof.
  intros Hj Hy. rewrite (sumn_single n _ j Hj).
  - rewrite (M_0_cell j) by exact Hy. rewrite Nat.eqb_refl. ring.
  - intros k _ N. rewrite (M_0_cell j) by exact Hy. destruct (Nat.eqb_spec k j); [lia|ring].
Qed.

Lemma M_unity p n y : 0 < y -> INR p <= y <= INR n -> sumn n (fun i => M p (y - INR i)) = INR (fact p).
Proof.
  revert y. induction p as [|p IH]; intros y H0 H.
  - destruct (unit_cell n y) as (j & Hj & Hy); [lra|].
    rewrite (sumn_ext n _ (fun i => (fun _ => 1) (INR i) * M 0 (y - INR i))) by (intros; ring).
    rewrite (M_sum_0 n (fun _ => 1) y j Hj Hy). reflexivity.
  - rewrite S_INR in H. rewrite (sumn_ext n _ (fun i => (fun _ => 1) (INR i) * M (S p) (y - INR i))) by (intros; ring).
    rewrite (M_sum_step p n (fun _ => 1) y) by lra.
    rewrite (sumn_ext n _ (fun i => (INR p + 1) * M p (y - INR i))) by (intros; ring).
    rewrite sumn_scal, IH by lra. rewrite fact_simpl, mult_INR, S_INR. reflexivity.
Qed.

(** ** Coefficients without differences of order m give polynomials *)

Lemma nab_next m G : (forall y, nab m G y = 0) -> forall y, nab (S m) G y = 0.
Proof. intros H y. cbn [nab]. rewrite !H. ring. Qed.

Definition pol (m : nat) (f : R -> R) (D : R -> Prop) : Prop := exists a : nat -> R, forall y, D y -> f y = sumn m (fun k => a k * y ^ k).

Lemma pol_next m f D : pol m f D -> pol (S m) f D.
Proof.
  intros [a H]. exists (fun k => if (k =? m)%nat then 0 else a k). intros y Hy. rewrite (H y Hy). cbn [sumn].
  rewrite Nat.eqb_refl. rewrite Rmult_0_l, Rplus_0_r. apply sumn_ext. intros k Hk. destruct (Nat.eqb_spec k m); [lia|reflexivity].
Qed.
Lemma pol_plus m f g D : pol m f D -> pol m g D -> pol m (fun y => f y + g y) D.
Proof. intros [a H] [b G]. exists (fun k => a k + b k). intros y Hy. rewrite H, G, <- sumn_plus by assumption. apply sumn_ext. intros. ring. Qed.
Lemma pol_times m f D : pol m f D -> pol (S m) (fun y => y * f y) D.
Proof.
  intros [a H]. exists (fun k => match k with O => 0 | S k => a k end). intros y Hy. rewrite sumn_first, H by assumption.
  rewrite <- sumn_scal. rewrite Rmult_0_l, Rplus_0_l. apply sumn_ext. intros. cbn [pow]. ring.
Qed.
Lemma pol_ext m f g (D : R -> Prop) : (forall y, D y -> f y = g y) -> pol m g D -> pol m f D.
Proof. intros E [a H]. exists a. intros y Hy. rewrite E by assumption. auto. Qed.
Lemma pol_sub m f (D D' : R -> Prop) : (forall y, D' y -> D y) -> pol m f D -> pol m f D'.
Proof. intros S [a H]. exists a. auto. Qed.

(** Composition with an affine map. *)
Lemma pol_affine m f (u v : R) (D : R -> Prop) : pol m f D -> pol m (fun x => f (u * x + v)) (fun x => D (u * x + v)).
Proof.
  intros [a H].
  assert (G : forall n, exists b : nat -> R, forall x, sumn n (fun k => a k * (u * x + v) ^ k) = sumn n (fun k => b k * x ^ k)).
  { assert (P : forall k, pol (S k) (fun x => (u * x + v) ^ k) (fun _ => True)).
    { induction k as [|k IH].
      - exists (fun _ => 1). intros. cbn. ring.
      - apply (pol_ext _ _ (fun x => x * (u * (u * x + v) ^ k) + v * (u * x + v) ^ k)); [intros; cbn [pow]; ring|].
        apply pol_plus.
        + apply pol_times. destruct IH as [b Hb]. exists (fun k => u * b k). intros y Hy. rewrite Hb by assumption. rewrite <- sumn_scal. apply sumn_ext. intros. ring.
        + apply pol_next. destruct IH as [b Hb]. exists (fun k => v * b k). intros y Hy. rewrite Hb by assumption. rewrite <- sumn_scal. apply sumn_ext. intros. ring. }
    intros n. enough (Q : pol n (fun x => sumn n (fun k => a k * (u * x + v) ^ k)) (fun _ => True)).
    { destruct Q as [b Hb]. exists b. intros. now apply Hb. }
    induction n as [|n IH]; [exists (fun _ => 0); reflexivity|]. cbn [sumn]. apply pol_plus; [now apply pol_next|].
    destruct (P n) as [b Hb]. exists (fun k => a n * b k). intros y Hy. rewrite Hb by assumption. rewrite <- sumn_scal. apply sumn_ext. intros. ring. }
  destruct (G m) as [b Hb]. exists b. intros x Hx. rewrite H by assumption. apply Hb.
Qed.

Lemma nab_1_const q y : (forall z, nab 1 q z = 0) -> forall j, q (y + INR j) = q y.
Proof.
  intros H. induction j as [|j IH]; [cbn [INR]; f_equal; ring|]. rewrite <- IH.
  specialize (H (y + INR (S j))). cbn [nab] in H. rewrite S_INR in *. replace (y + (INR j + 1) - 1) with (y + INR j) in H by ring. lra.
Qed.

Theorem spline_polynomial p : forall m n (q : R -> R), (m <= S p)%nat -> (forall y, nab m q y = 0) ->
  pol m (fun y => sumn n (fun i => q (INR i) * M p (y - INR i))) (fun y => 0 < y /\ INR p <= y <= INR n).
Proof.
  induction p as [|p IH]; intros m n q Hm Hq.
  - destruct m as [|[|m]]; [| |lia].
    + exists (fun _ => 0). intros y _. cbn [sumn]. apply sumn_zero. intros i _. cbn [nab] in Hq. rewrite Hq. ring.
    + exists (fun _ => q 0). intros y (H0 & H1 & H2). destruct (unit_cell n y) as (j & Hj & Hy); [lra|].
      rewrite (M_sum_0 n q y j Hj Hy). cbn. pose proof (nab_1_const q 0 Hq j) as E. rewrite Rplus_0_l in E. rewrite E. ring.
  - set (dq := fun z => q z - q (z - 1)).
    set (r := fun z => (INR p + 1) * q z - ((INR p + 1) * dq z + z * dq z)).
    apply (pol_ext _ _ (fun y => sumn n (fun i => r (INR i) * M p (y - INR i)) + y * sumn n (fun i => dq (INR i) * M p (y - INR i)))).
    { intros y (H0 & H1). rewrite S_INR in H1. rewrite M_sum_step by exact H1. rewrite <- sumn_scal, <- sumn_plus.
      apply sumn_ext. intros i _. unfold r, dq. ring. }
    destruct m as [|m].
    { exists (fun _ => 0). intros y _. cbn [sumn nab] in *. unfold r, dq.
      rewrite !sumn_zero; [ring| |]; intros i _; rewrite !Hq; ring. }
    assert (Hdq : forall y, nab m dq y = 0). { intros y. unfold dq. rewrite nab_S. apply Hq. }
    assert (Hr : forall y, nab (S m) r y = 0).
    { intros y. unfold r. rewrite nab_minus, nab_scal, nab_plus, nab_scal, nab_times.
      rewrite (nab_next m dq Hdq), Hq, Hdq. ring. }
    assert (Sub : forall y, 0 < y /\ INR (S p) <= y <= INR n -> 0 < y /\ INR p <= y <= INR n).
    { intros y. rewrite S_INR. lra. }
    apply pol_plus.
    + destruct (Nat.eq_dec m (S p)) as [->|N].
      * apply pol_next. apply (pol_sub _ _ _ _ Sub). apply IH; [lia|].
        intros y. unfold r. rewrite nab_minus, nab_scal, nab_plus, nab_scal, nab_times.
        rewrite !Hdq. pose proof (Hq y) as E. unfold dq. rewrite nab_S.
        change (nab (S (S p)) q y) with (nab (S p) q y - nab (S p) q (y - 1)) in E. rewrite S_INR.
        replace (nab (S p) q (y - 1)) with (nab (S p) q y) by lra. ring.
      * apply (pol_sub _ _ _ _ Sub). apply IH; [lia|exact Hr].
    + apply pol_times. apply (pol_sub _ _ _ _ Sub). apply IH; [lia|exact Hdq].
Qed.

(** ** Newton's interpolation: a sequence without differences of order m is a function without them *)

Fixpoint binom (j : nat) (z : R) : R := match j with O => 1 | S j => binom j z * (z - INR j) / (INR j + 1) end.
Lemma binom_pascal j z : binom (S j) (z + 1) = binom (S j) z + binom j z.
Proof.
  revert z. induction j as [|j IH]; intros z; [cbn; field|].
  assert (P : INR j + 1 <> 0) by (pose proof (pos_INR j); lra). assert (P2 : INR j + 1 + 1 <> 0) by (pose proof (pos_INR j); lra).
  change (binom (S j) (z + 1) * (z + 1 - INR (S j)) / (INR (S j) + 1) = binom (S j) z * (z - INR (S j)) / (INR (S j) + 1) + binom (S j) z).
  rewrite IH, S_INR.
  assert (E : binom j z * (z - INR j) = (INR j + 1) * binom (S j) z). { cbn [binom]. field. exact P. }
  replace ((binom (S j) z + binom j z) * (z + 1 - (INR j + 1))) with (binom (S j) z * (z - INR j) + binom j z * (z - INR j)) by ring.
  rewrite E. field. exact P2.
Qed.
Lemma binom_nab j z : binom (S j) z - binom (S j) (z - 1) = binom j (z - 1).
Proof. pose proof (binom_pascal j (z - 1)) as E. replace (z - 1 + 1) with z in E by ring. lra. Qed.
Lemma nab_shift_eq q G y : nab q (fun z => G (z - 1)) y = nab q G (y - 1).
Proof. revert y. induction q as [|q IH]; intros y; cbn [nab]; [reflexivity|]. now rewrite !IH. Qed.
Lemma nab_binom m j : (j < m)%nat -> forall y, nab m (binom j) y = 0.
Proof.
  revert j. induction m as [|m IH]; intros j H y; [lia|]. rewrite <- nab_S. destruct j as [|j].
  - clear. revert y. induction m as [|m IH]; intros y; cbn [nab binom] in *; [ring|]. rewrite !IH. ring.
  - rewrite (nab_ext m _ (fun z => binom j (z - 1))) by (intros; apply binom_nab). rewrite nab_shift_eq. apply IH. lia.
Qed.
Lemma binom_at_0 j : binom (S j) 0 = 0.
Proof.
  induction j as [|j IH]; [cbn; field|].
  change (binom (S j) 0 * (0 - INR (S j)) / (INR (S j) + 1) = 0). rewrite IH. unfold Rdiv. ring.
Qed.

Definition newton (m : nat) (c : nat -> R) (z : R) : R := sumn m (fun j => difference j c 0 * binom j z).
Lemma nab_newton m k c y : (k <= m)%nat -> nab m (newton k c) y = 0.
Proof.
  intros H. unfold newton. induction k as [|k IH].
  - cbn [sumn]. clear. revert y. induction m as [|m IH]; intros y; cbn [nab]; [reflexivity|]. rewrite !IH. ring.
  - rewrite (nab_ext m _ (fun z => sumn k (fun j => difference j c 0 * binom j z) + difference k c 0 * binom k z)) by reflexivity.
    rewrite nab_plus, nab_scal, IH by lia. rewrite nab_binom by lia. ring.
Qed.
Lemma newton_value m c n : no_differences m n c -> forall i, (i < n)%nat -> newton m c (INR i) = c i.
Proof.
  revert c n. induction m as [|m IH]; intros c n H i Hi.
  - unfold newton. cbn [sumn]. symmetry. apply (H i). lia.
  - set (d := fun k => c (S k) - c k).
    assert (Hd : no_differences m (n - 1) d).
    { intros k Hk. unfold d. rewrite difference_shift. apply H. lia. }
    assert (Step : forall z, newton (S m) c (z + 1) = newton (S m) c z + newton m d z).
    { intros z. unfold newton. rewrite !sumn_first. change (binom 0 (z + 1)) with 1. change (binom 0 z) with 1.
      rewrite (sumn_ext m _ (fun k => difference (S k) c 0 * binom (S k) z + difference k d 0 * binom k z)).
      - rewrite sumn_plus. ring.
      - intros k _. rewrite binom_pascal. unfold d. rewrite difference_shift. ring. }
    assert (E0 : newton (S m) c 0 = c 0%nat).
    { unfold newton. rewrite sumn_first. rewrite sumn_zero; [cbn [difference binom]; ring|]. intros k _. rewrite binom_at_0. ring. }
    induction i as [|i IHi]; [exact E0|]. rewrite S_INR, Step, IHi by lia. rewrite (IH d (n - 1)%nat Hd i) by lia. unfold d. ring.
Qed.
