(** Set-up of identifiable smooths; centred columns; functions under sparse constraints. *)

From Coq Require Import List Bool Arith Lia Ring.
From Verif Require Import FormModel FormSpec FormProofs FormProofs2 FormProofs6.
Import ListNotations.

Section Setup.
Variable K : Type.
Variables (k0 k1 : K) (kadd kmul ksub : K -> K -> K) (kopp : K -> K).
Variable Kring : ring_theory k0 k1 kadd kmul ksub kopp (@eq K).
Add Ring KRing7 : Kring.
Infix "+!" := kadd (at level 50, left associativity).
Infix "*!" := kmul (at level 40, left associativity).
Infix "-!" := ksub (at level 50, left associativity).
Notation ksum := (ksum K k0 kadd).
Notation absorb := (absorb K k0 kadd kmul ksub).
Notation make_constraint := (make_constraint K k0 kadd).
Notation absorb_constraints := (absorb_constraints K k0 kadd kmul ksub).
Notation col_sums := (col_sums K k0 kadd).

Lemma fits_made qr ct n (X : mat K) m : mcols X = m -> 0 < m -> fits K (make_constraint qr ct n X) m.
Proof.
  intros <- H. destruct ct; unfold fits, FormModel.make_constraint.
  - cbn [mcols]. lia.
  - apply Nat.div_lt; lia.
  - apply Nat.div_lt; lia.
Qed.

Lemma mcols_absorb (X : mat K) Z : fits K Z (mcols X) -> mcols (absorb X Z) = mcols X - 1.
Proof. destruct Z; simpl; lia. Qed.

Lemma fold_tp_cols (f : nat -> mat K) l : forall T,
  mcols (fold_left (fun T vi => tp_basis K kmul T (f vi)) l T) = mcols T * fold_right Nat.mul 1 (map (fun vi => mcols (f vi)) l).
Proof.
  induction l as [|a l IH]; intros T; simpl; [lia|].
  rewrite IH. simpl. lia.
Qed.

Lemma prod_nth (nk : list nat) : fold_right Nat.mul 1 (map (fun vi => nth vi nk 0) (seq 0 (length nk))) = fold_right Nat.mul 1 nk.
Proof.
  induction nk as [|a l IH]; simpl; [reflexivity|].
  rewrite <- seq_shift, map_map. simpl. rewrite IH. reflexivity.
Qed.

Lemma prod_pos (nk : list nat) : Forall (fun n => 0 < n) nk -> 0 < fold_right Nat.mul 1 nk.
Proof. induction 1; simpl; lia. Qed.

Lemma setup_well_formed qr repara ct rp (d : frame K) (s : smooth K) e :
  f_vars s <> [] -> length (f_nk s) = length (f_vars s) -> Forall (fun n => 0 < n) (f_nk s) ->
  (forall vi n, mcols (f_basis s vi n) = n) ->
  f_ident s = true -> (f_te s = true -> 1 < length (f_vars s)) ->
  (forall vi X, mcols (repara vi X) = mcols X) ->
  well_formed K (absorb_constraints qr repara ct rp d s) e.
Proof.
  intros Hv Hn Hp Hb Hi Ht Hr.
  assert (NP : forall vi, vi < length (f_vars s) -> 0 < nth vi (f_nk s) 0).
  { intros vi H. rewrite Forall_forall in Hp. apply Hp, nth_In. lia. }
  constructor; cbn [FormModel.absorb_constraints f_vars f_nk f_basis f_ident f_te f_Z f_rp]; auto.
  - intros _ Et vi Hvi. rewrite Et.
    eexists. split.
    + rewrite nth_error_map. rewrite nth_error_nth' with (d := 0) by (rewrite seq_length; exact Hvi).
      rewrite seq_nth by exact Hvi. reflexivity.
    + simpl Nat.add. apply fits_made; [apply Hb|lia].
  - intros _ Et. rewrite Et. eexists. split; [reflexivity|].
    set (T := fold_left _ _ _).
    assert (E : mcols T = fold_right Nat.mul 1 (f_nk s)).
    { unfold T. rewrite fold_tp_cols, Hb.
      rewrite <- (prod_nth (f_nk s)), Hn. destruct (length (f_vars s)) as [|L] eqn:EL; [destruct (f_vars s); [congruence|discriminate]|].
      cbn [seq tl map fold_right]. do 2 f_equal. apply map_ext. intros vi. apply Hb. }
    apply fits_made; [exact E|]. apply prod_pos. exact Hp.
  - destruct rp; [|congruence]. intros _ vi Hvi.
    eexists. split.
    + rewrite nth_error_map. rewrite nth_error_nth' with (d := 0) by (rewrite seq_length; exact Hvi).
      rewrite seq_nth by exact Hvi. reflexivity.
    + rewrite Hr. simpl Nat.add. destruct (f_te s) eqn:Et; [apply Hb|].
      rewrite mcols_absorb; [rewrite Hb; lia|].
      apply fits_made; [reflexivity|]. rewrite Hb. lia.
Qed.

Lemma centred qr n (X : mat K) c : qr_of K k0 k1 kadd kmul (mcols X) (col_sums n X) (qr (mcols X) (col_sums n X)) ->
  c < mcols X - 1 ->
  ksum n (fun r => mval (absorb X (make_constraint qr QR n X)) r c) = k0.
Proof.
  intros ((x & Hx) & Ho) Hc. change (total_of K k0 kadd) with ksum in *. set (Q := qr _ _) in *.
  cbn [FormModel.make_constraint FormModel.absorb mat_mul mval mcols]. fold Q.
  rewrite (ksum_swap K k0 k1 kadd kmul ksub kopp Kring n (mcols X)).
  rewrite (ksum_ext K k0 kadd (mcols X) _ (fun k => x *! (mval Q k 0 *! mval Q k (S c)))).
  2:{ intros k Hk. pose proof (Hx k Hk) as E. unfold FormModel.col_sums in E.
      transitivity (ksum n (fun r => mval X r k) *! mval Q k (S c)).
      - apply (ksum_scal_r K k0 k1 kadd kmul ksub kopp Kring n).
      - rewrite E. ring. }
  rewrite (ksum_scal_l K k0 k1 kadd kmul ksub kopp Kring (mcols X) x), Ho by lia. simpl. ring.
Qed.

Lemma centred_mul n (X C : mat K) c : (forall k, k < mcols X -> ksum n (fun r => mval X r k) = k0) ->
  ksum n (fun r => mval (mat_mul K k0 kadd kmul X C) r c) = k0.
Proof.
  intros H. cbn [mat_mul mval]. rewrite (ksum_swap K k0 k1 kadd kmul ksub kopp Kring n (mcols X)).
  apply (ksum_zero K k0 k1 kadd kmul ksub kopp Kring). intros k Hk.
  transitivity (ksum n (fun r => mval X r k) *! mval C k c).
  - apply (ksum_scal_r K k0 k1 kadd kmul ksub kopp Kring n).
  - rewrite (H k Hk). ring.
Qed.

Lemma tensor_fold (s : smooth K) (X : nat -> mat K) : f_vars s <> [] ->
  (forall vi, vi < length (f_vars s) -> f_marginal K k0 kadd kmul ksub s vi = Some (X vi)) ->
  f_tensor K k0 kadd kmul ksub s
  = Some (fold_left (fun T vi => tp_basis K kmul T (X vi)) (tl (seq 0 (length (f_vars s)))) (X 0)).
Proof.
  intros Hv HX. unfold f_tensor. destruct (length (f_vars s)) as [|L] eqn:EL; [destruct (f_vars s); [congruence|discriminate]|].
  cbn [seq fold_left tl]. rewrite (HX 0) by lia.
  assert (G : forall n a T, a + n <= S L ->
    fold_left (fun acc vi => match acc, f_marginal K k0 kadd kmul ksub s vi with
                             | Some None, Some X0 => Some (Some X0)
                             | Some (Some T0), Some X0 => Some (Some (tp_basis K kmul T0 X0))
                             | _, _ => None
                             end) (seq a n) (Some (Some T))
    = Some (Some (fold_left (fun T vi => tp_basis K kmul T (X vi)) (seq a n) T))).
  { induction n as [|n IH]; intros a T Ha; simpl; [reflexivity|]. rewrite (HX a) by lia. apply IH. lia. }
  rewrite (G L 1 (X 0)) by lia. reflexivity.
Qed.
End Setup.
