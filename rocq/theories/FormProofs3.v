(** Lemmas for FormProps: impulse responses and whole formulas. *)

From Coq Require Import List Bool Arith Lia Ring Permutation.
From Verif Require Import FormModel FormSpec FormProofs FormProofs2.
Import ListNotations.

Section Proofs.
Variable K : Type.
Variables (k0 k1 : K) (kadd kmul ksub : K -> K -> K) (kopp : K -> K).
Hypothesis Kring : ring_theory k0 k1 kadd kmul ksub kopp eq.
Add Ring Kring3 : Kring.
Variable big : K -> bool.

Notation column := (column K).
Notation cols_of := (cols_of K).
Notation zero := (zero K k0).
Notation kron := (kron K kmul).
Notation on_level := (on_level K k0).
Notation times := (times K kmul).
Notation eqcols := (eqcols K).
Notation rep := (rep K k0 kadd).
Notation tp_basis := (tp_basis K kmul).
Notation pruned := (pruned K k0 big).
Notation i_series := (i_series K k0 kmul).
Notation i_all_series := (i_all_series K k0 kmul).
Notation irf_build := (irf_build K k0 kmul big).
Notation irf_base := (irf_base K k0 kmul).
Notation irf_cols := (irf_cols K k0 kmul big).

(** Columns A evaluated at row r agree with columns B evaluated at row q. *)
Definition at_rows (r q : nat) : list column -> list column -> Prop := Forall2 (fun a b => a r = b q).
Lemma at_rows_kron r q A A' B B' : at_rows r q A A' -> at_rows r q B B' -> at_rows r q (kron A B) (kron A' B').
Proof.
  intros HA HB. induction HA as [|a a' A A' Ea HA IH]; simpl; [constructor|].
  apply Forall2_app; [|exact IH].
  clear IH. induction HB as [|b b' B B' Eb HB IH]; simpl; constructor; [|exact IH].
  unfold FormSpec.times. rewrite Ea, Eb. reflexivity.
Qed.
Lemma at_rows_eqcols r q A B C : at_rows r q A B -> eqcols C B -> at_rows r q A C.
Proof.
  intros H; revert C; induction H as [|a b A B E H IH]; intros C HC; inversion HC as [|x y ? ? Exy HC']; subst; constructor.
  - rewrite E, Exy. reflexivity.
  - apply IH; assumption.
Qed.
Lemma at_rows_nth r q A B c : at_rows r q A B -> c < length A -> nth c A zero r = nth c B zero q.
Proof.
  intros H; revert c; induction H as [|a b A B E H IH]; intros [|c] Hc; simpl in *; try lia; [exact E|apply IH; lia].
Qed.

(** The product basis of series si. *)
Definition series_basis (s : irf K) (si : nat) : mat K :=
  fold_left (fun T vi => tp_basis T (i_basis s si vi (nth vi (i_nk s) 0))) (seq 1 (length (i_vars s) - 1))
            (i_basis s si 0 (nth 0 (i_nk s) 0)).

Lemma fold_tp (g : nat -> mat K) l T A :
  eqcols (cols_of T) A -> eqcols (cols_of (fold_left (fun T vi => tp_basis T (g vi)) l T))
                                 (fold_left kron (map (fun vi => cols_of (g vi)) l) A).
Proof.
  revert T A; induction l as [|v l IH]; intros T A H; simpl; [exact H|].
  apply IH. eapply eqcols_trans; [apply tp_cols|]. apply kron_eqcols; [exact H|apply eqcols_refl].
Qed.

Lemma series_basis_width s si : irf_well_formed K s -> mcols (series_basis s si) = i_term_coef s.
Proof.
  intros (Hv & Hl & Hb). unfold series_basis, i_term_coef.
  destruct (i_vars s) as [|v vs]; [congruence|]. simpl length in *. rewrite Nat.sub_succ, Nat.sub_0_r.
  assert (G : forall l T w, mcols T = w ->
     mcols (fold_left (fun T vi => tp_basis T (i_basis s si vi (nth vi (i_nk s) 0))) l T)
     = fold_left Nat.mul (map (fun vi => nth vi (i_nk s) 0) l) w).
  { induction l as [|x l IH]; intros T w HT; simpl; [exact HT|].
    apply IH. simpl. rewrite HT, Hb. reflexivity. }
  rewrite (G _ _ _ (Hb si 0 (nth 0 (i_nk s) 0))).
  destruct (i_nk s) as [|k nk]; simpl in Hl; [lia|]. injection Hl as Hl.
  rewrite <- Hl. destruct vs as [|w vs]; simpl.
  - simpl in Hl. destruct nk; simpl in Hl; [reflexivity|lia].
  - unfold np_prod. simpl. rewrite Nat.add_0_r, <- seq_shift, map_map. simpl.
    rewrite (map_nth_seq nat nat (fun x => x) 0 nk), map_id. reflexivity.
Qed.

Lemma base_at s lens r si q : irf_well_formed K s -> locate lens 0 r = Some (si, q) ->
  at_rows r q (irf_base s lens) (cols_of (series_basis s si)).
Proof.
  intros (Hv & Hl & Hb) Hloc. unfold FormSpec.irf_base, series_basis.
  destruct (i_vars s) as [|v vs]; [congruence|]. simpl length. rewrite Nat.sub_succ, Nat.sub_0_r.
  cbn [seq map].
  set (marg := fun vi => map _ (seq 0 (nth vi (i_nk s) 0))).
  assert (M : forall vi, at_rows r q (marg vi) (cols_of (i_basis s si vi (nth vi (i_nk s) 0)))).
  { intros vi. unfold marg, FormSpec.cols_of. rewrite Hb.
    induction (seq 0 (nth vi (i_nk s) 0)) as [|c l IH]; simpl; constructor; [|exact IH].
    rewrite Hloc. reflexivity. }
  eapply at_rows_eqcols; [|apply fold_tp; apply eqcols_refl].
  assert (G : forall l A B, at_rows r q A B ->
     at_rows r q (fold_left kron (map marg l) A)
                 (fold_left kron (map (fun vi => cols_of (i_basis s si vi (nth vi (i_nk s) 0))) l) B)).
  { induction l as [|x l IH]; intros A B H; simpl; [exact H|]. apply IH. apply at_rows_kron; [exact H|apply M]. }
  apply G. apply M.
Qed.

(** The cell that the code computes for row r and column c. *)
Definition irf_cell (s : irf K) (e : env) (d : frame K) (lens : list nat) (c r : nat) : K :=
  match locate lens 0 r with
  | None => k0
  | Some (si, q) =>
      match i_by s with
      | None => mval (series_basis s si) q c
      | Some v => if is_level d v (c / i_term_coef s) r then mval (series_basis s si) q (c mod i_term_coef s) else k0
      end
  end.

Lemma series_value s e (d : frame K) si off len : irf_well_formed K s -> 
  (match i_by s with None => True | Some v => forall r, off <= r < off + len -> code d r v = code d off v end) ->
  exists T, i_series s e d si off len = Some T /\ mcols T = i_n_coef s e /\
    forall r c, mval T r c = match i_by s with
      | None => mval (series_basis s si) r c
      | Some v => if is_level d v (c / i_term_coef s) off then mval (series_basis s si) r (c mod i_term_coef s) else k0
      end.
Proof.
  intros W Hc. pose proof (series_basis_width s si W) as HW. destruct W as (Hv & Hl & Hb).
  unfold FormModel.i_series, i_n_coef. unfold series_basis in *.
  destruct (i_vars s) as [|v vs]; [congruence|]. simpl length in *. rewrite Nat.sub_succ, Nat.sub_0_r in *.
  set (X := fold_left _ _ _) in *. fold X.
  destruct (i_by s) as [b|].
  - replace (forallb _ (seq off len)) with true.
    + eexists; split; [reflexivity|]. simpl. rewrite HW. split; reflexivity.
    + symmetry. apply forallb_forall. intros r Hr. apply in_seq in Hr. rewrite (Hc r Hr).
      unfold same_code. destruct (code d off b); [apply Nat.eqb_refl|reflexivity].
  - eexists; split; [reflexivity|]. split; [exact HW|reflexivity].
Qed.

Definition total_len (lens : list nat) : nat := fold_right Nat.add 0 lens.

Lemma locate_some lens si r : r < total_len lens -> exists sj q, locate lens si r = Some (sj, q).
Proof.
  revert si r; induction lens as [|len lens IH]; intros si r H; simpl in *; [lia|].
  destruct (Nat.ltb_spec r len); [eauto|]. apply IH. lia.
Qed.

Lemma all_series_ok s e (d : frame K) lens0 : irf_well_formed K s -> series_fit K s d lens0 ->
  forall lens si off, (forall r, r < total_len lens -> locate lens0 0 (off + r) = locate lens si r) ->
    Forall (fun n => 0 < n) lens -> si + length lens <= i_events s ->
  exists series, i_all_series s e d lens si off = Some series /\ map fst series = lens /\
    Forall (fun p => mcols (snd p) = i_n_coef s e) series /\
    forall c, i_column K series c = map (irf_cell s e d lens0 c) (seq off (total_len lens)).
Proof.
  intros W (_ & _ & _ & _ & Hby).
  induction lens as [|len lens IH]; intros si off Hloc Hpos Hev.
  - exists []. simpl. repeat split; constructor.
  - inversion Hpos as [|? ? Hlen Hpos']; subst. simpl in Hev.
    assert (HR : forall r, off <= r < off + len -> locate lens0 0 r = Some (si, r - off)).
    { intros r Hr. replace r with (off + (r - off)) at 1 by lia.
      rewrite Hloc by (simpl; lia). simpl. destruct (Nat.ltb_spec (r - off) len); [reflexivity|lia]. }
    destruct (series_value s e d si off len W) as (T & ET & HT & HV).
    { destruct (i_by s) as [v|]; [|exact I]. intros r Hr.
      apply (Hby r off si (r - off) (off - off)); apply HR; lia. }
    destruct (IH (S si) (off + len)) as (series & ES & EF & EM & EV).
    { intros r Hr. replace (off + len + r) with (off + (len + r)) by lia.
      rewrite Hloc by (simpl; lia). simpl.
      destruct (Nat.ltb_spec (len + r) len); [lia|]. f_equal. lia. }
    { exact Hpos'. } { lia. }
    exists ((len, T) :: series). simpl.
    destruct (Nat.ltb_spec si (i_events s)); [|lia].
    rewrite ET, ES. split; [reflexivity|]. split; [rewrite EF; reflexivity|]. split; [constructor; assumption|].
    intros c. fold (total_len lens). rewrite seq_app, map_app. fold (i_column K series c). rewrite EV. f_equal.
    replace (seq off len) with (seq (off + 0) len) by (rewrite Nat.add_0_r; reflexivity).
    rewrite map_seq_shift. apply map_ext_in. intros q Hq. apply in_seq in Hq. simpl snd.
    unfold irf_cell. rewrite HR by lia. replace (off + q - off) with q by lia. rewrite HV.
    destruct (i_by s) as [v|]; [|reflexivity].
    assert (EL : is_level d v (c / i_term_coef s) off = is_level d v (c / i_term_coef s) (off + q)).
    { unfold is_level. rewrite (Hby off (off + q) si (off - off) (off + q - off)); [reflexivity| |]; apply HR; lia. }
    rewrite EL. reflexivity.
Qed.

Lemma triplets_column (d : frame K) (f : nat -> K) ci :
  i_triplets K big d (map f (seq 0 (n_y d))) ci = column_triplets f (filter (fun r => big (f r)) (seq 0 (n_y d))) ci.
Proof.
  unfold i_triplets, column_triplets. induction (seq 0 (n_y d)) as [|r l IH]; simpl; [reflexivity|].
  destruct (big (f r)); simpl; rewrite IH; reflexivity.
Qed.

Lemma i_emit_rep (d : frame K) series (g : nat -> nat -> K) cols ci :
  (forall c, i_column K series c = map (g c) (seq 0 (n_y d))) ->
  rep (n_y d) (i_emit K big d true series cols ci) ci (map (fun c => pruned (g c)) cols).
Proof.
  intros H. revert ci; induction cols as [|c cols IH]; intros ci; simpl; [apply rep_nil|].
  eapply rep_cons; [exact Kring| |apply IH]. rewrite H, triplets_column.
  eapply rep_eqcols; [|eapply rep_column; exact Kring].
  constructor; [reflexivity|constructor].
Qed.
Lemma i_emit_none (d : frame K) series cols ci : i_emit K big d false series cols ci = [].
Proof. revert ci; induction cols as [|c cols IH]; intros ci; simpl; auto. Qed.

Lemma Forall2_map_seq (n m : nat) (f g : nat -> column) :
  (forall c r, c < m -> r < n -> f c r = g c r) ->
  Forall2 (fun a b : column => forall r, r < n -> a r = b r) (map f (seq 0 m)) (map g (seq 0 m)).
Proof.
  intros H. assert (G : forall l, (forall c, In c l -> c < m) ->
    Forall2 (fun a b : column => forall r, r < n -> a r = b r) (map f l) (map g l)).
  { induction l as [|c l IH]; intros Hl; simpl; constructor.
    - intros r Hr. apply H; [apply Hl; left; reflexivity|exact Hr].
    - apply IH. intros x Hx. apply Hl. right. exact Hx. }
  apply G. intros c Hc. apply in_seq in Hc. lia.
Qed.

Lemma base_length s lens : irf_well_formed K s -> length (irf_base s lens) = i_term_coef s.
Proof.
  intros W. rewrite <- (series_basis_width s 0 W). rewrite <- (cols_of_length K).
  destruct W as (Hv & Hl & Hb). unfold FormSpec.irf_base, series_basis.
  destruct (i_vars s) as [|v vs]; [congruence|]. replace (length (v :: vs)) with (S (length vs)) by reflexivity.
  replace (S (length vs) - 1) with (length vs) by lia. cbn [seq map].
  rewrite (eqcols_length _ _ _ (fold_tp (fun vi => i_basis s 0 vi (nth vi (i_nk s) 0)) (seq 1 (length vs)) _ _ (eqcols_refl _ _))).
  set (marg := fun vi => map _ (seq 0 (nth vi (i_nk s) 0))).
  assert (KL : forall A B : list column, length (kron A B) = length A * length B).
  { intros A B. induction A as [|a A IH]; simpl; [reflexivity|]. rewrite app_length, map_length, IH. reflexivity. }
  assert (G : forall l (A B : list column), length A = length B ->
     length (fold_left kron (map marg l) A) = length (fold_left kron (map (fun vi => cols_of (i_basis s 0 vi (nth vi (i_nk s) 0))) l) B)).
  { induction l as [|x l IH]; intros A B H; simpl; [exact H|]. apply IH. rewrite !KL, H.
    rewrite cols_of_length, Hb. unfold marg. rewrite map_length, seq_length. reflexivity. }
  apply G. rewrite cols_of_length, Hb. unfold marg. rewrite map_length, seq_length. reflexivity.
Qed.

Lemma irf_matrix s e (d : frame K) lens pool ci : irf_well_formed K s -> series_fit K s d lens ->
  exists ts, irf_build s e d lens pool ci true = Some (ts, length (irf_cols s e d lens)) /\
             irf_build s e d lens pool ci false = Some ([], length (irf_cols s e d lens)) /\
             rep (n_y d) ts ci (irf_cols s e d lens).
Proof.
  intros W F. pose proof F as F0. destruct F as (Hne & Hpos & Hev & Hsum & Hby).
  destruct (all_series_ok s e d lens W F0 lens 0 0) as (series & ES & EF & EM & EV); auto.
  unfold FormModel.irf_build. rewrite ES.
  fold (total_len lens) in Hsum. rewrite Hsum in EV.
  destruct series as [|[len T] rest] eqn:Eser.
  { simpl in EF. congruence. }
  rewrite <- Eser in *.
  assert (HT : mcols T = i_n_coef s e) by (rewrite Eser in EM; inversion EM; assumption).
  assert (HR : forallb (fun p : nat * mat K => mcols (snd p) =? mcols T) rest = true).
  { apply forallb_forall. intros p Hp. rewrite Forall_forall in EM.
    rewrite (EM p) by (rewrite Eser; right; exact Hp). rewrite HT. apply Nat.eqb_refl. }
  assert (HS : fold_right Nat.add 0 (map fst series) =? n_y d = true).
  { rewrite EF. fold (total_len lens). rewrite Hsum. apply Nat.eqb_refl. }
  rewrite HR, HS, HT, Nat.eqb_refl, !orb_true_r. simpl andb. cbv iota.
  set (m := i_term_coef s) in *.
  assert (HL : Forall2 (fun a b : column => forall r, r < n_y d -> a r = b r)
     (map (fun c => pruned (irf_cell s e d lens c)) (seq 0 (i_n_coef s e))) (irf_cols s e d lens)).
  { assert (BL := base_length s lens W). fold m in BL.
    assert (CELL : forall r, r < n_y d -> exists si q, locate lens 0 r = Some (si, q) /\
        forall c, c < m -> nth c (irf_base s lens) zero r = mval (series_basis s si) q c).
    { intros r Hr. destruct (locate_some lens 0 r) as (si & q & Hloc); [rewrite Hsum; exact Hr|].
      exists si, q. split; [exact Hloc|]. intros c Hc.
      rewrite (at_rows_nth _ _ _ _ c (base_at s lens r si q W Hloc)) by (rewrite BL; exact Hc).
      change (nth c (cols_of (series_basis s si)) zero q) with (col K k0 (cols_of (series_basis s si)) c q).
      rewrite cols_of_nth; [reflexivity|]. rewrite (series_basis_width s si W). exact Hc. }
    unfold FormSpec.irf_cols, i_n_coef. fold m.
    rewrite <- (map_nth_seq _ _ pruned zero (irf_base s lens)), BL.
    destruct (i_by s) as [v|] eqn:Eby.
    - rewrite Nat.mul_comm. rewrite flat_map_seq.
      induction (seq 0 (length (levels e v))) as [|k l IH]; simpl; [constructor|].
      apply Forall2_app; [|exact IH]. rewrite map_map. apply Forall2_map_seq.
      intros c r Hc Hr. destruct (CELL r Hr) as (si & q & Hloc & HV).
      rewrite on_level_mask. unfold FormSpec.pruned, irf_cell. rewrite Hloc, Eby. fold m.
      rewrite Nat.div_add_l by lia. rewrite (Nat.div_small c) by lia. rewrite Nat.add_0_r.
      rewrite (Nat.add_comm (k * m)), Nat.mod_add by lia. rewrite Nat.mod_small by lia. rewrite HV by exact Hc.
      destruct (is_level d v k r); [reflexivity|]. destruct (big k0); reflexivity.
    - apply Forall2_map_seq. intros c r Hc Hr. destruct (CELL r Hr) as (si & q & Hloc & HV).
      unfold FormSpec.pruned, irf_cell. rewrite Hloc, Eby, HV by exact Hc. reflexivity. }
  pose proof (Forall2_length _ _ _ _ _ HL) as LL. rewrite map_length, seq_length in LL.
  eexists; split; [|split].
  - rewrite <- LL. reflexivity.
  - rewrite i_emit_none, <- LL. reflexivity.
  - eapply rep_ext; [exact HL|]. apply i_emit_rep. exact EV.
Qed.
End Proofs.
